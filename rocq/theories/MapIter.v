(* The iteration methods of a hashMap (/repo/internal/map.go) with callbacks that act on a state
   of their own. Callbacks that modify the map under iteration: MapEach.v. *)
From Coq Require Import ZArith List Bool.
From Verif Require Import Int64 HMap.
Import ListNotations.

Section MapIter.
Variables (K V S : Type).
Implicit Types (s : list (node K V)).

(* for e := g.first; e != nil; e = e.next { if !predicate(e) { return false } }; return true:
   map.go:341-348 All, 350-357 AllKeys (predicate of the key), 359-366 AllValues.
   None: a chain that does not end, or a dangling pointer. *)
Fixpoint walk_all (fuel : nat) s (p : K * V -> S -> bool * S) (oe : option nat) (st : S) : option (bool * S) :=
  match oe with
  | None => Some (true, st)
  | Some i =>
    match fuel with
    | O => None
    | Datatypes.S fuel' =>
      match nth_error s i with
      | None => None
      | Some nd => let (b, st') := p (nkey nd, nval nd) st in
                   if b then walk_all fuel' s p (nnext nd) st' else Some (false, st')
      end
    end
  end.
Definition map_all s (g : hmap) p st := walk_all (fuel_of s) s p (hfirst g) st.

(* map.go:368-375 Any, 377-384 AnyKey, 386-393 AnyValue *)
Fixpoint walk_any (fuel : nat) s (p : K * V -> S -> bool * S) (oe : option nat) (st : S) : option (bool * S) :=
  match oe with
  | None => Some (false, st)
  | Some i =>
    match fuel with
    | O => None
    | Datatypes.S fuel' =>
      match nth_error s i with
      | None => None
      | Some nd => let (b, st') := p (nkey nd, nval nd) st in
                   if b then Some (true, st') else walk_any fuel' s p (nnext nd) st'
      end
    end
  end.
Definition map_any s (g : hmap) p st := walk_any (fuel_of s) s p (hfirst g) st.

(* map.go:478-485 Find; the entry found is given by its key and value *)
Fixpoint walk_find (fuel : nat) s (p : K * V -> S -> bool * S) (oe : option nat) (st : S)
    : option (option (K * V) * S) :=
  match oe with
  | None => Some (None, st)
  | Some i =>
    match fuel with
    | O => None
    | Datatypes.S fuel' =>
      match nth_error s i with
      | None => None
      | Some nd => let (b, st') := p (nkey nd, nval nd) st in
                   if b then Some (Some (nkey nd, nval nd), st')
                   else walk_find fuel' s p (nnext nd) st'
      end
    end
  end.
Definition map_find s (g : hmap) p st := walk_find (fuel_of s) s p (hfirst g) st.

(* map.go:439-461 Each, EachEntry, EachKey, EachValue *)
Fixpoint walk_each (fuel : nat) s (f : K * V -> S -> S) (oe : option nat) (st : S) : option S :=
  match oe with
  | None => Some st
  | Some i =>
    match fuel with
    | O => None
    | Datatypes.S fuel' =>
      match nth_error s i with
      | None => None
      | Some nd => walk_each fuel' s f (nnext nd) (f (nkey nd, nval nd) st)
      end
    end
  end.
Definition map_each s (g : hmap) f st := walk_each (fuel_of s) s f (hfirst g) st.
End MapIter.
