(* The iteration of a hashMap by a callback that changes the map: /repo/internal/map.go. *)
From Coq Require Import ZArith List Bool.
From Verif Require Import Int64 HMap.
Import ListNotations.

Section MapEach.
Variables (K V : Type).
Variable keq : K -> K -> bool.
Variable khash : K -> Z.

(* What a callback does to the map: Put (map.go:599-638) and Remove (map.go:706-738). What it does beside does not matter. *)
Inductive act := APut (k : K) (v : V) | ARemove (k : K).
(* None: a panic, of a frozen map, or a dangling pointer *)
Definition do_act (s : list (node K V)) (g : hmap) (a : act) : option (list (node K V) * hmap) :=
  if hfrozen g then None
  else match a with
       | APut k v => match hput K V keq khash s g k v with Some (s', g', _) => Some (s', g') | None => None end
       | ARemove k => match hremove K V keq khash s g k with Some (s', g', _) => Some (s', g') | None => None end
       end.
Fixpoint do_acts (s : list (node K V)) (g : hmap) (l : list act) : option (list (node K V) * hmap) :=
  match l with
  | [] => Some (s, g)
  | a :: r => match do_act s g a with Some (s', g') => do_acts s' g' r | None => None end
  end.

(* for e := g.first; e != nil; e = e.next { actor(e) }: Each and EachEntry (map.go:439-449), EachKey and EachValue (451-461). The callback decides by
   all that it has seen, the current entry first. After [fuel] visits the iteration is cut off; the flag tells if it ended before. *)
Fixpoint each (fuel : nat) (f : list (K * V) -> list act) (s : list (node K V)) (g : hmap) (seen : list (K * V)) (oe : option nat)
    : option (list (node K V) * hmap * list (K * V) * bool) :=
  match oe with
  | None => Some (s, g, rev seen, true)
  | Some i =>
      match fuel with
      | O => Some (s, g, rev seen, false)
      | S fuel =>
          match nth_error s i with
          | None => None
          | Some nd =>
              let seen := (nkey nd, nval nd) :: seen in
              match do_acts s g (f seen) with
              | None => None
              | Some (s, g) => match nth_error s i with None => None | Some nd => each fuel f s g seen (nnext nd) end
              end
          end
      end
  end.
Definition each_entry (fuel : nat) (f : list (K * V) -> list act) (s : list (node K V)) (g : hmap) := each fuel f s g [] (hfirst g).
End MapEach.
