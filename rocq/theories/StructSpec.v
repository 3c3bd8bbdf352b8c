(* What is expected of a Go struct that is used as a map. *)
From Coq Require Import ZArith List Bool.
From Verif Require Import Int64 Data Reflect ReflectSpec Struct.
Import ListNotations.

(* the fields have different names, as Go demands, and none is an embedded struct *)
Definition flat (fs : list field) : Prop :=
  Forall (fun f => match f with Plain _ => True | Embed _ _ => False end) fs /\ NoDup (map name_of fs).

(* a field whose value survives a conversion to dgo and back *)
Definition lasting (f : field) : Prop :=
  match f with Plain (_, (t, x)) => kept_type t = true /\ typed t x /\ kept t x | Embed _ _ => False end.

(* the same fields, except for the order of entries in Go maps *)
Definition same_field (f f' : field) : Prop :=
  match f, f' with
  | Plain (n, (t, x)), Plain (n', (t', x')) => n = n' /\ t = t' /\ same_go x x'
  | _, _ => False
  end.

(* a new struct of the same type *)
Definition zero_field (f : field) : field :=
  match f with Plain (n, (t, _)) => Plain (n, (t, zero t)) | Embed n ps => Embed n (map (fun p => (fst p, (fst (snd p), zero (fst (snd p))))) ps) end.

(* the type of the field that a key names *)
Definition field_type (fs : list field) (k : value) (t : gty) : Prop := exists n x, k = VStr n /\ In (Plain (n, (t, x))) fs.

(* the entries, if there is no panic and no native value *)
Definition view arrange (s : structv) (es : list (value * value)) : Prop :=
  Forall2 (fun e e' => fst e = fst e' /\ snd e = Done (snd e')) (entries arrange s) es.

(* calls that change a struct *)
Inductive call := CPut (k v : value) | CPutAll (l : list (value * value)) | CFreeze.
Definition call_struct arrange (s : structv) (c : call) : structv :=
  match c with
  | CPut k v => match put arrange s k v with Some s' => s' | None => s end
  | CPutAll l => fst (put_all arrange s l)
  | CFreeze => fst (freeze arrange s)
  end.

(* ---------- iterating ---------- *)

(* a predicate that has a state: the state after calls with these elements, and whether each of them was accepted when its turn came *)
Definition state_after {St E} (p : St -> E -> St * bool) (st : St) (l : list E) : St := fold_left (fun st e => fst (p st e)) l st.
Definition accepts {St E} (p : St -> E -> St * bool) (st : St) (l : list E) : Prop :=
  forall pre e post, l = pre ++ e :: post -> snd (p (state_after p st pre) e) = true.
(* the elements are passed in order, up to the first that is not accepted *)
Definition scanned {St E} (p : St -> E -> St * bool) (st : St) (l : list E) (st' : St) (result : bool) : Prop :=
  if result then accepts p st l /\ st' = state_after p st l
  else exists pre e post, l = pre ++ e :: post /\ accepts p st pre /\ snd (p (state_after p st pre) e) = false /\ st' = state_after p st (pre ++ [e]).
Definition rejecting {St E} (p : St -> E -> St * bool) : St -> E -> St * bool := fun st e => (fst (p st e), negb (snd (p st e))).
Definition done_entry (e : value * value) : value * res value := (fst e, Done (snd e)).
