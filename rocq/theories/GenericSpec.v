(* Types for which Generic is shown to widen. *)
From Coq Require Import ZArith List Bool.
From Verif Require Import Int64 Data Types TypesSpec.
Import ListNotations.

(* the types in t that Generic leaves alone meet the conditions of soundness of Assignable on its first
   argument *)
Fixpoint generic_ok (L : allowed) (t : ty) : Prop :=
  match t with
  | TExact _ _ | TCiStr _ | TPattern _ | TAllOfValue _ _ => True
  | TTuple _ ts _ | TAllOf _ ts => fold_right and True (map (generic_ok L) ts)
  | TStruct _ _ es => fold_right and True (map (fun e => generic_ok L (snd (fst e))) es)
  | _ => target_ok L t /\ no_all_of t
  end.
