(* Which map an operation changes, and when an operation without side effects has nothing to do. *)
From Coq Require Import ZArith List Bool.
From Verif Require Import HMap HMapSpec.
Import ListNotations.

Section Spec.
Variables (K V : Type) (keq : K -> K -> bool) (veq : V -> V -> bool).
(* the map that an operation may change *)
Definition changes (o : op K V) : option nat :=
  match o with
  | OpPut m _ _ | OpPutAll m _ | OpRemove m _ | OpRemoveAll m _ | OpFreeze m => Some m
  | _ => None
  end.
(* the operations that the documentation calls copies or that return another map *)
Definition derives (o : op K V) : bool :=
  match o with OpWith _ _ _ | OpWithout _ _ | OpWithoutAll _ _ | OpMerge _ _ | OpCopy _ _ | OpMap _ _ => true | _ => false end.
(* Nothing to add to d and nothing to remove from it; d is the dictionary of the receiver, fr says whether it is frozen, e is the dictionary
   of the argument of Merge. *)
Definition nothing_to_do (d : dict K V) (fr : bool) (e : dict K V) (o : op K V) : Prop :=
  match o with
  | OpWith _ k v => exists x, dget K V keq d k = Some x /\ veq v x = true
  | OpWithout _ k => dget K V keq d k = None
  | OpWithoutAll _ ks => dremoveall K V keq d ks = d
  | OpMerge m a => e = [] \/ m = a
  | OpCopy _ frozen => frozen = true /\ fr = true
  | _ => False
  end.
End Spec.
