(* What equality of types is about: the types on which it is expected to be an equivalence and the
   order-sensitive equality that the hash codes follow. *)
From Coq Require Import ZArith List Bool.
From Coq Require Import Floats.SpecFloat.
From Verif Require Import Int64 Data DataSpec Types TypesSpec.
Import ListNotations.
Open Scope Z_scope.

(* the type could be that of a value: newTupleType makes an exact type of a tuple of exact types, so the only
   tuples of such types have sensitive types or no types at all *)
Definition of_value (t : ty) : bool := match t with TNil | TExact _ _ | TSens _ _ => true | _ => false end.
Definition proper_node (t : ty) : Prop :=
  match t with TTuple _ ts variadic => variadic = true \/ forallb of_value ts = false | _ => True end.
Definition proper_tuples : ty -> Prop := ty_all proper_node.

Definition nice (t : ty) : Prop := type_ok t /\ plain t /\ proper_tuples t.

(* eq is an equivalence on the types that satisfy P *)
Definition equivalence (P : ty -> Prop) (eq : ty -> ty -> bool) : Prop :=
  (forall a, P a -> eq a a = true) /\ (forall a b, P a -> P b -> eq a b = true -> eq b a = true) /\
  (forall a b c, P a -> P b -> P c -> eq a b = true -> eq b c = true -> eq a c = true).

(* two types with the same members in the same order; members that are values are equal *)
Fixpoint alike (a b : ty) : Prop :=
  match a, b with
  | TAny, TAny | TNil, TNil | TBool, TBool | TInt, TInt | TFloat, TFloat | TString, TString
  | TDgoString, TDgoString | TTime, TTime | TRegexp, TRegexp | TArray, TArray | TMap, TMap => True
  | TIntRange x y i, TIntRange x' y' i' => x = x' /\ y = y' /\ i = i'
  | TFloatRange x y i, TFloatRange x' y' i' => SFeqb x x' = true /\ SFeqb y y' = true /\ i = i'
  | TStrSized x y, TStrSized x' y' => x = x' /\ y = y'
  | TCiStr s, TCiStr s' => s = s'
  | TPattern s, TPattern s' => s = s'
  | TBinary x y, TBinary x' y' => x = x' /\ y = y'
  | TExact _ v, TExact _ v' => veq v v' = true
  | TSens _ t, TSens _ t' => alike t t'
  | TArrSized _ e x y, TArrSized _ e' x' y' => x = x' /\ y = y' /\ alike e e'
  | TTuple _ ts v, TTuple _ ts' v' =>
      v = v' /\ (fix go l l' := match l, l' with [], [] => True | x :: k, x' :: k' => alike x x' /\ go k k' | _, _ => False end) ts ts'
  | TMapSized _ k v x y, TMapSized _ k' v' x' y' => x = x' /\ y = y' /\ alike k k' /\ alike v v'
  | TStruct _ ad es, TStruct _ ad' es' =>
      ad = ad' /\
      (fix go l l' := match l, l' with
                      | [], [] => True
                      | e :: k, e' :: k' =>
                          (snd e = snd e' /\ veq (fst (fst e)) (fst (fst e')) = true /\ alike (snd (fst e)) (snd (fst e'))) /\ go k k'
                      | _, _ => False
                      end) es es'
  | TAllOf _ ts, TAllOf _ ts' | TAnyOf _ ts, TAnyOf _ ts' | TOneOf _ ts, TOneOf _ ts' =>
      (fix go l l' := match l, l' with [], [] => True | x :: k, x' :: k' => alike x x' /\ go k k' | _, _ => False end) ts ts'
  | TAllOfValue _ vs, TAllOfValue _ vs' => Forall2 (fun v v' => veq v v' = true) vs vs'
  | TNot _ t, TNot _ t' => alike t t'
  | TMeta None, TMeta None => True
  | TMeta (Some t), TMeta (Some t') => alike t t'
  | _, _ => False
  end.

(* no choice of order: at most one alternative, and none given as values *)
Definition ordered_node (t : ty) : Prop :=
  match t with
  | TAllOf _ ts | TAnyOf _ ts | TOneOf _ ts => (length ts <= 1)%nat
  | TAllOfValue _ _ => False
  | _ => True
  end.
Definition ordered : ty -> Prop := ty_all ordered_node.
