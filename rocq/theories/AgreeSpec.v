(* Types and values for which Assignable of the type of a value is shown to agree with Instance. *)
From Coq Require Import ZArith List Bool.
From Verif Require Import Int64 Data Types TypesSpec.
Import ListNotations.

(* no sensitive values, and no empty arrays and maps *)
Fixpoint solid (v : value) : Prop :=
  match v with
  | VSens _ => False
  | VArr l => l <> [] /\ fold_right and True (map solid l)
  | VMap m => m <> [] /\ fold_right and True (map (fun e => solid (fst e) /\ solid (snd e)) m)
  | _ => True
  end.

(* types of elements, keys and values: no float type, and alternatives are given by AnyOf *)
Fixpoint element_ok (t : ty) : Prop :=
  match t with
  | TFloat | TNot _ _ | TAllOf _ _ | TAllOfValue _ _ | TOneOf _ _ => False
  | TExact _ v => v <> VNil
  | TAnyOf _ ts => fold_right and True (map element_ok ts)
  | TArrSized _ e _ _ => element_ok e
  | TMapSized _ k v _ _ => element_ok k /\ element_ok v
  | _ => True
  end.

Fixpoint agreeing (t : ty) : Prop :=
  match t with
  | TExact _ v => v <> VNil
  | TNot _ t => agreeing t
  | TAllOf _ ts | TAnyOf _ ts | TOneOf _ ts => fold_right and True (map agreeing ts)
  | TArrSized _ e _ _ => element_ok e
  | TMapSized _ k v _ _ => element_ok k /\ element_ok v
  | _ => True
  end.

(* types without alternatives, without text types that are not decided by length or pattern, and without
   types that hold a list of types or an array or a map *)
Fixpoint simple (t : ty) : Prop :=
  match t with
  | TAny | TNil | TBool | TInt | TFloat | TFloatRange _ _ _ | TString | TStrSized _ _ | TPattern _ | TBinary _ _
  | TTime | TRegexp | TArray | TMap => True
  | TIntRange _ max _ => (min_int64 < max /\ max <= max_int64)%Z
  | TExact _ (VBool _) | TExact _ (VInt _) | TExact _ (VFloat _) | TExact _ (VStr _) | TExact _ (VBin _)
  | TExact _ (VTime _ _ _) | TExact _ (VRegexp _) => True
  | TSens _ t => simple t
  | TArrSized _ e _ _ => simple e
  | TMapSized _ k v min max => simple k /\ simple v /\ (0 <= min /\ max <= max_int64)%Z
  | _ => False
  end.

(* simple types, extended with tuples (instead of sized arrays) if [tup] and with struct types (instead of sized maps) if [str];
   tuples are variadic only if [vari], all struct types allow additional entries if [open] and no struct type does otherwise *)
Fixpoint structural (tup str vari open : bool) (t : ty) : Prop :=
  match t with
  | TSens _ t => structural tup str vari open t
  | TArrSized _ e _ _ => tup = false /\ structural tup str vari open e
  | TTuple _ ts v => tup = true /\ (v = true -> vari = true) /\ fold_right and True (map (structural tup str vari open) ts)
  | TMapSized _ k v min max => str = false /\ structural tup str vari open k /\ structural tup str vari open v /\ (0 <= min /\ max <= max_int64)%Z
  | TStruct _ ad es => str = true /\ ad = open /\ fold_right and True (map (fun e => structural tup str vari open (snd (fst e))) es)
  | _ => simple t
  end.
