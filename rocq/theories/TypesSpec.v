(* What it means that a value is an instance of a type, stated without reference to the code. *)
From Coq Require Import ZArith List Bool.
From Coq Require Import Floats.SpecFloat.
From Verif Require Import Int64 Data DataSpec Types.
Import ListNotations.
Open Scope Z_scope.

Section World.
Variable W : world.

(* [av vs v]: what is meant by the types of all the values vs *)
Fixpoint has_type_with (av : list value -> value -> Prop) (t : ty) (v : value) {struct t} : Prop :=
  match t with
  | TAny => True
  | TNil => v = VNil
  | TBool => exists b, v = VBool b
  | TInt => exists z, v = VInt z
  | TIntRange min max incl => exists z, v = VInt z /\ min <= z /\ (if incl then z <= max else z < max)
  | TFloat => exists f, v = VFloat f
  | TFloatRange min max incl =>
      exists f, v = VFloat f /\ SFleb min f = true /\ (if incl then SFleb f max = true else SFltb f max = true)
  | TString => exists s, v = VStr s
  | TDgoString => exists s, v = VStr s /\ s <> [] /\ w_parses W s = true
  | TStrSized min max => exists s, v = VStr s /\ min <= Z.of_nat (length s) <= max
  | TCiStr c => exists s, v = VStr s /\ w_fold W c s = true
  | TPattern r => exists s, v = VStr s /\ w_match W r s = true
  | TBinary min max => exists s, v = VBin s /\ min <= Z.of_nat (length s) <= max
  | TTime => exists s n z, v = VTime s n z
  | TRegexp => exists s, v = VRegexp s
  | TExact _ w => veq w v = true
  | TSens _ t => exists x, v = VSens x /\ has_type_with av t x
  | TArray => exists l, v = VArr l
  | TArrSized _ e min max =>
      exists l, v = VArr l /\ min <= Z.of_nat (length l) <= max /\ Forall (has_type_with av e) l
  (* the i'th element has the i'th type; the last type of a variadic tuple stands for
     any number of elements *)
  | TTuple _ ts variadic =>
      exists l, v = VArr l /\
      let Ps := map (has_type_with av) ts in
      if variadic then
        exists Qs P l1 l2, Ps = Qs ++ [P] /\ l = l1 ++ l2 /\ Forall2 (fun (Q : value -> Prop) x => Q x) Qs l1 /\ Forall P l2
      else Forall2 (fun (Q : value -> Prop) x => Q x) Ps l
  | TMap => exists m, v = VMap m
  | TMapSized _ k x min max =>
      exists m, v = VMap m /\ min <= Z.of_nat (length m) <= max /\
      Forall (fun e => has_type_with av k (fst e) /\ has_type_with av x (snd e)) m
  (* the entries that are there have the right type, the required ones are there and, unless
     additional entries are allowed, there are no others *)
  | TStruct _ additional es =>
      exists m, v = VMap m /\
      Forall (fun e : value * (value -> Prop) * bool =>
                match assoc veq m (fst (fst e)) with
                | Some x => snd (fst e) x
                | None => snd e = false
                end) (map (fun e => (fst (fst e), has_type_with av (snd (fst e)), snd e)) es) /\
      (additional = true \/ forall k x, In (k, x) m -> exists e, In e es /\ veq (fst (fst e)) k = true)
  | TAllOf _ ts => Forall (fun P : value -> Prop => P v) (map (has_type_with av) ts)
  | TAllOfValue _ vs => av vs v
  | TAnyOf _ ts => Exists (fun P : value -> Prop => P v) (map (has_type_with av) ts)
  | TOneOf _ ts =>
      exists l1 P l2, map (has_type_with av) ts = l1 ++ P :: l2 /\ P v /\
      Forall (fun Q : value -> Prop => ~ Q v) (l1 ++ l2)
  | TNot _ t => ~ has_type_with av t v
  | TMeta _ => False
  end.

(* equal to the value; a sensitive value only has to have the generic type *)
Definition has_type : ty -> value -> Prop :=
  has_type_with (fun vs v => Forall (fun x => has_type_with (fun _ _ => False) (type_of 0%nat x) v) vs).
End World.

(* P holds for a type and for all types that it contains *)
Fixpoint ty_all (P : ty -> Prop) (t : ty) {struct t} : Prop :=
  P t /\
  match t with
  | TSens _ t | TArrSized _ t _ _ | TNot _ t | TMeta (Some t) => ty_all P t
  | TMapSized _ k v _ _ => ty_all P k /\ ty_all P v
  | TTuple _ ts _ | TAllOf _ ts | TAnyOf _ ts | TOneOf _ ts => fold_right and True (map (ty_all P) ts)
  | TStruct _ _ es => fold_right and True (map (fun e => ty_all P (snd (fst e))) es)
  | _ => True
  end.

(* what the constructors of types ensure or are given: proper values, bounds that are numbers,
   different keys, a variadic tuple has a last type *)
Definition node_ok (t : ty) : Prop :=
  match t with
  | TFloatRange min max _ => min <> S754_nan /\ max <> S754_nan
  | TExact _ v => data veq v
  | TTuple _ ts variadic => variadic = true -> ts <> []
  | TStruct _ _ es =>
      Forall (fun e => data veq (fst (fst e))) es /\
      ForallOrdPairs (fun e e' : value * ty * bool => veq (fst (fst e)) (fst (fst e')) = false) es
  | TAllOfValue _ vs => Forall (data veq) vs
  | _ => True
  end.
Definition type_ok : ty -> Prop := ty_all node_ok.

(* the length of every array and map is an int *)
Fixpoint fits (v : value) : Prop :=
  match v with
  | VSens x => fits x
  | VArr l => Z.of_nat (length l) <= max_int64 /\ fold_right and True (map fits l)
  | VMap m => Z.of_nat (length m) <= max_int64 /\
              fold_right and True (map (fun e => fits (fst e) /\ fits (snd e)) m)
  | _ => True
  end.

(* ---------- types for which Assignable is sound ---------- *)

(* which of three features the second type of Assignable(a, b) may use; the first type must not use the
   features that conflict with them *)
Record allowed := {
  variadic_source : bool;  (* variadic tuples in b, none in a *)
  open_source : bool;      (* struct types with additional entries in b, no sized maps and no struct types
                              without additional entries in a *)
  text_source : bool       (* dgo strings and case independent strings in b, no sized strings in a *)
}.

(* at the top of t, up to alternatives, there is no AllOf type *)
Fixpoint no_all_of (t : ty) : Prop :=
  match t with
  | TAllOf _ _ => False
  | TAnyOf _ ts => fold_right and True (map no_all_of ts)
  | _ => True
  end.

(* conditions on the type that is assigned to, at each of its nodes *)
Definition target_node (L : allowed) (t : ty) : Prop :=
  match t with
  | TOneOf _ _ | TNot _ _ | TAllOfValue _ _ => False
  | TAnyOf _ ts => ts <> []
  | TIntRange min max incl => in64 min /\ in64 max /\ (incl = false -> min_int64 < max)
  | TStrSized _ _ => text_source L = false
  | TTuple _ _ variadic => variadic = true -> variadic_source L = false
  | TStruct _ additional _ => open_source L = true -> additional = true
  | TArrSized _ e _ _ => no_all_of e
  | TMapSized _ k v _ _ => open_source L = false /\ no_all_of k /\ no_all_of v
  | _ => True
  end.

(* a value without sensitive values *)
Fixpoint no_sens (v : value) : bool :=
  match v with
  | VSens _ => false
  | VArr l => forallb no_sens l
  | VMap m => forallb (fun e => no_sens (fst e) && no_sens (snd e)) m
  | _ => true
  end.
Definition plain_node (t : ty) : Prop :=
  match t with
  | TExact _ v => no_sens v = true
  | TAllOfValue _ vs => forallb no_sens vs = true
  | _ => True
  end.
Definition plain : ty -> Prop := ty_all plain_node.

(* conditions on the type that is assigned *)
Definition source_node (L : allowed) (t : ty) : Prop :=
  match t with
  | TAllOf _ ts => ts <> []
  | TAllOfValue _ vs => vs <> []
  | TIntRange min max _ => in64 min /\ in64 max
  | TDgoString | TCiStr _ => text_source L = true
  | TTuple _ ts variadic => (variadic = true -> variadic_source L = true) /\ Forall plain ts
  | TStruct _ additional _ => additional = true -> open_source L = true
  | _ => True
  end.

Definition target_ok (L : allowed) (a : ty) : Prop := type_ok a /\ ty_all (target_node L) a.
Definition source_ok (L : allowed) (b : ty) : Prop := type_ok b /\ ty_all (source_node L) b.

(* ---------- types for which the recursion guard of Assignable stays silent ---------- *)

Definition alternatives (t : ty) : bool :=
  match t with TAllOf _ _ | TAllOfValue _ _ | TAnyOf _ _ | TOneOf _ _ => true | _ => false end.
(* a type that is guarded against recursion *)
Definition container (t : ty) : bool :=
  match t with
  | TExact _ (VArr _) | TExact _ (VMap _) => true
  | TSens _ _ | TArrSized _ _ _ _ | TTuple _ _ _ | TMapSized _ _ _ _ _ | TStruct _ _ _ => true
  | _ => alternatives t
  end.

(* the alternatives are no containers *)
Definition flat_node (t : ty) : Prop :=
  match t with
  | TAllOf _ ts | TAnyOf _ ts | TOneOf _ ts => Forall (fun t => container t = false) ts
  | _ => True
  end.
Definition flat_alternatives : ty -> Prop := ty_all flat_node.

(* alternatives and members of tuples and structs are not alternatives in turn *)
Definition single_node (t : ty) : Prop :=
  match t with
  | TAllOf _ ts | TAnyOf _ ts | TOneOf _ ts | TTuple _ ts _ => Forall (fun t => alternatives t = false) ts
  | TStruct _ _ es => Forall (fun e => alternatives (snd (fst e)) = false) es
  | _ => True
  end.
Definition single_alternatives : ty -> Prop := ty_all single_node.

(* the object that a type is *)
Definition object (t : ty) : option ptr :=
  match t with
  | TExact p _ | TSens p _ | TArrSized p _ _ _ | TTuple p _ _ | TMapSized p _ _ _ _ | TStruct p _ _
  | TAllOf p _ | TAllOfValue p _ | TAnyOf p _ | TOneOf p _ | TNot p _ => Some p
  | _ => None
  end.
(* all objects that t consists of satisfy P *)
Definition objects (P : ptr -> Prop) : ty -> Prop :=
  ty_all (fun t => match object t with Some p => P p | None => True end).
