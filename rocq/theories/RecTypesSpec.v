(* What belongs to a type that may refer to itself. *)
From Coq Require Import ZArith List Bool.
From Verif Require Import Int64 HMap Data DataSpec Types TypesSpec Graph RecTypes.
Import ListNotations.
Open Scope Z_scope.

Section Meaning.
Variable W : world.
Variable T : tgraph.
Variable G : graph.

(* the contents of arrays, maps and sensitive values *)
Inductive elements : gval -> list gval -> Prop :=
| elements_ref p l : nth_error G p = Some (GArr l) -> elements (GRef p) l
| elements_leaf l : elements (GLeaf (VArr l)) (map GLeaf l).
Inductive entries : gval -> list (value * gval) -> Prop :=
| entries_ref p m : nth_error G p = Some (GMap m) -> entries (GRef p) m
| entries_leaf m : entries (GLeaf (VMap m)) (map (fun e => (fst e, GLeaf (snd e))) m).
Inductive wraps : gval -> gval -> Prop :=
| wraps_ref p x : nth_error G p = Some (GSens x) -> wraps (GRef p) x
| wraps_leaf v : wraps (GLeaf (VSens v)) (GLeaf v).

(* types without types in them; a value that is a pointer is an array, a map or a sensitive *)
Definition leaf_holds (t : ty) (x : gval) : Prop :=
  match x with
  | GLeaf v => has_type W t v
  | GRef _ => t = TAny \/ (t = TArray /\ exists l, elements x l) \/ (t = TMap /\ exists m, entries x m)
  end.

(* x belongs to a type with the node nd, if P says what belongs to the types that the node refers to *)
Definition holds (P : nat -> gval -> Prop) (nd : rnode) (x : gval) : Prop :=
  match nd with
  | NLeaf t => leaf_holds t x
  | NArr e min max => exists l, elements x l /\ min <= Z.of_nat (length l) <= max /\ Forall (P e) l
  | NTuple ts variadic => exists l, elements x l /\
      if variadic then exists us t l1 l2, ts = us ++ [t] /\ l = l1 ++ l2 /\ Forall2 P us l1 /\ Forall (P t) l2
      else Forall2 P ts l
  | NMap k v min max => exists m, entries x m /\ min <= Z.of_nat (length m) <= max /\
      Forall (fun e => P k (GLeaf (fst e)) /\ P v (snd e)) m
  | NStruct additional es => exists m, entries x m /\
      Forall (fun e : value * nat * bool =>
        (exists k y, In (k, y) m /\ veq (fst (fst e)) k = true /\ P (snd (fst e)) y) \/
        ((forall k y, In (k, y) m -> veq (fst (fst e)) k = false) /\ snd e = false)) es /\
      (additional = true \/ forall k y, In (k, y) m -> exists e, In e es /\ veq (fst (fst e)) k = true)
  | NAll ts => Forall (fun t => P t x) ts
  | NAny ts => Exists (fun t => P t x) ts
  | NOne ts => exists l1 t l2, ts = l1 ++ t :: l2 /\ P t x /\ Forall (fun u => ~ P u x) (l1 ++ l2)
  | NNot t => ~ P t x
  | NSens t => exists y, wraps x y /\ P t y
  end.

(* P says which of the values in D belong to the types of the graph: what a type says about a value follows from what the
   types that it refers to say *)
Definition meaning (D : gval -> Prop) (P : nat -> gval -> Prop) : Prop :=
  forall p nd x, D x -> nth_error T p = Some nd -> (P p x <-> holds P nd x).
(* all that P puts into a type belongs there *)
Definition consistent (P : nat -> gval -> Prop) : Prop :=
  forall p nd x, nth_error T p = Some nd -> P p x -> holds P nd x.

(* ---------- conditions ---------- *)

(* the types that a node refers to, and those that see the same value *)
Definition refers (nd : rnode) : list nat :=
  match nd with
  | NLeaf _ => []
  | NArr e _ _ => [e]
  | NMap k v _ _ => [k; v]
  | NStruct _ es => map (fun e => snd (fst e)) es
  | NTuple ts _ | NAll ts | NAny ts | NOne ts => ts
  | NNot t | NSens t => [t]
  end.
Definition same_value (nd : rnode) : list nat :=
  match nd with NAll ts | NAny ts | NOne ts => ts | NNot t => [t] | _ => [] end.
(* references point to types, the types without types are such, keys of structs differ, a variadic tuple has a last type *)
Definition type_node_ok (nd : rnode) : Prop :=
  Forall (fun q => (q < length T)%nat) (refers nd) /\
  match nd with
  | NLeaf t => leaf_type t = true /\ type_ok t
  | NTuple ts true => ts <> []
  | NStruct _ es => Forall (fun e : value * nat * bool => data veq (fst (fst e))) es /\
      ForallOrdPairs (fun e e' : value * nat * bool => veq (fst (fst e)) (fst (fst e')) = false) es
  | _ => True
  end.
Definition types_ok : Prop := Forall type_node_ok T.
(* a type that refers to itself does so through an array, a map or a sensitive: not x=int|x *)
Definition contractive : Prop :=
  exists rank : nat -> nat, forall p nd q, nth_error T p = Some nd -> In q (same_value nd) -> (rank q < rank p)%nat.
(* no type refers to itself *)
Definition not_recursive : Prop :=
  exists rank : nat -> nat, forall p nd q, nth_error T p = Some nd -> In q (refers nd) -> (rank q < rank p)%nat.
(* no type refers to itself through a negation or a sensitive type *)
Definition no_restart : Prop :=
  exists rank : nat -> nat, forall p nd q, nth_error T p = Some nd -> In q (refers nd) ->
    (rank q <= rank p)%nat /\ match nd with NNot _ | NSens _ => (rank q < rank p)%nat | _ => True end.
(* the alternatives are types without types in them, negations and sensitive types *)
Definition flat_alternatives : Prop :=
  forall p nd q, nth_error T p = Some nd -> In q (same_value nd) ->
  match nd with
  | NNot _ => True
  | _ => match nth_error T q with Some (NLeaf _) | Some (NNot _) | Some (NSens _) => True | _ => False end
  end.
(* no negation, and no choice of exactly one *)
Definition positive : Prop := forall p nd, nth_error T p = Some nd -> match nd with NOne _ | NNot _ => False | _ => True end.

(* values: pointers point to values, keys of maps differ *)
Definition val_ok (x : gval) : Prop := match x with GLeaf v => data veq v | GRef p => (p < length G)%nat end.
Definition value_node_ok (n : gnode) : Prop :=
  match n with
  | GArr l => Forall val_ok l
  | GSens x => val_ok x
  | GMap m => Forall (fun e => data veq (fst e) /\ val_ok (snd e)) m /\ ForallOrdPairs (fun e e' : value * gval => veq (fst e) (fst e') = false) m
  end.
Definition values_ok : Prop := Forall value_node_ok G.
(* what a value contains *)
Inductive part : gval -> gval -> Prop :=
| part_element x l y : elements x l -> In y l -> part x y
| part_key x m k y : entries x m -> In (k, y) m -> part x (GLeaf k)
| part_value x m k y : entries x m -> In (k, y) m -> part x y
| part_wrapped x y : wraps x y -> part x y.
(* a value that does not contain itself *)
Inductive finite : gval -> Prop := is_finite x : (forall y, part x y -> finite y) -> finite x.
End Meaning.
