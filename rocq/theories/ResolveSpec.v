(* What it means that references are replaced. *)
From Coq Require Import ZArith List Bool.
From Verif Require Import Int64 HMap Data DataSpec Types TypesSpec Graph RecTypes RecTypesSpec Resolve.
Import ListNotations.
Open Scope Z_scope.

(* all that a value refers to *)
Definition points_to (n : hnode) : list nat :=
  match n with
  | HAlias _ => []
  | HNode nd => refers nd
  | HMeta t => [t]
  | HVals l => l
  end.
Inductive reaches (h : heap) : nat -> nat -> Prop :=
| reaches_self p : reaches h p p
| reaches_step p q n r : reaches h p q -> nth_error h q = Some n -> In r (points_to n) -> reaches h p r.
Definition is_alias (n : hnode) : Prop := exists s, n = HAlias s.
(* no reference by name is left *)
Definition resolved (h : heap) (p : nat) : Prop := forall q n, reaches h p q -> nth_error h q = Some n -> ~ is_alias n.

Section Names.
Variable types : list Z -> option nat.

(* P says which of the values in D belong to the types of the heap, where a reference by name stands for the type with that name *)
Definition names_mean (W : world) (G : graph) (D : gval -> Prop) (h : heap) (P : nat -> gval -> Prop) : Prop :=
  forall p n x, D x -> nth_error h p = Some n ->
  match n with
  | HAlias s => match types s with Some q => P p x <-> P q x | None => True end
  | HNode nd => P p x <-> holds W G P nd x
  | HMeta _ | HVals _ => True
  end.

(* ---------- conditions ---------- *)

Definition in_heap (h : heap) (p : nat) : Prop := (p < length h)%nat.
Definition node_in_heap (h : heap) (n : hnode) : Prop := Forall (in_heap h) (points_to n).
(* pointers point to values; DefaultAnyType is where it is said to be; the names of references are known *)
Definition heap_ok (any : nat) (h : heap) : Prop :=
  Forall (node_in_heap h) h /\ nth_error h any = Some (HNode (NLeaf TAny)) /\
  forall p s, nth_error h p = Some (HAlias s) -> exists q, types s = Some q /\ in_heap h q.
(* a name does not stand for a reference to another name *)
Definition no_chains (h : heap) : Prop := forall s q n, types s = Some q -> nth_error h q = Some n -> ~ is_alias n.
(* sensitive types have no references within them *)
Definition no_sensitive (h : heap) : Prop :=
  forall p t, nth_error h p = Some (HNode (NSens t)) -> resolved h t.
(* arrays and maps of values do not contain themselves, except through a type *)
Definition values_finite (h : heap) : Prop :=
  exists rank : nat -> nat, forall p l q, nth_error h p = Some (HVals l) -> In q l ->
    (rank q < rank p)%nat /\ forall s q', nth_error h q = Some (HAlias s) -> types s = Some q' -> (rank q' < rank p)%nat.
(* the types with names are those that are being added, and those that have no references left *)
Definition added (h : heap) (l : list nat) : Prop := forall s q, types s = Some q -> In q l \/ resolved h q.

(* what is replaced and where names lead *)
Inductive touched (h : heap) (l : list nat) : nat -> Prop :=
| touched_root p : In p l -> touched h l p
| touched_part p n q : touched h l p -> nth_error h p = Some n -> In q (points_to n) -> touched h l q
| touched_name p s q : touched h l p -> nth_error h p = Some (HAlias s) -> types s = Some q -> touched h l q.
(* what a reference stands for; anything else stands for itself *)
Definition stands_for (h : heap) (p q : nat) : Prop :=
  (exists s, nth_error h p = Some (HAlias s) /\ types s = Some q) \/ ((exists n, nth_error h p = Some n /\ ~ is_alias n) /\ q = p).
(* the types of the heap, where a reference has the type it stands for *)
Definition linked_node (h : heap) (n : hnode) : rnode :=
  match n with
  | HAlias s => match types s with Some q => match nth_error h q with Some n => as_type n | None => as_type n end | None => as_type n end
  | _ => as_type n
  end.
Definition linked (h : heap) : tgraph := map (linked_node h) h.
End Names.
(* only types *)
Definition only_types (h : heap) : Prop := forall p n, nth_error h p = Some n -> match n with HAlias _ | HNode _ => True | _ => False end.
(* with a value D has what the value contains *)
Definition with_parts (G : graph) (D : gval -> Prop) : Prop := forall x y, D x -> part G x y -> D y.
