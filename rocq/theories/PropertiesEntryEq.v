(* C102: equality and copies of entries. *)
From Coq Require Import ZArith List Bool Lia.
From Verif Require Import Int64 HMap EntryEq EntryEqSpec EntryEqProofs.
Import ListNotations.
Open Scope Z_scope.

(* C102: what Equals of values means that are or contain entries. *)
Theorem C102_equals_meaning (L : Type) (leq : L -> L -> bool) : forall a b, equals L leq a b = true <-> means L leq a b.
Proof. exact (equals_means L leq). Qed.
Print Assumptions C102_equals_meaning.

(* C102: Equals is reflexive and transitive and equal entries have equal hash codes, if that holds of the values that are not entries. Partial: it is symmetric only if
   struct entries are compared with struct entries (the next theorem; refuted below). *)
Theorem C102_equivalence_partial (L : Type) (leq : L -> L -> bool) (lhash : L -> Z) :
  (forall x, leq x x = true) -> (forall x y z, leq x y = true -> leq y z = true -> leq x z = true) -> (forall x y, leq x y = true -> lhash x = lhash y) ->
  (forall a, equals L leq a a = true) /\
  (forall a b c, equals L leq a b = true -> equals L leq b c = true -> equals L leq a c = true) /\
  (forall a b, equals L leq a b = true -> hash_code L lhash a = hash_code L lhash b).
Proof. intros R T H. split; [exact (equals_refl L leq R)|]. split; [exact (equals_trans L leq T)|exact (equals_hash L leq lhash H)]. Qed.
Print Assumptions C102_equivalence_partial.
Theorem C102_symmetric_partial (L : Type) (leq : L -> L -> bool) : (forall x y, leq x y = true -> leq y x = true) ->
  forall a b, equals L leq a b = true -> (equals L leq b a = true <-> same_kinds L a b).
Proof. exact (equals_sym L leq). Qed.
Print Assumptions C102_symmetric_partial.

(* C102: a frozen copy of an entry is frozen and equals it. Partial: the entry equals its copy if its value has no struct entries in it (refuted below). *)
Theorem C102_frozen_copy_partial (L : Type) (leq : L -> L -> bool) (lfrozen : L -> bool) (lcopy : L -> L) :
  (forall x, leq x x = true) -> (forall x, leq (lcopy x) x = true) -> (forall x, leq x (lcopy x) = true) -> (forall x, lfrozen (lcopy x) = true) ->
  forall a, equals L leq (frozen_copy L lfrozen lcopy a) a = true /\ frozen L lfrozen (frozen_copy L lfrozen lcopy a) = true /\
            (plain L a -> equals L leq a (frozen_copy L lfrozen lcopy a) = true).
Proof.
  intros R C1 C2 F a. split; [now apply copy_equals|]. split; [now apply copy_frozen|now apply equals_copy].
Qed.
Print Assumptions C102_frozen_copy_partial.

(* C102: an entry that says that it is frozen can not change, and neither can a frozen copy. Partial: the keys must be constant (refuted below). *)
Theorem C102_constant_partial (L : Type) (lfrozen : L -> bool) (lcopy : L -> L) : (forall x, lfrozen (lcopy x) = true) ->
  forall a, constant_keys L lfrozen a -> (frozen L lfrozen a = true <-> constant L lfrozen a) /\ constant L lfrozen (frozen_copy L lfrozen lcopy a).
Proof. intros F a K. split; [exact (frozen_constant L lfrozen a K)|exact (copy_constant L lfrozen lcopy F a K)]. Qed.
Print Assumptions C102_constant_partial.

(* C102: a struct entry that is a key of a map is never found: whatever has been put into a new map, Get gives nothing for a struct entry, and Put finds no former value. *)
Theorem C102_struct_keys_lost (L V : Type) (leq : L -> L -> bool) (lhash : L -> Z) (lfrozen : L -> bool) (lcopy : L -> L) :
  forall l cap s g, puts L leq lhash lfrozen lcopy V [] (new_with_capacity cap) l = Some (s, g) -> forall r k v,
  (forall x, hget (value L) V (equals L leq) (hash_code L lhash) s g (StructE r k v) <> Some (Some x)) /\
  (forall x s' g' o, put L leq lhash lfrozen lcopy V s g (StructE r k v) x = Some (s', g', o) -> o = None).
Proof.
  intros l cap s g E r k v. split; [exact (get_struct L leq lhash lfrozen lcopy V l cap s g E r k v)|exact (put_struct L leq lhash lfrozen lcopy V l cap s g E r k v)].
Qed.
Print Assumptions C102_struct_keys_lost.

(* numbers for the examples; negative numbers are mutable and their copies are their absolute values, which equal them *)
Definition zeq (a b : Z) : bool := Z.abs a =? Z.abs b.
Definition zfrozen (a : Z) : bool := 0 <=? a.
Notation zequals := (equals Z zeq).
Notation zcopy := (frozen_copy Z zfrozen Z.abs).
Notation zputs := (puts Z zeq Z.abs zfrozen Z.abs Z).
Notation zget := (hget (value Z) Z zequals (hash_code Z Z.abs)).
Lemma z_laws : (forall x, zeq x x = true) /\ (forall x y, zeq x y = true -> zeq y x = true) /\ (forall x y z, zeq x y = true -> zeq y z = true -> zeq x z = true) /\
  (forall x y, zeq x y = true -> Z.abs x = Z.abs y) /\ (forall x, zeq (Z.abs x) x = true) /\ (forall x, zeq x (Z.abs x) = true) /\ (forall x, zfrozen (Z.abs x) = true).
Proof. unfold zeq, zfrozen. repeat split; intros; rewrite ?Z.eqb_eq, ?Z.leb_le in *; lia. Qed.
Example ex_entries :
  let a := MapE (Leaf 1) (MapE (Leaf 2) (Leaf (-3))) in
  plain Z a /\ zequals a (zcopy a) = true /\ zcopy a = MapE (Leaf 1) (MapE (Leaf 2) (Leaf 3)) /\
  zequals (MapE (Leaf 1) (Leaf 2)) (StructE true (Leaf 1) (Leaf (-2))) = true /\
  same_kinds Z (StructE true (Leaf 1) (Leaf 2)) (StructE true (Leaf (-1)) (Leaf 2)) /\ zequals (StructE true (Leaf 1) (Leaf 2)) (StructE false (Leaf 1) (Leaf 2)) = false.
Proof. cbn [plain]. repeat split; try (vm_compute; reflexivity). repeat constructor. Qed.
Example ex_constant : constant_keys Z zfrozen (StructE true (Leaf 1) (MapE (Leaf 2) (Leaf (-3)))) /\ ~ constant Z zfrozen (StructE true (Leaf 1) (MapE (Leaf 2) (Leaf (-3)))).
Proof. cbn. split; [auto|]. intros [_ [_ H]]. discriminate H. Qed.
(* entries that are no struct entries are found; what was put under a struct entry is found by an entry that is none *)
Example ex_keys :
  match zputs [] (new_with_capacity 1) [(MapE (Leaf 1) (Leaf (-2)), 10); (StructE true (Leaf 1) (Leaf 5), 20); (MapE (Leaf 1) (Leaf 2), 30)] with
  | Some (s, g) => map (zget s g) [MapE (Leaf 1) (Leaf 2); StructE true (Leaf 1) (Leaf 5); MapE (Leaf 1) (Leaf 5)] = [Some (Some 30); Some None; Some (Some 20)] /\ hlen g = 2
  | None => False
  end.
Proof. vm_compute. auto. Qed.

(* C102: Equals of entries is not symmetric. *)
Theorem C102_symmetric_refuted : exists a b, zequals a b = true /\ zequals b a = false.
Proof. exists (MapE (Leaf 1) (Leaf 2)), (StructE true (Leaf 1) (Leaf 2)). split; vm_compute; reflexivity. Qed.
Print Assumptions C102_symmetric_refuted.
(* C102: a struct entry does not equal its frozen copy. *)
Theorem C102_frozen_copy_refuted : exists a, frozen Z zfrozen a = true /\ zequals a (zcopy a) = false.
Proof. exists (StructE true (Leaf 1) (Leaf 2)). split; vm_compute; reflexivity. Qed.
Print Assumptions C102_frozen_copy_refuted.
(* C102: a value put under a struct entry is not found by that entry, and if it is put again the map has two entries. *)
Theorem C102_keys_refuted : exists k, match zputs [] (new_with_capacity 1) [(k, 10); (k, 20)] with Some (s, g) => zget s g k = Some None /\ hlen g = 2 | None => False end.
Proof. exists (StructE true (Leaf 1) (Leaf 2)). vm_compute. auto. Qed.
Print Assumptions C102_keys_refuted.
(* C102: an entry with a mutable key says that it is frozen, and its frozen copy has that key. *)
Theorem C102_constant_refuted : exists a, frozen Z zfrozen a = true /\ zcopy a = a /\ ~ constant Z zfrozen a.
Proof. exists (MapE (Leaf (-1)) (Leaf 2)). split; [reflexivity|]. split; [reflexivity|]. cbn. intros [H _]. discriminate H. Qed.
Print Assumptions C102_constant_refuted.
