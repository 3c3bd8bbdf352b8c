(* Property C10. Only statements, [exact], assumptions and examples. *)
From Coq Require Import ZArith List Bool Lia.
From Verif Require Import Int64 Data DataSpec DataProofs Graph GraphSpec GraphProofs.
Import ListNotations.
Open Scope Z_scope.

(* C10, first half: Equals returns on all finite graphs, with a depth of recursion of at most the number of
   nodes; likewise CompareTo and HashCode. *)
Theorem C10_equals_terminates :
  forall g a b, closed g -> points g a -> points g b -> exists r, forall n, (length g < n)%nat -> graph_equals g n a b = Some r.
Proof. exact equals_returns. Qed.
Print Assumptions C10_equals_terminates.
Theorem C10_compare_terminates :
  forall g a b, closed g -> points g a -> points g b -> exists r, forall n, (length g < n)%nat -> graph_compare g n a b = Some r.
Proof. exact compare_returns. Qed.
Print Assumptions C10_compare_terminates.
Theorem C10_hash_terminates :
  forall g a, closed g -> points g a -> exists r, forall n, (length g < n)%nat -> graph_hash g n a = Some r.
Proof. exact hash_returns. Qed.
Print Assumptions C10_hash_terminates.

(* Two values between which no finite path shows a difference are Equal, both ways. *)
Theorem C10_bisimilar_values_are_equal :
  forall g a b n, closed g -> points g a -> points g b -> bisimilar g a b -> (length g < n)%nat -> graph_equals g n a b = Some true.
Proof. exact bisimilar_equal. Qed.
Print Assumptions C10_bisimilar_values_are_equal.

(* C10, second half. Partial: symmetry for values that do not contain themselves, though their parts
   may be shared in any way. Then Equals, HashCode and CompareTo are those of the finite values that the graph stands for. *)
Theorem C10_equals_symmetric_partial :
  forall g a b v w n, closed g -> points g a -> points g b -> stands g a v -> stands g b w -> data veq v -> data veq w ->
  (length g < n)%nat -> graph_equals g n a b = graph_equals g n b a.
Proof. exact finite_symmetric. Qed.
Print Assumptions C10_equals_symmetric_partial.
Theorem C10_equals_of_finite_values :
  forall g a b v w n, closed g -> points g a -> points g b -> stands g a v -> stands g b w -> data veq v -> data veq w ->
  (length g < n)%nat -> graph_equals g n a b = Some (veq v w).
Proof. exact finite_equal. Qed.
Print Assumptions C10_equals_of_finite_values.
Theorem C10_hash_of_finite_values :
  forall g a v n, closed g -> points g a -> stands g a v -> (length g < n)%nat -> graph_hash g n a = Some (vhash v).
Proof. exact finite_hash. Qed.
Print Assumptions C10_hash_of_finite_values.
Theorem C10_compare_of_finite_values :
  forall g a b v w n, closed g -> points g a -> points g b -> stands g a v -> stands g b w -> data veq v -> all_comparable v ->
  (length g < n)%nat -> graph_compare g n a b = Some (vcmp v w).
Proof. exact finite_compare. Qed.
Print Assumptions C10_compare_of_finite_values.

(* When the receiver does not contain itself, the argument may: Equals holds only of bisimilar values. *)
Theorem C10_equals_with_finite_receiver :
  forall g a b v n, stands g a v -> data veq v -> graph_equals g n a b = Some true -> bisimilar g a b.
Proof. exact finite_sound. Qed.
Print Assumptions C10_equals_with_finite_receiver.

(* a := []interface{}{a}; b := []interface{}{5}: a.Equals(b) and not b.Equals(a) *)
Theorem C10_symmetric_refuted :
  let g := [GArr [GRef 0]; GArr [GLeaf (VInt 5)]] in
  closed g /\ (forall n, (2 < n)%nat -> graph_equals g n (GRef 0) (GRef 1) = Some true /\ graph_equals g n (GRef 1) (GRef 0) = Some false)
  /\ ~ bisimilar g (GRef 0) (GRef 1).
Proof.
  cbn. split; [repeat (cbn; constructor)|]. split; [intros [|[|[|n]]] H; try lia; split; reflexivity|].
  intros (R & B & H). destruct (B _ _ H) as (x & y & [= <-] & [= <-] & A). cbn in A. inversion A as [|? ? ? ? C]; subst. exact (B _ _ C).
Qed.
Print Assumptions C10_symmetric_refuted.

(* a := {a}, b := {{b}}: Equal both ways, with the hash codes 62 and 93 *)
Theorem C10_equal_values_equal_hash_refuted :
  let g := [GArr [GRef 0]; GArr [GRef 2]; GArr [GRef 1]] in
  closed g /\ bisimilar g (GRef 0) (GRef 1) /\
  graph_equals g 5 (GRef 0) (GRef 1) = Some true /\ graph_equals g 5 (GRef 1) (GRef 0) = Some true /\ graph_hash g 5 (GRef 0) = Some 62 /\ graph_hash g 5 (GRef 1) = Some 93.
Proof.
  cbn. split; [repeat (cbn; constructor)|]. split; [|repeat split].
  exists (fun a b => (a = GRef 0 \/ a = GRef 1 \/ a = GRef 2) /\ (b = GRef 0 \/ b = GRef 1 \/ b = GRef 2)). split; [|auto 6].
  intros a b [A B]. destruct A as [-> |[-> | ->]], B as [-> |[-> | ->]]; cbn; do 2 eexists; (split; [reflexivity|]); (split; [reflexivity|]); cbn; (constructor; [split; auto 6|constructor]).
Qed.
Print Assumptions C10_equal_values_equal_hash_refuted.

(* a := {a}, b := {{5}}: a.CompareTo(b) is 0, b.CompareTo(a) is not possible *)
Theorem C10_compare_refuted :
  let g := [GArr [GRef 0]; GArr [GRef 2]; GArr [GLeaf (VInt 5)]] in
  closed g /\ graph_compare g 4 (GRef 0) (GRef 1) = Some (Some 0) /\ graph_compare g 4 (GRef 1) (GRef 0) = Some None.
Proof. cbn. split; [repeat (cbn; constructor)|split; reflexivity]. Qed.
Print Assumptions C10_compare_refuted.

(* two maps that contain themselves and a list that is shared *)
Definition two_cycles : graph :=
  [GMap [(VInt 1, GRef 0); (VInt 2, GRef 2)]; GMap [(VInt 2, GRef 3); (VInt 1, GRef 1)]; GArr [GLeaf (VInt 7); GLeaf VNil]; GArr [GLeaf (VInt 7); GLeaf VNil]].
Example ex_C10_cycles : closed two_cycles /\ bisimilar two_cycles (GRef 0) (GRef 1) /\ graph_equals two_cycles 5 (GRef 0) (GRef 1) = Some true.
Proof.
  split; [repeat (cbn; constructor)|]. split; [|reflexivity].
  exists (fun a b => match a, b with GRef p, GRef q => (p = 0 /\ q = 1 \/ p = 2 /\ q = 3)%nat | GLeaf x, GLeaf y => x = y /\ veq x y = true | _, _ => False end).
  split; [|cbn; auto]. intros [x|p] [y|q] H; cbn; try contradiction; [apply H|].
  destruct H as [[-> ->]|[-> ->]]; do 2 eexists; (split; [reflexivity|]); (split; [reflexivity|]); cbn.
  - split; [reflexivity|]. constructor; [|constructor; [|constructor]]; cbn; do 2 eexists; (split; [reflexivity|]); cbn; lia.
  - repeat constructor.
Qed.
Example ex_C10_shared :
  let g := [GArr [GRef 1; GRef 1]; GArr [GLeaf (VInt 7)]; GArr [GRef 1; GRef 3]; GArr [GLeaf (VInt 7)]] in
  let v := VArr [VArr [VInt 7]; VArr [VInt 7]] in
  closed g /\ stands g (GRef 0) v /\ stands g (GRef 2) v /\ data veq v /\ all_comparable v.
Proof.
  cbn. split; [repeat (cbn; constructor)|]. split; [repeat (cbn; econstructor)|]. split; [repeat (cbn; econstructor)|]. split; [repeat (cbn; constructor)|].
  assert (A : all_comparable (VArr [VInt 7])) by (apply ac_arr; repeat constructor). apply ac_arr; repeat constructor; exact A.
Qed.
