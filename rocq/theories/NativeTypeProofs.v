(* Proofs about native types and ReflectTo of native values. *)
From Coq Require Import ZArith List Bool Lia.
From Verif Require Import Int64 Data Native NativeSpec.
Import ListNotations.
Open Scope Z_scope.

Lemma name_eqb_eq a b : name_eqb a b = true <-> a = b.
Proof.
  destruct a as [x|], b as [y|]; cbn; split; try discriminate; try reflexivity.
  - intros H. apply Nat.eqb_eq in H. congruence.
  - intros H. injection H as ->. apply Nat.eqb_refl.
Qed.
Lemma gt_eqb_iff a b : gt_eqb a b = true <-> gt_name a = gt_name b /\ gt_under a = gt_under b.
Proof. unfold gt_eqb. rewrite andb_true_iff, name_eqb_eq, Nat.eqb_eq. reflexivity. Qed.
Lemma gt_eqb_refl a : gt_eqb a a = true.
Proof. apply gt_eqb_iff. auto. Qed.

Theorem nt_eq_equivalence :
  (forall a, nt_eq a a = true) /\ (forall a b, nt_eq a b = true -> nt_eq b a = true) /\
  (forall a b c, nt_eq a b = true -> nt_eq b c = true -> nt_eq a c = true).
Proof.
  split; [|split].
  - intros [a|]; cbn; [apply gt_eqb_refl|reflexivity].
  - intros [a|] [b|]; cbn; try congruence. rewrite !gt_eqb_iff. intros [H1 H2]. auto.
  - intros [a|] [b|] [c|]; cbn; try congruence. rewrite !gt_eqb_iff. intros [H1 H2] [H3 H4]. split; congruence.
Qed.
Theorem nt_eq_hash names a b : nt_eq a b = true -> nt_hash names a = nt_hash names b.
Proof. destruct a as [a|], b as [b|]; cbn; try discriminate; try reflexivity. intros H. apply gt_eqb_iff in H. rewrite (proj1 H). reflexivity. Qed.
Theorem nt_eq_instances a b : (forall x y, a = Some x -> b = Some y -> one_world x y) -> nt_eq a b = true -> forall o, nt_instance a o = nt_instance b o.
Proof.
  destruct a as [a|], b as [b|]; cbn; try discriminate; intros W H o; [|reflexivity].
  rewrite (proj1 (W a b eq_refl eq_refl) H). reflexivity.
Qed.

Lemma subset_iff l l' : forallb (fun m => existsb (Nat.eqb m) l) l' = true <-> incl l' l.
Proof.
  rewrite forallb_forall. unfold incl. split; intros H x Hx; specialize (H x Hx).
  - apply existsb_exists in H. destruct H as (y & Hy & E). apply Nat.eqb_eq in E. subst. exact Hy.
  - apply existsb_exists. exists x. split; [exact H|apply Nat.eqb_refl].
Qed.
Lemma go_assignable_iff a b : go_assignable a b = true <->
  gt_eqb a b = true \/ (gt_iface b = true /\ incl (gt_methods b) (gt_methods a)) \/
  (gt_under a = gt_under b /\ (gt_name a = None \/ gt_name b = None)).
Proof.
  unfold go_assignable. rewrite !orb_true_iff, !andb_true_iff, orb_true_iff, subset_iff, Nat.eqb_eq, !name_eqb_eq. tauto.
Qed.

Theorem nt_assignable_refl a : nt_assignable a a = true.
Proof. destruct a as [a|]; [|reflexivity]. apply go_assignable_iff. left. apply gt_eqb_refl. Qed.
Theorem nt_default a : nt_assignable None a = true.
Proof. reflexivity. Qed.
Theorem native_instance t u : nt_instance t (NtNative u) = Done (nt_assignable t (native_type u)).
Proof. destruct t; reflexivity. Qed.

(* an interface has what is assignable to it as instances *)
Theorem nt_containment a b u : gt_iface u = false -> gt_iface b = true -> one_world u b -> one_world b a ->
  nt_assignable (Some a) (Some b) = true -> nt_instance (Some b) (NtNative u) = Done true -> nt_instance (Some a) (NtNative u) = Done true.
Proof.
  intros Iu Ib [Wu Wu'] [Wb Wb'] HA HB. cbn in *. injection HB as HB. f_equal.
  apply go_assignable_iff in HA, HB. apply go_assignable_iff.
  destruct HB as [HB|[[_ HB]|[HB _]]].
  - rewrite (Wu HB) in Iu. congruence.
  - destruct HA as [HA|[[Ia HA]|[HA _]]].
    + rewrite <- (Wb HA). right. left. auto.
    + right. left. split; [exact Ia|]. eapply incl_tran; eassumption.
    + destruct (Wb' HA) as [E1 E2]. right. left. split; [congruence|]. rewrite <- (E2 Ib). exact HB.
  - destruct (Wu' HB) as [E _]. congruence.
Qed.

Theorem reflect_to_own t : native_reflect_to (SVal t) (DVar t) = Done StValue /\ native_reflect_to (SVal t) (DPtr t) = Done StPointer.
Proof.
  cbn. rewrite gt_eqb_refl. split; [|reflexivity]. rewrite (proj2 (go_assignable_iff t t)); [reflexivity|]. left. apply gt_eqb_refl.
Qed.

Lemma nt_widest : (forall a, nt_assignable None a = true) /\ (forall a, nt_assignable a None = true -> a = None) /\ forall a, nt_instance a NtValue = Done false.
Proof. repeat split. intros [a|]; [discriminate|reflexivity]. Qed.

Lemma reflect_pointer u t : native_reflect_to (SPtr u) (DVar t) <> Panic <-> gt_iface t = true /\ incl (gt_methods t) (gt_methods u).
Proof.
  cbn [native_reflect_to]. assert (H : ptr_assignable u t = true <-> gt_iface t = true /\ incl (gt_methods t) (gt_methods u)).
  { unfold ptr_assignable. rewrite andb_true_iff, forallb_forall. split; intros [A B]; (split; [exact A|]); intros m I; specialize (B m I).
    - apply existsb_exists in B as (k & K & E). apply Nat.eqb_eq in E. now subst.
    - apply existsb_exists. exists m. split; [exact B|apply Nat.eqb_refl]. }
  rewrite <- H. destruct (ptr_assignable u t); split; congruence.
Qed.
