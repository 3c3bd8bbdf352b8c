(* What the rules derive is sound, and Assignable returns. *)
From Coq Require Import ZArith List Bool Lia Relations.
From Verif Require Import Int64 HMap Data DataSpec DataProofs Types TypesSpec SemProofs AssignProofs TypesCor Graph RecTypes RecTypesSpec RecAssign RecAssignSpec RecAssignProofs.
From Verif Require Assign.
Import ListNotations.
Open Scope Z_scope.

Lemma leaf_assign_sound W L t u v : leaf_type t = true -> leaf_type u = true -> target_ok L t -> source_ok L u -> leaf_assign W t u = true ->
  data veq v -> fits v -> has_type W u v -> has_type W t v.
Proof.
  intros Lt Lu Ht Hu A. unfold leaf_assign in A.
  destruct (flat_leaf W (fun _ _ _ => Assign.ret false) (Assign.asgn W 0) 0%nat t u Lu) as [E|E]; [|congruence]. rewrite E in A.
  destruct (Assign.flat_assignable_to W (Assign.asgn W 0) t u (Assign.start 0%nat)) as [[x s]|] eqn:F; [|discriminate]. subst x.
  apply (assignable_sound_without_hit W L 1 0 t u (Assign.start 0%nat) v Ht Hu); [|reflexivity].
  assert (D : Assign.deep_assignable t = false) by (destruct t; try discriminate Lt; try reflexivity; destruct v0; try discriminate Lt; reflexivity).
  cbn [Assign.asgn]. rewrite D. unfold Assign.with_nil.
  assert (S : s = Assign.start 0%nat).
  { destruct t; try discriminate Lt; destruct u; try discriminate Lu; cbn [Assign.flat_assignable_to Assign.check_assignable_to] in F; unfold Assign.orm, Assign.bind, Assign.ret in F; try congruence;
    repeat match type of F with context[if ?c then _ else _] => destruct c | context[match ?v with _ => _ end] => destruct v end; congruence. }
  subst s. change (fun (_ : bool) (_ _ : ty) => Assign.fail) with (Assign.asgn W 0). unfold Assign.with_guard.
  change (Assign.set_guard (Assign.start 0%nat) None) with (Assign.start 0%nat).
  rewrite F. reflexivity.
Qed.

Section Sound.
Variable W : world.
Variable T : tgraph.
Variable any : nat.
Variable G : graph.
Hypothesis TOK : types_ok T.
Hypothesis ANY : nth_error T any = Some (NLeaf TAny).
Notation leafs := (fun t u => leaf_assign W t u = true).

Section Meaning.
Variable L : allowed.
Variable D : gval -> Prop.
Variable P : nat -> gval -> Prop.
Hypothesis LOK : leafs_ok T L.
Hypothesis CT : closed_types T.
Hypothesis FIT : values_fit G.
Hypothesis DOM : domain G D.
Hypothesis MEAN : meaning W T G D P.

Definition sub (a b : nat) : Prop := forall x, D x -> P b x -> P a x.

Lemma leaf_node p t : nth_error T p = Some (NLeaf t) -> leaf_type t = true.
Proof. intros E. unfold types_ok in TOK. rewrite Forall_forall in TOK. exact (proj1 (proj2 (TOK _ (nth_error_In _ _ E)))). Qed.

Lemma any_holds x : D x -> P any x.
Proof. intros Dx. apply (MEAN any _ x Dx ANY). cbn. destruct x; [exact I|now left]. Qed.

Lemma elements_leaf_array x l : elements G x l -> leaf_holds W G TArray x.
Proof. intros E. inversion E; subst; cbn; eauto 6. Qed.
Lemma entries_leaf_map x m : entries G x m -> leaf_holds W G TMap x.
Proof. intros E. inversion E; subst; cbn; eauto 7. Qed.
Lemma leaf_map_entries x : D x -> leaf_holds W G TMap x -> exists m, entries G x m /\ Z.of_nat (length m) <= max_int64.
Proof.
  intros Dx. destruct x as [v|p]; cbn.
  - intros [m0 ->]. eexists. split; [constructor|]. rewrite map_length. destruct DOM as [DO _]. destruct (DO _ Dx) as [_ F]. cbn in F. apply F.
  - intros [E|[[E _]|[_ [m E]]]]; try discriminate. exists m. split; [exact E|]. inversion E; subst. eapply FIT; eauto.
Qed.
Lemma key_ok x m k y : D x -> entries G x m -> In (k, y) m -> data veq k /\ D y.
Proof.
  intros Dx E I. destruct DOM as [DO PA]. split.
  - apply (DO (GLeaf k)). eapply PA; [exact Dx|]. eapply part_key; eauto.
  - eapply PA; [exact Dx|]. eapply part_value; eauto.
Qed.
Lemma nth_Forall2 {A B} (R : A -> B -> Prop) l : forall l', length l = length l' -> (forall i x y, nth_error l i = Some x -> nth_error l' i = Some y -> R x y) -> Forall2 R l l'.
Proof.
  induction l as [|x l IH]; intros [|y l'] E H; try discriminate; constructor.
  - apply (H 0%nat); reflexivity.
  - apply IH; [now injection E|]. intros i. apply (H (S i)).
Qed.
Lemma Forall2_nth {A B} (R : A -> B -> Prop) l l' : Forall2 R l l' -> forall i x y, nth_error l i = Some x -> nth_error l' i = Some y -> R x y.
Proof. induction 1; intros [|i] a b; cbn; try discriminate; [now intros [= <-] [= <-]|]. apply IHForall2. Qed.

Theorem sub_closed : closed T leafs any sub.
Proof.
  destruct DOM as [DO PA]. intros a b R x Dx Hb. unfold sub in R.
  assert (Use : forall p nd, at_node T p nd -> (P p x <-> holds W G P nd x)) by (intros p nd E; exact (MEAN p nd x Dx E)).
  assert (Elem : forall l y, elements G x l -> In y l -> D y) by (intros l y E I; eapply PA; [exact Dx|eapply part_element; eauto]).
  assert (KeyD : forall m k y, entries G x m -> In (k, y) m -> D (GLeaf k)) by (intros m k y E I; eapply PA; [exact Dx|eapply part_key; eauto]).
  assert (ValD : forall m k y, entries G x m -> In (k, y) m -> D y) by (intros m k y E I; eapply PA; [exact Dx|eapply part_value; eauto]).
  destruct R as [nd Ea E|t u A B H|nd A B|e lo hi A B|os w A B|k v lo hi A B|t o A B H|e lo hi o lo' hi' A B H1 H2 H|k v lo hi ok ov lo' hi' A B H1 H2 H3 H4|k v lo hi A B H1 H2 H3 H4|ts v os w A B H1 H2 H|ts v e lo hi A B H1 H2 H3 H|ad es oad os A B H1 H2|ts t nd A B H1 H2|nd os A N1 N2 B N H|os A B].
  - now subst.
  - apply (Use _ _ A). apply (Use _ _ B) in Hb. destruct H as [<-|H]; [exact Hb|]. cbn [holds] in *.
    pose proof (leaf_node a t A) as Lt. pose proof (leaf_node b u B) as Lu. destruct x as [v|p]; cbn [leaf_holds] in *.
    + destruct (DO _ Dx) as [Wv Fv]. exact (leaf_assign_sound W L t u v Lt Lu (proj1 (LOK a t A)) (proj2 (LOK b u B)) H Wv Fv Hb).
    + destruct Hb as [->|[[-> Hb]|[-> Hb]]]; destruct t; try discriminate Lt; try discriminate H; auto.
  - apply (Use _ _ A). cbn. destruct x; [exact I|now left].
  - apply (Use _ _ A). apply (Use _ _ B) in Hb. destruct Hb as (l & E & _). cbn [holds]. eapply elements_leaf_array; eauto.
  - apply (Use _ _ A). apply (Use _ _ B) in Hb. destruct Hb as (l & E & _). cbn [holds]. eapply elements_leaf_array; eauto.
  - apply (Use _ _ A). apply (Use _ _ B) in Hb. destruct Hb as (l & E & _). cbn [holds]. eapply entries_leaf_map; eauto.
  - apply (Use _ _ A). apply (Use _ _ B) in Hb. destruct Hb as (y & E & Hy). exists y. split; [exact E|]. apply H; [|exact Hy]. eapply PA; [exact Dx|now apply part_wrapped].
  - apply (Use _ _ A). apply (Use _ _ B) in Hb. destruct Hb as (l & E & Lb & Hl). exists l. split; [exact E|]. split; [lia|].
    rewrite Forall_forall in *. eauto.
  - apply (Use _ _ A). apply (Use _ _ B) in Hb. destruct Hb as (m & E & Lb & Hl). exists m. split; [exact E|]. split; [lia|].
    rewrite Forall_forall in *. intros [k1 y] I. destruct (Hl _ I) as [K1 K2]. cbn [fst snd] in *. split; [apply H3|apply H4]; eauto.
  - apply (Use _ _ A). apply (Use _ _ B) in Hb. destruct (leaf_map_entries x Dx Hb) as (m & E & Lm). exists m. split; [exact E|]. split; [lia|].
    rewrite Forall_forall. intros [k1 y] I. cbn [fst snd]. split; [apply H3|apply H4]; eauto using any_holds.
  - apply (Use _ _ A). apply (Use _ _ B) in Hb. pose proof (CT _ _ A) as V1. pose proof (CT _ _ B) as V2. cbn in V1, V2. subst v w.
    destruct Hb as (l & E & Hl). exists l. split; [exact E|]. destruct (H2 eq_refl) as [_ Ln]. pose proof (Forall2_length' _ _ _ Hl) as Lo.
    apply nth_Forall2; [congruence|]. intros i t y Et Ey. destruct (H i) as (t' & o & E1 & E2 & E3); [apply nth_error_Some; cbn [fixed]; intros X; apply nth_error_None in X;
      assert (i < length ts)%nat by (apply nth_error_Some; congruence); lia|].
    cbn in E1, E2. assert (t' = t) by congruence. subst t'. apply E3; [apply nth_error_In in Ey; eauto|]. eapply Forall2_nth; eauto.
  - apply (Use _ _ A). apply (Use _ _ B) in Hb. pose proof (CT _ _ A) as V1. cbn in V1. subst v. cbn [fixed] in H1. specialize (H2 eq_refl).
    destruct Hb as (l & E & Lb & Hl). exists l. split; [exact E|]. apply nth_Forall2; [lia|]. intros i t y Et Ey. rewrite Forall_forall in *.
    apply nth_error_In in Et, Ey. apply (H t Et); eauto.
  - apply (Use _ _ A). apply (Use _ _ B) in Hb. pose proof (CT _ _ A) as V1. pose proof (CT _ _ B) as V2. cbn in V1, V2. subst ad oad.
    destruct H2 as [H2|H2]; [discriminate|]. destruct Hb as (m & E & F & Ad). destruct Ad as [Ad|Ad]; [discriminate|]. exists m. split; [exact E|].
    assert (Ka : forall e, In e es -> data veq (fst (fst e))).
    { intros e I. pose proof (proj2 (node_type_ok T TOK a _ A)) as [K _]. rewrite Forall_forall in K. now apply K. }
    assert (Kb : forall e, In e os -> data veq (fst (fst e))).
    { intros e I. pose proof (proj2 (node_type_ok T TOK b _ B)) as [K _]. rewrite Forall_forall in K. now apply K. }
    assert (Km : forall k y, In (k, y) m -> data veq k) by (intros k y I; exact (proj1 (key_ok x m k y Dx E I))).
    rewrite Forall_forall in H1, F. split.
    + apply Forall_forall. intros e I. destruct (H1 e I) as [(o & Io & V & Rq & Rl)|(N & Rq & _)].
      * destruct (F o Io) as [(k & y & Ik & Vk & Py)|(N & Ro)].
        -- left. exists k, y. split; [exact Ik|]. split; [apply (veq_trans _ (fst (fst o))); eauto|]. apply Rl; eauto.
        -- right. split.
           ++ intros k y Ik. destruct (veq (fst (fst e)) k) eqn:Vk; [|reflexivity]. rewrite <- (N k y Ik). symmetry. apply (veq_trans _ (fst (fst e))); eauto. apply veq_sym; auto.
           ++ destruct (snd e); [|reflexivity]. rewrite Rq in Ro by reflexivity. discriminate.
      * right. split; [|exact Rq]. intros k y Ik. destruct (veq (fst (fst e)) k) eqn:Vk; [|reflexivity]. destruct (Ad k y Ik) as (o & Io & Vo).
        rewrite <- (N o Io). symmetry. apply (veq_trans _ k); eauto. apply veq_sym; eauto.
    + right. intros k y Ik. destruct (Ad k y Ik) as (o & Io & Vo). destruct (H2 o Io) as (e & Ie & Ve). exists e. split; [exact Ie|]. apply (veq_trans _ (fst (fst o))); eauto.
  - apply (Use _ _ A). cbn [holds]. apply Exists_exists. exists t. split; [exact H1|]. now apply H2.
  - apply (Use _ _ B) in Hb. cbn [holds] in Hb. apply Exists_exists in Hb as (o & I & Ho). rewrite Forall_forall in H. exact (H o I x Dx Ho).
  - pose proof (CT _ _ A) as V. now destruct V.
Qed.
End Meaning.

(* ---------- the derived pairs ---------- *)

Lemma rule_mono (R1 R2 : nat -> nat -> Prop) a b : (forall x y, R1 x y -> R2 x y) -> rule T leafs any R1 a b -> rule T leafs any R2 a b.
Proof.
  intros M R. assert (MF : forall p l, Forall (R1 p) l -> Forall (R2 p) l) by (intros p l; apply Forall_impl; auto).
  destruct R as [nd Ea E|t u A B H|nd A B|e lo hi A B|os w A B|k v lo hi A B|t o A B H|e lo hi o lo' hi' A B H1 H2 H|k v lo hi ok ov lo' hi' A B H1 H2 H3 H4|k v lo hi A B H1 H2 H3 H4|ts v os w A B H1 H2 H|ts v e lo hi A B H1 H2 H3 H|ad es oad os A B H1 H2|ts t nd A B H1 H2|nd os A N1 N2 B N H|os A B].
  - eapply by_identity; eauto.
  - eapply by_leafs; eauto.
  - eapply by_any; eauto.
  - eapply by_array; eauto.
  - eapply by_tuple; eauto.
  - eapply by_map; eauto.
  - eapply by_wrapped; eauto.
  - eapply by_elements; eauto.
  - eapply by_entries; eauto.
  - eapply by_any_entries; eauto.
  - eapply by_positions; eauto. intros i Hi. destruct (H i Hi) as (t & o & E1 & E2 & E3). eauto 6.
  - eapply by_all_positions; eauto. eapply Forall_impl; [|exact H]. auto.
  - eapply by_keys; eauto. eapply Forall_impl; [|exact H1]. intros e [(o & X1 & X2 & X3 & X4)|X]; [left; eauto 7|now right].
  - eapply by_choice; eauto.
  - eapply by_choices; eauto.
  - eapply by_nothing; eauto.
Qed.
Lemma derived_closed : closed T leafs any (derived T leafs any).
Proof. intros a b R Rel C. apply C. eapply rule_mono; [|exact R]. intros x y Dv. now apply Dv. Qed.
Lemma derived_justified : justified T leafs any (derived T leafs any).
Proof.
  intros a b Dv. apply Dv. intros x y R. eapply rule_mono; [|exact R]. intros u w R'. now apply derived_closed.
Qed.

Hypothesis TFIT : tuples_fit T.

Theorem justified_never_rejected Rel : justified T leafs any Rel -> forall n a b, Rel a b -> rec_assignable W T any n a b <> Some false.
Proof.
  intros Ju n a b R. unfold rec_assignable. destruct (rasgn W T any n false a b None) as [[x s]|] eqn:E; [|discriminate]. cbn.
  destruct (justified_accepted W T any TOK TFIT Rel Ju n false a b None x s I E) as [_ Q]. destruct x; [discriminate|contradiction].
Qed.

Theorem exact_rules : flat_choices T -> forall a b, ends T a \/ ends T b ->
  forall n x, rec_assignable W T any n a b = Some x -> (x = true <-> derived T leafs any a b).
Proof.
  intros Fl a b En n x. unfold rec_assignable. destruct (rasgn W T any n false a b None) as [[y s]|] eqn:E; [|discriminate]. cbn. intros [= ->].
  assert (Dv : x = true -> derived T leafs any a b).
  { intros -> Rel C. destruct En as [En|En].
    - exact (proj2 (accepted_derived W T any TOK TFIT ANY Rel C Fl true n false a b None En I None true s I E)).
    - exact (proj2 (accepted_derived W T any TOK TFIT ANY Rel C Fl false n false a b None En I None true s I E)). }
  split; [exact Dv|]. intros D.
  destruct (justified_accepted W T any TOK TFIT _ derived_justified n false a b None x s I E) as [_ Q]. destruct x; [reflexivity|contradiction].
Qed.

Theorem sound L D P : flat_choices T -> leafs_ok T L -> closed_types T -> values_fit G -> domain G D -> meaning W T G D P ->
  forall a b, ends T a \/ ends T b -> forall n, rec_assignable W T any n a b = Some true -> forall x, D x -> P b x -> P a x.
Proof.
  intros Fl LO CT VF DO ME a b En n E. pose proof (proj1 (exact_rules Fl a b En n true E) eq_refl) as Dv.
  apply (Dv (sub D P)). eapply sub_closed; eauto.
Qed.
End Sound.
