(* Maps do not interfere; what operations without side effects return. *)
From Coq Require Import ZArith List Bool Lia.
From Verif Require Import Int64 HMap HMapSpec HMapBase HMapInv HMapRefine HMapCor MapShareSpec.
Import ListNotations.
Open Scope Z_scope.

Section Share.
Variables (K V : Type).
Variable keq : K -> K -> bool.
Variable khash : K -> Z.
Variable veq : V -> V -> bool.
Variable vnil : V -> bool.
Variables vfreeze vthaw : V -> V.
Hypothesis Law : lawful K keq khash.
Notation step := (step K V keq khash veq vnil vfreeze vthaw).
Notation step_spec := (step_spec K V keq veq vfreeze vthaw).
Notation run := (run K V keq khash veq vnil vfreeze vthaw).
Notation run_spec := (run_spec K V keq veq vfreeze vthaw).
Notation op_ok := (op_ok K V keq vnil).

Lemma spec_others aw o m a : changes K V o <> Some m -> nth_error aw m = Some a -> nth_error (fst (step_spec aw o)) m = Some a.
Proof.
  intros N H. assert (Hlt : (m < length aw)%nat) by (eapply nth_error_Some_lt; eauto).
  assert (Hadd : forall x f, nth_error (fst (anew K V aw x f)) m = Some a).
  { intros x f. unfold anew. cbn [fst]. rewrite nth_error_app1 by exact Hlt. exact H. }
  assert (Hset : forall n d f, n <> m -> nth_error (aset K V aw n d f) m = Some a).
  { intros n d f Hn. unfold aset. rewrite nth_error_upd_neq by congruence. exact H. }
  assert (Hw : forall n f, (forall b, nth_error (fst (f b)) m = Some a) -> nth_error (fst (awith K V aw n f)) m = Some a).
  { intros n f Hf. unfold awith. destruct (nth_error aw n); auto. }
  destruct o; cbn in N; cbn [HMapSpec.step_spec]; try apply Hadd;
    apply Hw; intros b0; try (apply Hw; intros b1);
    repeat match goal with |- context[match ?x with _ => _ end] => destruct x end; cbn [fst]; auto; apply Hset; congruence.
Qed.
Lemma spec_others_run os : forall aw m a, (forall o, In o os -> changes K V o <> Some m) -> nth_error aw m = Some a -> nth_error (fst (run_spec aw os)) m = Some a.
Proof.
  induction os as [|o r IH]; intros aw m a N H; cbn [HMapSpec.run_spec]; [exact H|].
  pose proof (spec_others aw o m a (N o (or_introl eq_refl)) H) as H1. destruct (step_spec aw o) as [aw1 x]. cbn [fst] in H1.
  specialize (IH aw1 m a (fun o Ho => N o (or_intror Ho)) H1). destruct (run_spec aw1 r). exact IH.
Qed.
Lemma reach_at os m : (forall o, In o os -> op_ok o) -> (m < length (maps (fst (run init os))))%nat -> exists x, nth_error (fst (run_spec [] os)) m = Some x.
Proof.
  intros Hok Hm. destruct (reach K V keq khash veq vnil vfreeze vthaw Law os Hok) as (cs & A & B & C). rewrite A, map_length in Hm. rewrite B, nth_error_map.
  destruct (nth_error cs m) eqn:E; [cbn; eauto|apply nth_error_None in E; lia].
Qed.
Lemma reach_length os : (forall o, In o os -> op_ok o) -> length (fst (run_spec [] os)) = length (maps (fst (run init os))).
Proof.
  intros Hok. destruct (reach K V keq khash veq vnil vfreeze vthaw Law os Hok) as (cs & A & B & C). now rewrite A, B, !map_length.
Qed.
Lemma others os os2 m q : (forall o, In o (os ++ os2) -> op_ok o) -> (forall o, In o os2 -> changes K V o <> Some m) ->
  (m < length (maps (fst (run init os))))%nat -> read_op K V m q ->
  snd (step (fst (run init (os ++ os2))) q) = snd (step (fst (run init os)) q).
Proof.
  intros Hok N Hm Hq. assert (Hok1 : forall o, In o os -> op_ok o) by (intros o Ho; apply Hok, in_app_iff; now left).
  destruct (reach_at os m Hok1 Hm) as (a & Ha). assert (Q : op_ok q) by (destruct q; cbn in Hq; try contradiction; exact I).
  rewrite !(snd_step_reach K V keq khash veq vnil vfreeze vthaw Law) by auto.
  apply (spec_read_cong K V keq veq vfreeze vthaw _ _ m q Hq). rewrite Ha, run_spec_app. cbn [fst]. now apply spec_others_run.
Qed.

Lemma result_new os o r d e fr : (forall x, In x os -> op_ok x) -> op_ok o -> derives K V o = true ->
  let w := fst (run init os) in
  snd (step w (OpEntries (receiver K V o))) = REntries d -> snd (step w (OpFrozen (receiver K V o))) = RBool fr -> snd (step w (OpEntries (argument K V o))) = REntries e ->
  snd (step w o) = RMap r ->
  (r = length (maps w) /\ ~ nothing_to_do K V keq veq d fr e o) \/
  (r = receiver K V o /\ nothing_to_do K V keq veq d fr e o) \/
  (r = argument K V o /\ d = [] /\ exists m a, o = OpMerge m a).
Proof.
  intros Hok Ho D w Hd Hf He Hr.
  destruct (entries_reach K V keq khash veq vnil vfreeze vthaw Law os _ d Hok Hd) as (a & Ha & Ea & Da).
  destruct (entries_reach K V keq khash veq vnil vfreeze vthaw Law os _ e Hok He) as (b & Hb & Eb & Db).
  unfold w in Hf, Hr |- *. rewrite (snd_step_reach K V keq khash veq vnil vfreeze vthaw Law) in Hf by (auto; exact I).
  rewrite (snd_step_reach K V keq khash veq vnil vfreeze vthaw Law) in Hr by auto. rewrite <- (reach_length os Hok). clear w Hd He Hok Ho.
  set (aw := fst (run_spec [] os)) in *. clearbody aw.
  assert (Hf' : af a = fr) by (cbn [HMapSpec.step_spec] in Hf; unfold awith in Hf; rewrite Ha in Hf; cbn in Hf; congruence). clear Hf. subst d e fr.
  destruct o as [c| | | | | | | | | | |m k v|m k|m ks|m m'|m f|m f| |]; cbn in D; try discriminate; cbn [receiver argument] in *; cbn [HMapSpec.step_spec] in Hr; unfold awith in Hr; rewrite Ha in Hr; cbn [nothing_to_do].
  - destruct (dget K V keq (ad a) k) as [x|] eqn:G; [destruct (veq v x) eqn:E|]; cbn in Hr; injection Hr as <-.
    + right. left. split; [reflexivity|]. now exists x.
    + left. split; [reflexivity|]. intros (y & Y & Z). congruence.
    + left. split; [reflexivity|]. intros (y & Y & Z). congruence.
  - destruct (dget K V keq (ad a) k) as [x|] eqn:G; cbn in Hr; injection Hr as <-; [left|right; left]; auto. split; [reflexivity|discriminate].
  - destruct (Nat.eqb_spec (length (dremoveall K V keq (ad a) ks)) (length (ad a))) as [E|E]; cbn in Hr; injection Hr as <-; [right; left|left]; (split; [reflexivity|]).
    + now apply dremoveall_length_eq.
    + intros X. apply E. now rewrite X.
  - rewrite Hb in Hr. destruct (ad b) as [|p t] eqn:B; [cbn in Hr; injection Hr as <-; right; left; auto|].
    destruct (Nat.eqb_spec m m') as [E|E]; [cbn in Hr; injection Hr as <-; right; left; auto|].
    destruct (ad a) as [|p' t'] eqn:A; cbn in Hr; injection Hr as <-.
    + right. right. split; [reflexivity|]. split; [reflexivity|]. now exists m, m'.
    + left. split; [reflexivity|]. intros [X|X]; congruence.
  - destruct (f && af a) eqn:E; cbn in Hr; injection Hr as <-; [right; left|left]; (split; [reflexivity|]).
    + now apply andb_prop in E.
    + intros [X Y]. rewrite X, Y in E. discriminate.
  - cbn in Hr. injection Hr as <-. left. auto.
Qed.
End Share.
