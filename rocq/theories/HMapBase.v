(* Arithmetic and list facts used by the proofs about HMap. *)
From Coq Require Import ZArith List Bool Lia.
From Verif Require Import Int64 HMap.
Import ListNotations.
Open Scope Z_scope.

(* ---- bit smearing ---- *)

Definition smears (w n0 n : Z) : Prop :=
  forall j, 0 <= j ->
    (Z.testbit n j = true <-> exists d, 0 <= d < w /\ Z.testbit n0 (j + d) = true).

Lemma smears_one n : smears 1 n n.
Proof.
  intros j Hj. split.
  - intros H. exists 0. rewrite Z.add_0_r. split; [lia|exact H].
  - intros (d & Hd & H). replace d with 0 in H by lia. rewrite Z.add_0_r in H. exact H.
Qed.

Lemma smears_step w n0 n :
  0 < w -> smears w n0 n -> smears (2 * w) n0 (Z.lor n (Z.shiftr n w)).
Proof.
  intros Hw H j Hj.
  rewrite Z.lor_spec, Z.shiftr_spec, orb_true_iff by lia.
  rewrite (H j Hj), (H (j + w) ltac:(lia)). split.
  - intros [(d & Hd & Hb)|(d & Hd & Hb)].
    + exists d. split; [lia|exact Hb].
    + exists (w + d). split; [lia|]. rewrite <- Hb. f_equal. lia.
  - intros (d & Hd & Hb). destruct (Z_lt_ge_dec d w) as [L|G].
    + left. exists d. split; [lia|exact Hb].
    + right. exists (d - w). split; [lia|]. rewrite <- Hb. f_equal. lia.
Qed.

Lemma smears_ones n0 n :
  0 < n0 < 2 ^ 32 -> 0 <= n -> smears 32 n0 n -> n = 2 ^ (Z.log2 n0 + 1) - 1.
Proof.
  intros Hn0 Hn H.
  assert (Hl : 0 <= Z.log2 n0 < 32).
  { split; [apply Z.log2_nonneg|]. apply Z.log2_lt_pow2; lia. }
  replace (2 ^ (Z.log2 n0 + 1) - 1) with (Z.ones (Z.log2 n0 + 1)) by (rewrite Z.ones_equiv; lia).
  apply Z.bits_inj'. intros j Hj.
  destruct (Z_lt_ge_dec j (Z.log2 n0 + 1)) as [L|G].
  - rewrite Z.ones_spec_low by lia.
    apply (H j Hj). exists (Z.log2 n0 - j). split; [lia|].
    replace (j + (Z.log2 n0 - j)) with (Z.log2 n0) by lia. apply Z.bit_log2; lia.
  - rewrite Z.ones_spec_high by lia.
    apply not_true_iff_false. intros Hb. apply (H j Hj) in Hb. destruct Hb as (d & Hd & Hb).
    rewrite Z.bits_above_log2 in Hb; lia.
Qed.

Definition smear (n : Z) : Z :=
  let n := Z.lor n (Z.shiftr n 1) in
  let n := Z.lor n (Z.shiftr n 2) in
  let n := Z.lor n (Z.shiftr n 4) in
  let n := Z.lor n (Z.shiftr n 8) in
  Z.lor n (Z.shiftr n 16).

Lemma lor_shiftr_ge n w : 0 <= n -> 0 <= w -> n <= Z.lor n (Z.shiftr n w).
Proof.
  intros Hn Hw.
  assert (Hs : 0 <= Z.shiftr n w) by (apply Z.shiftr_nonneg; exact Hn).
  assert (Hl : 0 <= Z.lor n (Z.shiftr n w)) by (apply Z.lor_nonneg; lia).
  pose proof (Z.ldiff_le n (Z.lor n (Z.shiftr n w)) Hl) as P. apply P.
  apply Z.bits_inj'. intros j Hj.
  rewrite Z.ldiff_spec, Z.lor_spec, Z.bits_0. destruct (Z.testbit n j); reflexivity.
Qed.

Lemma smear_spec n : 0 <= n -> n <= smear n /\ smears 32 n (smear n).
Proof.
  intros Hn. unfold smear. cbv zeta.
  set (a := Z.lor n (Z.shiftr n 1)).
  set (b := Z.lor a (Z.shiftr a 2)).
  set (c := Z.lor b (Z.shiftr b 4)).
  set (d := Z.lor c (Z.shiftr c 8)).
  set (e := Z.lor d (Z.shiftr d 16)).
  assert (Ha : n <= a) by (apply lor_shiftr_ge; lia).
  assert (Hb : a <= b) by (apply lor_shiftr_ge; lia).
  assert (Hc : b <= c) by (apply lor_shiftr_ge; lia).
  assert (Hd : c <= d) by (apply lor_shiftr_ge; lia).
  assert (He : d <= e) by (apply lor_shiftr_ge; lia).
  split; [lia|].
  pose proof (smears_step 1 n n ltac:(lia) (smears_one n)) as S1.
  pose proof (smears_step 2 n a ltac:(lia) S1) as S2.
  pose proof (smears_step 4 n b ltac:(lia) S2) as S3.
  pose proof (smears_step 8 n c ltac:(lia) S3) as S4.
  pose proof (smears_step 16 n d ltac:(lia) S4) as S5.
  exact S5.
Qed.

Lemma tableSizeFor_unfold cap :
  tableSizeFor cap =
  if cap <? 1 then 1
  else if maximumCapacity <? smear (cap - 1) + 1 then maximumCapacity else smear (cap - 1) + 1.
Proof. reflexivity. Qed.

(* for a capacity that fits, the result is the least power of two that is not smaller *)
Lemma tableSizeFor_exact cap :
  1 <= cap <= maximumCapacity ->
  exists k, 0 <= k /\ tableSizeFor cap = 2 ^ k /\ cap <= 2 ^ k /\ (cap = 1 \/ 2 ^ k < 2 * cap).
Proof.
  intros [Hc Hm]. rewrite tableSizeFor_unfold.
  assert (E : (cap <? 1) = false) by (apply Z.ltb_ge; lia). rewrite E.
  destruct (smear_spec (cap - 1) ltac:(lia)) as [Hge Hs].
  destruct (Z.eq_dec cap 1) as [->|Hne].
  - exists 0. cbn. repeat split; try lia; auto.
  - assert (Hn : smear (cap - 1) = 2 ^ (Z.log2 (cap - 1) + 1) - 1).
    { apply smears_ones; [unfold maximumCapacity in Hm; lia|lia|exact Hs]. }
    pose proof (Z.log2_nonneg (cap - 1)) as Hl.
    pose proof (Z.log2_spec (cap - 1) ltac:(lia)) as [L1 L2].
    rewrite Z.pow_succ_r in L2 by lia.
    assert (Hk : Z.log2 (cap - 1) + 1 <= 30).
    { assert (Z.log2 (cap - 1) < 30); [|lia]. apply Z.log2_lt_pow2; unfold maximumCapacity in Hm; lia. }
    assert (Hp : 2 ^ (Z.log2 (cap - 1) + 1) <= 2 ^ 30) by (apply Z.pow_le_mono_r; lia).
    assert (Hlt : (maximumCapacity <? smear (cap - 1) + 1) = false)
      by (apply Z.ltb_ge; unfold maximumCapacity; lia).
    rewrite Hlt, Hn. exists (Z.log2 (cap - 1) + 1).
    replace (2 ^ (Z.log2 (cap - 1) + 1)) with (2 * 2 ^ Z.log2 (cap - 1)) in *
      by (rewrite Z.pow_add_r by lia; lia).
    repeat split; lia.
Qed.

Lemma tableSizeFor_big cap : maximumCapacity <= cap -> tableSizeFor cap = maximumCapacity.
Proof.
  intros Hc. rewrite tableSizeFor_unfold. unfold maximumCapacity in *.
  assert (E : (cap <? 1) = false) by (apply Z.ltb_ge; lia). rewrite E.
  destruct (smear_spec (cap - 1) ltac:(lia)) as [Hge _].
  destruct (Z.ltb_spec (2 ^ 30) (smear (cap - 1) + 1)); [reflexivity|lia].
Qed.

Lemma tableSizeFor_pow2 cap : exists k, 0 <= k <= 30 /\ tableSizeFor cap = 2 ^ k.
Proof.
  destruct (Z_lt_ge_dec cap 1) as [L|G].
  - exists 0. rewrite tableSizeFor_unfold. assert (E : (cap <? 1) = true) by (apply Z.ltb_lt; lia).
    rewrite E. split; [lia|reflexivity].
  - destruct (Z_lt_ge_dec cap maximumCapacity) as [L|G'].
    + destruct (tableSizeFor_exact cap ltac:(lia)) as (k & Hk & E & _ & Hor).
      exists k. split; [|exact E]. split; [exact Hk|].
      assert (2 ^ k < 2 ^ 31).
      { destruct Hor as [->|Hor]; [|unfold maximumCapacity in *; lia].
        change (tableSizeFor 1) with 1 in E. rewrite <- E. reflexivity. }
      assert (k < 31); [|lia]. apply (Z.pow_lt_mono_r_iff 2); lia.
    + exists 30. split; [lia|]. apply tableSizeFor_big. lia.
Qed.

Lemma tableSizeFor_pos cap : 1 <= tableSizeFor cap.
Proof.
  destruct (tableSizeFor_pow2 cap) as (k & Hk & ->).
  pose proof (Z.pow_pos_nonneg 2 k ltac:(lia) ltac:(lia)). lia.
Qed.

Lemma bucket_range k h : 0 <= k -> 0 <= bucket_of (2 ^ k) h < 2 ^ k.
Proof.
  intros Hk. unfold bucket_of.
  replace (2 ^ k - 1) with (Z.ones k) by (rewrite Z.ones_equiv; lia).
  rewrite Z.land_comm, Z.land_ones by exact Hk.
  apply Z.mod_pos_bound. apply Z.pow_pos_nonneg; lia.
Qed.

(* ---- lists ---- *)

Lemma upd_length {A} (l : list A) i x : length (upd l i x) = length l.
Proof. revert i. induction l as [|y r IH]; intros [|i]; cbn; auto. Qed.

Lemma nth_error_upd_eq {A} (l : list A) i x : (i < length l)%nat -> nth_error (upd l i x) i = Some x.
Proof.
  revert i. induction l as [|y r IH]; intros [|i] H; cbn in *; try lia; auto. apply IH. lia.
Qed.

Lemma nth_error_upd_neq {A} (l : list A) i j x : i <> j -> nth_error (upd l i x) j = nth_error l j.
Proof.
  revert i j. induction l as [|y r IH]; intros [|i] [|j] H; cbn; auto; try congruence.
Qed.

Lemma nth_error_upd {A} (l : list A) i j x :
  nth_error (upd l i x) j =
  if Nat.eqb i j then (if (j <? length l)%nat then Some x else None) else nth_error l j.
Proof.
  destruct (Nat.eqb_spec i j) as [->|H].
  - destruct (Nat.ltb_spec j (length l)).
    + apply nth_error_upd_eq. assumption.
    + apply nth_error_None. rewrite upd_length. assumption.
  - apply nth_error_upd_neq. exact H.
Qed.

Lemma nth_error_Some_lt {A} (l : list A) i x : nth_error l i = Some x -> (i < length l)%nat.
Proof. intros H. apply nth_error_Some. rewrite H. discriminate. Qed.

Lemma nth_error_snoc {A} (l : list A) x i :
  nth_error (l ++ [x]) i = if Nat.eqb i (length l) then Some x else nth_error l i.
Proof.
  destruct (Nat.eqb_spec i (length l)) as [->|H].
  - rewrite nth_error_app2 by lia. rewrite Nat.sub_diag. reflexivity.
  - destruct (Nat.lt_ge_cases i (length l)).
    + apply nth_error_app1. assumption.
    + rewrite nth_error_app2 by lia.
      replace (nth_error l i) with (@None A) by (symmetry; apply nth_error_None; lia).
      destruct (i - length l)%nat as [|n] eqn:E; [lia|]. cbn. destruct n; reflexivity.
Qed.

Lemma NoDup_bounded_length (c : list nat) n :
  NoDup c -> (forall i, In i c -> (i < n)%nat) -> (length c <= n)%nat.
Proof.
  intros Hn Hb. rewrite <- (seq_length n 0). apply NoDup_incl_length; [exact Hn|].
  intros i Hi. apply in_seq. specialize (Hb i Hi). lia.
Qed.

Lemma nth_error_repeat {A} (x : A) n i : (i < n)%nat -> nth_error (repeat x n) i = Some x.
Proof. revert i. induction n as [|n IH]; intros [|i] H; cbn; try lia; auto. apply IH. lia. Qed.

Lemma NoDup_snoc {A} (l : list A) x : NoDup l -> ~ In x l -> NoDup (l ++ [x]).
Proof.
  intros Hn Hx. induction l as [|y r IH]; cbn.
  - constructor; [intros []|constructor].
  - inversion Hn; subst. constructor.
    + rewrite in_app_iff. intros [H|[H|[]]]; [contradiction|]. subst. apply Hx. left. reflexivity.
    + apply IH; [assumption|]. intros H. apply Hx. right. exact H.
Qed.

Lemma bucket_in_table cap h : 0 <= bucket_of (tableSizeFor cap) h < tableSizeFor cap.
Proof.
  destruct (tableSizeFor_pow2 cap) as (k & Hk & ->). apply bucket_range. lia.
Qed.
