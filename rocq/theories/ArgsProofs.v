(* Proofs for C83. *)
From Coq Require Import ZArith List Bool Lia.
From Verif Require Import Int64 Data DataSpec DataProofs HMap Slices SlicesSpec SlicesProofs Args ArgsSpec.
Import ListNotations.
Open Scope Z_scope.

Lemma args_equal l l' : arr_equals (AArgs l) (AArr l') = veq (VArr l) (VArr l') /\ arr_hash (AArgs l) = arr_hash (AArr l).
Proof. split; reflexivity. Qed.

Lemma assert_size_iff l min max : assert_size l min max = true <-> min <= Z.of_nat (length l) <= max.
Proof. unfold assert_size. rewrite negb_true_iff, orb_false_iff, !Z.ltb_ge. lia. Qed.

Lemma arg_iff inst l n v : arg inst l n = Some v <-> 0 <= n /\ nth_error l (Z.to_nat n) = Some v /\ inst v = true.
Proof.
  unfold arg. split.
  - destruct (0 <=? n) eqn:E; [|discriminate]. destruct (n <? Z.of_nat (length l)); [|discriminate]. cbn [andb].
    destruct (nth_error l (Z.to_nat n)) as [x|]; [|discriminate]. destruct (inst x) eqn:I; [|discriminate]. intros [= <-].
    apply Z.leb_le in E. auto.
  - intros (E & N & I). assert (L : (Z.to_nat n < length l)%nat) by (apply nth_error_Some; congruence).
    assert (M : (n <? Z.of_nat (length l)) = true) by (apply Z.ltb_lt; lia).
    rewrite (proj2 (Z.leb_le 0 n) E), M. cbn [andb]. now rewrite N, I.
Qed.

Lemma expectation_right min max n : in64 min -> in64 max -> 0 <= min <= max -> n <= max_int64 -> (says (expectation min max) n <-> min <= n <= max).
Proof.
  intros I J L N. unfold expectation. destruct (Z.eqb_spec max max_int64) as [->|M]; [cbn [says]; lia|].
  destruct (Z.eqb_spec min max) as [->|Q]; [cbn [says]; lia|].
  rewrite w64_id by (unfold in64 in *; unfold min_int64, max_int64 in *; lia).
  destruct (Z.eqb_spec (max - min) 1) as [O|O]; cbn [says]; lia.
Qed.

Section Store.
Variable V : Type.
Variable eqc : V -> option V -> bool.
Variables fz th : V -> V.
Variable grow : nat -> nat -> nat.

Lemma astep_rel w sw o : rel V w sw -> frozen_arguments V w o ->
  rel V (fst (astep V eqc fz th grow w o)) (fst (sastep V eqc fz th sw o)) /\ snd (astep V eqc fz th grow w o) = snd (sastep V eqc fz th sw o).
Proof.
  intros R H. destruct o as [o|a]; [now apply step_rel|]. cbn [astep sastep] in *. unfold with_array, sarr.
  destruct (nth_error (arrays V w) a) as [x|] eqn:E.
  - pose proof (H x E) as Fz. pose proof R as (R1 & R2 & R3). destruct (R2 a x E) as (l & S & F & C). rewrite S, Fz.
    apply rel_new; auto. right. split; [reflexivity|]. intros b y B Q. destruct (Nat.eq_dec b a) as [->|N]; [congruence|].
    now destruct (R3 b a y x B E N Q).
  - rewrite (rel_none V w sw a R E). auto.
Qed.
Lemma arun_rel os : forall w sw, rel V w sw -> frozen_run V eqc fz th grow w os ->
  rel V (fst (arun V eqc fz th grow w os)) (fst (sarun V eqc fz th sw os)) /\ snd (arun V eqc fz th grow w os) = snd (sarun V eqc fz th sw os).
Proof.
  induction os as [|o r IH]; intros w sw R H; cbn [arun sarun]; [auto|]. destruct H as [H1 H2].
  destruct (astep_rel w sw o R H1) as [S1 S2].
  destruct (astep V eqc fz th grow w o) as [w1 x]. destruct (sastep V eqc fz th sw o) as [sw1 x']. cbn [fst snd] in *. subst x'.
  destruct (IH w1 sw1 S1 H2) as [I1 I2].
  destruct (arun V eqc fz th grow w1 r) as [w2 xs]. destruct (sarun V eqc fz th sw1 r) as [sw2 xs']. cbn [fst snd] in *. now subst.
Qed.
Lemma arguments_independent os : frozen_run V eqc fz th grow (init V) os ->
  snd (arun V eqc fz th grow (init V) os) = snd (sarun V eqc fz th [] os).
Proof. intros H. apply (arun_rel os (init V) [] (rel_init V) H). Qed.
End Store.
