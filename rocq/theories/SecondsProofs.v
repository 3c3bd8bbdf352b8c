From Coq Require Import ZArith List Bool Lia Reals Lra.
From Coq Require Import Floats.SpecFloat.
From Flocq Require Import Core.Core IEEE754.BinarySingleNaN.
From Verif Require Import Int64 Data Seconds SecondsSpec.
Open Scope Z_scope.

Lemma prec53 : FLX.Prec_gt_0 53. Proof. reflexivity. Qed.
Lemma emax1024 : Prec_lt_emax 53 1024. Proof. reflexivity. Qed.
Notation bf := (binary_float 53 1024).
Definition norm (z : Z) : bf := @BinarySingleNaN.binary_normalize 53 1024 prec53 emax1024 mode_NE z 0 false.
Definition quot (x y : bf) : bf := @Bdiv 53 1024 prec53 emax1024 mode_NE x y.

(* as in Flocq's IEEE754/PrimFloat.v *)
Lemma round_aux_equiv sx mx ex lx : SpecFloat.binary_round_aux 53 1024 sx mx ex lx = BinarySingleNaN.binary_round_aux 53 1024 mode_NE sx mx ex lx.
Proof.
  unfold SpecFloat.binary_round_aux, BinarySingleNaN.binary_round_aux. destruct (shr_fexp _ _ _) as [mrs e]. cbn [fst snd].
  assert (E : forall s m l, round_nearest_even m l = choice_mode mode_NE s m l).
  { intros s m l. destruct l as [|c]; [reflexivity|]. destruct c; [|reflexivity..]. cbn. unfold Round.cond_incr. now destruct (Z.even m). }
  now rewrite (E sx).
Qed.
Lemma normalize_equiv z : float_of_int z = B2SF (norm z).
Proof.
  unfold float_of_int, norm. assert (R : forall s m e, SpecFloat.binary_round 53 1024 s m e = BinarySingleNaN.binary_round 53 1024 mode_NE s m e).
  { intros. unfold SpecFloat.binary_round, BinarySingleNaN.binary_round, shl_align_fexp. destruct (shl_align _ _ _). apply round_aux_equiv. }
  destruct z; [reflexivity| |]; cbn [SpecFloat.binary_normalize BinarySingleNaN.binary_normalize]; rewrite B2SF_SF2B; apply R.
Qed.
Lemma div_equiv x y : SFdiv 53 1024 (B2SF x) (B2SF y) = B2SF (quot x y).
Proof.
  unfold quot. destruct x as [sx|sx| |sx mx ex Bx], y as [sy|sy| |sy my ey By]; try reflexivity. cbn [B2SF SFdiv Bdiv]. rewrite B2SF_SF2B.
  destruct (SFdiv_core_binary _ _ _ _ _ _) as [[mz ez] lz]. apply round_aux_equiv.
Qed.

Notation fexp64 := (SpecFloat.fexp 53 1024).
Definition rnd (x : R) : R := round radix2 fexp64 ZnearestE x.
Definition rep (x : R) : Prop := generic_format radix2 fexp64 x.
Lemma valid64 : Valid_exp fexp64. Proof. exact (fexp_correct 53 1024 prec53). Qed.
#[global] Existing Instance valid64.

Lemma rnd_le x y : (x <= y)%R -> (rnd x <= rnd y)%R.
Proof. apply round_le; typeclasses eauto. Qed.
Lemma rnd_rep x : rep x -> rnd x = x.
Proof. apply round_generic; typeclasses eauto. Qed.
(* mantissa and exponent *)
Lemma rep_int m e : Z.abs m <= 2 ^ 53 -> 0 <= e -> rep (IZR (m * 2 ^ e)).
Proof.
  intros Hm He. destruct (Z.eq_dec (Z.abs m) (2 ^ 53)) as [E|E].
  - assert (G : rep (bpow radix2 (53 + e))).
    { apply generic_format_bpow. unfold fexp64, emin. lia. }
    assert (P : bpow radix2 (53 + e) = IZR (2 ^ 53 * 2 ^ e)). { rewrite <- Z.pow_add_r by lia. rewrite <- IZR_Zpower by lia. reflexivity. }
    assert (m = 2 ^ 53 \/ m = - 2 ^ 53) as [-> | ->] by lia; [now rewrite <- P|].
    replace (- 2 ^ 53 * 2 ^ e) with (- (2 ^ 53 * 2 ^ e)) by ring. rewrite opp_IZR, <- P. now apply generic_format_opp.
  - unfold rep. replace (IZR (m * 2 ^ e)) with (F2R (Float radix2 m e)).
    + apply (generic_format_FLT radix2 (-1074) 53). exists (Float radix2 m e); [reflexivity| |cbn; lia]. cbn [Fnum]. change (Zpower radix2 53) with (2 ^ 53). lia.
    + unfold F2R. cbn [Fnum Fexp]. rewrite mult_IZR. f_equal. rewrite <- IZR_Zpower by lia. reflexivity.
Qed.
Lemma small_bound x : (Rabs x <= IZR (2 ^ 64))%R -> Rlt_bool (Rabs (rnd x)) (bpow radix2 1024) = true.
Proof.
  intros H. apply Rlt_bool_true. apply Rle_lt_trans with (IZR (2 ^ 64)).
  - apply abs_round_le_generic; [typeclasses eauto|typeclasses eauto| |exact H]. replace (2 ^ 64) with (1 * 2 ^ 64) by reflexivity. apply rep_int; lia.
  - replace (IZR (2 ^ 64)) with (bpow radix2 64) by (rewrite <- IZR_Zpower by lia; reflexivity). apply bpow_lt. lia.
Qed.
Lemma norm_value z : Z.abs z <= 2 ^ 64 -> B2R (norm z) = rnd (IZR z) /\ is_finite (norm z) = true.
Proof.
  intros H. pose proof (binary_normalize_correct 53 1024 prec53 emax1024 mode_NE z 0 false) as C. cbn zeta in C.
  replace (F2R (Float radix2 z 0)) with (IZR z) in C by (unfold F2R; cbn; lra). change (round radix2 fexp64 (round_mode mode_NE) (IZR z)) with (rnd (IZR z)) in C.
  rewrite small_bound in C; [|rewrite <- abs_IZR; now apply IZR_le]. destruct C as (C1 & C2 & _). split; [exact C1|exact C2].
Qed.
Lemma quot_value x d : is_finite x = true -> (1 <= Z.abs d <= 2 ^ 53) -> (Rabs (B2R x) <= IZR (2 ^ 64))%R ->
  B2R (quot x (norm d)) = rnd (B2R x / IZR d) /\ is_finite (quot x (norm d)) = true.
Proof.
  intros Fx Hd Hx. destruct (norm_value d ltac:(lia)) as [D FD].
  assert (ED : B2R (norm d) = IZR d). { rewrite D. apply rnd_rep. replace d with (d * 2 ^ 0) by lia. apply rep_int; lia. }
  assert (ND : IZR d <> 0%R) by (apply not_0_IZR; lia).
  pose proof (Bdiv_correct 53 1024 prec53 emax1024 mode_NE x (norm d)) as C. rewrite ED in C. specialize (C ND).
  change (round radix2 fexp64 (round_mode mode_NE) (B2R x / IZR d)) with (rnd (B2R x / IZR d)) in C.
  rewrite small_bound in C; [destruct C as (C1 & C2 & _); split; [exact C1|now rewrite <- Fx]|].
  unfold Rdiv. rewrite Rabs_mult, Rabs_inv, <- abs_IZR. apply Rle_trans with (Rabs (B2R x) * 1)%R; [|lra]. apply Rmult_le_compat_l; [apply Rabs_pos|].
  rewrite <- Rinv_1. apply Rinv_le; [lra|]. apply IZR_le. lia.
Qed.

Lemma real_of_B2R (x : bf) : real_of (B2SF x) = B2R x.
Proof.
  destruct x as [s|s| |s m e B]; try reflexivity. cbn [B2SF real_of B2R]. unfold F2R. cbn [Fnum Fexp]. rewrite <- (bpow_powerRZ radix2). destruct s; cbn [cond_Zopp]; [|reflexivity].
  change (- Z.pos m) with (Z.opp (Z.pos m)). rewrite opp_IZR. ring.
Qed.
Lemma finite_B2SF (x : bf) : is_finite x = true -> finite (B2SF x).
Proof. destruct x; cbn; auto; discriminate. Qed.

Lemma div_value a d : Z.abs a <= 2 ^ 63 -> 1 <= Z.abs d <= 2 ^ 53 ->
  exists x : bf, SFdiv 53 1024 (float_of_int a) (float_of_int d) = B2SF x /\ B2R x = rnd (rnd (IZR a) / IZR d) /\ is_finite x = true.
Proof.
  intros Ha Hd. exists (quot (norm a) (norm d)). rewrite !normalize_equiv, div_equiv. split; [reflexivity|].
  destruct (norm_value a ltac:(lia)) as [A FA]. rewrite <- A. apply quot_value; auto. rewrite A. apply abs_round_le_generic; [typeclasses eauto|typeclasses eauto| |].
  - replace (2 ^ 64) with (1 * 2 ^ 64) by reflexivity. apply rep_int; lia.
  - rewrite <- abs_IZR. apply IZR_le. lia.
Qed.

Lemma leb_value (x y : bf) : is_finite x = true -> is_finite y = true -> (B2R x <= B2R y)%R -> SFleb (B2SF x) (B2SF y) = true.
Proof.
  intros Fx Fy L. pose proof (Bcompare_correct 53 1024 x y Fx Fy) as C. unfold Bcompare in C. unfold SFleb. rewrite C. destruct (Rcompare_spec (B2R x) (B2R y)); auto. lra.
Qed.

Lemma err x k : (Rabs x < bpow radix2 k)%R -> -1000 <= k -> (Rabs (rnd x - x) <= bpow radix2 (k - 54))%R.
Proof.
  intros H K. destruct (Req_dec x 0) as [->|N].
  - unfold rnd. rewrite round_0 by typeclasses eauto. rewrite Rminus_0_r, Rabs_R0. apply bpow_ge_0.
  - pose proof (error_le_half_ulp radix2 fexp64 (fun x => negb (Z.even x)) x) as E. fold (rnd x) in E. eapply Rle_trans; [exact E|].
    rewrite ulp_neq_0 by exact N. unfold cexp. pose proof (mag_le_bpow radix2 x k N H) as M.
    assert (L : (bpow radix2 (fexp64 (mag radix2 x)) <= bpow radix2 (k - 53))%R) by (apply bpow_le; unfold SpecFloat.fexp, emin; lia).
    replace (k - 54) with (k - 53 + -1) by lia. rewrite bpow_plus. change (bpow radix2 (-1)) with (/ 2)%R. lra.
Qed.
Lemma err' x k : (Rabs x < bpow radix2 k)%R -> -1000 <= k -> (x - bpow radix2 (k - 54) <= rnd x <= x + bpow radix2 (k - 54))%R.
Proof. intros H K. pose proof (err x k H K) as E. apply Rabs_le_inv in E. lra. Qed.

Lemma p63 : bpow radix2 63 = 9223372036854775808%R. Proof. rewrite <- IZR_Zpower by lia. reflexivity. Qed.
Lemma p34 : bpow radix2 34 = 17179869184%R. Proof. rewrite <- IZR_Zpower by lia. reflexivity. Qed.
Lemma p9 : bpow radix2 9 = 512%R. Proof. rewrite <- IZR_Zpower by lia. reflexivity. Qed.
Lemma m20 : bpow radix2 (-20) = (/ 1048576)%R. Proof. reflexivity. Qed.
Lemma m19 : bpow radix2 (-19) = (/ 524288)%R. Proof. reflexivity. Qed.

Definition ns_value (a : Z) : R := rnd (rnd (IZR a) / 1000000000).
Definition us_value (a : Z) : R := rnd (rnd (IZR a) / 1000000).
Lemma ns_le a b : a <= b -> (ns_value a <= ns_value b)%R.
Proof. intros H. apply rnd_le. apply Rmult_le_compat_r; [lra|]. now apply rnd_le, IZR_le. Qed.
Lemma us_le a b : a <= b -> (us_value a <= us_value b)%R.
Proof. intros H. apply rnd_le. apply Rmult_le_compat_r; [lra|]. now apply rnd_le, IZR_le. Qed.
Lemma rnd_opp x : rnd (- x) = (- rnd x)%R.
Proof. apply round_NE_opp. Qed.
Lemma ns_opp a : ns_value (- a) = (- ns_value a)%R.
Proof. unfold ns_value. rewrite opp_IZR, rnd_opp. replace (- rnd (IZR a) / 1000000000)%R with (- (rnd (IZR a) / 1000000000))%R by field. apply rnd_opp. Qed.

Lemma rep_z m : Z.abs m <= 2 ^ 53 -> rep (IZR m).
Proof. intros H. replace m with (m * 2 ^ 0) by lia. apply rep_int; lia. Qed.

Lemma us_whole s : Z.abs s <= 10000000000 -> us_value (s * 1000000) = IZR s.
Proof.
  intros H. unfold us_value. rewrite (rnd_rep (IZR (s * 1000000))).
  - rewrite mult_IZR. replace (IZR s * 1000000 / 1000000)%R with (IZR s) by field. apply rnd_rep, rep_z. lia.
  - replace (s * 1000000) with (s * 15625 * 2 ^ 6) by lia. apply rep_int; lia.
Qed.
Lemma ns_whole s : Z.abs s <= 4611686018 -> ns_value (s * 1000000000) = IZR s.
Proof.
  intros H. unfold ns_value. rewrite (rnd_rep (IZR (s * 1000000000))).
  - rewrite mult_IZR. replace (IZR s * 1000000000 / 1000000000)%R with (IZR s) by field. apply rnd_rep, rep_z. lia.
  - replace (s * 1000000000) with (s * 1953125 * 2 ^ 9) by lia. apply rep_int; lia.
Qed.
(* far away the numbers are so coarse that whole seconds are met again *)
Lemma ns_whole_le s : 8589934592 <= s <= 9223372036 -> (ns_value (s * 1000000000) <= IZR s)%R.
Proof.
  intros H. assert (R1 : (8589934592 <= IZR s <= 9223372036)%R) by (split; apply IZR_le; lia).
  destruct (err' (IZR (s * 1000000000)) 63) as [_ E]; [|lia|]. { rewrite p63, <- abs_IZR. apply IZR_lt. lia. }
  change (63 - 54) with 9 in E. rewrite p9, mult_IZR in E. rewrite <- mult_IZR in E. set (x := rnd (IZR (s * 1000000000))) in *.
  assert (XL : (0 <= x)%R). { unfold x. rewrite <- (rnd_rep 0) by (apply (rep_z 0); lia). apply rnd_le, (IZR_le 0). lia. }
  rewrite mult_IZR in E. assert (V : (0 <= x / 1000000000 <= IZR s + / 1900000)%R) by (split; lra).
  destruct (Rle_or_lt (ns_value (s * 1000000000)) (IZR s)) as [L|L]; [exact L|exfalso].
  unfold ns_value in L. fold x in L.
  destruct (err' (x / 1000000000) 34) as [_ E2]; [|lia|]. { rewrite p34. rewrite Rabs_pos_eq by lra. lra. }
  change (34 - 54) with (-20) in E2. rewrite m20 in E2.
  assert (SU : (succ radix2 fexp64 (IZR s) <= rnd (x / 1000000000))%R).
  { apply succ_le_lt; [typeclasses eauto| | |exact L]; [apply rep_z; lia|apply generic_format_round; typeclasses eauto]. }
  rewrite succ_eq_pos in SU by lra. rewrite ulp_neq_0 in SU by lra. unfold cexp in SU.
  assert (MG : 34 <= mag radix2 (IZR s)). { apply mag_ge_bpow. rewrite Rabs_pos_eq by lra. change (34 - 1) with 33. replace (bpow radix2 33) with 8589934592%R by (rewrite <- IZR_Zpower by lia; reflexivity). lra. }
  assert (U : (bpow radix2 (-19) <= bpow radix2 (fexp64 (mag radix2 (IZR s))))%R) by (apply bpow_le; unfold SpecFloat.fexp, emin; lia).
  rewrite m19 in U. lra.
Qed.

Lemma ns_whole_ge s : -9223372036 <= s <= -8589934592 -> (IZR s <= ns_value (s * 1000000000))%R.
Proof.
  intros H. pose proof (ns_whole_le (- s) ltac:(lia)) as L. replace (- s * 1000000000) with (- (s * 1000000000)) in L by ring. rewrite ns_opp, opp_IZR in L. lra.
Qed.

Lemma in64_id a : -9223372036854775808 <= a <= 9223372036854775807 -> w64 a = a.
Proof. intros H. apply w64_id. unfold in64, min_int64, max_int64. lia. Qed.

Definition near (s z : Z) : bool := (start_1679 <=? s + z) && (s + z <? start_2262).
Lemma near_true s z : near s z = true <-> start_1679 <= s + z < start_2262.
Proof. unfold near. rewrite andb_true_iff, Z.leb_le, Z.ltb_lt. tauto. Qed.
Lemma near_false s z : near s z = false <-> s + z < start_1679 \/ start_2262 <= s + z.
Proof. unfold near. rewrite andb_false_iff, Z.leb_gt, Z.ltb_ge. tauto. Qed.

Lemma near_value s n z : near s z = true -> is_time n z ->
  exists x : bf, seconds_with_fraction s n z = B2SF x /\ B2R x = ns_value (s * second_ns + n) /\ is_finite x = true.
Proof.
  intros N [Hn Hz]. unfold seconds_with_fraction. unfold near in N. rewrite N. fold (near s z) in N. apply near_true in N. unfold start_1679, start_2262, second_ns in *.
  rewrite in64_id by lia. apply div_value; lia.
Qed.
Lemma far_value s n z : near s z = false -> is_time n z -> in_microseconds s ->
  exists x : bf, seconds_with_fraction s n z = B2SF x /\ B2R x = us_value (s * 1000000 + n / 1000) /\ is_finite x = true.
Proof.
  intros N [Hn Hz] HM. unfold seconds_with_fraction. unfold near in N. rewrite N. unfold in_microseconds in HM.
  assert (D : 0 <= n / 1000 < 1000000) by (split; [apply Z.div_pos; lia|apply Z.div_lt_upper_bound; lia]).
  rewrite (in64_id (s * 1000000)) by lia. rewrite in64_id by lia. apply div_value; lia.
Qed.

Theorem seconds_ordered s n s' n' z : is_time n z -> is_time n' z -> in_microseconds s -> in_microseconds s' -> not_after s n s' n' ->
  finite (seconds_with_fraction s n z) /\ SFleb (seconds_with_fraction s n z) (seconds_with_fraction s' n' z) = true.
Proof.
  intros T T' M M' NA. pose proof T as [Hn Hz]. pose proof T' as [Hn' _]. unfold not_after in NA.
  assert (D : 0 <= n / 1000 < 1000000) by (split; [apply Z.div_pos; lia|apply Z.div_lt_upper_bound; lia]).
  assert (D' : 0 <= n' / 1000 < 1000000) by (split; [apply Z.div_pos; lia|apply Z.div_lt_upper_bound; lia]).
  assert (DM : n <= n' -> n / 1000 <= n' / 1000) by (intros; apply Z.div_le_mono; lia).
  destruct (near s z) eqn:N, (near s' z) eqn:N'.
  - destruct (near_value s n z N T) as (x & -> & Vx & Fx), (near_value s' n' z N' T') as (y & -> & Vy & Fy).
    split; [now apply finite_B2SF|]. apply leb_value; auto. rewrite Vx, Vy. apply ns_le. unfold second_ns. lia.
  - destruct (near_value s n z N T) as (x & -> & Vx & Fx), (far_value s' n' z N' T' M') as (y & -> & Vy & Fy).
    split; [now apply finite_B2SF|]. apply leb_value; auto. rewrite Vx, Vy. apply near_true in N. apply near_false in N'. unfold start_1679, start_2262, second_ns in *.
    apply Rle_trans with (ns_value ((9214646400 - z) * 1000000000)); [apply ns_le; lia|]. eapply Rle_trans; [apply ns_whole_le; lia|].
    rewrite <- us_whole by lia. apply us_le. lia.
  - destruct (far_value s n z N T M) as (x & -> & Vx & Fx), (near_value s' n' z N' T') as (y & -> & Vy & Fy).
    split; [now apply finite_B2SF|]. apply leb_value; auto. rewrite Vx, Vy. apply near_true in N'. apply near_false in N. unfold start_1679, start_2262, second_ns in *.
    apply Rle_trans with (ns_value ((-9183024000 - z) * 1000000000)); [|apply ns_le; lia]. eapply Rle_trans; [|apply ns_whole_ge; lia].
    rewrite <- us_whole by lia. apply us_le. lia.
  - destruct (far_value s n z N T M) as (x & -> & Vx & Fx), (far_value s' n' z N' T' M') as (y & -> & Vy & Fy).
    split; [now apply finite_B2SF|]. apply leb_value; auto. rewrite Vx, Vy. apply us_le. lia.
Qed.

(* at most three microseconds off *)
Theorem seconds_accurate s n z : is_time n z -> start_1679 <= s + z < start_2262 ->
  (Rabs (real_of (seconds_with_fraction s n z) - (IZR s + IZR n / 1000000000)) <= 3 / 1000000)%R.
Proof.
  intros T N. destruct (near_value s n z (proj2 (near_true s z) N) T) as (x & -> & Vx & _). rewrite real_of_B2R, Vx. destruct T as [Hn Hz].
  unfold start_1679, start_2262, second_ns in *. set (a := s * 1000000000 + n). assert (A : Z.abs a < 9223372036854775808) by (unfold a; lia).
  replace (IZR s + IZR n / 1000000000)%R with (IZR a / 1000000000)%R by (unfold a; rewrite plus_IZR, mult_IZR; field).
  assert (A2 : (- 9223372036854775808 < IZR a < 9223372036854775808)%R) by (split; [apply (IZR_lt (-9223372036854775808))|apply IZR_lt]; lia).
  destruct (err' (IZR a) 63) as [L1 L2]; [|lia|]. { rewrite p63, <- abs_IZR. now apply IZR_lt. }
  change (63 - 54) with 9 in *. rewrite p9 in *. set (r := rnd (IZR a)) in *.
  destruct (err' (r / 1000000000) 34) as [L3 L4]; [|lia|]. { rewrite p34. apply Rabs_def1; lra. }
  change (34 - 54) with (-20) in *. rewrite m20 in *. unfold ns_value. fold r. apply Rabs_le. lra.
Qed.

Lemma same_float (x y : bf) : B2R x = B2R y -> B2R x <> 0%R -> x = y.
Proof.
  intros E N. apply B2R_inj; [apply is_finite_strict_B2R; exact N|apply is_finite_strict_B2R; congruence|exact E].
Qed.
Lemma whole_seconds_value s z : Z.abs s <= 4611686018 -> -86400 < z < 86400 -> seconds_with_fraction s 0 z = float_of_int s.
Proof.
  intros Hs Hz. destruct (Z.eq_dec s 0) as [->|N].
  - unfold seconds_with_fraction. destruct (_ && _)%bool; vm_compute; reflexivity.
  - assert (T : is_time 0 z) by (split; lia).
    assert (E : near s z = true) by (apply near_true; unfold start_1679, start_2262; lia).
    destruct (near_value s 0 z E T) as (x & -> & Vx & Fx). rewrite normalize_equiv. f_equal. unfold second_ns in Vx. rewrite Z.add_0_r, ns_whole in Vx by exact Hs.
    apply same_float; rewrite Vx; [|now apply not_0_IZR]. destruct (norm_value s ltac:(lia)) as [V _]. rewrite V. symmetry. apply rnd_rep, rep_z. lia.
Qed.

Lemma ltb_value (x y : bf) : is_finite x = true -> is_finite y = true -> (B2R x < B2R y)%R -> SFltb (B2SF x) (B2SF y) = true.
Proof.
  intros Fx Fy L. pose proof (Bcompare_correct 53 1024 x y Fx Fy) as C. unfold Bcompare in C. unfold SFltb. rewrite C. destruct (Rcompare_spec (B2R x) (B2R y)); auto; lra.
Qed.
Theorem seconds_distinct s n z s' n' z' : is_time n z -> is_time n' z' -> start_1679 <= s + z < start_2262 -> start_1679 <= s' + z' < start_2262 ->
  s * 1000000000 + n + 6001 <= s' * 1000000000 + n' -> SFltb (seconds_with_fraction s n z) (seconds_with_fraction s' n' z') = true.
Proof.
  intros T T' N N' L. pose proof (seconds_accurate s n z T N) as A. pose proof (seconds_accurate s' n' z' T' N') as A'.
  destruct (near_value s n z (proj2 (near_true s z) N) T) as (x & Ex & _ & Fx). destruct (near_value s' n' z' (proj2 (near_true s' z') N') T') as (y & Ey & _ & Fy).
  rewrite Ex in A |- *. rewrite Ey in A' |- *. rewrite real_of_B2R in A, A'. apply ltb_value; auto. apply Rabs_le_inv in A, A'.
  apply IZR_le in L. rewrite !plus_IZR, !mult_IZR in L. lra.
Qed.

Lemma back_from_int s : Z.abs s <= 2 ^ 53 -> time_of_float (float_of_int s) = (s, 0).
Proof.
  intros Hs. rewrite normalize_equiv. destruct (norm_value s ltac:(lia)) as [V FV]. rewrite rnd_rep in V by (apply rep_z; lia).
  destruct (norm s) as [sg|sg| |sg m e B] eqn:EN; try discriminate FV.
  - cbn in V. symmetry in V. apply eq_IZR_R0 in V as ->. destruct sg; vm_compute; reflexivity.
  - cbn [B2SF B2R] in *. clear EN FV B. unfold F2R in V. cbn [Fnum Fexp] in V.
    assert (OK : in64b s = true) by (unfold in64b, min_int64, max_int64; apply andb_true_iff; split; apply Z.leb_le; lia).
    assert (U : unix_time s 0 = (s, 0)). { unfold unix_time. rewrite Z.div_0_l, Z.mod_0_l by discriminate. rewrite Z.add_0_r, w64_id by (unfold in64, min_int64, max_int64; lia). reflexivity. }
    assert (Z0 : forall b, float_to_int (SFmul 53 1024 (S754_zero b) (float_of_int second_ns)) = 0) by (intros []; vm_compute; reflexivity).
    unfold time_of_float. cbn [float_to_int fraction]. destruct (0 <=? e) eqn:He.
    + apply Z.leb_le in He. rewrite <- IZR_Zpower, <- mult_IZR in V by lia. apply eq_IZR in V. change (Zpower radix2 e) with (2 ^ e) in V. rewrite Z0, <- U. f_equal.
      destruct sg; cbn [cond_Zopp] in V; [replace (- (Z.pos m * 2 ^ e)) with s by lia|replace (Z.pos m * 2 ^ e) with s by lia]; now rewrite OK.
    + apply Z.leb_gt in He.
      assert (V2 : cond_Zopp sg (Z.pos m) = s * 2 ^ (- e)).
      { apply eq_IZR. rewrite mult_IZR. change (2 ^ (- e)) with (Zpower radix2 (- e)). rewrite IZR_Zpower by lia. rewrite <- V, Rmult_assoc, <- bpow_plus. replace (e + - e) with 0 by lia. cbn [bpow]. ring. }
      assert (P : 0 < 2 ^ (- e)) by (apply Z.pow_pos_nonneg; lia).
      assert (A : Z.pos m = Z.abs s * 2 ^ (- e)). { rewrite <- (Z.abs_eq (2 ^ (- e))) by lia. rewrite <- Z.abs_mul, <- V2. now destruct sg. }
      rewrite A, Z.div_mul, Z.mod_mul by lia. assert (SG : (if sg then - Z.abs s else Z.abs s) = s). { destruct sg; cbn [cond_Zopp] in V2; nia. }
      rewrite SG, OK. match goal with |- unix_time s ?x = _ => replace x with 0; [exact U|symmetry] end. destruct sg; cbn [Z.opp SpecFloat.binary_normalize]; apply Z0.
Qed.
Theorem whole_seconds s z : Z.abs s <= 4611686018 -> -86400 < z < 86400 -> seconds_with_fraction s 0 z = float_of_int s /\ time_of_float (seconds_with_fraction s 0 z) = (s, 0).
Proof. intros Hs Hz. rewrite whole_seconds_value by assumption. split; [reflexivity|]. apply back_from_int. lia. Qed.
