(* The conversion of integers to binary64 (SpecFloat.binary_normalize, used by
   Data.float_of_int) is monotone on 64 bit integers and exact up to 2^53. *)
From Coq Require Import ZArith List Bool Lia.
From Coq Require Import Floats.SpecFloat.
From Verif Require Import Int64 Data DataSpec DataProofs.
Import ListNotations.
Open Scope Z_scope.

Lemma digits_log2 p : Zpos (digits2_pos p) = Z.log2 (Zpos p) + 1.
Proof.
  induction p as [p IH|p IH|]; cbn [digits2_pos]; try reflexivity;
    rewrite Pos2Z.inj_succ, IH.
  - rewrite (Pos2Z.inj_xI p), Z.log2_succ_double by lia. lia.
  - rewrite (Pos2Z.inj_xO p), Z.log2_double by lia. lia.
Qed.

Lemma digits_bounds p (d := Zpos (digits2_pos p)) : 2 ^ (d - 1) <= Zpos p < 2 ^ d.
Proof.
  subst d. rewrite digits_log2. pose proof (Z.log2_spec (Zpos p) eq_refl) as H.
  replace (Z.log2 (Zpos p) + 1 - 1) with (Z.log2 (Zpos p)) by lia. exact H.
Qed.

Lemma digits_unique p d : 0 < d -> 2 ^ (d - 1) <= Zpos p < 2 ^ d -> Zpos (digits2_pos p) = d.
Proof.
  intros Hd H. rewrite digits_log2. replace d with (Z.succ (d - 1)) in H at 2 by lia.
  apply Z.log2_unique in H; lia.
Qed.

Lemma nat_iter_add {A} (f : A -> A) n m x : Nat.iter (n + m) f x = Nat.iter n f (Nat.iter m f x).
Proof. induction n as [|n IH]; [reflexivity|]. cbn. now f_equal. Qed.

Lemma iter_pos_nat {A} (f : A -> A) p x : iter_pos f p x = Nat.iter (Pos.to_nat p) f x.
Proof.
  revert x. induction p as [p IH|p IH|]; intros x; cbn [iter_pos].
  - rewrite !IH. rewrite Pos2Nat.inj_xI.
    replace (S (2 * Pos.to_nat p)) with (Pos.to_nat p + (Pos.to_nat p + 1))%nat by lia.
    rewrite !nat_iter_add. reflexivity.
  - rewrite !IH, Pos2Nat.inj_xO.
    replace (2 * Pos.to_nat p)%nat with (Pos.to_nat p + Pos.to_nat p)%nat by lia.
    now rewrite nat_iter_add.
  - reflexivity.
Qed.

Lemma shr_1_nonneg m r s : 0 <= m ->
  shr_1 (Build_shr_record m r s) = Build_shr_record (m / 2) (Z.odd m) (r || s).
Proof.
  intros H. unfold shr_1. destruct m as [|[p|p|]|p]; try lia; try reflexivity.
  - f_equal. rewrite Pos2Z.inj_xI, Z.add_comm, Z.mul_comm, Z.div_add by lia. reflexivity.
  - f_equal. rewrite Pos2Z.inj_xO, Z.mul_comm, Z.div_mul by lia. reflexivity.
Qed.

Lemma shr_iter m n : 0 <= m ->
  Nat.iter (S n) shr_1 (Build_shr_record m false false) =
  Build_shr_record (m / 2 ^ (Z.of_nat n + 1)) (Z.odd (m / 2 ^ Z.of_nat n)) (negb (m mod 2 ^ Z.of_nat n =? 0)).
Proof.
  intros H. induction n as [|n IH].
  - cbn [Nat.iter nat_rect]. rewrite shr_1_nonneg by assumption.
    change (2 ^ (Z.of_nat 0 + 1)) with 2. change (2 ^ Z.of_nat 0) with 1.
    rewrite Z.div_1_r, Z.mod_1_r. reflexivity.
  - change (Nat.iter (S (S n)) shr_1 (Build_shr_record m false false))
      with (shr_1 (Nat.iter (S n) shr_1 (Build_shr_record m false false))).
    rewrite IH, shr_1_nonneg by (apply Z.div_pos; [assumption|apply Z.pow_pos_nonneg; lia]).
    replace (Z.of_nat (S n)) with (Z.of_nat n + 1) by lia.
    assert (P : 0 < 2 ^ Z.of_nat n) by (apply Z.pow_pos_nonneg; lia).
    f_equal.
    + assert (P1 : 0 < 2 ^ (Z.of_nat n + 1)) by (apply Z.pow_pos_nonneg; lia).
      rewrite Z.div_div by lia. f_equal. change 2 with (2 ^ 1) at 2.
      rewrite <- Z.pow_add_r by lia. reflexivity.
    + rewrite Z.pow_add_r by lia. change (2 ^ 1) with 2.
      rewrite Z.rem_mul_r by lia. rewrite Zmod_odd.
      destruct (Z.odd (m / 2 ^ Z.of_nat n)); cbn [orb].
      * symmetry. apply negb_true_iff, Z.eqb_neq.
        pose proof (Z.mod_pos_bound m (2 ^ Z.of_nat n) P). lia.
      * f_equal. f_equal. lia.
Qed.

(* m / 2^s rounded to nearest, ties to even *)
Definition rne (m s : Z) : Z :=
  let q := m / 2 ^ s in
  match (2 * (m mod 2 ^ s)) ?= 2 ^ s with
  | Lt => q
  | Eq => if Z.even q then q else q + 1
  | Gt => q + 1
  end.

Lemma round_iter m n : 0 <= m ->
  let r := Nat.iter (S n) shr_1 (Build_shr_record m false false) in
  round_nearest_even (shr_m r) (loc_of_shr_record r) = rne m (Z.of_nat n + 1).
Proof.
  intros H r. subst r. rewrite shr_iter by assumption.
  assert (P : 0 < 2 ^ Z.of_nat n) by (apply Z.pow_pos_nonneg; lia).
  unfold rne. set (q := m / 2 ^ (Z.of_nat n + 1)).
  rewrite Z.pow_add_r by lia. change (2 ^ 1) with 2.
  rewrite Z.rem_mul_r by lia. rewrite Zmod_odd.
  pose proof (Z.mod_pos_bound m (2 ^ Z.of_nat n) P) as B.
  cbn [shr_m]. unfold loc_of_shr_record.
  destruct (Z.odd (m / 2 ^ Z.of_nat n)); destruct (Z.eqb_spec (m mod 2 ^ Z.of_nat n) 0) as [E|E];
    cbn [negb round_nearest_even].
  - rewrite E. replace (2 * (0 + 2 ^ Z.of_nat n * 1)) with (2 ^ Z.of_nat n * 2) by lia.
    now rewrite Z.compare_refl.
  - rewrite (proj2 (Z.compare_gt_iff _ _)) by lia. reflexivity.
  - rewrite E. rewrite (proj2 (Z.compare_lt_iff _ _)) by lia. reflexivity.
  - rewrite (proj2 (Z.compare_lt_iff _ _)) by lia. reflexivity.
Qed.

(* exponent and mantissa of the float of a positive integer *)
Definition fl_parts (p : Z) : Z * Z :=
  let d := Z.log2 p + 1 in
  if d <=? 53 then (d - 53, p * 2 ^ (53 - d))
  else let r := rne p (d - 53) in
       if r =? 2 ^ 53 then (d - 52, 2 ^ 52) else (d - 53, r).

Lemma rne_bounds p d : 53 < d -> 2 ^ (d - 1) <= p < 2 ^ d -> 2 ^ 52 <= rne p (d - 53) <= 2 ^ 53.
Proof.
  intros Hd H. unfold rne. set (s := d - 53).
  assert (P : 0 < 2 ^ s) by (apply Z.pow_pos_nonneg; lia).
  assert (L : 2 ^ 52 <= p / 2 ^ s).
  { apply Z.div_le_lower_bound; auto. rewrite Z.mul_comm, <- Z.pow_add_r by lia.
    replace (52 + s) with (d - 1) by lia. lia. }
  assert (U : p / 2 ^ s < 2 ^ 53).
  { apply Z.div_lt_upper_bound; auto. rewrite Z.mul_comm, <- Z.pow_add_r by lia.
    replace (53 + s) with d by lia. lia. }
  destruct (_ ?= _); [destruct (Z.even _)| |]; lia.
Qed.

Lemma fl_parts_ok sx p : Zpos p < 2 ^ 64 ->
  binary_round 53 1024 sx p 0 = S754_finite sx (Z.to_pos (snd (fl_parts (Zpos p)))) (fst (fl_parts (Zpos p))).
Proof.
  intros Hp. unfold fl_parts. set (d := Z.log2 (Zpos p) + 1).
  assert (Ed : Zpos (digits2_pos p) = d) by apply digits_log2.
  assert (Bd := digits_bounds p). cbn zeta in Bd. rewrite Ed in Bd.
  assert (D1 : 1 <= d) by lia.
  assert (D64 : d <= 64).
  { destruct (Z.le_gt_cases d 64) as [L|L]; [exact L|exfalso].
    assert (2 ^ 64 <= 2 ^ (d - 1)) by (apply Z.pow_le_mono_r; lia). lia. }
  assert (FX : forall x, -100 < x -> fexp 53 1024 x = x - 53).
  { intros x Hx. unfold fexp, emin. lia. }
  unfold binary_round. rewrite Ed, Z.add_0_r, FX by lia.
  assert (SM : forall m, round_nearest_even m loc_Exact = m) by reflexivity.
  (* a mantissa of 53 digits is left alone *)
  assert (DONE : forall m e, 2 ^ 52 <= Zpos m < 2 ^ 53 -> -60 < e <= 20 ->
    shr_fexp 53 1024 (Zpos m) e loc_Exact = (Build_shr_record (Zpos m) false false, e)).
  { intros m e Hm He. unfold shr_fexp. cbn [Zdigits2 shr_record_of_loc].
    rewrite (digits_unique m 53) by (try exact Hm; lia). rewrite FX by lia.
    replace (53 + e - 53 - e) with 0 by lia. reflexivity. }
  destruct (Z.leb_spec d 53) as [L|L]; cbn [fst snd].
  - assert (SH : shl_align p 0 (d - 53) = (Z.to_pos (Zpos p * 2 ^ (53 - d)), d - 53)).
    { unfold shl_align. rewrite Z.sub_0_r. destruct (d - 53) as [|q|q] eqn:Eq.
      - replace (53 - d) with 0 by lia. rewrite Z.mul_1_r. reflexivity.
      - lia.
      - f_equal. replace (53 - d) with (Zpos q) by lia.
        apply Pos2Z.inj. rewrite Z2Pos.id by (apply Z.mul_pos_pos; [lia|apply Z.pow_pos_nonneg; lia]).
        rewrite shift_pos_correct. unfold Z.pow. apply Z.mul_comm. }
    rewrite SH.
    assert (PP : 2 ^ 52 <= Zpos p * 2 ^ (53 - d) < 2 ^ 53).
    { replace (2 ^ 52) with (2 ^ (d - 1) * 2 ^ (53 - d)) by (rewrite <- Z.pow_add_r by lia; f_equal; lia).
      replace (2 ^ 53) with (2 ^ d * 2 ^ (53 - d)) by (rewrite <- Z.pow_add_r by lia; f_equal; lia).
      assert (0 < 2 ^ (53 - d)) by (apply Z.pow_pos_nonneg; lia).
      split; [apply Z.mul_le_mono_nonneg_r|apply Z.mul_lt_mono_pos_r]; lia. }
    set (m := Z.to_pos (Zpos p * 2 ^ (53 - d))).
    assert (Em : Zpos m = Zpos p * 2 ^ (53 - d)) by (apply Z2Pos.id; lia).
    unfold binary_round_aux. rewrite DONE by lia. cbn [shr_m loc_of_shr_record]. rewrite SM, DONE by lia.
    cbn [shr_m]. rewrite (proj2 (Z.leb_le _ _)) by lia. reflexivity.
  - assert (SH : shl_align p 0 (d - 53) = (p, 0)).
    { unfold shl_align. rewrite Z.sub_0_r. destruct (d - 53) as [|q|q] eqn:Eq; try reflexivity. lia. }
    rewrite SH. unfold binary_round_aux.
    assert (S1 : shr_fexp 53 1024 (Zpos p) 0 loc_Exact =
      (Nat.iter (S (Z.to_nat (d - 54))) shr_1 (Build_shr_record (Zpos p) false false), d - 53)).
    { unfold shr_fexp. cbn [Zdigits2 shr_record_of_loc]. rewrite Ed, FX by lia.
      unfold shr. destruct (d + 0 - 53 - 0) as [|q|q] eqn:Eq; try lia.
      rewrite iter_pos_nat. f_equal; [f_equal; lia|lia]. }
    rewrite S1, round_iter by lia.
    replace (Z.of_nat (Z.to_nat (d - 54)) + 1) with (d - 53) by lia.
    pose proof (rne_bounds (Zpos p) d L Bd) as RB.
    set (r := rne (Zpos p) (d - 53)) in *.
    destruct (Z.eqb_spec r (2 ^ 53)) as [E|E]; cbn [fst snd].
    + rewrite E. unfold shr_fexp.
      change (Zdigits2 (2 ^ 53)) with 54. rewrite FX by lia.
      replace (54 + (d - 53) - 53 - (d - 53)) with 1 by lia.
      change (shr (shr_record_of_loc (2 ^ 53) loc_Exact) (d - 53) 1)
        with (Build_shr_record (2 ^ 52) false false, d - 53 + 1).
      replace (d - 53 + 1) with (d - 52) by lia. cbn [shr_m].
      change (2 ^ 52) with (Zpos (Z.to_pos (2 ^ 52))). cbn match.
      rewrite (proj2 (Z.leb_le _ _)) by lia. reflexivity.
    + destruct r as [|m|m]; try lia. rewrite DONE by lia. cbn [shr_m].
      rewrite (proj2 (Z.leb_le _ _)) by lia. reflexivity.
Qed.

(* lexicographic order of the parts *)
Definition parts_le (a b : Z * Z) : Prop := fst a < fst b \/ fst a = fst b /\ snd a <= snd b.
Definition parts_lt (a b : Z * Z) : Prop := fst a < fst b \/ fst a = fst b /\ snd a < snd b.

Lemma rne_mono p q s : 0 <= s -> p <= q -> rne p s <= rne q s.
Proof.
  intros Hs H. unfold rne. assert (P : 0 < 2 ^ s) by (apply Z.pow_pos_nonneg; lia).
  pose proof (Z.div_le_mono p q (2 ^ s) P H) as D.
  pose proof (Z.div_mod p (2 ^ s) ltac:(lia)) as Ep. pose proof (Z.div_mod q (2 ^ s) ltac:(lia)) as Eq.
  destruct (Z.compare_spec (2 * (p mod 2 ^ s)) (2 ^ s)); destruct (Z.compare_spec (2 * (q mod 2 ^ s)) (2 ^ s));
  destruct (Z.eq_dec (p / 2 ^ s) (q / 2 ^ s)) as [E|E];
    try rewrite E in *; repeat match goal with |- context [if ?b then _ else _] => destruct b end; try lia.
Qed.

Lemma fl_parts_mono p q : 0 < p -> p <= q -> parts_le (fl_parts p) (fl_parts q).
Proof.
  intros Hp Hpq. unfold fl_parts.
  pose proof (Z.log2_spec p Hp) as Bp. pose proof (Z.log2_spec q ltac:(lia)) as Bq.
  pose proof (Z.log2_le_mono p q Hpq) as LL. pose proof (Z.log2_nonneg p).
  set (dp := Z.log2 p + 1). set (dq := Z.log2 q + 1).
  unfold Z.succ in *. fold dp in Bp. fold dq in Bq.
  replace (Z.log2 p) with (dp - 1) in * by lia. replace (Z.log2 q) with (dq - 1) in * by lia.
  destruct (Z.leb_spec dp 53) as [L1|L1]; destruct (Z.leb_spec dq 53) as [L2|L2]; unfold parts_le; cbn [fst snd]; try lia.
  - destruct (Z.eq_dec dp dq) as [E|E]; [right|left; lia]. rewrite E. split; [reflexivity|].
    apply Z.mul_le_mono_nonneg_r; [apply Z.pow_nonneg; lia|lia].
  - destruct (_ =? _); cbn [fst snd]; lia.
  - pose proof (rne_bounds p dp L1 Bp). pose proof (rne_bounds q dq L2 Bq).
    destruct (Z.eq_dec dp dq) as [E|E].
    + rewrite E in *. pose proof (rne_mono p q (dq - 53) ltac:(lia) Hpq).
      destruct (Z.eqb_spec (rne p (dq - 53)) (2 ^ 53)); destruct (Z.eqb_spec (rne q (dq - 53)) (2 ^ 53)); cbn [fst snd]; lia.
    + destruct (Z.eqb_spec (rne p (dp - 53)) (2 ^ 53)); destruct (Z.eqb_spec (rne q (dq - 53)) (2 ^ 53)); cbn [fst snd]; lia.
Qed.

Lemma fl_parts_strict p q : 0 < p -> p < q -> q <= 2 ^ 53 -> parts_lt (fl_parts p) (fl_parts q).
Proof.
  intros Hp Hpq Hq. unfold fl_parts.
  pose proof (Z.log2_spec p Hp) as Bp. pose proof (Z.log2_spec q ltac:(lia)) as Bq.
  pose proof (Z.log2_le_mono p q ltac:(lia)) as LL. pose proof (Z.log2_nonneg p).
  set (dp := Z.log2 p + 1). set (dq := Z.log2 q + 1).
  unfold Z.succ in *. fold dp in Bp. fold dq in Bq.
  replace (Z.log2 p) with (dp - 1) in * by lia. replace (Z.log2 q) with (dq - 1) in * by lia.
  destruct (Z.eq_dec q (2 ^ 53)) as [E53|N53].
  - assert (dq = 54) by (subst dq q; reflexivity).
    assert (dp <= 53).
    { destruct (Z.le_gt_cases dp 53) as [L|L]; [exact L|exfalso].
      assert (2 ^ 53 <= 2 ^ (dp - 1)) by (apply Z.pow_le_mono_r; lia). lia. }
    rewrite (proj2 (Z.leb_le dp 53)) by lia. rewrite (proj2 (Z.leb_gt dq 53)) by lia.
    destruct (_ =? _); left; cbn [fst]; lia.
  - assert (dq <= 53).
    { destruct (Z.le_gt_cases dq 53) as [L|L]; [exact L|exfalso].
      assert (2 ^ 53 <= 2 ^ (dq - 1)) by (apply Z.pow_le_mono_r; lia). lia. }
    rewrite (proj2 (Z.leb_le dp 53)) by lia. rewrite (proj2 (Z.leb_le dq 53)) by lia.
    unfold parts_lt; cbn [fst snd].
    destruct (Z.eq_dec dp dq) as [E|E]; [right|left; lia]. rewrite E. split; [reflexivity|].
    apply Z.mul_lt_mono_pos_r; [apply Z.pow_pos_nonneg; lia|lia].
Qed.

Lemma fl_parts_pos p : 0 < p -> 0 < snd (fl_parts p).
Proof.
  intros Hp. unfold fl_parts. destruct (Z.leb_spec (Z.log2 p + 1) 53) as [L|L].
  - cbn [snd]. apply Z.mul_pos_pos; [lia|apply Z.pow_pos_nonneg; lia].
  - pose proof (Z.log2_spec p Hp) as B.
    pose proof (rne_bounds p (Z.log2 p + 1) L) as R.
    replace (Z.log2 p + 1 - 1) with (Z.log2 p) in R by lia. specialize (R B).
    destruct (_ =? _); cbn [snd]; lia.
Qed.

(* the ordering key of the float of an integer *)
Definition ikey (z : Z) : Z * (Z * Z) :=
  match z with
  | Z0 => (0, (0, 0))
  | Zpos p => (1, (fst (fl_parts z), snd (fl_parts z)))
  | Zneg p => (-1, (- fst (fl_parts (Zpos p)), - snd (fl_parts (Zpos p))))
  end.

Lemma float_of_int_key z : in64 z -> float_of_int z <> S754_nan /\ fkey (float_of_int z) = ikey z.
Proof.
  intros H. unfold in64, min_int64, max_int64 in H. unfold float_of_int, binary_normalize, ikey.
  destruct z as [|p|p].
  - split; [discriminate|reflexivity].
  - rewrite fl_parts_ok by lia. split; [discriminate|]. cbn [fkey].
    rewrite Z2Pos.id by (apply fl_parts_pos; lia). reflexivity.
  - rewrite fl_parts_ok by lia. split; [discriminate|]. cbn [fkey].
    rewrite Z2Pos.id by (apply fl_parts_pos; lia). reflexivity.
Qed.

Lemma kcmp_parts s a b : parts_le a b -> kcmp (s, a) (s, b) <> Gt.
Proof.
  unfold kcmp, parts_le. cbn [fst snd]. rewrite Z.compare_refl. intros [H|[H1 H2]].
  - rewrite (proj2 (Z.compare_lt_iff _ _)) by lia. discriminate.
  - rewrite H1, Z.compare_refl. exact H2.
Qed.

Lemma kcmp_parts_lt s a b : parts_lt a b -> kcmp (s, a) (s, b) = Lt.
Proof.
  unfold kcmp, parts_lt. cbn [fst snd]. rewrite Z.compare_refl. intros [H|[H1 H2]].
  - now rewrite (proj2 (Z.compare_lt_iff _ _)) by lia.
  - rewrite H1, Z.compare_refl. now apply Z.compare_lt_iff.
Qed.

Lemma kcmp_first a b : fst a < fst b -> kcmp a b = Lt.
Proof. intros H. unfold kcmp. now rewrite (proj2 (Z.compare_lt_iff _ _) H). Qed.

Lemma ikey_mono x y : x <= y -> kcmp (ikey x) (ikey y) <> Gt.
Proof.
  intros H. destruct x as [|p|p], y as [|q|q]; try lia; cbn [ikey];
    try (rewrite kcmp_first by (cbn; lia); discriminate).
  - discriminate.
  - apply kcmp_parts. pose proof (fl_parts_mono (Zpos p) (Zpos q) ltac:(lia) ltac:(lia)) as M.
    unfold parts_le in *. cbn [fst snd]. exact M.
  - apply kcmp_parts. pose proof (fl_parts_mono (Zpos q) (Zpos p) ltac:(lia) ltac:(lia)) as M.
    unfold parts_le in *. cbn [fst snd]. lia.
Qed.

Lemma ikey_strict x y : - 2 ^ 53 <= x -> x < y -> y <= 2 ^ 53 -> kcmp (ikey x) (ikey y) = Lt.
Proof.
  intros Hx H Hy. destruct x as [|p|p], y as [|q|q]; try lia; cbn [ikey];
    try (rewrite kcmp_first by (cbn; lia); reflexivity).
  - apply kcmp_parts_lt. pose proof (fl_parts_strict (Zpos p) (Zpos q) ltac:(lia) ltac:(lia) ltac:(lia)) as M.
    unfold parts_lt in *. cbn [fst snd]. exact M.
  - apply kcmp_parts_lt. pose proof (fl_parts_strict (Zpos q) (Zpos p) ltac:(lia) ltac:(lia) ltac:(lia)) as M.
    unfold parts_lt in *. cbn [fst snd]. lia.
Qed.
