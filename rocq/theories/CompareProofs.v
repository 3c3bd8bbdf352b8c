(* CompareTo is a total order on each kind of values; integers and floats together; data
   values are lawful keys of the hash map. *)
From Coq Require Import ZArith List Bool Lia Permutation.
From Coq Require Import Floats.SpecFloat.
From Verif Require Import Int64 Utf8 Data DataSpec DataProofs FloatInt HMap HMapSpec HMapCor.
Import ListNotations.
Open Scope Z_scope.

Definition sign (c : comparison) : Z := match c with Gt => 1 | Lt => -1 | Eq => 0 end.

Lemma cmp_float_key a b : a <> S754_nan -> b <> S754_nan -> cmp_float a b = sign (kcmp (fkey a) (fkey b)).
Proof. intros Ha Hb. unfold cmp_float. rewrite SFcompare_key by assumption. now destruct (kcmp _ _). Qed.

Lemma sign_opp c : sign (CompOpp c) = - sign c.
Proof. now destruct c. Qed.

(* the list recursion of array.deepCompare *)
Fixpoint cmp_list (l l' : list value) : option Z :=
  match l, l' with
  | [], [] => Some 0
  | [], _ => Some (-1)
  | _, [] => Some 1
  | x :: r, y :: r' =>
      if comparable x then
        match vcmp x y with
        | None => None
        | Some c => if c =? 0 then cmp_list r r' else Some c
        end
      else None
  end.

Lemma vcmp_arr l l' : vcmp (VArr l) (VArr l') = cmp_list l l'.
Proof.
  reflexivity.
Qed.

(* everything that is proved of the comparison of one kind *)
Record total (P : value -> Prop) : Prop := {
  tot_some : forall a b, P a -> P b -> exists r, vcmp a b = Some r /\ (r = -1 \/ r = 0 \/ r = 1);
  tot_opp : forall a b r, P a -> P b -> vcmp a b = Some r -> vcmp b a = Some (- r);
  tot_eq : forall a b, P a -> P b -> (vcmp a b = Some 0 <-> veq a b = true);
  tot_trans : forall a b c r s, P a -> P b -> P c -> vcmp a b = Some r -> vcmp b c = Some s ->
    r <= 0 -> s <= 0 -> exists t, vcmp a c = Some t /\ t <= 0 /\ (t = 0 -> r = 0 /\ s = 0) }.

Lemma of_kind_comparable k v : of_kind k v -> comparable v = true.
Proof. destruct 1; reflexivity. Qed.

Lemma cmp_bytes_range a b : cmp_bytes a b = -1 \/ cmp_bytes a b = 0 \/ cmp_bytes a b = 1.
Proof.
  revert b. induction a as [|x r IH]; intros [|y r']; cbn; auto.
  destruct (y <? x); auto. destruct (x <? y); auto.
Qed.

Lemma cmp_bytes_opp a b : cmp_bytes b a = - cmp_bytes a b.
Proof.
  revert b. induction a as [|x r IH]; intros [|y r']; cbn; auto.
  destruct (Z.ltb_spec y x), (Z.ltb_spec x y); try lia; auto.
Qed.

Lemma cmp_bytes_eq a b : cmp_bytes a b = 0 <-> a = b.
Proof.
  revert b. induction a as [|x r IH]; intros [|y r']; cbn; try (split; intros H; congruence).
  destruct (Z.ltb_spec y x); [split; intros H'; [lia|injection H'; lia]|].
  destruct (Z.ltb_spec x y); [split; intros H'; [lia|injection H'; lia]|].
  rewrite IH. assert (x = y) by lia. subst. split; [now intros ->|congruence].
Qed.

Lemma cmp_bytes_trans a b c : cmp_bytes a b <= 0 -> cmp_bytes b c <= 0 ->
  cmp_bytes a c <= 0 /\ (cmp_bytes a c = 0 -> cmp_bytes a b = 0 /\ cmp_bytes b c = 0).
Proof.
  revert b c. induction a as [|x r IH]; intros [|y r'] [|z r'']; cbn; try lia.
  destruct (Z.ltb_spec y x), (Z.ltb_spec x y), (Z.ltb_spec z y), (Z.ltb_spec y z), (Z.ltb_spec z x), (Z.ltb_spec x z);
    try lia. apply IH.
Qed.

Lemma cmp_int_range x y : cmp_int x y = -1 \/ cmp_int x y = 0 \/ cmp_int x y = 1.
Proof. unfold cmp_int. destruct (x ?= y); auto. Qed.

Lemma kcmp_sign_trans a b c :
  sign (kcmp a b) <= 0 -> sign (kcmp b c) <= 0 ->
  sign (kcmp a c) <= 0 /\ (sign (kcmp a c) = 0 -> sign (kcmp a b) = 0 /\ sign (kcmp b c) = 0).
Proof.
  intros H1 H2.
  assert (A : kcmp a b <> Gt) by (intros E; rewrite E in H1; cbn in H1; lia).
  assert (B : kcmp b c <> Gt) by (intros E; rewrite E in H2; cbn in H2; lia).
  destruct (kcmp_trans a b c A B) as [T1 T2].
  destruct (kcmp a c); cbn; try lia; try congruence.
  destruct (T2 eq_refl) as [-> ->]. cbn. lia.
Qed.

Lemma sign_range c : sign c = -1 \/ sign c = 0 \/ sign c = 1.
Proof. destruct c; cbn; auto. Qed.

Lemma kcmp_sign_eq a b : sign (kcmp a b) = 0 <-> a = b.
Proof. rewrite <- kcmp_eq. destruct (kcmp a b); cbn; split; congruence. Qed.

(* nil below the values of a kind *)
Lemma total_with_nil (P Q : value -> Prop) :
  (forall v, Q v -> comparable v = true) ->
  (forall v, P v -> v = VNil \/ (Q v /\ v <> VNil)) ->
  (forall a b, Q a -> Q b -> exists r, vcmp a b = Some r /\ (r = -1 \/ r = 0 \/ r = 1)) ->
  (forall a b r, Q a -> Q b -> vcmp a b = Some r -> vcmp b a = Some (- r)) ->
  (forall a b, Q a -> Q b -> (vcmp a b = Some 0 <-> veq a b = true)) ->
  (forall a b c r s, Q a -> Q b -> Q c -> vcmp a b = Some r -> vcmp b c = Some s ->
    r <= 0 -> s <= 0 -> exists t, vcmp a c = Some t /\ t <= 0 /\ (t = 0 -> r = 0 /\ s = 0)) ->
  total P.
Proof.
  intros HC HP H1 H2 H3 H4.
  assert (N1 : forall v, Q v -> v <> VNil -> vcmp VNil v = Some (-1)) by (intros v _ Hv; destruct v; auto; congruence).
  assert (N2 : forall v, Q v -> v <> VNil -> vcmp v VNil = Some 1).
  { intros v Qv Hv. specialize (HC v Qv). destruct v; try congruence; cbn in *; auto; discriminate. }
  assert (N0 : vcmp VNil VNil = Some 0) by reflexivity.
  split.
  - intros a b Ha Hb. apply HP in Ha, Hb.
    destruct Ha as [->|[Ha Na]], Hb as [->|[Hb Nb]]; auto.
    + exists 0. auto.
    + exists (-1). auto.
    + exists 1. auto.
  - intros a b r Ha Hb. apply HP in Ha, Hb.
    destruct Ha as [->|[Ha Na]], Hb as [->|[Hb Nb]]; [| | |now apply H2].
    + rewrite N0. intros H. injection H as <-. reflexivity.
    + rewrite N1, N2 by assumption. intros H. injection H as <-. reflexivity.
    + rewrite N1, N2 by assumption. intros H. injection H as <-. reflexivity.
  - intros a b Ha Hb. apply HP in Ha, Hb.
    destruct Ha as [->|[Ha Na]], Hb as [->|[Hb Nb]]; auto.
    + cbn; tauto.
    + rewrite N1 by assumption. destruct b; cbn; split; congruence.
    + rewrite N2 by assumption. destruct a; cbn; split; congruence.
  - intros a b c r s Ha Hb Hc. apply HP in Ha, Hb, Hc.
    destruct Ha as [->|[Ha Na]], Hb as [->|[Hb Nb]], Hc as [->|[Hc Nc]]; eauto;
      rewrite ?N0, ?N1, ?N2 by assumption; intros E1 E2 L1 L2;
      try (injection E1 as <-); try (injection E2 as <-); try lia;
      eexists; split; try reflexivity; lia.
Qed.

Lemma total_kind k : total (of_kind k).
Proof.
  induction k as [ | | | | |k IH].
  - apply (total_with_nil _ (fun v => exists b, v = VBool b)).
    + intros v [b ->]; reflexivity.
    + intros v H. inversion H; subst; [now left|right]. split; [now exists b|discriminate].
    + intros a b [[] ->] [[] ->]; cbn; eexists; split; try reflexivity; auto.
    + intros a b r [[] ->] [[] ->]; cbn; intros H; injection H as <-; reflexivity.
    + intros a b [[] ->] [[] ->]; cbn; split; congruence.
    + intros a b c r s [[] ->] [[] ->] [[] ->]; cbn; intros E1 E2 L1 L2;
        injection E1 as <-; injection E2 as <-; try lia; eexists; split; try reflexivity; lia.
  - apply (total_with_nil _ (fun v => exists z, v = VInt z)).
    + intros v [z ->]; reflexivity.
    + intros v H. inversion H; subst; [now left|right]. split; [now exists z|discriminate].
    + intros a b [x ->] [y ->]. cbn [vcmp]. eexists. split; [reflexivity|]. apply cmp_int_range.
    + intros a b r [x ->] [y ->]. cbn [vcmp]. intros H; injection H as <-. f_equal. unfold cmp_int.
      rewrite (Z.compare_antisym x y). now destruct (x ?= y).
    + intros a b [x ->] [y ->]. cbn [vcmp veq]. rewrite Z.eqb_eq. unfold cmp_int.
      destruct (Z.compare_spec x y); split; intros; try congruence; lia.
    + intros a b c r s [x ->] [y ->] [z ->]. cbn [vcmp]. intros E1 E2 L1 L2.
      injection E1 as <-; injection E2 as <-. unfold cmp_int in *. eexists. split; [reflexivity|].
      destruct (Z.compare_spec x y), (Z.compare_spec y z), (Z.compare_spec x z); lia.
  - apply (total_with_nil _ (fun v => exists f, v = VFloat f /\ f <> S754_nan)).
    + intros v (z & -> & _); reflexivity.
    + intros v H. inversion H; subst; [now left|right]. split; [now exists f|discriminate].
    + intros a b (x & -> & Hx) (y & -> & Hy). cbn [vcmp]. eexists. split; [reflexivity|].
      rewrite cmp_float_key by assumption. apply sign_range.
    + intros a b r (x & -> & Hx) (y & -> & Hy). cbn [vcmp]. rewrite !cmp_float_key by assumption.
      intros H; injection H as <-. now rewrite (kcmp_opp (fkey x)), sign_opp.
    + intros a b (x & -> & Hx) (y & -> & Hy). cbn [vcmp veq]. rewrite !cmp_float_key by assumption.
      rewrite SFeqb_key by assumption. rewrite <- kcmp_sign_eq. split; [congruence|intros ->; reflexivity].
    + intros a b c r s (x & -> & Hx) (y & -> & Hy) (z & -> & Hz). cbn [vcmp]. rewrite !cmp_float_key by assumption.
      intros E1 E2 L1 L2. injection E1 as <-; injection E2 as <-.
      eexists. split; [reflexivity|]. now apply kcmp_sign_trans.
  - apply (total_with_nil _ (fun v => exists s, v = VStr s)).
    + intros v [z ->]; reflexivity.
    + intros v H. inversion H; subst; [now left|right]. split; [now exists s|discriminate].
    + intros a b [x ->] [y ->]. cbn [vcmp]. eexists. split; [reflexivity|]. apply cmp_bytes_range.
    + intros a b r [x ->] [y ->]. cbn [vcmp]. intros H; injection H as <-. f_equal. apply cmp_bytes_opp.
    + intros a b [x ->] [y ->]. cbn [vcmp veq]. rewrite bytes_eqb_eq, <- cmp_bytes_eq.
      split; [congruence|intros ->; reflexivity].
    + intros a b c r s [x ->] [y ->] [z ->]. cbn [vcmp]. intros E1 E2 L1 L2.
      injection E1 as <-; injection E2 as <-. eexists. split; [reflexivity|]. now apply cmp_bytes_trans.
  - apply (total_with_nil _ (fun v => exists s, v = VBin s)).
    + intros v [z ->]; reflexivity.
    + intros v H. inversion H; subst; [now left|right]. split; [now exists s|discriminate].
    + intros a b [x ->] [y ->]. cbn [vcmp]. eexists. split; [reflexivity|]. apply cmp_bytes_range.
    + intros a b r [x ->] [y ->]. cbn [vcmp]. intros H; injection H as <-. f_equal. apply cmp_bytes_opp.
    + intros a b [x ->] [y ->]. cbn [vcmp veq]. rewrite bytes_eqb_eq, <- cmp_bytes_eq.
      split; [congruence|intros ->; reflexivity].
    + intros a b c r s [x ->] [y ->] [z ->]. cbn [vcmp]. intros E1 E2 L1 L2.
      injection E1 as <-; injection E2 as <-. eexists. split; [reflexivity|]. now apply cmp_bytes_trans.
  - destruct IH as [I1 I2 I3 I4].
    assert (KC : forall v, of_kind k v -> comparable v = true) by apply of_kind_comparable.
    apply (total_with_nil _ (fun v => exists l, v = VArr l /\ Forall (of_kind k) l)).
    + intros v (z & -> & _); reflexivity.
    + intros v H. inversion H; subst; [now left|right]. split; [now exists l|discriminate].
    + intros a b (x & -> & Hx) (y & -> & Hy). rewrite vcmp_arr. revert y Hy.
      induction Hx as [|u x Hu Hx IHx]; intros y Hy; inversion Hy as [|w y' Hw Hy']; subst; cbn [cmp_list]; eauto.
      rewrite (KC _ Hu). destruct (I1 _ _ Hu Hw) as (r & -> & Hr).
      destruct (r =? 0); eauto.
    + intros a b r (x & -> & Hx) (y & -> & Hy). rewrite !vcmp_arr. revert y Hy.
      induction Hx as [|u x Hu Hx IHx]; intros y Hy; inversion Hy as [|w y' Hw Hy']; subst; cbn [cmp_list].
      * intros H; injection H as <-; reflexivity.
      * intros H; injection H as <-; reflexivity.
      * intros H; injection H as <-; reflexivity.
      * rewrite (KC _ Hu), (KC _ Hw). destruct (I1 _ _ Hu Hw) as (q & E & Hq).
        rewrite E, (I2 _ _ _ Hu Hw E). destruct (Z.eqb_spec q 0) as [->|Nq]; [cbn; auto|].
        rewrite (proj2 (Z.eqb_neq (- q) 0)) by lia. intros H; injection H as <-; reflexivity.
    + intros a b (x & -> & Hx) (y & -> & Hy). rewrite vcmp_arr, veq_arr. revert y Hy.
      induction Hx as [|u x Hu Hx IHx]; intros y Hy; inversion Hy as [|w y' Hw Hy']; subst; cbn [cmp_list forall2b];
        try (split; congruence).
      rewrite (KC _ Hu). destruct (I1 _ _ Hu Hw) as (q & E & Hq). rewrite E.
      specialize (I3 _ _ Hu Hw). rewrite E in I3.
      destruct (Z.eqb_spec q 0) as [->|Nq].
      * rewrite (proj1 I3 eq_refl). cbn [andb]. auto.
      * destruct (veq u w); [destruct I3 as [_ I3]; specialize (I3 eq_refl); congruence|].
        cbn [andb]. split; congruence.
    + intros a b c r s (x & -> & Hx) (y & -> & Hy) (z & -> & Hz). rewrite !vcmp_arr. revert y z Hy Hz.
      induction Hx as [|u x Hu Hx IHx]; intros y z Hy Hz; inversion Hy as [|w y' Hw Hy'];
        inversion Hz as [|t z' Ht Hz']; subst; cbn [cmp_list]; intros E1 E2 L1 L2;
        try (injection E1 as <-); try (injection E2 as <-); try lia;
        try (eexists; split; [reflexivity|lia]).
      rewrite (KC _ Hu) in *. rewrite (KC _ Hw) in *.
      destruct (I1 _ _ Hu Hw) as (q1 & F1 & R1). destruct (I1 _ _ Hw Ht) as (q2 & F2 & R2).
      rewrite F1 in E1. rewrite F2 in E2.
      assert (Q1 : q1 <= 0) by (destruct (Z.eqb_spec q1 0); [lia|injection E1 as <-; lia]).
      assert (Q2 : q2 <= 0) by (destruct (Z.eqb_spec q2 0); [lia|injection E2 as <-; lia]).
      destruct (I4 _ _ _ _ _ Hu Hw Ht F1 F2 Q1 Q2) as (q3 & F3 & L3 & Z3). rewrite F3.
      destruct (Z.eqb_spec q3 0) as [->|N3].
      * destruct (Z3 eq_refl) as [-> ->]. cbn [Z.eqb] in *. eauto.
      * eexists. split; [reflexivity|]. lia.
Qed.

Lemma lex_order k : forall l l', Forall (of_kind k) l -> Forall (of_kind k) l' ->
  (vcmp (VArr l) (VArr l') = Some (-1) <->
   lex_less (fun a b => vcmp a b = Some (-1)) (fun a b => vcmp a b = Some 0) l l').
Proof.
  destruct (total_kind k) as [I1 I2 I3 I4].
  intros l l' H. revert l'. setoid_rewrite vcmp_arr.
  induction H as [|u x Hu Hx IHx]; intros y Hy; inversion Hy as [|w y' Hw Hy']; subst; cbn [cmp_list].
  - split; intros H; [discriminate|inversion H].
  - split; intros; [constructor|reflexivity].
  - split; intros H; [discriminate|inversion H].
  - rewrite (of_kind_comparable _ _ Hu). destruct (I1 _ _ Hu Hw) as (q & E & Hq). rewrite E.
    destruct (Z.eqb_spec q 0) as [->|Nq].
    + rewrite IHx by assumption. split; intros H; [now apply lex_tail|]. inversion H; subst; [congruence|assumption].
    + split; intros H.
      * apply lex_head. congruence.
      * inversion H; subst; congruence.
Qed.

(* ---------- integers and floats together ---------- *)

(* the key of the float that a number is compared as *)
Definition nkey (v : value) : Z * (Z * Z) :=
  match v with VInt z => ikey z | VFloat f => fkey f | _ => (0, (0, 0)) end.

Definition is_int (v : value) : bool := match v with VInt _ => true | _ => false end.

Lemma num_cmp a b : num a -> num b -> is_int a && is_int b = false ->
  vcmp a b = Some (sign (kcmp (nkey a) (nkey b))).
Proof.
  intros [(x & -> & Hx)|(x & -> & Hx)] [(y & -> & Hy)|(y & -> & Hy)] H; try discriminate H; cbn [vcmp nkey].
  - destruct (float_of_int_key x Hx) as [N E]. rewrite cmp_float_key by assumption. now rewrite E.
  - destruct (float_of_int_key y Hy) as [N E]. rewrite cmp_float_key by assumption. now rewrite E.
  - now rewrite cmp_float_key.
Qed.

Lemma num_cmp_int x y : exists r, vcmp (VInt x) (VInt y) = Some r /\ r = cmp_int x y.
Proof. cbn. eauto. Qed.

Lemma num_total a b : num a -> num b -> exists r, vcmp a b = Some r /\ vcmp b a = Some (- r).
Proof.
  intros Ha Hb. destruct (is_int a && is_int b) eqn:E.
  - destruct a, b; try discriminate E. cbn [vcmp]. eexists. split; [reflexivity|]. f_equal.
    unfold cmp_int. rewrite (Z.compare_antisym z z0). now destruct (z ?= z0).
  - rewrite (num_cmp a b), (num_cmp b a) by (auto; now rewrite andb_comm).
    eexists. split; [reflexivity|]. now rewrite (kcmp_opp (nkey a)), sign_opp.
Qed.

Lemma kcmp_lt_trans a b c : kcmp a b = Lt -> kcmp b c <> Gt -> kcmp a c = Lt.
Proof.
  intros H1 H2. destruct (kcmp_trans a b c) as [T1 T2]; [congruence|assumption|].
  destruct (kcmp a c) eqn:E; auto; [|congruence]. destruct (T2 eq_refl). congruence.
Qed.

Lemma kcmp_le_lt_trans a b c : kcmp a b <> Gt -> kcmp b c = Lt -> kcmp a c = Lt.
Proof.
  intros H1 H2. destruct (kcmp_trans a b c) as [T1 T2]; [assumption|congruence|].
  destruct (kcmp a c) eqn:E; auto; [|congruence]. destruct (T2 eq_refl). congruence.
Qed.

Lemma sign_lt c : sign c = -1 <-> c = Lt.
Proof. destruct c; cbn; split; congruence. Qed.

(* if a is smaller than b then the key of a is at most the key of b, and it is smaller unless
   both are integers *)
Lemma num_less_key a b : num a -> num b -> vcmp a b = Some (-1) ->
  kcmp (nkey a) (nkey b) <> Gt /\ (is_int a && is_int b = false -> kcmp (nkey a) (nkey b) = Lt).
Proof.
  intros Ha Hb H. destruct (is_int a && is_int b) eqn:E.
  - destruct a, b; try discriminate E. cbn [vcmp nkey] in *. split; [|discriminate].
    apply ikey_mono. injection H as H. unfold cmp_int in H. destruct (Z.compare_spec z z0); lia.
  - rewrite (num_cmp a b) in H by assumption. injection H as H. apply sign_lt in H. rewrite H.
    split; congruence.
Qed.

Theorem num_less_trans a b c : num a -> num b -> num c ->
  vcmp a b = Some (-1) -> vcmp b c = Some (-1) -> vcmp a c = Some (-1).
Proof.
  intros Ha Hb Hc H1 H2.
  destruct (num_less_key a b Ha Hb H1) as [L1 S1]. destruct (num_less_key b c Hb Hc H2) as [L2 S2].
  destruct (is_int a && is_int c) eqn:E.
  - destruct a, c; try discriminate E. cbn [is_int andb] in *.
    destruct b as [ | |y|f| | | | | | | ]; cbn [is_int] in *.
    all: try (destruct Hb as [(? & X & _)|(? & X & _)]; discriminate X).
    + cbn [vcmp] in *. injection H1 as H1. injection H2 as H2. f_equal. unfold cmp_int in *.
      destruct (Z.compare_spec z y), (Z.compare_spec y z0), (Z.compare_spec z z0); lia.
    + specialize (S1 eq_refl). specialize (S2 eq_refl). cbn [nkey vcmp] in *.
      f_equal. unfold cmp_int. destruct (Z.compare_spec z z0) as [->|L|L]; auto.
      * exfalso. pose proof (kcmp_lt_trans _ _ _ S1 L2) as X. rewrite (proj2 (kcmp_eq (ikey z0) (ikey z0)) eq_refl) in X. discriminate.
      * exfalso. pose proof (kcmp_lt_trans _ _ _ S1 L2) as X.
        pose proof (ikey_mono z0 z ltac:(lia)) as M. rewrite (kcmp_opp (ikey z)), X in M. cbn in M. congruence.
  - rewrite (num_cmp a c) by assumption. f_equal. apply sign_lt.
    destruct (is_int a && is_int b) eqn:E1.
    + apply (kcmp_le_lt_trans _ (nkey b)); [assumption|]. apply S2.
      destruct (is_int a), (is_int b), (is_int c); auto; discriminate.
    + apply (kcmp_lt_trans _ (nkey b)); auto.
Qed.

Lemma small_num_num v : small_num v -> num v.
Proof.
  intros [(z & -> & Hz)|H]; [left|now right]. exists z. split; [reflexivity|].
  unfold in64, min_int64, max_int64. lia.
Qed.

Lemma small_cmp a b : small_num a -> small_num b -> vcmp a b = Some (sign (kcmp (nkey a) (nkey b))).
Proof.
  intros Ha Hb. destruct (is_int a && is_int b) eqn:E.
  - destruct a as [ | |x| | | | | | | | ], b as [ | |y| | | | | | | | ]; try discriminate E. cbn [vcmp nkey]. f_equal.
    assert (Hx : - 2 ^ 53 <= x <= 2 ^ 53) by (destruct Ha as [(? & X & ?)|(? & X & _)]; inversion X; subst; assumption).
    assert (Hy : - 2 ^ 53 <= y <= 2 ^ 53) by (destruct Hb as [(? & X & ?)|(? & X & _)]; inversion X; subst; assumption).
    unfold cmp_int. destruct (Z.compare_spec x y) as [->|L|L].
    + now rewrite (proj2 (kcmp_eq _ _) eq_refl).
    + now rewrite ikey_strict by lia.
    + rewrite (kcmp_opp (ikey y)), ikey_strict by lia. reflexivity.
  - apply num_cmp; auto using small_num_num.
Qed.

Theorem small_num_trans a b c r s : small_num a -> small_num b -> small_num c ->
  vcmp a b = Some r -> vcmp b c = Some s -> r <= 0 -> s <= 0 ->
  exists t, vcmp a c = Some t /\ t <= 0 /\ (t = 0 -> r = 0 /\ s = 0).
Proof.
  intros Ha Hb Hc. rewrite !small_cmp by assumption. intros E1 E2 L1 L2.
  injection E1 as <-; injection E2 as <-. eexists. split; [reflexivity|]. now apply kcmp_sign_trans.
Qed.

(* ---------- data values as keys of a hash map ---------- *)

Definition dkey := { v : value | data veq v }.
Definition dkeq (a b : dkey) : bool := veq (proj1_sig a) (proj1_sig b).
Definition dkhash (a : dkey) : Z := vhash (proj1_sig a).

Lemma data_keys_lawful : lawful dkey dkeq dkhash.
Proof.
  split; unfold dkeq, dkhash.
  - intros [a Ha]. now apply veq_refl.
  - intros [a Ha] [b Hb]. now apply veq_sym.
  - intros [a Ha] [b Hb] [c Hc]. now apply veq_trans.
  - intros [a Ha] [b Hb]. now apply veq_hash.
Qed.

Lemma data_map_refines (V : Type) (eqv : V -> V -> bool) (isnil : V -> bool) (fz th : V -> V) os :
  (forall o, In o os -> basic_op dkey V o) ->
  snd (run dkey V dkeq dkhash eqv isnil fz th init os) = snd (run_spec dkey V dkeq eqv fz th [] os).
Proof. exact (refines_basic dkey V dkeq dkhash eqv isnil fz th data_keys_lawful os). Qed.

(* ---------- statements in the form of the properties ---------- *)

Lemma perm_equal_hash m m' : data veq (VMap m) -> Permutation m m' ->
  data veq (VMap m') /\ veq (VMap m) (VMap m') = true /\ vhash (VMap m) = vhash (VMap m').
Proof.
  intros W Hp. pose proof (perm_data m m' W Hp) as W'.
  pose proof (perm_map_equal m m' W W' Hp) as E.
  split; [exact W'|]. split; [exact E|]. now apply veq_hash.
Qed.

Lemma nil_not_absent m m' k : data veq (VMap m) -> data veq (VMap m') -> data veq k ->
  assoc veq m k = Some VNil -> assoc veq m' k = None ->
  veq (VMap m) (VMap m') = false /\ veq (VMap m') (VMap m) = false.
Proof.
  intros W W' Wk E E'. split; apply not_true_is_false; intros H.
  - pose proof (proj1 (map_equal_iff m m' W W') H k Wk) as X. now rewrite E, E' in X.
  - pose proof (proj1 (map_equal_iff m' m W' W) H k Wk) as X. now rewrite E, E' in X.
Qed.

Lemma total_order_kind k :
  (forall a b, of_kind k a -> of_kind k b -> exists r, vcmp a b = Some r /\ (r = -1 \/ r = 0 \/ r = 1)) /\
  (forall a b r, of_kind k a -> of_kind k b -> vcmp a b = Some r -> vcmp b a = Some (- r)) /\
  (forall a b, of_kind k a -> of_kind k b -> (vcmp a b = Some 0 <-> veq a b = true)) /\
  (forall a b c r s, of_kind k a -> of_kind k b -> of_kind k c ->
     vcmp a b = Some r -> vcmp b c = Some s -> r <= 0 -> s <= 0 ->
     exists t, vcmp a c = Some t /\ t <= 0 /\ (t = 0 -> r = 0 /\ s = 0)).
Proof. destruct (total_kind k) as [H1 H2 H3 H4]. auto. Qed.

Lemma cmp_bytes_lex s t : cmp_bytes s t = -1 <-> lex_less_bytes s t.
Proof.
  revert t. induction s as [|x r IH]; intros [|y r']; cbn.
  - split; [discriminate|inversion 1].
  - split; [constructor|reflexivity].
  - split; [discriminate|inversion 1].
  - destruct (Z.ltb_spec y x), (Z.ltb_spec x y); try lia.
    + split; [discriminate|]. inversion 1; subst; lia.
    + split; [now constructor|reflexivity].
    + assert (x = y) by lia. subst. rewrite IH. split; [now constructor|]. inversion 1; subst; [lia|assumption].
Qed.

Lemma bytes_order s t :
  (vcmp (VStr s) (VStr t) = Some (-1) <-> lex_less_bytes s t) /\
  (vcmp (VBin s) (VBin t) = Some (-1) <-> lex_less_bytes s t).
Proof.
  cbn [vcmp]. rewrite <- cmp_bytes_lex. split; split; congruence.
Qed.

Lemma nil_least v : v <> VNil ->
  vcmp VNil v = Some (-1) /\ (comparable v = true -> vcmp v VNil = Some 1).
Proof. intros H. destruct v; try congruence; cbn; auto; split; auto; discriminate. Qed.

Lemma mixed_not_transitive :
  exists a b c, num a /\ num b /\ num c /\ vcmp a b = Some 0 /\ vcmp b c = Some 0 /\ vcmp a c = Some 1.
Proof.
  exists (VInt (2 ^ 53 + 1)), (VFloat (S754_finite false (2 ^ 52) 1)), (VInt (2 ^ 53)).
  split; [left; eexists; split; [reflexivity|split; discriminate]|].
  split; [right; eexists; split; [reflexivity|discriminate]|].
  split; [left; eexists; split; [reflexivity|split; discriminate]|].
  vm_compute. auto.
Qed.
