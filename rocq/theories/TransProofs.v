(* Assignable is transitive on the simple types. *)
From Coq Require Import ZArith List Bool Lia.
From Coq Require Import Floats.SpecFloat.
From Verif Require Import Int64 HMap Data DataSpec DataProofs Arr Types TypesSpec InstProofs GuardProofs SemProofs EqProofs SubProofs Construct ConstructProofs Generic GenericSpec GenericProofs TypeEqProofs AgreeSpec Assign.
Import ListNotations.
Open Scope Z_scope.

Section World.
Variable W : world.

(* Assignable on simple types, without guard *)
Fixpoint below (a b : ty) : bool :=
  match a, b with
  | TAny, _ => true
  | TNil, TNil => true
  | TBool, (TBool | TExact _ (VBool _)) => true
  | TInt, (TInt | TIntRange _ _ _ | TExact _ (VInt _)) => true
  | TIntRange min max incl, TExact _ (VInt z) => int_in min max incl z
  | TIntRange min max incl, TIntRange omin omax oincl =>
      (min <=? omin) && ((if oincl then omax else omax - 1) <=? (if incl then max else max - 1))
  | TFloat, (TFloat | TFloatRange _ _ _ | TExact _ (VFloat _)) => true
  | TFloatRange min max incl, TExact _ (VFloat f) => float_in min max incl f
  | TFloatRange min max incl, TFloatRange omin omax oincl =>
      negb (SFltb omin min) && (if incl || Bool.eqb incl oincl then SFleb omax max else SFltb omax max)
  | TString, (TString | TExact _ (VStr _) | TStrSized _ _ | TPattern _) => true
  | TStrSized min max, TExact _ (VStr s) => size_in min max (length_z s)
  | TStrSized min max, TStrSized omin omax => (min <=? omin) && (omax <=? max)
  | TPattern r, TExact _ (VStr s) => w_match W r s
  | TPattern r, TPattern s => bytes_eqb r s
  | TBinary min max, TBinary omin omax => (min <=? omin) && (omax <=? max)
  | TBinary min max, TExact _ (VBin s) => (min <=? length_z s) && (length_z s <=? max)
  | TTime, (TTime | TExact _ (VTime _ _ _)) => true
  | TRegexp, (TRegexp | TExact _ (VRegexp _)) => true
  | TExact _ v, TExact _ w => veq v w
  | TArray, (TArray | TArrSized _ _ _ _) => true
  | TMap, (TMap | TMapSized _ _ _ _ _) => true
  | TSens _ t, TSens _ o => below t o
  | TArrSized _ e min max, TArrSized _ e' min' max' => (min <=? min') && (max' <=? max) && below e e'
  | TMapSized _ k v min max, TMapSized _ k' v' min' max' => (min <=? min') && (max' <=? max) && (below k k' && below v v')
  | TMapSized _ k v min max, TMap => (min <=? 0) && (max_int64 <=? max) && (below k TAny && below v TAny)
  | _, _ => false
  end.

Lemma below_refl a : simple a -> type_ok a -> below a a = true.
Proof.
  unfold type_ok. induction a as [ | | | |x y i| |x y i| | |x y|s|s|x y| | |p v|p t IHt| |p e x y IHe|p ts b IHts| |p k v x y IHk IHv|p a es IHes|p ts IHts|p vs|p ts IHts|p ts IHts|p t IHt| |t IHt] using ty_ind';
    cbn [simple below]; intros S [On O]; try reflexivity; try contradiction; rewrite ?Z.leb_refl, ?Bool.eqb_reflx, ?orb_true_r; cbn [andb]; try reflexivity.
  - destruct On as [N1 N2]. unfold SFltb, SFleb. pose proof (SFeqb_refl x N1) as E1. pose proof (SFeqb_refl y N2) as E2. unfold SFeqb in *.
    destruct (SFcompare x x) as [[]|]; try discriminate. destruct (SFcompare y y) as [[]|]; try discriminate. reflexivity.
  - apply bytes_eqb_refl.
  - now apply veq_refl.
  - now apply IHt.
  - now apply IHe.
  - destruct O, S as (? & ? & ?). now rewrite IHk, IHv.
Qed.

Lemma flat_below a b n s : simple a -> simple b -> deep_assignable a = false ->
  flat_assignable_to W (asgn W n) a b s = Some (below a b, s).
Proof.
  intros Sa Sb D.
  destruct a as [ | | | |x y i| |x y i| | |x y|r|r|x y| | |p w|p t| |p e x y|p ts b0| |p kt vt x y|p a es|p ts|p vs|p ts|p ts|p t|[t|]]; try contradiction Sa; try discriminate D.
  all: destruct b as [ | | | |x' y' i'| |x' y' i'| | |x' y'|s'|s'|x' y'| | |p' w'|p' t'| |p' e' x' y'|p' ts' b'| |p' kt' vt' x' y'|p' a' es'|p' ts'|p' vs'|p' ts'|p' ts'|p' t'|[t'|]]; try contradiction Sb; try reflexivity.
  all: try (destruct w'; try contradiction Sb; reflexivity).
  - cbn [flat_assignable_to below]. cbn [simple] in *. rewrite !w64_pred by tauto. unfold ret. rewrite (Z.leb_antisym x' x). destruct (x' <? x); reflexivity.
  - cbn [flat_assignable_to below]. unfold ret. destruct (SFltb x' x); [reflexivity|]. destruct (i || Bool.eqb i i'); reflexivity.
  - cbn [flat_assignable_to below]. unfold orm, bind, ret. destruct w, w'; try contradiction; try reflexivity; match goal with |- context [veq ?x ?y] => destruct (veq x y); reflexivity end.
Qed.

Theorem asgn_simple n : forall (fn : bool) a b s, simple a -> type_ok a -> simple b -> (2 * type_size a + (if fn then 0 else 1) <= n)%nat ->
  (fn = true -> larger_seen a b s) -> asgn W n fn a b s = Some (below a b, s).
Proof.
  induction n as [|n IH]; intros fn a b s Ha Ta Hb Hn L. { pose proof (type_size_pos a). destruct fn; lia. }
  assert (NIL : forall (m : M bool) r, m {| s_guard := None; s_next := s_next s; s_hit := s_hit s |} = Some (r, {| s_guard := None; s_next := s_next s; s_hit := s_hit s |}) -> with_nil m s = Some (r, s)).
  { intros m r E. unfold with_nil, with_guard, set_guard. rewrite E. cbn. now destruct s. }
  destruct fn.
  - specialize (L eq_refl). cbn [asgn]. destruct (same_type a b) eqn:E.
    { apply same_type_eq in E as <-. now rewrite below_refl. }
    destruct (deep_assignable a) eqn:D; [|now apply NIL, flat_below].
    assert (REC : forall a' b' s1, simple a' -> type_ok a' -> simple b' -> (type_size a' < type_size a)%nat -> (type_size b' < type_size b)%nat ->
       (forall a' c', (type_size a' < type_size a)%nat -> (type_size c' < type_size b)%nat -> larger_seen a' c' s1) -> asgn W n true a' b' s1 = Some (below a' b', s1)).
    { intros a' b' s1 G T' G' A B X. apply IH; auto; try lia. }
    destruct a as [ | | | |x y i| |x y i| | |x y|r|r|x y| | |p w|p t| |p e x y|p ts b0| |p kt vt x y|p a es|p ts|p vs|p ts|p ts|p t|[t|]]; try contradiction Ha; try discriminate D;
      [destruct w; try contradiction; discriminate D| | |].
    all: apply enter_calm; [exact L| |].
    all: destruct b as [ | | | |x' y' i'| |x' y' i'| | |x' y'|s'|s'|x' y'| | |p' w'|p' t'| |p' e' x' y'|p' ts' b'| |p' kt' vt' x' y'|p' a' es'|p' ts'|p' vs'|p' ts'|p' ts'|p' t'|[t'|]]; try contradiction Hb; intros D'; try discriminate D'.
    all: try (intros s1 X); try reflexivity; try (destruct w'; try contradiction Hb; reflexivity).
    + cbn [deep_assignable_to below]. apply REC; auto; try exact (proj2 Ta); cbn; lia.
    + cbn [deep_assignable_to below array_bounds element_type]. destruct ((x <=? x') && (y' <=? y)); [|reflexivity]. cbn [andb]. unfold bind, ret.
      cbn [type_size] in Hn. apply IH; auto; try exact (proj2 Ta); try discriminate; lia.
    + cbn [deep_assignable_to below map_bounds key_type value_type]. destruct ((x <=? x') && (y' <=? y)); [|reflexivity]. cbn [andb]. unfold andm, bind, ret.
      destruct Ta as [_ [Tk Tv]], Ha as (Sk & Sv & _), Hb as (Sk' & Sv' & _).
      rewrite (REC kt kt'); auto; try (cbn; lia). destruct (below kt kt'); [|reflexivity]. cbn [andb]. apply REC; auto; cbn; lia.
    + cbn [deep_assignable_to below map_bounds key_type value_type]. destruct ((x <=? 0) && (max_int64 <=? y)); [|reflexivity]. cbn [andb]. unfold andm, bind, ret.
      destruct Ta as [_ [Tk Tv]], Ha as (Sk & Sv & _). cbn [type_size] in Hn.
      assert (LK : larger_seen kt TAny s) by (eapply smaller_seen; [| |exact L]; cbn; lia).
      assert (LV : larger_seen vt TAny s) by (eapply smaller_seen; [| |exact L]; cbn; lia).
      rewrite (IH true kt TAny); auto; try exact Logic.I; try lia. destruct (below kt TAny); [|reflexivity]. cbn [andb]. apply (IH true vt TAny); auto; try exact Logic.I; lia.
  - cbn [asgn]. destruct (deep_assignable a) eqn:D; [|now apply NIL, flat_below].
    assert (R : with_nil (asgn W n true a b) s = Some (below a b, s)).
    { apply NIL. apply IH; auto; [lia|]. intros _. exact Logic.I. }
    destruct a as [ | | | |x y i| |x y i| | |x y|r|r|x y| | |p w|p t| |p e x y|p ts b0| |p kt vt x y|p a es|p ts|p vs|p ts|p ts|p t|[t|]]; try exact R. destruct w; try contradiction; discriminate D.
Qed.

Lemma below_any a : below a TAny = true -> a = TAny.
Proof. destruct a as [ | | | |x y i| |x y i| | |x y|r|r|x y| | |p w|p t| |p e x y|p ts b0| |p kt vt x y|p a es|p ts|p vs|p ts|p ts|p t|[t|]]; try discriminate; auto; destruct w; discriminate. Qed.


Lemma SFleb_eq_r f g x : SFeqb f g = true -> SFleb x f = SFleb x g.
Proof. intros H. unfold SFleb. now rewrite (SFcompare_eqb_r x f g H). Qed.
Lemma SFleb_eq_l f g x : SFeqb f g = true -> SFleb f x = SFleb g x.
Proof. intros H. unfold SFleb. now rewrite (SFcompare_eqb_l x f g H). Qed.
Lemma SFltb_eq_l f g x : SFeqb f g = true -> SFltb f x = SFltb g x.
Proof. intros H. unfold SFltb. now rewrite (SFcompare_eqb_l x f g H). Qed.

Theorem below_trans a : forall b c, simple a -> simple b -> simple c -> type_ok a -> type_ok b -> type_ok c ->
  below a b = true -> below b c = true -> below a c = true.
Proof.
  unfold type_ok.
  induction a as [ | | | |x y i| |x y i| | |x y|s|s|x y| | |p v|p t IHt| |p e x y IHe|p ts b0 IHts| |p k v x y IHk IHv|p a es IHes|p ts IHts|p vs|p ts IHts|p ts IHts|p t IHt| |t IHt] using ty_ind';
    intros b c Sa Sb Sc Ta Tb Tc H K; try contradiction Sa; try reflexivity.
  all: destruct b as [ | | | |x' y' i'| |x' y' i'| | |x' y'|s'|s'|x' y'| | |p' w'|p' t'| |p' e' x' y'|p' ts' b'| |p' kt' vt' x' y'|p' a' es'|p' ts'|p' vs'|p' ts'|p' ts'|p' t'|[t'|]]; try contradiction Sb; try discriminate H.
  all: destruct c as [ | | | |x2 y2 i2| |x2 y2 i2| | |x2 y2|s2|s2|x2 y2| | |p2 w2|p2 t2| |p2 e2 x2 y2|p2 ts2 b2| |p2 kt2 vt2 x2 y2|p2 a2 es2|p2 ts2|p2 vs2|p2 ts2|p2 ts2|p2 t2|[t2|]]; try contradiction Sc; try discriminate K; try exact K; try exact H; try reflexivity.
  all: cbn [below simple] in *.
  all: try (destruct w'; try contradiction; try discriminate H; destruct w2; try contradiction; try discriminate K; try reflexivity).
  all: try (destruct w2; try contradiction; try discriminate K; try reflexivity).
  all: try match goal with K : veq (VInt _) (VInt _) = true |- _ => apply Z.eqb_eq in K as <-; exact H end.
  all: try match goal with K : veq (VStr _) (VStr _) = true |- _ => apply bytes_eqb_eq in K as <-; exact H end.
  all: try match goal with K : veq (VBin _) (VBin _) = true |- _ => apply bytes_eqb_eq in K as <-; exact H end.
  all: rewrite ?andb_true_iff in *; unfold int_in, float_in, size_in in *; rewrite ?andb_true_iff in *.
  - rewrite !Z.leb_le in *. lia.
  - rewrite !Z.leb_le in *. destruct i, i'; rewrite ?Z.leb_le, ?Z.ltb_lt in *; lia.
  - destruct Ta as [[Nx Ny] _], Tb as [[Nx' Ny'] _], Tc as [[Nx2 Ny2] _], H as [H1 H2], K as [K1 K2]. apply negb_true_iff in H1, K1. split.
    + apply negb_true_iff, not_true_iff_false. rewrite SFltb_iff by assumption. apply not_true_iff_false in H1, K1. rewrite SFltb_iff in H1, K1 by assumption.
      apply kcmp_not_lt in H1, K1. intros E. pose proof (kcmp_trans' _ _ _ H1 K1) as T. rewrite kcmp_opp, E in T. now apply T.
    + destruct i, i', i2; cbn [orb Bool.eqb] in *; rewrite ?SFleb_iff, ?SFltb_iff in * by assumption;
        eauto using kcmp_trans', kcmp_lt_le, kcmp_le_lt; first [eapply kcmp_trans'; [|eassumption]; congruence|eapply kcmp_trans'; [eassumption|]; congruence|idtac].
  - destruct Ta as [[Nx Ny] _], Tb as [[Nx' Ny'] _], H as [H1 H2], K as [K1 K2]. apply negb_true_iff, not_true_iff_false in H1.
    assert (Nf : f <> S754_nan) by (intros ->; destruct x' as [[]|[]| |[] ? ?]; discriminate K1).
    rewrite SFltb_iff in H1 by assumption. apply kcmp_not_lt in H1. split.
    + rewrite SFleb_iff in * by assumption. eauto using kcmp_trans'.
    + destruct i, i'; cbn [orb Bool.eqb] in *; rewrite ?SFleb_iff, ?SFltb_iff in * by assumption; 
        eauto using kcmp_trans', kcmp_lt_le, kcmp_le_lt; first [eapply kcmp_trans'; [|eassumption]; congruence|eapply kcmp_trans'; [eassumption|]; congruence|idtac].
  - destruct Ta as [[Nx Ny] _], H as [H1 H2]. change (SFeqb f f0 = true) in K.
    rewrite <- (SFleb_eq_r f f0 x K). split; [exact H1|]. destruct i; [now rewrite <- (SFleb_eq_l f f0 y K)|now rewrite <- (SFltb_eq_l f f0 y K)].
  - rewrite !Z.leb_le in *. lia.
  - rewrite !Z.leb_le in *. lia.
  - apply bytes_eqb_eq in K as <-. exact H.
  - apply bytes_eqb_eq in H as ->. exact K.
  - rewrite !Z.leb_le in *. lia.
  - rewrite !Z.leb_le in *. lia.
  - destruct Ta, Tb, Tc. eapply veq_trans; [| | |exact H|exact K]; assumption.
  - destruct Ta, Tb, Tc. eapply veq_trans; [| | |exact H|exact K]; assumption.
  - destruct Ta, Tb, Tc. eapply veq_trans; [| | |exact H|exact K]; assumption.
  - destruct Ta, Tb, Tc. eapply veq_trans; [| | |exact H|exact K]; assumption.
  - apply (IHt t' t2); auto; try apply Ta; try apply Tb; apply Tc.
  - destruct Ta as [_ Ta], Tb as [_ Tb], Tc as [_ Tc]. rewrite !Z.leb_le in *. split; [lia|]. destruct H as [_ H], K as [_ K]. apply (IHe e' e2); auto.
  - destruct Ta as [_ [Tk Tv]], H as [H [Hk Hv]]. apply below_any in Hk as ->. apply below_any in Hv as ->. cbn [below]. rewrite !Z.leb_le in *. destruct Sc as (_ & _ & ?). split; [lia|auto].
  - destruct Ta as [_ [Tk Tv]], Tb as [_ [Tk' Tv']]. destruct H as [H [Hk Hv]], K as [K [Kk Kv]]. apply below_any in Kk as ->. apply below_any in Kv as ->. rewrite !Z.leb_le in *. split; [lia|auto].
  - destruct Ta as [_ [Tk Tv]], Tb as [_ [Tk' Tv']], Tc as [_ [Tk2 Tv2]]. destruct H as [H [Hk Hv]], K as [K [Kk Kv]]. destruct Sa as (? & ? & ?), Sb as (? & ? & ?), Sc as (? & ? & ?).
    rewrite !Z.leb_le in *. split; [lia|]. split; [apply (IHk kt' kt2)|apply (IHv vt' vt2)]; auto.
Qed.

Theorem assignable_transitive a b c : simple a -> simple b -> simple c -> type_ok a -> type_ok b -> type_ok c ->
  exists N, forall n m k p q r, (N <= n)%nat -> (N <= m)%nat -> (N <= k)%nat ->
    assignable W n p a b = Some true -> assignable W m q b c = Some true -> assignable W k r a c = Some true.
Proof.
  intros Sa Sb Sc Ta Tb Tc. exists (2 * (type_size a + type_size b) + 1)%nat. intros n m k p q r Hn Hm Hk.
  unfold assignable. rewrite !asgn_simple by (auto; try discriminate; lia). cbn. intros [= H] [= K]. f_equal. now apply (below_trans a b c).
Qed.

Theorem assignable_simple_returns a b : simple a -> simple b -> type_ok a ->
  exists N r, forall n p, (N <= n)%nat -> assignable W n p a b = Some r.
Proof.
  intros Sa Sb Ta. exists (2 * type_size a + 1)%nat, (below a b). intros n p Hn. unfold assignable. now rewrite asgn_simple by (auto; discriminate).
Qed.
End World.
