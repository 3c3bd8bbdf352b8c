(* Equal hash codes of types. *)
From Coq Require Import ZArith List Bool Lia.
From Coq Require Import Floats.SpecFloat.
From Verif Require Import Int64 HMap Data DataSpec DataProofs Arr ArrSpec ArrProofs Types TypesSpec TypeEqSpec Assign InstProofs GuardProofs SemProofs EqProofs TypeEqProofs.
Import ListNotations.
Open Scope Z_scope.

Lemma veq_exact_id x y : veq x y = true -> exact_id x = exact_id y.
Proof. destruct x, y; cbn; try discriminate; reflexivity. Qed.

Lemma SFeqb_to_int x y : SFeqb x y = true -> float_to_int x = float_to_int y.
Proof. intros H. apply SFeqb_inv in H as [->|(s & s' & -> & ->)]; reflexivity. Qed.

Lemma hash_float_bounds_eq h x y x' y' : SFeqb x x' = true -> SFeqb y y' = true -> hash_float_bounds h x y = hash_float_bounds h x' y'.
Proof.
  intros H H'. unfold hash_float_bounds, SFltb. rewrite (SFcompare_eqb_r _ _ _ H), (SFcompare_eqb_l _ _ _ H'), (SFeqb_to_int _ _ H), (SFeqb_to_int _ _ H'). reflexivity.
Qed.

Definition alike_all (l l' : list ty) : Prop :=
  (fix go l l' := match l, l' with [], [] => True | x :: k, x' :: k' => alike x x' /\ go k k' | _, _ => False end) l l'.

Lemma alike_all_2 l : forall l', alike_all l l' <-> Forall2 alike l l'.
Proof.
  induction l as [|x r IH]; intros [|y r']; cbn; split; intros H; auto; try contradiction; try (now inversion H).
  - destruct H. constructor; auto. now apply IH.
  - inversion H; subst. split; auto. now apply IH.
Qed.

Lemma alike_is_any a b : alike a b -> is_any a = is_any b.
Proof.
  destruct a as [ | | | |x y i| |x y i| | |x y|s|s|x y| | |p w|p t| |p e x y|p ts b0| |p kt vt x y|p a es|p ts|p vs|p ts|p ts|p t|[t|]];
  destruct b as [ | | | |x' y' i'| |x' y' i'| | |x' y'|s'|s'|x' y'| | |p' w'|p' t'| |p' e' x' y'|p' ts' b'| |p' kt' vt' x' y'|p' a' es'|p' ts'|p' vs'|p' ts'|p' ts'|p' t'|[t'|]]; cbn; intros; try contradiction; reflexivity.
Qed.

(* types that are alike have the same hash code *)
Theorem alike_hash a : forall b, type_ok a -> type_ok b -> alike a b -> thash a = thash b.
Proof.
  unfold type_ok.
  assert (L : forall ts, Forall (fun a => forall b, ty_all node_ok a -> ty_all node_ok b -> alike a b -> thash a = thash b) ts ->
    forall ts', Forall (ty_all node_ok) ts -> Forall (ty_all node_ok) ts' -> alike_all ts ts' -> map thash ts = map thash ts').
  { intros ts H ts' O O' A. apply alike_all_2 in A. induction A as [|x y l l' A F IHA]; [reflexivity|]. inversion H; inversion O; inversion O'; subst. cbn. f_equal; auto. }
  induction a as [ | | | |x y i| |x y i| | |x y|s|s|x y| | |p w|p t IH| |p e x y IH|p ts b0 IH| |p kt vt x y IHk IHv|p a es IH|p ts IH|p vs|p ts IH|p ts IH|p t IH| |t IH] using ty_ind';
    intros [ | | | |x' y' i'| |x' y' i'| | |x' y'|s'|s'|x' y'| | |p' w'|p' t'| |p' e' x' y'|p' ts' b'| |p' kt' vt' x' y'|p' a' es'|p' ts'|p' vs'|p' ts'|p' ts'|p' t'|[t'|]] [On O] [On' O'] A;
    try contradiction A; try reflexivity; cbn [alike] in A; cbn [node_ok] in On, On'; cbn [thash].
  - destruct A as (-> & -> & ->). reflexivity.
  - destruct A as (A & B & ->). now rewrite (hash_float_bounds_eq 12 x y x' y' A B).
  - destruct A as (-> & ->). reflexivity.
  - now subst.
  - now subst.
  - destruct A as (-> & ->). reflexivity.
  - rewrite (veq_exact_id _ _ A). now rewrite (veq_hash w w').
  - now rewrite (IH t').
  - destruct A as (-> & -> & A). rewrite (alike_is_any _ _ A), (IH e'); auto.
  - destruct A as (-> & A). rewrite (L ts IH ts'); auto; now apply fold_and.
  - destruct A as (-> & -> & A & B). destruct O, O'. rewrite (alike_is_any _ _ A), (alike_is_any _ _ B), (IHk kt'); auto.
  - destruct A as (-> & A). destruct On as [On _], On' as [On' _].
    apply (fold_and (fun e => ty_all node_ok (snd (fst e)))) in O, O'. 
    assert (E : map snd es = map snd es' /\ map (fun e => w64 (vhash (fst (fst e)) * 7 + exact_id (fst (fst e)))) es = map (fun e => w64 (vhash (fst (fst e)) * 7 + exact_id (fst (fst e)))) es'
       /\ map (fun e => thash (snd (fst e))) es = map (fun e => thash (snd (fst e))) es').
    { revert es' On' O' A. induction es as [|e r IHes]; intros [|e' r'] On' O' A; try contradiction A; [repeat split|].
      destruct A as ((A1 & A2 & A3) & A). inversion On; inversion On'; inversion O; inversion O'; subst. inversion IH as [|? ? I1 I2]; subst.
      destruct (IHes I2 ltac:(assumption) ltac:(assumption) r') as (E1 & E2 & E3); auto.
      assert (VH : vhash (fst (fst e)) = vhash (fst (fst e'))) by now apply veq_hash.
      cbn [map]. rewrite E1, E2, E3, A1, VH, (veq_exact_id _ _ A2). repeat split. f_equal. apply I1; auto. }
    destruct E as (-> & -> & ->). reflexivity.
  - rewrite (L ts IH ts'); auto; now apply fold_and.
  - do 4 f_equal. clear O O'. induction A as [|v v' l l' A F IHA]; [reflexivity|]. inversion On; inversion On'; subst. cbn. f_equal; auto. now apply veq_hash.
  - rewrite (L ts IH ts'); auto; now apply fold_and.
  - rewrite (L ts IH ts'); auto; now apply fold_and.
  - now rewrite (IH t').
  - now rewrite (IH t').
Qed.

Lemma teqn_is_any n a b : teqn n a b = true -> is_any a = is_any b.
Proof.
  destruct n; [discriminate|].
  destruct a as [ | | | |x y i| |x y i| | |x y|s|s|x y| | |p w|p t| |p e x y|p ts b0| |p kt vt x y|p a es|p ts|p vs|p ts|p ts|p t|[t|]];
  destruct b as [ | | | |x' y' i'| |x' y' i'| | |x' y'|s'|s'|x' y'| | |p' w'|p' t'| |p' e' x' y'|p' ts' b'| |p' kt' vt' x' y'|p' a' es'|p' ts'|p' vs'|p' ts'|p' ts'|p' t'|[t'|]]; cbn; intros; try discriminate; reflexivity.
Qed.

(* equal types without a choice of order have the same hash code *)
Theorem eq_hash n : forall a b, type_ok a -> type_ok b -> proper_tuples a -> proper_tuples b -> ordered a -> ordered b ->
  teqn n a b = true -> thash a = thash b.
Proof.
  unfold type_ok, ordered, proper_tuples. induction n as [|n IH]; intros a b O O' P P' Q Q' H; [discriminate|].
  assert (L : forall ts ts', Forall (ty_all node_ok) ts -> Forall (ty_all node_ok) ts' -> Forall (ty_all proper_node) ts -> Forall (ty_all proper_node) ts' ->
     Forall (ty_all ordered_node) ts -> Forall (ty_all ordered_node) ts' -> pairwise (teqn n) ts ts' = true -> map thash ts = map thash ts').
  { intros ts. induction ts as [|t r IHr]; intros [|t' r'] X1 X2 X3 X4 X5 X6 X; try discriminate; [reflexivity|]. cbn in X. apply andb_true_iff in X as [X Y].
    inversion X1; inversion X2; inversion X3; inversion X4; inversion X5; inversion X6; subst. cbn. f_equal; auto. }
  assert (S1 : forall ts ts', Forall (ty_all node_ok) ts -> Forall (ty_all node_ok) ts' -> Forall (ty_all proper_node) ts -> Forall (ty_all proper_node) ts' ->
     Forall (ty_all ordered_node) ts -> Forall (ty_all ordered_node) ts' -> (length ts <= 1)%nat -> (length ts' <= 1)%nat ->
     bool_or_false (same_values ty (teqn n) ts ts') = true -> map thash ts = map thash ts').
  { intros [|t [|? ?]] [|t' [|? ?]] X1 X2 X3 X4 X5 X6 L1 L2 X; cbn in L1, L2; try lia; try discriminate; [reflexivity|].
    inversion X1; inversion X2; inversion X3; inversion X4; inversion X5; inversion X6; subst. cbn. f_equal. symmetry. apply IH; auto.
    unfold same_values, contains_all in X. cbn in X. destruct (teqn n t' t); [reflexivity|discriminate]. }
  destruct a as [ | | | |x y i| |x y i| | |x y|s|s|x y| | |p w|p t| |p e x y|p ts b0| |p kt vt x y|p a es|p ts|p vs|p ts|p ts|p t|[t|]];
  destruct b as [ | | | |x' y' i'| |x' y' i'| | |x' y'|s'|s'|x' y'| | |p' w'|p' t'| |p' e' x' y'|p' ts' b'| |p' kt' vt' x' y'|p' a' es'|p' ts'|p' vs'|p' ts'|p' ts'|p' t'|[t'|]];
    try discriminate H; try reflexivity; try (rewrite tuple_not_exact in H by assumption; discriminate H);
    destruct O as [On O], O' as [On' O'], P as [Pn P], P' as [Pn' P'], Q as [Qn Q], Q' as [Qn' Q']; cbn [teqn] in H; cbn [thash]; cbn [node_ok ordered_node] in *; try contradiction Qn; try contradiction Qn'.
  - bools. apply Z.eqb_eq in H as ->. apply Z.eqb_eq in H1 as ->. apply eqb_prop in H0 as ->. reflexivity.
  - bools. apply eqb_prop in H0 as ->. now rewrite (hash_float_bounds_eq 12 x y x' y').
  - bools. apply Z.eqb_eq in H as ->. apply Z.eqb_eq in H0 as ->. reflexivity.
  - apply bytes_eqb_eq in H as ->. reflexivity.
  - apply bytes_eqb_eq in H as ->. reflexivity.
  - bools. apply Z.eqb_eq in H as ->. apply Z.eqb_eq in H0 as ->. reflexivity.
  - rewrite (veq_exact_id _ _ H). now rewrite (veq_hash w w').
  - now rewrite (IH t t').
  - bools. apply Z.eqb_eq in H as ->. apply Z.eqb_eq in H1 as ->. now rewrite (teqn_is_any _ _ _ H0), (IH e e').
  - bools. apply eqb_prop in H as ->. rewrite (L ts ts'); auto; now apply fold_and.
  - bools. apply Z.eqb_eq in H as ->. apply Z.eqb_eq in H2 as ->. destruct O, O', P, P', Q, Q'. now rewrite (teqn_is_any _ _ _ H1), (teqn_is_any _ _ _ H0), (IH kt kt').
  - bools. apply eqb_prop in H as ->. apply bools_eqb_eq in H2 as ->. destruct On as [On _], On' as [On' _].
    apply (fold_and (fun e => ty_all node_ok (snd (fst e)))) in O, O'. apply (fold_and (fun e => ty_all proper_node (snd (fst e)))) in P, P'. apply (fold_and (fun e => ty_all ordered_node (snd (fst e)))) in Q, Q'.
    assert (E : map (fun e => w64 (vhash (fst (fst e)) * 7 + exact_id (fst (fst e)))) es = map (fun e => w64 (vhash (fst (fst e)) * 7 + exact_id (fst (fst e)))) es').
    { clear H0 O O' P P' Q Q' Pn Pn'. revert es' On' H1. induction es as [|e r IHr]; intros [|e' r'] On' X; try discriminate; [reflexivity|]. cbn [pairwise] in X. apply andb_true_iff in X as [X Y]. inversion On; inversion On'; subst.
      assert (VH : vhash (fst (fst e)) = vhash (fst (fst e'))) by now apply veq_hash. cbn [map]. rewrite VH, (veq_exact_id _ _ X). f_equal. now apply IHr. }
    rewrite E. rewrite <- (map_map (fun e => snd (fst e)) thash es), <- (map_map (fun e => snd (fst e)) thash es').
    rewrite (L (map (fun e => snd (fst e)) es) (map (fun e => snd (fst e)) es')); [reflexivity| | | | | | |]; try (now apply Forall_map_iff).
    rewrite <- (pairwise_map2 (teqn n) (fun e : value * ty * bool => snd (fst e))). exact H0.
  - rewrite (S1 ts ts'); auto; now apply fold_and.
  - rewrite (S1 ts ts'); auto; now apply fold_and.
  - rewrite (S1 ts ts'); auto; now apply fold_and.
  - now rewrite (IH t t').
  - now rewrite (IH t t').
Qed.
