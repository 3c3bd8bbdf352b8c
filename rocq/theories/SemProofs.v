(* Facts about the instances of types: inst agrees with has_type, equal values have the same types,
   a value is an instance of its type. *)
From Coq Require Import ZArith List Bool Lia Permutation.
From Coq Require Import Floats.SpecFloat.
From Verif Require Import Int64 HMap Data DataSpec DataProofs Arr Types TypesSpec Assign InstProofs GuardProofs.
Import ListNotations.
Open Scope Z_scope.

Lemma type_ok_tuple_ok t : type_ok t -> ty_all tuple_ok t.
Proof.
  unfold type_ok. induction t as [ | | | |x y i| |x y i| | |x y|s|s|x y| | |p v|p t IHt| |p e x y IHe|p ts b IHts| |p k v x y IHk IHv|p a es IHes|p ts IHts|p vs|p ts IHts|p ts IHts|p t IHt| |t IHt] using ty_ind';
    cbn [ty_all]; intros [H1 H2]; (split; [cbn; auto|]); auto; try tauto.
  - apply fold_and. apply fold_and in H2. rewrite Forall_forall in *. auto.
  - apply (fold_and (fun e => ty_all tuple_ok (snd (fst e)))). apply (fold_and (fun e => ty_all node_ok (snd (fst e)))) in H2. rewrite Forall_forall in *. auto.
  - apply fold_and. apply fold_and in H2. rewrite Forall_forall in *. auto.
  - apply fold_and. apply fold_and in H2. rewrite Forall_forall in *. auto.
  - apply fold_and. apply fold_and in H2. rewrite Forall_forall in *. auto.
Qed.

Lemma gen_value_type_ok p v : wf v -> type_ok (gen_value p v).
Proof.
  assert (C : forall l, Forall type_ok l -> type_ok (or_any (common gen_assignable TAny l))).
  { intros [|t r] H; [cbn; auto|]. cbn [common]. inversion H; subst.
    destruct (forallb _ _); cbn [or_any]; [assumption|cbn; auto]. }
  unfold type_ok in *.
  induction v as [ |x|x|x|x|x|s1 n1 z1|x|x IHx|l IHl|m IHm] using value_ind'; intros Wv; cbn [gen_value]; try (cbn; auto; fail).
  - inversion Wv; subst. cbn. auto.
  - split; [exact I|]. apply C. apply Forall_map_iff. apply data_arr_inv in Wv. rewrite Forall_forall in *. auto.
  - apply data_map_inv in Wv as [Wv _]. rewrite Forall_forall in IHm, Wv.
    assert (K : ty_all node_ok (or_any (common gen_assignable TAny (map (fun e => gen_value p (fst e)) m)))).
    { apply C. apply Forall_map_iff, Forall_forall. intros e He. apply (IHm e He). now apply Wv. }
    assert (V : ty_all node_ok (or_any (common gen_assignable TAny (map (fun e => gen_value p (snd e)) m)))).
    { apply C. apply Forall_map_iff, Forall_forall. intros e He. apply (IHm e He). now apply Wv. }
    destruct (is_any _ && is_any _); cbn [ty_all]; [cbn; auto|]. split; [exact I|]. auto.
Qed.

Lemma type_of_type_ok p v : wf v -> type_ok (type_of p v).
Proof.
  intros Wv. unfold type_ok. destruct v; try (cbn; auto; fail). cbn. split; [exact I|].
  inversion Wv; subst. now apply gen_value_type_ok.
Qed.

Lemma member_type_ok u t : type_ok t -> member u t -> type_ok u.
Proof.
  unfold type_ok.
  destruct t as [ | | | |x y i| |x y i| | |x y|s|s|x y| | |p w|p t| |p e x y|p ts b| |p kt vt x y|p a es|p ts|p vs|p ts|p ts|p t|[t|]];
    cbn [ty_all member]; intros [N H] Hu; try contradiction; subst; try assumption.
  - rewrite fold_and, Forall_forall in H. auto.
  - destruct H as [H1 H2], Hu as [->| ->]; assumption.
  - destruct Hu as (e & He & ->). apply (fold_and (fun e => ty_all node_ok (snd (fst e)))) in H. rewrite Forall_forall in H. exact (H e He).
  - rewrite fold_and, Forall_forall in H. auto.
  - destruct Hu as (q & v & Hv & ->). apply type_of_type_ok. cbn in N. rewrite Forall_forall in N. auto.
  - rewrite fold_and, Forall_forall in H. auto.
  - rewrite fold_and, Forall_forall in H. auto.
Qed.

Lemma SFeqb_inv x y : SFeqb x y = true -> x = y \/ (exists s s', x = S754_zero s /\ y = S754_zero s').
Proof.
  unfold SFeqb. destruct x as [s|s| |s m e], y as [s'|s'| |s' m' e']; cbn; intros H; try discriminate;
    try (right; eauto; fail); try (destruct s; discriminate); try (destruct s'; discriminate); left.
  - destruct s, s'; try discriminate; reflexivity.
  - destruct s, s'; try discriminate; destruct (Z.compare_spec e e') as [->|L|L]; try discriminate;
      (destruct (Pos.compare_cont Eq m m') eqn:E; cbn in H; try discriminate);
      apply Pcompare_Eq_eq in E as ->; reflexivity.
Qed.

Lemma SFcompare_eqb_r m x y : SFeqb x y = true -> SFcompare m x = SFcompare m y.
Proof. intros H. apply SFeqb_inv in H as [->|(s & s' & -> & ->)]; [reflexivity|]. now destruct m. Qed.
Lemma SFcompare_eqb_l m x y : SFeqb x y = true -> SFcompare x m = SFcompare y m.
Proof. intros H. apply SFeqb_inv in H as [->|(s & s' & -> & ->)]; [reflexivity|]. now destruct m. Qed.

Lemma veq_congr w x y : wf w -> wf x -> wf y -> veq x y = true -> veq w x = veq w y.
Proof.
  intros Ww Wx Wy H. destruct (veq w x) eqn:E.
  - symmetry. now apply (veq_trans w x y).
  - destruct (veq w y) eqn:E'; [|reflexivity]. rewrite <- E. apply (veq_trans w y x); auto.
    now apply veq_sym.
Qed.

Lemma Forall2_length' {A B} (R : A -> B -> Prop) l l' : Forall2 R l l' -> length l = length l'.
Proof. induction 1; cbn; auto. Qed.

Lemma forallb_perm {A} (f : A -> bool) l l' : Permutation l l' -> forallb f l = forallb f l'.
Proof.
  induction 1 as [|x l l' H IH|x y l|l1 l2 l3 H1 IH1 H2 IH2]; cbn; try congruence.
  destruct (f x), (f y); reflexivity.
Qed.

Lemma forallb_Forall2 {A} (f : A -> bool) l l' : Forall2 (fun x y => f x = f y) l l' -> forallb f l = forallb f l'.
Proof. induction 1; cbn; congruence. Qed.

Lemma tuple_inst_Forall2 f b ts l l' : Forall2 (fun x y => forall t, In t ts -> f t x = f t y) l l' ->
  tuple_inst f b ts l = tuple_inst f b ts l'.
Proof.
  revert l l'. induction ts as [|t [|t' r] IH]; intros l l' H.
  - inversion H; subst; reflexivity.
  - cbn. destruct b.
    + destruct H as [|x y l l' Hxy H]; [reflexivity|].
      change (forallb (f t) (x :: l) = forallb (f t) (y :: l')). apply forallb_Forall2. constructor.
      * apply Hxy. now left.
      * eapply Forall2_imp_in; [exact H|]. intros a b _ _ Hab. apply Hab. now left.
    + destruct H as [|x y l l' Hxy H]; [reflexivity|]. destruct H; [|reflexivity]. apply Hxy. now left.
  - destruct H as [|x y l l' Hxy H]; [reflexivity|].
    rewrite !tuple_inst_cons by discriminate. rewrite (Hxy t) by (now left). f_equal. apply IH.
    eapply Forall2_imp_in; [exact H|]. intros a c _ _ Hab u Hu. apply Hab. now right.
Qed.

Section World.
Variable W : world.

(* equal values are instances of the same types *)
Lemma inst_with_veq av t : ty_all node_ok t ->
  (forall vs x y, Forall wf vs -> wf x -> wf y -> veq x y = true -> av vs x = av vs y) ->
  forall x y, wf x -> wf y -> veq x y = true -> inst_with W av t x = inst_with W av t y.
Proof.
  intros Ht Hav. revert Ht.
  induction t as [ | | | |lo hi i| |lo hi i| | |lo hi|s|s|lo hi| | |p v|p t IHt| |p e lo hi IHe|p ts b IHts| |p k v lo hi IHk IHv|p a es IHes|p ts IHts|p vs|p ts IHts|p ts IHts|p t IHt| |t IHt] using ty_ind';
    intros Ht x y Wx Wy H; cbn [ty_all] in Ht; destruct Ht as [N Ht].
  Ltac kinds H x y := destruct x, y; try discriminate H; try reflexivity.
  - reflexivity.
  - kinds H x y.
  - kinds H x y.
  - kinds H x y.
  - kinds H x y. cbn in *. apply Z.eqb_eq in H as ->. reflexivity.
  - kinds H x y.
  - kinds H x y. cbn [inst_with]. cbn in H. unfold float_in, SFleb, SFltb.
    rewrite (SFcompare_eqb_r lo _ _ H), (SFcompare_eqb_l hi _ _ H). reflexivity.
  - kinds H x y.
  - kinds H x y. cbn [veq] in H. apply bytes_eqb_eq in H as ->. reflexivity.
  - kinds H x y. cbn [veq] in H. apply bytes_eqb_eq in H as ->. reflexivity.
  - kinds H x y. cbn [veq] in H. apply bytes_eqb_eq in H as ->. reflexivity.
  - kinds H x y. cbn [veq] in H. apply bytes_eqb_eq in H as ->. reflexivity.
  - kinds H x y. cbn [veq] in H. apply bytes_eqb_eq in H as ->. reflexivity.
  - kinds H x y.
  - kinds H x y.
  - cbn [inst_with]. now apply veq_congr.
  - kinds H x y. cbn [inst_with]. inversion Wx; inversion Wy; subst. now apply IHt.
  - kinds H x y.
  - kinds H x y. cbn [inst_with]. rewrite veq_arr in H. apply forall2b_iff in H.
    apply data_arr_inv in Wx, Wy. rewrite Forall_forall in Wx, Wy.
    f_equal.
    + unfold length_z. now rewrite (Forall2_length' _ _ _ H).
    + apply forallb_Forall2. eapply Forall2_imp_in; [exact H|]. intros; apply IHe; auto.
  - destruct x as [ | | | | | | | | |l|m], y as [ | | | | | | | | |l'|m']; try discriminate H; try reflexivity.
    rewrite !inst_tuple. rewrite veq_arr in H. apply forall2b_iff in H.
    apply data_arr_inv in Wx, Wy. rewrite Forall_forall in Wx, Wy.
    apply tuple_inst_Forall2. eapply Forall2_imp_in; [exact H|]. intros x y Hx Hy Hxy t Ht'.
    rewrite fold_and, Forall_forall in Ht. rewrite Forall_forall in IHts. apply IHts; auto.
  - kinds H x y.
  - destruct x as [ | | | | | | | | |l|m], y as [ | | | | | | | | |l'|m']; try discriminate H; try reflexivity.
    destruct Ht as [Hk Hv]. cbn [inst_with].
    destruct (map_equal_matched m m' Wx Wy H) as (m'' & P & F).
    f_equal.
    + unfold length_z. now rewrite (Forall2_length' _ _ _ F), (Permutation_length P).
    + rewrite (forallb_perm _ _ _ P). apply forallb_Forall2.
      eapply Forall2_imp_in; [exact F|]. intros [k1 v1] [k2 v2] H1 H2 [E1 E2]. cbn [fst snd] in *.
      apply (wf_map_entry m _ _ Wx) in H1 as [Wk1 Wv1].
      apply (Permutation_in _ (Permutation_sym P)) in H2. apply (wf_map_entry m' _ _ Wy) in H2 as [Wk2 Wv2].
      rewrite (IHk Hk k1 k2), (IHv Hv v1 v2); auto.
  - destruct x as [ | | | | | | | | |l|m], y as [ | | | | | | | | |l'|m']; try discriminate H; try reflexivity.
    rewrite !inst_struct. pose proof (proj1 (map_equal_iff m m' Wx Wy) H) as S.
    destruct (map_equal_matched m m' Wx Wy H) as (m'' & P & F).
    assert (L : length_z m = length_z m') by (unfold length_z; now rewrite (Forall2_length' _ _ _ F), (Permutation_length P)).
    destruct N as [N _]. apply (fold_and (fun e => ty_all node_ok (snd (fst e)))) in Ht. generalize 0.
    induction es as [|[[k t] b] r IH]; intros oc; cbn [struct_inst]; [now rewrite L|].
    inversion IHes as [|? ? I1 I2]; inversion N as [|? ? N1 N2]; inversion Ht as [|? ? T1 T2]; subst. cbn [fst snd] in *.
    specialize (S k N1). rewrite !get_with_assoc. unfold same_assoc in S.
    destruct (assoc veq m k) as [u|] eqn:E1, (assoc veq m' k) as [u'|] eqn:E2; try contradiction.
    + rewrite IH by assumption. f_equal. apply I1; auto.
      * apply assoc_some in E1 as (k' & Hin & _). now apply (wf_map_entry m k').
      * apply assoc_some in E2 as (k' & Hin & _). now apply (wf_map_entry m' k').
    + rewrite IH by assumption. reflexivity.
  - cbn [inst_with]. apply forallb_ext_in. intros t Ht'. rewrite fold_and, Forall_forall in Ht. rewrite Forall_forall in IHts. auto.
  - cbn [inst_with]. now apply Hav.
  - cbn [inst_with]. apply existsb_ext_in. intros t Ht'. rewrite fold_and, Forall_forall in Ht. rewrite Forall_forall in IHts. auto.
  - cbn [inst_with]. f_equal. apply map_ext_in. intros t Ht'. rewrite fold_and, Forall_forall in Ht. rewrite Forall_forall in IHts. auto.
  - cbn [inst_with]. f_equal. now apply IHt.
  - reflexivity.
  - reflexivity.
Qed.

Lemma inst_veq t x y : type_ok t -> wf x -> wf y -> veq x y = true -> inst W t x = inst W t y.
Proof.
  intros Ht. apply inst_with_veq; [exact Ht|]. intros vs a b Wvs Wa Wb H. apply forallb_ext_in. intros v Hv.
  rewrite Forall_forall in Wvs. apply inst_with_veq; auto. now apply type_of_type_ok, Wvs.
Qed.

(* ---------- a value is an instance of its type ---------- *)

(* the types that gen_value yields *)
Inductive generic_shape : ty -> Prop :=
| gs_any : generic_shape TAny
| gs_nil : generic_shape TNil
| gs_bool : generic_shape TBool
| gs_int : generic_shape TInt
| gs_float : generic_shape TFloat
| gs_string : generic_shape TString
| gs_time : generic_shape TTime
| gs_regexp : generic_shape TRegexp
| gs_exact p s : generic_shape (TExact p (VBin s))
| gs_sens p t : generic_shape t -> generic_shape (TSens p t)
| gs_array p e : generic_shape e -> generic_shape (TArrSized p e 0 max_int64)
| gs_map : generic_shape TMap
| gs_sized_map p k v : generic_shape k -> generic_shape v -> generic_shape (TMapSized p k v 0 max_int64).

Lemma gen_value_shape p v : generic_shape (gen_value p v).
Proof.
  assert (C : forall l, Forall generic_shape l -> generic_shape (or_any (common gen_assignable TAny l))).
  { intros [|t r] H; [constructor|]. cbn [common]. inversion H; subst.
    destruct (forallb _ _); cbn [or_any]; [assumption|constructor]. }
  induction v as [ |x|x|x|x|x|s1 n1 z1|x|x IHx|l IHl|m IHm] using value_ind'; cbn [gen_value]; try (constructor; assumption || fail); try constructor.
  - apply C. now apply Forall_map_iff.
  - rewrite Forall_forall in IHm.
    assert (K : generic_shape (or_any (common gen_assignable TAny (map (fun e => gen_value p (fst e)) m)))).
    { apply C. apply Forall_map_iff, Forall_forall. intros e He. now apply IHm. }
    assert (V : generic_shape (or_any (common gen_assignable TAny (map (fun e => gen_value p (snd e)) m)))).
    { apply C. apply Forall_map_iff, Forall_forall. intros e He. now apply IHm. }
    destruct (is_any _ && is_any _); constructor; auto.
Qed.

Lemma fits_arr l : fits (VArr l) <-> Z.of_nat (length l) <= max_int64 /\ Forall fits l.
Proof. cbn [fits]. now rewrite fold_and. Qed.
Lemma fits_map m : fits (VMap m) <-> Z.of_nat (length m) <= max_int64 /\ Forall (fun e => fits (fst e) /\ fits (snd e)) m.
Proof. cbn [fits]. now rewrite (fold_and (fun e : value * value => fits (fst e) /\ fits (snd e))). Qed.

Lemma inst_arr_sized p e x y l : inst W (TArrSized p e x y) (VArr l) = size_in x y (length_z l) && forallb (inst W e) l.
Proof. reflexivity. Qed.
Lemma inst_map_sized p kt vt x y m : inst W (TMapSized p kt vt x y) (VMap m) =
  size_in x y (length_z m) && forallb (fun e => inst W kt (fst e) && inst W vt (snd e)) m.
Proof. reflexivity. Qed.
Lemma inst_sens p t v : inst W (TSens p t) (VSens v) = inst W t v.
Proof. reflexivity. Qed.

Lemma size_in_iff x y l : size_in x y l = true <-> x <= l <= y.
Proof. unfold size_in. rewrite andb_true_iff, !Z.leb_le. reflexivity. Qed.

Lemma gen_assignable_any t : gen_assignable t TAny = true -> t = TAny.
Proof. destruct t; cbn; congruence. Qed.

Lemma gen_assignable_sound : forall a, generic_shape a -> forall b, generic_shape b ->
  gen_assignable a b = true -> forall v, wf v -> fits v -> inst W b v = true -> inst W a v = true.
Proof.
  induction 1 as [ | | | | | | | |p s|p t Ha IH|p e Ha IH| |p k v Hk IHk Hv IHv]; intros b Hb G w Ww Fw I; try reflexivity;
    destruct Hb; try discriminate G; try exact I.
  - unfold inst in *. cbn [inst_with] in *. cbn [gen_assignable] in G. apply (veq_trans _ (VBin s0)); auto; constructor.
  - destruct w; try discriminate I. rewrite inst_sens in *. inversion Ww; subst. apply (IH t0); auto.
  - destruct w as [ | | | | | | | | |l| ]; try discriminate I. rewrite inst_arr_sized in *. apply andb_true_iff in I as [I1 I2].
    rewrite I1. cbn [andb]. apply fits_arr in Fw as [_ Fw]. apply data_arr_inv in Ww. rewrite Forall_forall in *.
    rewrite forallb_forall in *. intros x Hx. apply (IH e0); auto.
  - destruct w as [ | | | | | | | | | |m]; try discriminate I. reflexivity.
  - destruct w as [ | | | | | | | | | |m]; try discriminate I.
    cbn in G. apply andb_true_iff in G as [G1 G2]. apply gen_assignable_any in G1 as ->. apply gen_assignable_any in G2 as ->.
    rewrite inst_map_sized. apply fits_map in Fw as [F _]. apply andb_true_iff. split.
    + apply size_in_iff. unfold length_z. lia.
    + apply forallb_forall. reflexivity.
  - destruct w as [ | | | | | | | | | |m]; try discriminate I. rewrite inst_map_sized in *. apply andb_true_iff in I as [I1 I2].
    rewrite I1. cbn [andb]. cbn in G. apply andb_true_iff in G as [G1 G2].
    apply fits_map in Fw as [_ Fw]. apply data_map_inv in Ww as [Ww _]. rewrite Forall_forall in *.
    rewrite forallb_forall in *. intros x Hx. specialize (I2 x Hx). apply andb_true_iff in I2 as [J1 J2].
    destruct (Fw x Hx), (Ww x Hx). apply andb_true_iff. split; [apply (IHk k0)|apply (IHv v0)]; auto.
Qed.

Lemma common_upper l t v : Forall generic_shape l -> In t l -> wf v -> fits v -> inst W t v = true ->
  inst W (or_any (common gen_assignable TAny l)) v = true.
Proof.
  intros Hl Ht Wv Fv I. destruct l as [|u r]; [destruct Ht|]. cbn [common].
  destruct (forallb (gen_assignable u) r) eqn:E; cbn [or_any]; [|reflexivity].
  inversion Hl as [|? ? Hu Hr]; subst. destruct Ht as [->|Ht]; [assumption|].
  rewrite forallb_forall in E. rewrite Forall_forall in Hr. apply (gen_assignable_sound u Hu t); auto.
Qed.

Lemma gen_value_self p v : wf v -> fits v -> inst W (gen_value p v) v = true.
Proof.
  induction v as [ |x|x|x|x|x|s1 n1 z1|x|x IHx|l IHl|m IHm] using value_ind'; intros Wv Fv; try reflexivity.
  - unfold inst. cbn [gen_value inst_with]. now apply veq_refl.
  - cbn [gen_value]. rewrite inst_sens. inversion Wv; subst. auto.
  - cbn [gen_value]. rewrite inst_arr_sized. apply fits_arr in Fv as [F1 F2]. apply andb_true_iff. split.
    + apply size_in_iff. unfold length_z. lia.
    + apply forallb_forall. intros x Hx. apply data_arr_inv in Wv. rewrite Forall_forall in *.
      apply (common_upper _ (gen_value p x)); auto.
      * apply Forall_map_iff, Forall_forall. intros. apply gen_value_shape.
      * now apply in_map.
  - cbn [gen_value]. destruct (is_any _ && is_any _); [reflexivity|].
    rewrite inst_map_sized. apply fits_map in Fv as [F1 F2]. apply andb_true_iff. split.
    + apply size_in_iff. unfold length_z. lia.
    + apply forallb_forall. intros e He. apply data_map_inv in Wv as [Wv _]. rewrite Forall_forall in *.
      destruct (IHm e He) as [I1 I2], (Wv e He), (F2 e He). apply andb_true_iff. split.
      * apply (common_upper _ (gen_value p (fst e))); auto.
        -- apply Forall_map_iff, Forall_forall. intros. apply gen_value_shape.
        -- apply (in_map (fun e => gen_value p (fst e)) m e He).
      * apply (common_upper _ (gen_value p (snd e))); auto.
        -- apply Forall_map_iff, Forall_forall. intros. apply gen_value_shape.
        -- apply (in_map (fun e => gen_value p (snd e)) m e He).
Qed.

Lemma type_of_self p v : wf v -> fits v -> inst W (type_of p v) v = true.
Proof.
  intros Wv Fv. destruct v; try (unfold inst; cbn [type_of inst_with]; now apply veq_refl); try reflexivity.
  cbn [type_of]. rewrite inst_sens. inversion Wv; subst. now apply gen_value_self.
Qed.

Lemma type_of_equal p v w : wf v -> wf w -> fits v -> veq v w = true -> inst W (type_of p v) w = true.
Proof.
  intros Wv Ww Fv H. rewrite <- (inst_veq (type_of p v) v w); auto using type_of_type_ok, type_of_self.
Qed.

(* ---------- inst and has_type ---------- *)

Definition found_in (m : list (value * value)) (e : value * ty * bool) : list (value * value) :=
  match find (fun x => veq (fst (fst e)) (fst x)) m with Some x => [x] | None => [] end.

Lemma struct_inst_iff f a m es : forall oc, 0 <= oc ->
  (struct_inst f a m oc es = true <->
   Forall (fun e : value * ty * bool => match assoc veq m (fst (fst e)) with
                     | Some x => f (snd (fst e)) x = true
                     | None => snd e = false end) es /\
   (a = true \/ oc + length_z (flat_map (found_in m) es) = length_z m)).
Proof.
  induction es as [|[[k t] b] r IH]; intros oc Hoc; cbn [struct_inst flat_map].
  - rewrite orb_true_iff, Z.eqb_eq. change (length_z (@nil (value * value))) with 0. rewrite Z.add_0_r.
    split; [intros H; split; [constructor|exact H]|intros [_ H]; exact H].
  - rewrite Forall_cons_iff. cbn [fst snd]. unfold found_in at 1. cbn [fst snd].
    rewrite get_with_assoc. pose proof (get_with_assoc m k) as G. unfold get_with in G.
    destruct (find (fun x => veq k (fst x)) m) as [x|]; rewrite <- G.
    + rewrite andb_true_iff, IH by lia. unfold length_z. cbn [app length]. rewrite Nat2Z.inj_succ.
      split; [intros (A & B & [C|C])|intros [[A B] [C|C]]]; repeat split; auto; right; lia.
    + cbn [app]. destruct b.
      * split; [discriminate|]. intros [[A _] _]. discriminate A.
      * rewrite IH by lia. tauto.
Qed.

Lemma nodup_map m : wf (VMap m) -> NoDup m.
Proof.
  intros Wm. pose proof (data_map_inv m Wm) as [A B]. clear Wm. induction B as [|e m He Hm IH]; constructor.
  - intros Hin. rewrite Forall_forall in He. specialize (He e Hin). unfold keys_differ in He.
    rewrite veq_refl in He; [discriminate|]. inversion A as [|? ? [W1 _] _]; subst. exact W1.
  - apply IH. now inversion A.
Qed.

Lemma found_in_spec m e x : In x (found_in m e) -> In x m /\ veq (fst (fst e)) (fst x) = true.
Proof.
  unfold found_in. destruct (find _ m) as [y|] eqn:E; [|intros []]. intros [<-|[]].
  now apply find_some in E.
Qed.

Lemma nodup_found m es : wf (VMap m) -> Forall (fun e => wf (fst (fst e))) es ->
  ForallOrdPairs (fun e e' : value * ty * bool => veq (fst (fst e)) (fst (fst e')) = false) es ->
  NoDup (flat_map (found_in m) es).
Proof.
  intros Wm We H. induction H as [|e es He Hes IH]; cbn [flat_map]; [constructor|].
  inversion We as [|? ? W1 W2]; subst.
  assert (D : forall x, In x (found_in m e) -> ~ In x (flat_map (found_in m) es)).
  { intros x Hx Hin. apply in_flat_map in Hin as (e' & He' & Hx'). apply found_in_spec in Hx as [H1 H2], Hx' as [_ H3].
    rewrite Forall_forall in He, W2. specialize (He e' He'). destruct x as [k v].
    destruct (wf_map_entry m k v Wm H1). cbn [fst snd] in *.
    rewrite (veq_trans (fst (fst e)) k (fst (fst e'))) in He; auto; try discriminate. apply veq_sym; auto. }
  unfold found_in at 1. unfold found_in at 1 in D. destruct (find _ m) as [x|]; cbn [app]; [|auto].
  constructor; auto. apply D. now left.
Qed.

Lemma found_all m es : wf (VMap m) -> Forall (fun e => wf (fst (fst e))) es ->
  ForallOrdPairs (fun e e' : value * ty * bool => veq (fst (fst e)) (fst (fst e')) = false) es ->
  (length_z (flat_map (found_in m) es) = length_z m <->
   forall k x, In (k, x) m -> exists e, In e es /\ veq (fst (fst e)) k = true).
Proof.
  intros Wm We Hes. pose proof (nodup_found m es Wm We Hes) as ND. pose proof (nodup_map m Wm) as NDm.
  assert (I : incl (flat_map (found_in m) es) m).
  { intros x Hx. apply in_flat_map in Hx as (e & _ & Hx). now apply found_in_spec in Hx. }
  pose proof (NoDup_incl_length ND I) as L. unfold length_z. split.
  - intros E k x Hin. assert (J : incl m (flat_map (found_in m) es)) by (apply NoDup_length_incl; auto; lia).
    apply J in Hin. apply in_flat_map in Hin as (e & He & Hx). apply found_in_spec in Hx as [_ Hx]. exists e. auto.
  - intros H. assert (J : incl m (flat_map (found_in m) es)).
    { intros [k x] Hin. destruct (H k x Hin) as (e & He & E). apply in_flat_map. exists e. split; [assumption|].
      rewrite Forall_forall in We. pose proof (assoc_unique m (fst (fst e)) k x Wm (We e He) Hin E) as A.
      rewrite <- get_with_assoc in A. unfold get_with in A. unfold found_in.
      destruct (find (fun x0 => veq (fst (fst e)) (fst x0)) m) as [[k' x']|] eqn:F; [|discriminate].
      injection A as ->. apply find_some in F as [F1 F2]. cbn [fst] in F2.
      (* the same entry, as keys differ *)
      assert (K : (k', x) = (k, x)).
      { destruct (wf_map_entry m k x Wm Hin) as [Wk _], (wf_map_entry m k' x Wm F1) as [Wk' _].
        assert (V : veq k' k = true) by (apply (veq_trans k' (fst (fst e)) k); auto; apply veq_sym; auto).
        apply In_nth_error in Hin as [i Hi]. apply In_nth_error in F1 as [j Hj].
        apply data_map_inv in Wm as [_ O].
        destruct (Nat.lt_trichotomy i j) as [Hij|[->|Hij]].
        - pose proof (fop_nth _ _ _ _ _ _ O Hij Hi Hj) as D. unfold keys_differ in D. cbn in D.
          rewrite (veq_sym k' k) in D; auto. discriminate.
        - congruence.
        - pose proof (fop_nth _ _ _ _ _ _ O Hij Hj Hi) as D. unfold keys_differ in D. cbn in D. congruence. }
      rewrite K. now left. }
    pose proof (NoDup_incl_length NDm J). lia.
Qed.

Lemma pairwise_Forall2 {A B} (f : A -> B -> bool) (R : A -> B -> Prop) l : forall l',
  (forall x y, In x l -> In y l' -> f x y = true <-> R x y) -> (pairwise f l l' = true <-> Forall2 R l l').
Proof.
  induction l as [|x r IH]; intros [|y r'] H; cbn; split; intros E; try discriminate; try constructor; try (inversion E; fail).
  - apply andb_true_iff in E as [E1 E2]. apply H; auto using in_eq.
  - apply andb_true_iff in E as [E1 E2]. apply IH; auto. intros. apply H; now right.
  - inversion E; subst. apply andb_true_iff. split; [apply H; auto using in_eq|]. apply IH; auto. intros. apply H; now right.
Qed.

Lemma Forall2_map_l {A B C} (g : A -> C) (R : C -> B -> Prop) l : forall l',
  Forall2 R (map g l) l' <-> Forall2 (fun x y => R (g x) y) l l'.
Proof.
  induction l as [|x r IH]; intros l'; split; intros H; inversion H; subst; cbn; constructor; auto; now apply IH.
Qed.

Lemma exactly_one_true l : exactly_one true l = true <-> Forall (fun b => b = false) l.
Proof.
  induction l as [|[|] r IH]; cbn; split; intros H; auto; try discriminate.
  - inversion H; discriminate.
  - constructor; [reflexivity|]. now apply IH.
  - inversion H; subst. now apply IH.
Qed.
Lemma exactly_one_iff l : exactly_one false l = true <->
  exists l1 l2, l = l1 ++ true :: l2 /\ Forall (fun b => b = false) (l1 ++ l2).
Proof.
  induction l as [|[|] r IH]; cbn.
  - split; [discriminate|]. intros (l1 & l2 & E & _). destruct l1; discriminate.
  - rewrite exactly_one_true. split.
    + intros H. exists [], r. auto.
    + intros ([|b l1] & l2 & E & F); cbn in *; inversion E; subst; auto.
      inversion F; discriminate.
  - rewrite IH. split.
    + intros (l1 & l2 & -> & F). exists (false :: l1), l2. cbn. auto.
    + intros ([|b l1] & l2 & E & F); cbn in *; inversion E; subst.
      exists l1, l2. inversion F; auto.
Qed.

Lemma map_app_inv {A B} (f : A -> B) l : forall l1 l2, map f l = l1 ++ l2 ->
  exists k1 k2, l = k1 ++ k2 /\ map f k1 = l1 /\ map f k2 = l2.
Proof.
  induction l as [|x r IH]; intros [|y l1] l2 H; cbn in *; try discriminate.
  - exists [], []. auto.
  - subst. exists [], (x :: r). auto.
  - injection H as <- H. destruct (IH l1 l2 H) as (k1 & k2 & -> & <- & <-). exists (x :: k1), k2. auto.
Qed.

Lemma In_firstn {A} n (l : list A) x : In x (firstn n l) -> In x l.
Proof. intros H. rewrite <- (firstn_skipn n l). apply in_or_app. now left. Qed.
Lemma In_skipn {A} n (l : list A) x : In x (skipn n l) -> In x l.
Proof. intros H. rewrite <- (firstn_skipn n l). apply in_or_app. now right. Qed.

Lemma inst_with_iff av avP t : ty_all node_ok t ->
  (forall vs v, Forall wf vs -> wf v -> (av vs v = true <-> avP vs v)) ->
  forall v, wf v -> (inst_with W av t v = true <-> has_type_with W avP t v).
Proof.
  intros Ht Hav. revert Ht.
  Ltac iff_exists := split; [intros H; try discriminate; eauto|intros (? & H); try discriminate; intuition discriminate].
  induction t as [ | | | |lo hi i| |lo hi i| | |lo hi|s|s|lo hi| | |p v|p t IHt| |p e lo hi IHe|p ts b IHts| |p k v lo hi IHk IHv|p a es IHes|p ts IHts|p vs|p ts IHts|p ts IHts|p t IHt| |t IHt] using ty_ind';
    intros Ht w Ww; cbn [ty_all] in Ht; destruct Ht as [N Ht]; cbn [has_type_with].
  - cbn. tauto.
  - destruct w; cbn; split; congruence.
  - destruct w; cbn; iff_exists.
  - destruct w; cbn; iff_exists.
  - destruct w; cbn; try iff_exists. unfold int_in. rewrite andb_true_iff, Z.leb_le. split.
    + intros [H1 H2]. exists z. destruct i; [rewrite Z.leb_le in H2|rewrite Z.ltb_lt in H2]; auto.
    + intros (z' & E & H1 & H2). injection E as <-. destruct i; [rewrite Z.leb_le|rewrite Z.ltb_lt]; auto.
  - destruct w; cbn; iff_exists.
  - destruct w; cbn; try iff_exists. unfold float_in. rewrite andb_true_iff. split.
    + intros [H1 H2]. exists f. destruct i; auto.
    + intros (z' & E & H1 & H2). injection E as <-. destruct i; auto.
  - destruct w; cbn; iff_exists.
  - destruct w; cbn; try iff_exists. unfold dgo_string. rewrite andb_true_iff, Z.ltb_lt. split.
    + intros [H1 H2]. exists s. repeat split; auto. intros ->. cbn in H1. lia.
    + intros (z' & E & H1 & H2). injection E as <-. split; auto. unfold length_z. destruct s; [congruence|cbn; lia].
  - destruct w; cbn; try iff_exists. rewrite size_in_iff. split.
    + intros H. exists s. auto.
    + intros (z' & E & H1). injection E as <-. exact H1.
  - destruct w; cbn; try iff_exists. split; [intros H; exists s0; auto|]. intros (z' & E & H). injection E as <-. exact H.
  - destruct w; cbn; try iff_exists. split; [intros H; exists s0; auto|]. intros (z' & E & H). injection E as <-. exact H.
  - destruct w; cbn; try iff_exists. rewrite size_in_iff. split.
    + intros H. exists s. auto.
    + intros (z' & E & H1). injection E as <-. exact H1.
  - destruct w; cbn; split; intros H; try discriminate; eauto; destruct H as (? & ? & ? & H); discriminate.
  - destruct w; cbn; iff_exists.
  - reflexivity.
  - destruct w; cbn [inst_with]; try iff_exists. inversion Ww; subst. rewrite IHt by auto. split.
    + intros H. exists w. auto.
    + intros (z' & E & H1). injection E as <-. exact H1.
  - destruct w; cbn; iff_exists.
  - destruct w; cbn [inst_with]; try iff_exists. rewrite andb_true_iff, size_in_iff. unfold length_z.
    apply data_arr_inv in Ww. rewrite Forall_forall in Ww.
    assert (E : forallb (inst_with W av e) l = true <-> Forall (has_type_with W avP e) l).
    { rewrite forallb_forall, Forall_forall. split; intros H x Hx; apply IHe; auto. }
    rewrite E. split.
    + intros [H1 H2]. exists l. auto.
    + intros (l' & El & H). injection El as <-. tauto.
  - destruct w as [ | | | | | | | | |l|m]; cbn [inst_with]; try iff_exists.
    change ((inst_with W av (TTuple p ts b) (VArr l) = true) <-> exists l0, VArr l = VArr l0 /\
      (if b then exists Qs P l1 l2, map (has_type_with W avP) ts = Qs ++ [P] /\ l0 = l1 ++ l2 /\
                   Forall2 (fun (Q : value -> Prop) x => Q x) Qs l1 /\ Forall P l2
       else Forall2 (fun (Q : value -> Prop) x => Q x) (map (has_type_with W avP) ts) l0)).
    rewrite inst_tuple. apply data_arr_inv in Ww. rewrite Forall_forall in Ww, IHts.
    apply fold_and in Ht. rewrite Forall_forall in Ht.
    assert (EX : forall P : list value -> Prop, (exists l0, VArr l = VArr l0 /\ P l0) <-> P l).
    { intros P. split; [intros (l0 & E & H); injection E as <-; exact H|intros H; eauto]. }
    rewrite EX. destruct b.
    + destruct (exists_last (N eq_refl)) as (ts' & vt & ->).
      assert (Hvt : forall x, In x l -> inst_with W av vt x = true <-> has_type_with W avP vt x).
      { intros x Hx. apply IHts; auto; try apply Ht; try (apply in_or_app; right; now left). }
      assert (Hts : forall t x, In t ts' -> In x l -> inst_with W av t x = true <-> has_type_with W avP t x).
      { intros t x Ht' Hx. apply IHts; auto; try apply Ht; apply in_or_app; now left. }
      rewrite map_app. cbn [map]. destruct (Nat.le_gt_cases (length ts') (length l)) as [L|L].
      * rewrite tuple_inst_variadic by assumption. rewrite andb_true_iff.
        rewrite (pairwise_Forall2 _ (fun t x => has_type_with W avP t x)).
        2:{ intros t x H1 H2. apply Hts; auto. eapply In_firstn. exact H2. }
        rewrite forallb_forall. split.
        -- intros [H1 H2]. exists (map (has_type_with W avP) ts'), (has_type_with W avP vt), (firstn (length ts') l), (skipn (length ts') l).
           rewrite firstn_skipn. repeat split; auto.
           ++ now apply Forall2_map_l.
           ++ apply Forall_forall. intros x Hx. apply Hvt; auto. eapply In_skipn. exact Hx.
        -- intros (Qs & P & l1 & l2 & E1 & E2 & F1 & F2). apply app_inj_tail in E1 as [<- <-].
           pose proof (Forall2_length' _ _ _ F1) as L1. rewrite map_length in L1. subst l.
           rewrite L1, firstn_app, firstn_all, Nat.sub_diag, skipn_app, skipn_all, Nat.sub_diag. cbn [firstn skipn app].
           rewrite app_nil_r. split.
           ++ now apply Forall2_map_l in F1.
           ++ intros x Hx. rewrite Forall_forall in F2. apply Hvt; auto. apply in_or_app. now right.
      * rewrite tuple_inst_short by assumption. split; [discriminate|].
        intros (Qs & P & l1 & l2 & E1 & E2 & F1 & F2). apply app_inj_tail in E1 as [<- <-].
        pose proof (Forall2_length' _ _ _ F1) as L1. rewrite map_length in L1. subst l. rewrite app_length in L. lia.
    + rewrite tuple_inst_fixed, (pairwise_Forall2 _ (fun t x => has_type_with W avP t x)).
      * symmetry. apply (Forall2_map_l (has_type_with W avP) (fun (Q : value -> Prop) x => Q x)).
      * intros t x H1 H2. apply IHts; auto.
  - destruct w; cbn; iff_exists.
  - destruct w as [ | | | | | | | | |l|m]; cbn [inst_with]; try iff_exists. rewrite andb_true_iff, size_in_iff. unfold length_z.
    apply data_map_inv in Ww as [Ww _]. rewrite Forall_forall in Ww. destruct Ht as [Hk Hv].
    assert (E : forallb (fun e => inst_with W av k (fst e) && inst_with W av v (snd e)) m = true <->
                Forall (fun e => has_type_with W avP k (fst e) /\ has_type_with W avP v (snd e)) m).
    { rewrite forallb_forall, Forall_forall. split; intros H x Hx; destruct (Ww x Hx) as [W1 W2]; specialize (H x Hx).
      - apply andb_true_iff in H as [H1 H2]. split; [apply IHk|apply IHv]; auto.
      - apply andb_true_iff. destruct H. split; [apply IHk|apply IHv]; auto. }
    rewrite E. split.
    + intros [H1 H2]. exists m. auto.
    + intros (l' & El & H). injection El as <-. tauto.
  - destruct w as [ | | | | | | | | |l|m]; cbn [inst_with]; try iff_exists.
    fold (inst_with W av (TStruct p a es) (VMap m)).
    change (inst_with W av (TStruct p a es) (VMap m) = true <-> (exists m0, VMap m = VMap m0 /\
      Forall (fun e : value * (value -> Prop) * bool =>
                match assoc veq m0 (fst (fst e)) with Some x => snd (fst e) x | None => snd e = false end)
             (map (fun e => (fst (fst e), has_type_with W avP (snd (fst e)), snd e)) es) /\
      (a = true \/ forall k x, In (k, x) m0 -> exists e, In e es /\ veq (fst (fst e)) k = true))).
    rewrite inst_struct, struct_inst_iff by lia. destruct N as [N1 N2].
    apply (fold_and (fun e => ty_all node_ok (snd (fst e)))) in Ht.
    assert (EX : forall P : list (value * value) -> Prop, (exists l0, VMap m = VMap l0 /\ P l0) <-> P m).
    { intros P. split; [intros (l0 & E & H); injection E as <-; exact H|intros H; eauto]. }
    rewrite (EX (fun m0 => _ /\ _)). rewrite Forall_map_iff. cbn [fst snd].
    rewrite Z.add_0_l, (found_all m es Ww N1 N2).
    assert (E : Forall (fun e : value * ty * bool => match assoc veq m (fst (fst e)) with
                     | Some x => inst_with W av (snd (fst e)) x = true
                     | None => snd e = false end) es <->
                Forall (fun e : value * ty * bool => match assoc veq m (fst (fst e)) with
                     | Some x => has_type_with W avP (snd (fst e)) x
                     | None => snd e = false end) es).
    { rewrite Forall_forall in *. rewrite Forall_forall. split; intros H e He; specialize (H e He);
        (destruct (assoc veq m (fst (fst e))) as [x|] eqn:A; [|exact H]);
        apply assoc_some in A as (k' & Hin & _); apply (IHes e He); auto; apply (wf_map_entry m k'); auto. }
    rewrite E. reflexivity.
  - cbn [inst_with]. apply fold_and in Ht. rewrite Forall_map_iff, forallb_forall. rewrite Forall_forall in *.
    split; intros H t Ht'; apply IHts; auto.
  - cbn [inst_with]. now apply Hav.
  - cbn [inst_with]. apply fold_and in Ht. rewrite existsb_exists, Exists_exists. rewrite Forall_forall in *. split.
    + intros (t & H1 & H2). exists (has_type_with W avP t). split; [now apply in_map|]. apply IHts; auto.
    + intros (P & H1 & H2). apply in_map_iff in H1 as (t & <- & H1). exists t. split; [assumption|]. apply IHts; auto.
  - cbn [inst_with]. apply fold_and in Ht. rewrite Forall_forall in *. rewrite exactly_one_iff. split.
    + intros (l1 & l2 & E & F). apply map_app_inv in E as (k1 & k2 & -> & <- & E).
      destruct k2 as [|t k2]; [discriminate|]. cbn in E. injection E as E1 <-.
      exists (map (has_type_with W avP) k1), (has_type_with W avP t), (map (has_type_with W avP) k2).
      rewrite map_app. cbn [map]. rewrite <- map_app in *. split; [reflexivity|]. split.
      * apply IHts; auto; try apply Ht; apply in_or_app; right; now left.
      * rewrite Forall_forall in *. intros P HP. apply in_map_iff in HP as (u & <- & Hu). intros C.
        assert (Hu' : In u (k1 ++ t :: k2)) by (apply in_app_or in Hu as []; apply in_or_app; [left|right; right]; assumption).
        apply IHts in C; auto. rewrite (F (inst_with W av u w)) in C; [discriminate|].
        apply (in_map (fun t => inst_with W av t w)). assumption.
    + intros (l1 & P & l2 & E & HP & F). apply map_app_inv in E as (k1 & k2 & -> & <- & E).
      destruct k2 as [|t k2]; [discriminate|]. cbn in E. injection E as E1 <-. subst P.
      exists (map (fun t => inst_with W av t w) k1), (map (fun t => inst_with W av t w) k2).
      rewrite map_app. cbn [map]. rewrite <- map_app in *. split.
      * do 2 f_equal. apply IHts; auto; try apply Ht; apply in_or_app; right; now left.
      * rewrite Forall_forall in *. intros b Hb. apply in_map_iff in Hb as (u & <- & Hu).
        assert (Hu' : In u (k1 ++ t :: k2)) by (apply in_app_or in Hu as []; apply in_or_app; [left|right; right]; assumption).
        destruct (inst_with W av u w) eqn:C; [|reflexivity]. exfalso. apply IHts in C; auto.
        apply (F (has_type_with W avP u)); auto. now apply in_map.
  - cbn [inst_with]. rewrite negb_true_iff, <- IHt by auto. destruct (inst_with W av t w); split; congruence.
  - cbn. split; [discriminate|contradiction].
  - cbn. split; [discriminate|contradiction].
Qed.

Theorem inst_iff t v : type_ok t -> wf v -> (inst W t v = true <-> has_type W t v).
Proof.
  intros Ht Wv. apply inst_with_iff; auto. intros vs w Wvs Ww. rewrite forallb_forall, Forall_forall.
  rewrite Forall_forall in Wvs. split; intros H x Hx; specialize (H x Hx).
  - apply inst_with_iff with (av := fun _ _ => false); auto. { now apply type_of_type_ok, Wvs. } intros; split; [discriminate|contradiction].
  - apply inst_with_iff with (avP := fun _ _ => False); auto. { now apply type_of_type_ok, Wvs. } intros; split; [discriminate|contradiction].
Qed.
End World.
