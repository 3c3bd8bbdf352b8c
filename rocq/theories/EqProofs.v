(* Equal types have the same instances. *)
From Coq Require Import ZArith List Bool Lia Permutation.
From Coq Require Import Floats.SpecFloat.
From Verif Require Import Int64 HMap Data DataSpec DataProofs Arr ArrProofs Types TypesSpec Assign InstProofs GuardProofs SemProofs.
Import ListNotations.
Open Scope Z_scope.

(* ---------- SameValues with any equality ---------- *)

Lemma same_values_match {A} (eq : A -> A -> bool) a b : same_values A eq a b = Some true ->
  exists b', Permutation b b' /\ Forall2 (fun x y => eq y x = true) a b'.
Proof.
  unfold same_values. destruct (Nat.eqb_spec (length a) (length b)) as [L|L]; [|discriminate].
  unfold contains_all. rewrite L, Nat.ltb_irrefl. intros H.
  assert (H' : contains_loop A eq (length b) a (map Some b) = Some true).
  { destruct a; [|exact H]. destruct b; [reflexivity|discriminate L]. }
  destruct (contains_loop_sound _ _ _ _ _ H') as (rest & c & Hp & Hf & Hn).
  rewrite left_over_some in Hp. exists c.
  assert (rest = []) as ->.
  { apply Permutation_length in Hp. rewrite app_length in Hp. destruct rest; [reflexivity|cbn in Hp; lia]. }
  rewrite app_nil_r in Hp. split; [assumption|]. rewrite <- L, firstn_all in Hf. exact Hf.
Qed.

Lemma existsb_perm {A} (f : A -> bool) l l' : Permutation l l' -> existsb f l = existsb f l'.
Proof.
  induction 1 as [|x l l' H IH|x y l|l1 l2 l3 H1 IH1 H2 IH2]; cbn; try congruence.
  destruct (f x), (f y); reflexivity.
Qed.

Lemma exactly_one_count l : forall b, exactly_one b l =
  Nat.eqb ((if b then 1 else 0) + length (filter (fun x : bool => x) l)) 1.
Proof.
  induction l as [|[|] r IH]; intros b; cbn.
  - now destruct b.
  - destruct b; [reflexivity|]. now rewrite IH.
  - apply IH.
Qed.
Lemma exactly_one_perm b l l' : Permutation l l' -> exactly_one b l = exactly_one b l'.
Proof.
  intros H. rewrite !exactly_one_count. do 2 f_equal.
  induction H as [|[|] l l' H IH|x y l|l1 l2 l3 H1 IH1 H2 IH2]; cbn; try congruence. now destruct x, y.
Qed.

(* ---------- values without sensitive values ---------- *)

Lemma type_of_plain p v : no_sens v = true -> plain (type_of p v).
Proof. destruct v; unfold plain; cbn; intros H; auto; discriminate. Qed.

Section World.
Variable W : world.

Lemma inst_type_of_veq p x y : no_sens x = true -> inst W (type_of p x) y = veq x y.
Proof. destruct x; cbn; intros H; try reflexivity; try discriminate. Qed.

Lemma inst_allof p ts v : inst W (TAllOf p ts) v = forallb (fun t => inst W t v) ts.
Proof. reflexivity. Qed.
Lemma inst_anyof p ts v : inst W (TAnyOf p ts) v = existsb (fun t => inst W t v) ts.
Proof. reflexivity. Qed.
Lemma inst_oneof p ts v : inst W (TOneOf p ts) v = exactly_one false (map (fun t => inst W t v) ts).
Proof. reflexivity. Qed.
Lemma inst_allofvalue p q vs v : inst W (TAllOfValue p vs) v = forallb (fun x => inst W (type_of q x) v) vs.
Proof.
  unfold inst at 1. cbn [inst_with]. apply forallb_ext_in. intros x _. symmetry. apply inst_type_of.
Qed.
Lemma inst_tuple' p ts b l : inst W (TTuple p ts b) (VArr l) = tuple_inst (inst W) b ts l.
Proof. apply inst_tuple. Qed.
Lemma inst_struct' p a es m : inst W (TStruct p a es) (VMap m) = struct_inst (inst W) a m 0 es.
Proof. apply inst_struct. Qed.

Lemma pairwise_iff {A B} (f : A -> B -> bool) l l' : pairwise f l l' = true <-> Forall2 (fun x y => f x y = true) l l'.
Proof. apply pairwise_Forall2. reflexivity. Qed.

Lemma tuple_inst_types f g b ts ts' l : Forall2 (fun t t' => forall x, In x l -> f t x = g t' x) ts ts' ->
  tuple_inst f b ts l = tuple_inst g b ts' l.
Proof.
  intros H. revert ts' l H. induction ts as [|t [|u r] IH]; intros ts' l H.
  - inversion H; subst. destruct l; reflexivity.
  - inversion H as [|? t' ? r' Ht Hr]; subst. inversion Hr; subst. cbn.
    assert (E : forallb (f t) l = forallb (g t') l).
    { clear IH H Hr. induction l as [|x l IHl]; cbn; [reflexivity|].
      rewrite (Ht x (or_introl eq_refl)). f_equal. apply IHl. intros. apply Ht. now right. }
    destruct l as [|x [|y l]]; cbn in *; destruct b; auto.
  - inversion H as [|? t' ? r' Ht Hr]; subst. destruct l as [|x l].
    + rewrite tuple_inst_nil by discriminate. inversion Hr; subst. rewrite tuple_inst_nil by discriminate. reflexivity.
    + rewrite tuple_inst_cons by discriminate. rewrite tuple_inst_cons by (inversion Hr; discriminate).
      rewrite (Ht x (or_introl eq_refl)). f_equal. apply IH.
      eapply Forall2_imp_in; [exact Hr|]. intros a c _ _ Hac y Hy. apply Hac. now right.
Qed.

Lemma get_with_congr m k k' : wf (VMap m) -> wf k -> wf k' -> veq k k' = true ->
  get_with (veq k) m = get_with (veq k') m.
Proof.
  intros Wm Wk Wk' H. rewrite !get_with_assoc. destruct (assoc veq m k) as [x|] eqn:E.
  - apply assoc_some in E as (k1 & Hin & Hk). destruct (wf_map_entry _ _ _ Wm Hin) as [W1 _].
    symmetry. apply (assoc_unique m k' k1 x); auto. apply (veq_trans k' k k1); auto using veq_sym.
  - destruct (assoc veq m k') as [x|] eqn:E'; [|reflexivity]. exfalso.
    apply assoc_some in E' as (k1 & Hin & Hk). destruct (wf_map_entry _ _ _ Wm Hin) as [W1 _].
    pose proof (assoc_none _ _ E _ _ Hin) as N. rewrite (veq_trans k k' k1) in N; auto. discriminate.
Qed.

Lemma bools_eqb_eq a : forall b, bools_eqb a b = true -> a = b.
Proof.
  induction a as [|x a IH]; intros [|y b] H; cbn in H; try discriminate; [reflexivity|].
  apply andb_true_iff in H as [H1 H2]. apply eqb_prop in H1 as ->. f_equal. auto.
Qed.

Lemma struct_inst_types f g a m es es' : wf (VMap m) ->
  Forall (fun e => wf (fst (fst e))) es -> Forall (fun e => wf (fst (fst e))) es' ->
  Forall2 (fun e e' : value * ty * bool => veq (fst (fst e)) (fst (fst e')) = true /\ snd e = snd e' /\
             forall k x, In (k, x) m -> f (snd (fst e)) x = g (snd (fst e')) x) es es' ->
  forall oc, struct_inst f a m oc es = struct_inst g a m oc es'.
Proof.
  intros Wm We We' H. induction H as [|[[k t] b] [[k' t'] b'] es es' (H1 & H2 & H3) H IH]; intros oc; [reflexivity|].
  inversion We as [|? ? W1 W2]; inversion We' as [|? ? W1' W2']; subst. cbn [fst snd] in *. subst b'.
  cbn [struct_inst]. rewrite (get_with_congr m k k'); auto.
  destruct (get_with (veq k') m) as [x|] eqn:G.
  - rewrite get_with_assoc in G. apply assoc_some in G as (k1 & Hin & _). rewrite (H3 k1 x Hin), IH; auto.
  - destruct b; auto.
Qed.

Lemma Forall2_and {A B} (P Q : A -> B -> Prop) l l' : Forall2 P l l' -> Forall2 Q l l' -> Forall2 (fun x y => P x y /\ Q x y) l l'.
Proof. induction 1; intros H'; inversion H'; subst; constructor; auto. Qed.

Lemma Forall2_map_snd (es es' : list (value * ty * bool)) : map snd es = map snd es' -> Forall2 (fun e e' : value * ty * bool => snd e = snd e') es es'.
Proof. revert es'. induction es as [|e r IH]; intros [|e' r'] H; cbn in H; try discriminate; constructor; inversion H; auto. Qed.

Lemma same_map v ts us : Forall2 (fun t t' => inst W t v = inst W t' v) ts us ->
  map (fun t => inst W t v) ts = map (fun t => inst W t v) us.
Proof. induction 1 as [|x y l l' H1 H2 IH]; cbn; [reflexivity|]. now rewrite H1, IH. Qed.

(* matching lists of types give the same combinations *)
Section Matched.
Variables (v : value) (ts ts' us : list ty).
Hypothesis P : Permutation ts' us.
Hypothesis F : Forall2 (fun t t' => inst W t v = inst W t' v) ts us.
Lemma matched_map : Permutation (map (fun t => inst W t v) ts) (map (fun t => inst W t v) ts').
Proof. rewrite P, (same_map v ts us F). reflexivity. Qed.
Lemma matched_all : forallb (fun t => inst W t v) ts = forallb (fun t => inst W t v) ts'.
Proof.
  pose proof (forallb_perm (fun b => b) _ _ matched_map) as H.
  rewrite !(forallb_map' (fun b : bool => b)) in H. exact H.
Qed.
Lemma matched_any : existsb (fun t => inst W t v) ts = existsb (fun t => inst W t v) ts'.
Proof.
  pose proof (existsb_perm (fun b => b) _ _ matched_map) as H.
  rewrite !(existsb_map' (fun b : bool => b)) in H. exact H.
Qed.
Lemma matched_one : exactly_one false (map (fun t => inst W t v) ts) = exactly_one false (map (fun t => inst W t v) ts').
Proof. apply exactly_one_perm, matched_map. Qed.
End Matched.

Lemma pairwise_forall2b {A B C} (f : A -> C -> bool) (g : B -> C -> bool) ts l : forall l',
  Forall2 (fun t x => forall y, In y l' -> f t y = g x y) ts l -> pairwise f ts l' = forall2b g l l'.
Proof.
  revert l. induction ts as [|t ts IH]; intros l l' H; inversion H as [|? x ? r H1 H2]; subst; destruct l' as [|y l']; try reflexivity.
  cbn [pairwise forall2b]. rewrite (H1 y (or_introl eq_refl)). f_equal. apply IH.
  eapply Forall2_imp_in; [exact H2|]. intros a c _ _ Hac z Hz. apply Hac. now right.
Qed.

Lemma all_members P p ts : ty_all P (TAllOf p ts) <-> P (TAllOf p ts) /\ Forall (ty_all P) ts.
Proof. cbn [ty_all]. now rewrite fold_and. Qed.

Lemma veq_both x y w : wf x -> wf y -> wf w -> veq x y = true -> veq x w = veq y w.
Proof.
  intros Wx Wy Ww H. rewrite (veq_sym_eq x w), (veq_sym_eq y w) by auto. now apply veq_congr.
Qed.

Lemma bool_or_false_true o : bool_or_false o = true -> o = Some true.
Proof. destruct o as [[|]|]; cbn; congruence. Qed.

Theorem teqn_inst n : forall a b, type_ok a -> type_ok b -> plain a -> plain b -> teqn n a b = true ->
  forall v, wf v -> inst W a v = inst W b v.
Proof.
  induction n as [|n IH]; intros a b Oa Ob Pa Pb H v Wv; [discriminate|].
  assert (MM : forall ts us, Forall type_ok ts -> Forall type_ok us -> Forall plain ts -> Forall plain us ->
                 Forall2 (fun t u => teqn n u t = true) ts us -> Forall2 (fun t t' => inst W t v = inst W t' v) ts us).
  { intros ts us H1 H2 H3 H4 H5. rewrite Forall_forall in *. eapply Forall2_imp_in; [exact H5|]. intros t u Ht Hu E. cbn in E. symmetry. apply IH; auto. }
  assert (SV : forall ts ts', Forall type_ok ts -> Forall type_ok ts' -> Forall plain ts -> Forall plain ts' ->
     bool_or_false (same_values ty (teqn n) ts ts') = true ->
     exists us, Permutation ts' us /\ Forall2 (fun t t' => inst W t v = inst W t' v) ts us).
  { intros ts ts' H1 H2 H3 H4 H5. apply bool_or_false_true in H5. apply same_values_match in H5 as (us & Hp & Hf).
    exists us. split; [assumption|]. apply MM; auto; now rewrite <- Hp. }
  assert (TV : forall vs, Forall wf vs -> forallb no_sens vs = true -> Forall type_ok (map (type_of 0%nat) vs) /\ Forall plain (map (type_of 0%nat) vs)).
  { intros vs H1 H2. rewrite forallb_forall in H2. rewrite Forall_forall in H1. split; apply Forall_map_iff, Forall_forall; intros x Hx.
    - now apply type_of_type_ok, H1. - now apply type_of_plain, H2. }
  destruct a as [ | | | |x y i| |x y i| | |x y|s|s|x y| | |p w|p t| |p e x y|p ts b0| |p kt vt x y|p a es|p ts|p vs|p ts|p ts|p t|[t|]];
    destruct b as [ | | | |x' y' i'| |x' y' i'| | |x' y'|s'|s'|x' y'| | |p' w'|p' t'| |p' e' x' y'|p' ts' b'| |p' kt' vt' x' y'|p' a' es'|p' ts'|p' vs'|p' ts'|p' ts'|p' t'|[t'|]];
    try discriminate H; try reflexivity;
    cbn [teqn] in H; unfold type_ok in Oa, Ob; unfold plain in Pa, Pb; cbn [ty_all] in Oa, Ob, Pa, Pb;
    destruct Oa as [Na Oa], Ob as [Nb Ob], Pa as [Qa Pa], Pb as [Qb Pb].
  - apply andb_true_iff in H as [H H3]. apply andb_true_iff in H as [H1 H2].
    apply Z.eqb_eq in H1 as ->. apply Z.eqb_eq in H2 as ->. apply eqb_prop in H3 as ->. reflexivity.
  - apply andb_true_iff in H as [H H3]. apply andb_true_iff in H as [H1 H2]. apply eqb_prop in H3 as ->.
    unfold inst. cbn [inst_with]. destruct v; try reflexivity. unfold float_in, SFleb, SFltb.
    rewrite (SFcompare_eqb_l f x x' H1), (SFcompare_eqb_r f y y' H2). reflexivity.
  - apply andb_true_iff in H as [H1 H2]. apply Z.eqb_eq in H1 as ->. apply Z.eqb_eq in H2 as ->. reflexivity.
  - apply bytes_eqb_eq in H as ->. reflexivity.
  - apply bytes_eqb_eq in H as ->. reflexivity.
  - apply andb_true_iff in H as [H1 H2]. apply Z.eqb_eq in H1 as ->. apply Z.eqb_eq in H2 as ->. reflexivity.
  - unfold inst. cbn [inst_with]. apply veq_both; auto.
  - destruct v; try reflexivity. rewrite !inst_sens. inversion Wv; subst. now apply IH.
  - apply andb_true_iff in H as [H H3]. apply andb_true_iff in H as [H1 H2]. apply Z.eqb_eq in H1 as ->. apply Z.eqb_eq in H2 as ->.
    destruct v; try reflexivity. rewrite !inst_arr_sized. f_equal. apply data_arr_inv in Wv. rewrite Forall_forall in Wv.
    apply forallb_ext_in. intros z Hz. apply IH; auto.
  - destruct w'; try discriminate H. apply andb_true_iff in H as [H1 H2]. apply negb_true_iff in H1 as ->.
    destruct v as [ | | | | | | | | |l'| ]; try reflexivity. rewrite inst_tuple', tuple_inst_fixed.
    change (inst W (TExact p' (VArr l)) (VArr l')) with (veq (VArr l) (VArr l')). rewrite veq_arr.
    apply pairwise_iff in H2. cbn in Nb, Qb. apply data_arr_inv in Nb, Wv. rewrite forallb_forall in Qb.
    apply fold_and in Oa, Pa. rewrite Forall_forall in *. apply pairwise_forall2b.
    eapply Forall2_imp_in; [exact H2|]. intros t x Ht Hx E y Hy. cbn in E. rewrite <- (inst_type_of_veq 0%nat) by auto.
    apply IH; auto; unfold type_ok, plain; auto; [apply type_of_type_ok|apply type_of_plain]; auto.
  - apply andb_true_iff in H as [H1 H2]. apply eqb_prop in H1 as ->. destruct v; try reflexivity. rewrite !inst_tuple'.
    apply data_arr_inv in Wv. apply fold_and in Oa, Ob, Pa, Pb. rewrite Forall_forall in *. apply pairwise_iff in H2.
    apply tuple_inst_types. eapply Forall2_imp_in; [exact H2|]. intros t t' Ht Ht' E z Hz. cbn in E. apply IH; auto; unfold type_ok, plain; auto.
  - apply andb_true_iff in H as [H H4]. apply andb_true_iff in H as [H H3]. apply andb_true_iff in H as [H1 H2].
    apply Z.eqb_eq in H1 as ->. apply Z.eqb_eq in H2 as ->. destruct v; try reflexivity. rewrite !inst_map_sized. f_equal.
    apply data_map_inv in Wv as [Wv _]. rewrite Forall_forall in Wv. destruct Oa, Ob, Pa, Pb.
    apply forallb_ext_in. intros z Hz. destruct (Wv z Hz). f_equal; apply IH; auto.
  - apply andb_true_iff in H as [H H4]. apply andb_true_iff in H as [H H3]. apply andb_true_iff in H as [H1 H2].
    apply eqb_prop in H1 as ->. apply bools_eqb_eq in H2. apply Forall2_map_snd in H2. apply pairwise_iff in H3, H4.
    destruct v as [ | | | | | | | | | |m]; try reflexivity. rewrite !inst_struct'. cbn in Na, Nb.
    apply (fold_and (fun e => ty_all node_ok (snd (fst e)))) in Oa, Ob.
    apply (fold_and (fun e => ty_all plain_node (snd (fst e)))) in Pa, Pb. rewrite Forall_forall in Oa, Ob, Pa, Pb.
    apply struct_inst_types; auto; try apply Na; try apply Nb.
    pose proof (Forall2_and _ _ _ _ H3 (Forall2_and _ _ _ _ H2 H4)) as A.
    eapply Forall2_imp_in; [exact A|]. intros e e' He He' (E1 & E2 & E3). repeat split; auto.
    intros k z Hz. destruct (wf_map_entry _ _ _ Wv Hz). apply IH; auto; unfold type_ok, plain; auto.
  - apply fold_and in Oa, Ob, Pa, Pb. destruct (SV ts ts' Oa Ob Pa Pb H) as (us & Hp & Hf). rewrite !inst_allof. now apply matched_all with us.
  - apply fold_and in Oa, Pa. cbn in Nb, Qb. destruct (TV vs' Nb Qb) as [T1 T2].
    destruct (SV ts _ Oa T1 Pa T2 H) as (us & Hp & Hf).
    rewrite inst_allof, (inst_allofvalue p' 0%nat). rewrite (matched_all v ts _ us Hp Hf). now rewrite forallb_map'.
  - apply fold_and in Ob, Pb. cbn in Na, Qa. destruct (TV vs Na Qa) as [T1 T2].
    destruct (SV ts' _ Ob T1 Pb T2 H) as (us & Hp & Hf).
    rewrite inst_allof, (inst_allofvalue p 0%nat). rewrite (matched_all v ts' _ us Hp Hf). now rewrite forallb_map'.
  - cbn in Na, Qa, Nb, Qb. apply bool_or_false_true in H. apply same_values_match in H as (us & Hp & Hf).
    rewrite !(inst_allofvalue _ 0%nat). rewrite (forallb_perm _ _ _ Hp). rewrite Hp in Nb. rewrite (forallb_perm _ _ _ Hp) in Qb.
    rewrite forallb_forall in *. rewrite Forall_forall in *.
    assert (E : Forall2 (fun x y => inst W (type_of 0%nat x) v = inst W (type_of 0%nat y) v) vs us).
    { eapply Forall2_imp_in; [exact Hf|]. intros x y Hx Hy E. rewrite !inst_type_of_veq by auto. symmetry. apply veq_both; auto. }
    clear -E. induction E as [|x y l l' H1 H2 IH]; cbn; [reflexivity|]. now rewrite H1, IH.
  - apply fold_and in Oa, Ob, Pa, Pb. destruct (SV ts ts' Oa Ob Pa Pb H) as (us & Hp & Hf). rewrite !inst_anyof. now apply matched_any with us.
  - apply fold_and in Oa, Ob, Pa, Pb. destruct (SV ts ts' Oa Ob Pa Pb H) as (us & Hp & Hf). rewrite !inst_oneof. now apply matched_one with us.
  - unfold inst. cbn [inst_with]. fold (inst W). f_equal. now apply IH.
Qed.

(* ---------- Unique keeps a type equal to each type ---------- *)

Lemma upd_nth_error {A} (l : list A) i x j y : nth_error (upd l i x) j = Some y -> y = x \/ nth_error l j = Some y.
Proof.
  revert i j. induction l as [|a l IH]; intros [|i] [|j] H; cbn in *; auto; try discriminate.
  - injection H as <-. auto.
  - apply IH in H. exact H.
Qed.

Lemma unique_loop_covers {A} (eq : A -> A -> bool) h a : forall tbl u, unique_loop A eq h tbl a = Some u ->
  (forall x, In x u -> In x a) /\
  (forall x, In x a -> In x u \/ exists y, eq x y = true /\ (In y u \/ exists c i, nth_error tbl i = Some c /\ In y c)).
Proof.
  induction a as [|k r IH]; intros tbl u H; cbn [unique_loop] in H.
  - injection H as <-. split; intros x []; auto.
  - destruct (nth_error tbl _) as [chain|] eqn:N; [|discriminate].
    destruct (in_chain A eq k chain) eqn:C.
    + destruct (IH _ _ H) as [H1 H2]. split; [intros x Hx; right; auto|].
      intros x [<-|Hx]; [|auto]. right. unfold in_chain in C. apply existsb_exists in C as (y & Hy & E).
      exists y. split; [assumption|]. right. eauto.
    + destruct (unique_loop A eq h (upd tbl _ (k :: chain)) r) as [u'|] eqn:E; [|discriminate]. injection H as <-.
      destruct (IH _ _ E) as [H1 H2]. split; [intros x [<-|Hx]; [now left|right; auto]|].
      intros x [<-|Hx]; [left; now left|]. destruct (H2 x Hx) as [Hu|(y & Exy & [Hy|(c & i & Hc & Hy)])].
      * left. now right.
      * right. exists y. split; [assumption|]. left. now right.
      * right. exists y. split; [assumption|]. apply upd_nth_error in Hc as [->|Hc]; [|right; eauto].
        destruct Hy as [<-|Hy]; [left; now left|]. right. eauto.
Qed.

Lemma unique_covers {A} (eq : A -> A -> bool) h a u : unique A eq h a = Some u ->
  (forall x, In x u -> In x a) /\ (forall x, In x a -> In x u \/ exists y, In y u /\ eq x y = true).
Proof.
  unfold unique. destruct (length a <? 2)%nat.
  - intros H. injection H as <-. split; auto.
  - intros H. apply unique_loop_covers in H as [H1 H2]. split; [assumption|]. intros x Hx.
    destruct (H2 x Hx) as [|(y & E & [Hy|(c & i & Hc & Hy)])]; eauto.
    apply nth_error_In, repeat_spec in Hc. subst c. destruct Hy.
Qed.

Lemma unique_nonempty {A} (eq : A -> A -> bool) h a u : unique A eq h a = Some u -> a <> [] -> u <> [].
Proof.
  intros H Ha ->. apply unique_covers in H as [_ H]. destruct a as [|x a]; [congruence|].
  destruct (H x (or_introl eq_refl)) as [[]|(y & [] & _)].
Qed.

End World.
