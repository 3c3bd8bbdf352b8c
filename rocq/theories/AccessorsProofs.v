(* Facts about the accessors of types. *)
From Coq Require Import ZArith List Bool Lia Permutation.
From Coq Require Import Floats.SpecFloat.
From Verif Require Import Int64 HMap Data DataSpec DataProofs Arr Types TypesSpec Assign InstProofs GuardProofs SemProofs EqProofs SubProofs Construct ConstructProofs.
From Verif Require Import Accessors AccessorsSpec.
Import ListNotations.
Open Scope Z_scope.

Lemma Forall2_same_length {A B} (R : A -> B -> Prop) l l' : Forall2 R l l' -> length l = length l'.
Proof. induction 1; cbn; congruence. Qed.

Section World.
Variable W : world.

Lemma veq_str s v : veq (VStr s) v = true -> v = VStr s.
Proof. destruct v; try discriminate. cbn [veq]. intros H. apply bytes_eqb_eq in H. congruence. Qed.
Lemma veq_bin s v : veq (VBin s) v = true -> v = VBin s.
Proof. destruct v; try discriminate. cbn [veq]. intros H. apply bytes_eqb_eq in H. congruence. Qed.
Lemma veq_arr_is l v : veq (VArr l) v = true -> exists l', v = VArr l' /\ length l' = length l.
Proof.
  destruct v as [ | | | | | | | | |l'| ]; try discriminate. intros H. apply veq_arr_Forall2 in H. exists l'. split; [reflexivity|]. symmetry. now apply Forall2_same_length in H.
Qed.
Lemma veq_map_is m v : veq (VMap m) v = true -> exists m', v = VMap m' /\ length m' = length m.
Proof.
  destruct v as [ | | | | | | | | | |m']; try discriminate. rewrite veq_map. intros H. apply andb_true_iff in H as [H _]. exists m'. split; [reflexivity|].
  apply Nat.eqb_eq in H. congruence.
Qed.

Theorem sizes_hold t v lo hi : type_ok t -> data veq v -> fits v -> text_fits v -> (forall c, t <> TCiStr c) ->
  inst W t v = true -> bounds t = Some (lo, hi) -> exists n, size v = Some n /\ lo <= n <= hi.
Proof.
  intros Ht Wv Fv Tv Nc I B.
  assert (Fm : forall m, v = VMap m -> Z.of_nat (length m) <= max_int64) by (intros m ->; apply Fv).
  assert (Fa : forall m, v = VArr m -> Z.of_nat (length m) <= max_int64) by (intros m ->; apply Fv).
  destruct t; try discriminate B; try (now destruct (Nc s)).
  all: try (apply (inst_iff W) in I; auto; unfold has_type in I; cbn [has_type_with] in I).
  all: unfold bounds, array_bounds, Assign.map_bounds in B.
  - destruct I as [s ->]. injection B as <- <-. eexists. split; [reflexivity|]. cbn [text_fits] in Tv. lia.
  - destruct I as (s & -> & N & _). injection B as <- <-. eexists. split; [reflexivity|]. cbn [text_fits] in Tv. assert (length s <> 0%nat) by (intros E0; apply length_zero_iff_nil in E0; easy). lia.
  - destruct I as (s & -> & N). injection B as <- <-. eexists. split; [reflexivity|]. exact N.
  - destruct I as (s' & -> & N). injection B as <- <-. eexists. split; [reflexivity|]. cbn [text_fits] in Tv. lia.
  - destruct I as (s & -> & N). injection B as <- <-. eexists. split; [reflexivity|]. exact N.
  - destruct v0; try discriminate B; injection B as <- <-; unfold length_z.
    + apply veq_str in I as ->. eexists. split; [reflexivity|]. lia.
    + apply veq_bin in I as ->. eexists. split; [reflexivity|]. lia.
    + apply veq_arr_is in I as (l' & -> & E). eexists. split; [reflexivity|]. rewrite E. lia.
    + apply veq_map_is in I as (l' & -> & E). eexists. split; [reflexivity|]. rewrite E. lia.
  - destruct I as [l ->]. injection B as <- <-. eexists. split; [reflexivity|]. specialize (Fa _ eq_refl). lia.
  - destruct I as (l & -> & N & _). injection B as <- <-. eexists. split; [reflexivity|]. exact N.
  - destruct I as (l & -> & I). eexists. split; [reflexivity|]. specialize (Fa _ eq_refl). destruct variadic; injection B as <- <-; unfold length_z.
    + destruct I as (Qs & P & l1 & l2 & E & -> & H & _). apply Forall2_same_length in H. apply (f_equal (@length _)) in E.
      rewrite map_length, app_length in E. rewrite app_length in *. cbn [length] in E. lia.
    + apply Forall2_same_length in I. rewrite map_length in I. lia.
  - destruct I as [l ->]. injection B as <- <-. eexists. split; [reflexivity|]. specialize (Fm _ eq_refl). lia.
  - destruct I as (l & -> & N & _). injection B as <- <-. eexists. split; [reflexivity|]. exact N.
  - destruct I as (m & -> & I). assert (J : inst W (TStruct p additional es) (VMap m) = true).
    { apply (inst_iff W); auto. cbn. eauto. }
    destruct Ht as [[N1 N2] _]. specialize (Fm _ eq_refl). injection B as <- <-. eexists. split; [reflexivity|].
    rewrite inst_struct' in J. eapply struct_size_bounds in J; auto.
Qed.

(* ---------- Unbounded ---------- *)

Theorem unbounded_holds t : (forall p t1 t2 ts, t <> TTuple p (t1 :: t2 :: ts) true) -> type_ok t ->
  unbounded t = Some true -> bounds t = Some (0, max_int64).
Proof.
  intros Nv Ht U. destruct t; try discriminate U; try reflexivity; unfold unbounded in U.
  - injection U as U. apply andb_true_iff in U as [U1 U2]. apply Z.eqb_eq in U1, U2. subst. reflexivity.
  - injection U as U. apply andb_true_iff in U as [U1 U2]. apply Z.eqb_eq in U1, U2. subst. reflexivity.
  - destruct v; discriminate U.
  - injection U as U. apply andb_true_iff in U as [U1 U2]. apply Z.eqb_eq in U1, U2. subst. reflexivity.
  - injection U as ->. destruct ts as [|t1 [|t2 r]]; [now destruct (proj1 Ht)|reflexivity|]. now destruct (Nv p t1 t2 r).
  - injection U as U. apply andb_true_iff in U as [U1 U2]. apply Z.eqb_eq in U1, U2. subst. reflexivity.
  - injection U as U. apply andb_true_iff in U as [U1 U2]. apply Z.eqb_eq in U2. subst. unfold bounds, array_bounds, Assign.map_bounds.
    now rewrite U2, orb_true_r.
Qed.

Theorem bounded_holds t : (forall p es, t <> TStruct p false es) ->
  bounds t = Some (0, max_int64) -> unbounded t = Some true.
Proof.
  assert (M : 0 < max_int64) by reflexivity.
  intros Ns B. destruct t; try discriminate B; try reflexivity; unfold bounds, array_bounds, Assign.map_bounds in B; unfold unbounded.
  - injection B as -> ->. rewrite !Z.eqb_refl. reflexivity.
  - injection B as B1 B2. lia.
  - injection B as -> ->. rewrite !Z.eqb_refl. reflexivity.
  - destruct v; try discriminate B; injection B as B1 B2; lia.
  - injection B as -> ->. rewrite !Z.eqb_refl. reflexivity.
  - destruct variadic; [reflexivity|]. injection B as B1 B2. lia.
  - injection B as -> ->. rewrite !Z.eqb_refl. reflexivity.
  - destruct additional; [|now destruct (Ns p es)]. injection B as B1 B2. rewrite B1, Z.eqb_refl. reflexivity.
Qed.

(* ---------- numbers ---------- *)

Theorem int_bounds_hold t b v : type_ok t -> data veq v -> (forall z, v = VInt z -> in64 z) -> int_bounds t = Some b ->
  (inst W t v = true <-> exists z, v = VInt z /\ in_ints b z).
Proof.
  intros Ht Wv F B. rewrite (inst_iff W) by auto. destruct t; try discriminate B; cbn [int_bounds] in B.
  - injection B as <-. cbn. split; intros [z H].
    + subst. exists z. split; [reflexivity|]. exact (F z eq_refl).
    + destruct H as [-> _]. eauto.
  - injection B as <-. cbn. reflexivity.
  - destruct v0; try discriminate B. injection B as <-. unfold has_type. cbn [has_type_with in_ints]. split.
    + destruct v; try discriminate. cbn [veq]. intros E. apply Z.eqb_eq in E. subst. eexists. split; [reflexivity|]. lia.
    + intros (y & -> & H). cbn [veq]. apply Z.eqb_eq. lia.
Qed.

Theorem float_bounds_hold t b v : type_ok t -> t <> TFloat -> data veq v -> float_bounds t = Some b ->
  (inst W t v = true <-> exists f, v = VFloat f /\ in_floats b f).
Proof.
  intros Ht Nf Wv B. rewrite (inst_iff W) by auto. destruct t; try discriminate B; cbn [float_bounds] in B.
  - now destruct Nf.
  - injection B as <-. cbn. reflexivity.
  - destruct v0 as [ | | |f0| | | | | | | ]; try discriminate B. injection B as <-. unfold has_type. cbn [has_type_with in_floats]. destruct Ht as [Hn _].
    assert (N0 : f0 <> S754_nan) by (cbn in Hn; now inversion Hn).
    assert (E : forall y, y <> S754_nan -> (SFeqb f0 y = true <-> SFleb f0 y = true /\ SFleb y f0 = true)).
    { intros y Ny. rewrite SFeqb_iff, !SFleb_iff by assumption. rewrite <- kcmp_eq. rewrite (kcmp_opp (fkey f0) (fkey y)).
      destruct (kcmp (fkey f0) (fkey y)); cbn; intuition congruence. }
    split.
    + destruct v as [ | | |y| | | | | | | ]; try discriminate. inversion Wv; subst. cbn [veq]. intros H. apply E in H; auto. eauto.
    + intros (y & -> & H). inversion Wv; subst. cbn [veq]. now apply E.
Qed.

(* ---------- elements of tuples ---------- *)

Lemma Forall2_nth {A B} (R : A -> B -> Prop) l l' i y : Forall2 R l l' -> nth_error l' i = Some y -> exists x, nth_error l i = Some x /\ R x y.
Proof. intros H. revert i. induction H; intros [|i]; cbn; try discriminate; eauto. intros E. injection E as <-. eauto. Qed.

Theorem elements_hold p t ts variadic l i x : type_ok t -> data veq (VArr l) -> fits_type t -> tuple_parts p t = Some (ts, variadic) ->
  inst W t (VArr l) = true -> nth_error l i = Some x ->
  exists e, nth_error ts (if variadic then Nat.min i (length ts - 1) else i) = Some e /\ inst W e x = true.
Proof.
  intros Ht Wl Ft P I N. apply data_arr_inv in Wl as Wx. rewrite Forall_forall in Wx. pose proof (nth_error_In _ _ N) as Hx. specialize (Wx _ Hx).
  apply (inst_iff W) in I; auto. destruct t; try discriminate P; cbn [tuple_parts] in P; unfold has_type in I; cbn [has_type_with] in I.
  - destruct v as [ | | | | | | | | |l0| ]; try discriminate P. injection P as <- <-. destruct Ht as [Hl _]. cbn in Hl, Ft.
    apply veq_arr_Forall2 in I. destruct (Forall2_nth _ _ _ _ _ I N) as (y & Hy & E). exists (type_of p y). split; [now apply map_nth_error|].
    apply nth_error_In in Hy. apply data_arr_inv in Hl. rewrite Forall_forall in Hl. apply fits_arr in Ft as [_ Ft]. rewrite Forall_forall in Ft.
    apply type_of_equal; auto.
  - injection P as -> ->. destruct I as (l' & E & I). injection E as <-. destruct Ht as [_ Ht]. apply fold_and in Ht. rewrite Forall_forall in Ht.
    assert (G : forall e, In e ts -> has_type W e x -> inst W e x = true) by (intros e He H; apply (inst_iff W); auto; now apply Ht).
    destruct variadic.
    + destruct I as (Qs & P & l1 & l2 & E & -> & H1 & H2).
      assert (L : length ts = S (length Qs)) by (apply (f_equal (@length _)) in E; rewrite map_length, app_length in E; cbn in E; lia).
      pose proof (Forall2_same_length _ _ _ H1) as L1.
      assert (X : exists Q, nth_error (Qs ++ [P]) (Nat.min i (length ts - 1)) = Some Q /\ Q x).
      { destruct (Nat.ltb_spec i (length l1)).
        - rewrite nth_error_app1 in N by assumption. destruct (Forall2_nth _ _ _ _ _ H1 N) as (Q & HQ & Hq). exists Q. split; [|assumption].
          rewrite Nat.min_l by lia. rewrite nth_error_app1 by lia. assumption.
        - rewrite nth_error_app2 in N by assumption. exists P. split.
          + rewrite Nat.min_r by lia. rewrite nth_error_app2 by lia. replace (length ts - 1 - length Qs)%nat with 0%nat by lia. reflexivity.
          + rewrite Forall_forall in H2. apply H2. eapply nth_error_In. eassumption. }
      destruct X as (Q & HQ & Hq). rewrite <- E in HQ. rewrite nth_error_map in HQ. destruct (nth_error ts _) as [e|] eqn:Ee; [|discriminate].
      injection HQ as <-. exists e. split; [reflexivity|]. apply G; [eapply nth_error_In; eassumption|assumption].
    + destruct (Forall2_nth _ _ _ _ _ I N) as (Q & HQ & Hq). rewrite nth_error_map in HQ. destruct (nth_error ts i) as [e|] eqn:Ee; [|discriminate].
      injection HQ as <-. exists e. split; [reflexivity|]. apply G; [eapply nth_error_In; eassumption|assumption].
Qed.

(* ---------- the types of elements, keys and values ---------- *)

Theorem element_holds p t e l : type_ok t -> data veq (VArr l) -> fits_type t -> simple_array t -> element p t = Some e ->
  inst W t (VArr l) = true -> Forall (fun x => inst W e x = true) l.
Proof.
  intros Ht Wl Ft S E I. apply Forall_forall. intros x Hx. apply data_arr_inv in Wl as Wx. rewrite Forall_forall in Wx. specialize (Wx _ Hx).
  destruct (In_nth_error _ _ Hx) as [i Hi]. destruct t; try contradiction.
  - destruct v as [ | | | | | | | | |l0| ]; try contradiction. destruct (elements_hold p (TExact p0 (VArr l0)) _ false l i x Ht Wl Ft eq_refl I Hi) as (e' & He & Hi').
    destruct l0 as [|x0 [|]]; [| |contradiction].
    + destruct i; discriminate.
    + injection E as <-. destruct i as [|[|]]; try discriminate He. injection He as <-. cbn in Ht. destruct Ht as [Hl _]. apply data_arr_inv in Hl. inversion Hl; subst.
      rewrite <- Hi'. destruct x0; reflexivity.
  - injection E as <-. reflexivity.
  - injection E as <-. rewrite inst_arr_sized in I. apply andb_true_iff in I as [_ I]. rewrite forallb_forall in I. auto.
  - destruct (elements_hold p (TTuple p0 ts variadic) _ variadic l i x Ht Wl Ft eq_refl I Hi) as (e' & He & Hi').
    destruct ts as [|t0 [|]]; [| |contradiction].
    + now destruct (if variadic then Nat.min i (length (@nil ty) - 1) else i).
    + injection E as <-. destruct (if variadic then Nat.min i (length [t0] - 1) else i) as [|[|]]; try discriminate He. injection He as <-. assumption.
Qed.

Theorem map_types_hold p t kt vt m : type_ok t -> data veq (VMap m) -> fits_type t -> simple_map t -> key p t = Some kt -> val p t = Some vt ->
  inst W t (VMap m) = true -> Forall (fun e => inst W kt (fst e) = true /\ inst W vt (snd e) = true) m.
Proof.
  intros Ht Wm Ft S K V I. apply Forall_forall. intros [k x] Hx. cbn [fst snd]. destruct (wf_map_entry _ _ _ Wm Hx) as [Wk Wx].
  destruct t; try contradiction.
  - destruct v as [ | | | | | | | | | |m0]; try contradiction. destruct m0 as [|[k0 x0] [|]]; [injection K as <-; injection V as <-; split; reflexivity| |contradiction].
    apply (inst_iff W) in I; auto. unfold has_type in I. cbn [has_type_with] in I. destruct Ht as [Hm _]. cbn in Hm.
    destruct (wf_map_entry _ k0 x0 Hm (or_introl eq_refl)) as [Wk0 Wx0]. apply map_equal_matched in I as (m'' & P & F); auto.
    inversion F as [|? e ? ? E F']; subst. inversion F'; subst. apply Permutation_sym, Permutation_length_1_inv in P. subst m. destruct Hx as [->|[]].
    destruct E as [E1 E2]. cbn [fst snd] in E1, E2. cbn in Ft. injection K as <-. injection V as <-. cbn [map fst snd].
    rewrite !(inst_allofvalue W p 0%nat). cbn [forallb]. rewrite !andb_true_r. split; apply type_of_equal; auto; apply Ft.
  - injection K as <-. injection V as <-. split; reflexivity.
  - injection K as <-. injection V as <-. rewrite inst_map_sized in I. apply andb_true_iff in I as [_ I]. rewrite forallb_forall in I.
    specialize (I _ Hx). apply andb_true_iff in I. exact I.
  - destruct additional; [contradiction|]. destruct Ht as [[N1 N2] _]. rewrite inst_struct' in I. apply struct_inst_facts in I as [I1 [I2|I2]]; auto; [discriminate|].
    destruct (I2 _ _ Hx) as (e & He & Ek). destruct es as [|e0 [|]]; [destruct He| |contradiction]. destruct He as [->|[]].
    injection K as <-. injection V as <-. specialize (I1 e (or_introl eq_refl)). inversion N1; subst. split; [exact Ek|].
    rewrite (assoc_unique m (fst (fst e)) k x) in I1; auto.
Qed.

Theorem element_below p q ts variadic e x : Forall type_ok ts -> Forall plain ts -> data veq x ->
  element p (TTuple q ts variadic) = Some e -> inst W e x = true -> Forall (fun t => inst W t x = true) ts.
Proof.
  intros Ht Pt Wx E I. unfold element in E. cbn [array_bounds element_type run_type] in E.
  destruct ts as [|t0 [|t1 r]]; [constructor|injection E as <-; auto|]. set (ts := t0 :: t1 :: r) in *.
  apply Forall_forall. intros t Hin. unfold run_type in E. destruct (unique ty type_eq thash ts) as [u|] eqn:U; [|discriminate].
  apply unique_covers in U as [U1 U2]. rewrite Forall_forall in Ht, Pt.
  assert (A : Forall (fun t => inst W t x = true) u).
  { destruct u as [|u0 [|u1 u']]; [constructor| |]; injection E as <-; [auto|]. rewrite inst_allof, forallb_forall in I. now apply Forall_forall. }
  rewrite Forall_forall in A. destruct (U2 t Hin) as [Hu|(y & Hy & Ey)]; [auto|].
  unfold type_eq in Ey. pose proof (teqn_inst W _ t y (Ht _ Hin) (Ht _ (U1 _ Hy)) (Pt _ Hin) (Pt _ (U1 _ Hy)) Ey x Wx) as Q. rewrite Q. auto.
Qed.

(* ---------- exact types ---------- *)

Theorem exact_holds t : type_ok t -> is_exact t = true ->
  (exists w, exact_item (IType t) = IValue w /\ forall v, data veq v -> (inst W t v = true <-> veq w v = true)) \/
  (exact_item (IType t) = IType t /\ forall v, inst W t v = true <-> v = VNil).
Proof.
  intros Ht E. destruct t; try discriminate E.
  - right. split; [reflexivity|]. intros v. destruct v; cbn; split; congruence.
  - left. exists v. split; [reflexivity|]. intros w Ww. now rewrite (inst_iff W) by auto.
Qed.

Theorem exact_back p v : v <> VNil -> (forall x, v <> VSens x) -> exact_item (IType (as_type p (IValue v))) = IValue v.
Proof. destruct v; try reflexivity; intros N1 N2; [now destruct N1|now destruct (N2 v)]. Qed.

Theorem exact_back_is p v : (forall x, v <> VSens x) -> is_exact (as_type p (IValue v)) = true.
Proof. destruct v; try reflexivity; intros N; now destruct (N v). Qed.

Theorem labels_hold t : ti_label (type_ident t) = Some (type_word t).
Proof. destruct t; try (vm_compute; reflexivity). destruct v; vm_compute; reflexivity. Qed.
End World.

Theorem labels_known id : ti_label id = None <-> id < 0 \/ id = 30 \/ id = 40 \/ 44 < id.
Proof.
  split.
  - intros H. destruct (Z.ltb_spec id 0) as [L|L]; [auto|]. destruct (Z.ltb_spec 44 id) as [M|M]; [auto|]. right.
    assert (In id (map Z.of_nat (seq 0 45))) as I. { apply in_map_iff. exists (Z.to_nat id). split; [lia|]. apply in_seq. lia. }
    cbn [map seq] in I. repeat (destruct I as [<-|I]; [first [now left|now right; left|vm_compute in H; discriminate H]|]). destruct I.
  - intros H. unfold ti_label. destruct (find _ ti_labels) as [e|] eqn:F; [exfalso|reflexivity]. apply find_some in F as [I Q]. apply Z.eqb_eq in Q.
    unfold ti_labels in I. repeat (destruct I as [<-|I]; [cbn [fst] in Q; lia|]). destruct I.
Qed.
