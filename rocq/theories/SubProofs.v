(* Inclusions between the sets of instances of types, as Assignable concludes them. *)
From Coq Require Import ZArith List Bool Lia Permutation.
From Coq Require Import Floats.SpecFloat.
From Verif Require Import Int64 HMap Data DataSpec DataProofs Arr Types TypesSpec InstProofs GuardProofs SemProofs EqProofs Assign.
Import ListNotations.
Open Scope Z_scope.

Lemma fits_veq a : forall b, wf a -> wf b -> veq a b = true -> fits b -> fits a.
Proof.
  induction a as [ |x|x|x|x|x|s1 n1 z1|x|x IHx|l IHl|m IHm] using value_ind'; intros b Wa Wb E F; try exact I.
  - destruct b; try discriminate E. cbn in *. inversion Wa; inversion Wb; subst. eauto.
  - destruct b as [ | | | | | | | | |l'| ]; try discriminate E. rewrite veq_arr in E. apply forall2b_iff in E.
    apply fits_arr in F as [F1 F2]. apply fits_arr. apply data_arr_inv in Wa, Wb. rewrite (Forall2_length' _ _ _ E). split; [assumption|].
    rewrite Forall_forall in *. intros x Hx. destruct (Forall2_in_l _ _ _ _ E Hx) as (y & Hy & Exy). eauto.
  - destruct b as [ | | | | | | | | | |m']; try discriminate E.
    destruct (map_equal_matched m m' Wa Wb E) as (m'' & Hp & Hf).
    apply fits_map in F as [F1 F2]. apply fits_map.
    pose proof (Permutation_length Hp) as L. pose proof (Forall2_length' _ _ _ Hf) as L'. split; [lia|].
    apply data_map_inv in Wa as [Wa _]. apply data_map_inv in Wb as [Wb _]. rewrite Forall_forall in *.
    intros e He. destruct (Forall2_in_l _ _ _ _ Hf He) as (e' & He' & E1 & E2).
    assert (Hin : In e' m') by (eapply perm_in_iff; [exact Hp|exact He']).
    destruct (F2 e' Hin), (Wa e He), (Wb e' Hin), (IHm e He). eauto.
Qed.

(* the type that a tuple has for position i *)
Definition t_at {A} (h : list A) (r : option A) (i : nat) : option A :=
  match nth_error h i with Some t => Some t | None => r end.

Definition tuple_len (ts : list ty) (b : bool) (l : list value) : Prop :=
  if b then (length ts <= S (length l))%nat else length l = length ts.

Lemma pairwise_nth {A B} (f : A -> B -> bool) l l' : pairwise f l l' = true <->
  length l = length l' /\ forall i x y, nth_error l i = Some x -> nth_error l' i = Some y -> f x y = true.
Proof.
  revert l'. induction l as [|x l IH]; intros [|y l']; cbn.
  - split; auto. intros _. split; auto. intros [|i]; discriminate.
  - split; [discriminate|]. intros [H _]. discriminate.
  - split; [discriminate|]. intros [H _]. discriminate.
  - rewrite andb_true_iff, IH. split.
    + intros (H1 & H2 & H3). split; [lia|]. intros [|i] a c Ha Hc; cbn in *; [congruence|eauto].
    + intros (H1 & H2). split; [exact (H2 0%nat x y eq_refl eq_refl)|]. split; [lia|].
      intros i a c Ha Hc. exact (H2 (S i) a c Ha Hc).
Qed.

Lemma nth_error_firstn {A} n (l : list A) i : (i < n)%nat -> nth_error (firstn n l) i = nth_error l i.
Proof.
  revert l i. induction n as [|n IH]; intros l i H; [lia|]. destruct l; [now destruct i|]. destruct i; [reflexivity|].
  cbn. apply IH. lia.
Qed.
Lemma nth_error_skipn {A} n (l : list A) i : nth_error (skipn n l) i = nth_error l (n + i).
Proof. revert l. induction n as [|n IH]; intros l; [reflexivity|]. destruct l; [now destruct i|]. apply IH. Qed.

Lemma tuple_head_variadic {A} (ts : list A) t : tuple_head (ts ++ [t]) true = ts.
Proof.
  unfold tuple_head. rewrite app_length. cbn. replace (Nat.pred (length ts + 1)) with (length ts) by lia.
  now rewrite firstn_app, firstn_all, Nat.sub_diag, app_nil_r.
Qed.
Lemma tuple_rest_variadic {A} (ts : list A) t : tuple_rest (ts ++ [t]) true = Some t.
Proof.
  unfold tuple_rest. rewrite app_length. cbn. replace (Nat.pred (length ts + 1)) with (length ts) by lia.
  now rewrite nth_error_app2, Nat.sub_diag by lia.
Qed.

Lemma tuple_inst_at f b ts l : (b = true -> ts <> []) ->
  (tuple_inst f b ts l = true <->
   tuple_len ts b l /\
   forall i x, nth_error l i = Some x -> exists t, t_at (tuple_head ts b) (tuple_rest ts b) i = Some t /\ f t x = true).
Proof.
  intros Hne. destruct b; unfold tuple_len.
  - destruct (exists_last (Hne eq_refl)) as (hs & vt & ->). rewrite tuple_head_variadic, tuple_rest_variadic, app_length. cbn [length].
    destruct (Nat.le_gt_cases (length hs) (length l)) as [L|L].
    + rewrite tuple_inst_variadic by assumption. rewrite andb_true_iff, pairwise_nth, forallb_forall, firstn_length_le by assumption. split.
      * intros [[_ H1] H2]. split; [lia|]. intros i x Hx. unfold t_at. destruct (nth_error hs i) as [t|] eqn:E.
        -- exists t. split; [reflexivity|]. apply (H1 i); [assumption|]. rewrite nth_error_firstn; [assumption|].
           apply nth_error_Some. congruence.
        -- exists vt. split; [reflexivity|]. apply H2. apply nth_error_None in E. apply (nth_error_In _ (i - length hs)).
           rewrite nth_error_skipn. now replace (length hs + (i - length hs))%nat with i by lia.
      * intros [_ H]. split; [split; [reflexivity|]|].
        -- intros i t x Ht Hx. assert (Hi : (i < length hs)%nat) by (apply nth_error_Some; congruence).
           rewrite nth_error_firstn in Hx by assumption. destruct (H i x Hx) as (t' & E & Hf). unfold t_at in E. rewrite Ht in E. congruence.
        -- intros x Hx. apply In_nth_error in Hx as [i Hx]. rewrite nth_error_skipn in Hx. destruct (H _ x Hx) as (t' & E & Hf).
           unfold t_at in E. rewrite (proj2 (nth_error_None hs _)) in E by lia. congruence.
    + rewrite tuple_inst_short by assumption. split; [discriminate|]. intros [H _]. lia.
  - rewrite tuple_inst_fixed, pairwise_nth. unfold tuple_head, tuple_rest. split.
    + intros [H1 H2]. split; [lia|]. intros i x Hx. unfold t_at. destruct (nth_error ts i) as [t|] eqn:E.
      * exists t. split; [reflexivity|]. eauto.
      * apply nth_error_None in E. assert (i < length l)%nat by (apply nth_error_Some; congruence). lia.
    + intros [H1 H2]. split; [lia|]. intros i t x Ht Hx. destruct (H2 i x Hx) as (t' & E & Hf). unfold t_at in E. rewrite Ht in E. congruence.
Qed.

Lemma t_at_in {A} (ts : list A) b i t : t_at (tuple_head ts b) (tuple_rest ts b) i = Some t -> In t ts.
Proof.
  unfold t_at, tuple_head, tuple_rest. destruct b.
  - destruct (nth_error (firstn _ ts) i) eqn:E.
    + intros H. injection H as <-. apply nth_error_In in E. eapply In_firstn. exact E.
    + intros H. now apply nth_error_In in H.
  - destruct (nth_error ts i) eqn:E; intros H; [|discriminate]. injection H as <-. now apply nth_error_In in E.
Qed.

(* ---------- floats ---------- *)

Lemma SFcompare_some x y : x <> S754_nan -> y <> S754_nan -> SFcompare x y = Some (kcmp (fkey x) (fkey y)).
Proof. apply SFcompare_key. Qed.
Lemma SFleb_iff x y : x <> S754_nan -> y <> S754_nan -> (SFleb x y = true <-> kcmp (fkey x) (fkey y) <> Gt).
Proof.
  intros Hx Hy. unfold SFleb. rewrite SFcompare_some by assumption. destruct (kcmp _ _); split; congruence.
Qed.
Lemma SFltb_iff x y : x <> S754_nan -> y <> S754_nan -> (SFltb x y = true <-> kcmp (fkey x) (fkey y) = Lt).
Proof.
  intros Hx Hy. unfold SFltb. rewrite SFcompare_some by assumption. destruct (kcmp _ _); split; congruence.
Qed.
Lemma kcmp_trans' a b c : kcmp a b <> Gt -> kcmp b c <> Gt -> kcmp a c <> Gt.
Proof. intros H1 H2. destruct (kcmp_trans a b c H1 H2); assumption. Qed.
Lemma kcmp_lt_le a b c : kcmp a b = Lt -> kcmp b c <> Gt -> kcmp a c = Lt.
Proof.
  intros H1 H2. assert (A : kcmp a c <> Gt) by (apply (kcmp_trans' a b c); congruence).
  destruct (kcmp a c) eqn:E; try congruence. apply kcmp_eq in E as ->.
  rewrite kcmp_opp, H1 in H2. cbn in H2. congruence.
Qed.
Lemma kcmp_le_lt a b c : kcmp a b <> Gt -> kcmp b c = Lt -> kcmp a c = Lt.
Proof.
  intros H1 H2. assert (A : kcmp a c <> Gt) by (apply (kcmp_trans' a b c); congruence).
  destruct (kcmp a c) eqn:E; try congruence. apply kcmp_eq in E as ->.
  rewrite kcmp_opp, H2 in H1. cbn in H1. congruence.
Qed.
Lemma kcmp_not_lt a b : kcmp a b <> Lt -> kcmp b a <> Gt.
Proof. rewrite (kcmp_opp a b). destruct (kcmp a b); cbn; congruence. Qed.

Section World.
Variable W : world.

(* every instance of b is an instance of a *)
Definition sub (a b : ty) : Prop := forall v, wf v -> fits v -> inst W b v = true -> inst W a v = true.

Lemma sub_refl a : sub a a.
Proof. intros v _ _ H. exact H. Qed.

Lemma sub_type_of_addr a p q x : sub a (type_of p x) -> sub a (type_of q x).
Proof. intros H v Wv Fv E. apply H; auto. rewrite inst_type_of in *. exact E. Qed.

Lemma sub_arr p e x y p' e' x' y' : x <= x' -> y' <= y -> sub e e' -> sub (TArrSized p e x y) (TArrSized p' e' x' y').
Proof.
  intros H1 H2 H [ | | | | | | | | |l| ] Wv Fv E; try discriminate E. rewrite inst_arr_sized in *.
  apply andb_true_iff in E as [E1 E2]. apply size_in_iff in E1. apply andb_true_iff. split; [apply size_in_iff; lia|].
  apply data_arr_inv in Wv. apply fits_arr in Fv as [_ Fv]. rewrite Forall_forall in *. rewrite forallb_forall in *. auto.
Qed.

Lemma sub_arr_exact p e x y q l : wf (VArr l) -> x <= length_z l -> length_z l <= y ->
  (forall z, In z l -> sub e (type_of 0%nat z)) -> sub (TArrSized p e x y) (TExact q (VArr l)).
Proof.
  intros Wl H1 H2 H v Wv Fv E. change (veq (VArr l) v = true) in E.
  pose proof (fits_veq _ _ Wl Wv E Fv) as Fl.
  destruct v as [ | | | | | | | | |l'| ]; try discriminate E. rewrite veq_arr in E. apply forall2b_iff in E.
  rewrite inst_arr_sized. apply data_arr_inv in Wv, Wl. apply fits_arr in Fv as [_ Fv], Fl as [_ Fl].
  apply andb_true_iff. split.
  - apply size_in_iff. unfold length_z in *. rewrite <- (Forall2_length' _ _ _ E). lia.
  - rewrite Forall_forall in *. apply forallb_forall. intros z Hz.
    destruct (Forall2_in_r _ _ _ _ E Hz) as (z' & Hz' & E'). apply (H z' Hz'); auto. apply type_of_equal; auto.
Qed.

Lemma tuple_elems ts b l : tuple_inst (inst W) b ts l = true -> (b = true -> ts <> []) ->
  forall x, In x l -> exists t, In t ts /\ inst W t x = true.
Proof.
  intros H Hb x Hx. apply tuple_inst_at in H as [_ H]; [|assumption]. apply In_nth_error in Hx as [i Hx].
  destruct (H i x Hx) as (t & E & Hf). exists t. split; [|assumption]. eapply t_at_in. exact E.
Qed.

Lemma tuple_bounds ts b l : tuple_len ts b l -> Z.of_nat (length l) <= max_int64 ->
  (if b then length_z ts - 1 else length_z ts) <= length_z l <= (if b then max_int64 else length_z ts).
Proof. unfold tuple_len, length_z. destruct b; intros H F; split; lia. Qed.

Lemma sub_arr_tuple p e x y q ts b : (b = true -> ts <> []) ->
  x <= (if b then length_z ts - 1 else length_z ts) -> (if b then max_int64 else length_z ts) <= y ->
  (forall t, In t ts -> sub e t) -> sub (TArrSized p e x y) (TTuple q ts b).
Proof.
  intros Hb H1 H2 H v Wv Fv E. destruct v as [ | | | | | | | | |l| ]; try discriminate E. rewrite inst_tuple' in E.
  rewrite inst_arr_sized. apply data_arr_inv in Wv. apply fits_arr in Fv as [Fl Fv]. rewrite Forall_forall in *.
  apply andb_true_iff. split.
  - apply size_in_iff. apply tuple_inst_at in E as [E _]; [|assumption]. pose proof (tuple_bounds _ _ _ E Fl). lia.
  - apply forallb_forall. intros z Hz. destruct (tuple_elems _ _ _ E Hb z Hz) as (t & Ht & It). apply (H t Ht); auto.
Qed.

Lemma sub_tuple_tuple p ts v q os w : (v = true -> ts <> []) -> (w = true -> os <> []) -> (v = true -> w = true -> False) ->
  (if v then length_z ts - 1 else length_z ts) <= (if w then length_z os - 1 else length_z os) ->
  (if w then max_int64 else length_z os) <= (if v then max_int64 else length_z ts) ->
  (forall i, (i < Nat.max (length (tuple_head ts v)) (length (tuple_head os w)))%nat ->
     exists t o, t_at (tuple_head ts v) (tuple_rest ts v) i = Some t /\ t_at (tuple_head os w) (tuple_rest os w) i = Some o /\ sub t o) ->
  sub (TTuple p ts v) (TTuple q os w).
Proof.
  intros Hv Hw Hvw H1 H2 H x Wx Fx E. destruct x as [ | | | | | | | | |l| ]; try discriminate E. rewrite inst_tuple' in *.
  apply tuple_inst_at in E as [E1 E2]; [|assumption]. apply tuple_inst_at; [assumption|].
  apply data_arr_inv in Wx. apply fits_arr in Fx as [Fl Fx]. pose proof (tuple_bounds _ _ _ E1 Fl) as B. rewrite Forall_forall in *.
  assert (LT : tuple_len ts v l) by (unfold tuple_len, length_z in *; destruct v; lia).
  split; [exact LT|]. intros i x Hx. destruct (E2 i x Hx) as (o & Eo & Io).
  assert (Hi : (i < length l)%nat) by (apply nth_error_Some; congruence).
  assert (Hm : (i < Nat.max (length (tuple_head ts v)) (length (tuple_head os w)))%nat).
  { destruct v.
    - destruct w; [exfalso; auto|]. unfold tuple_len in E1. unfold tuple_head at 2. lia.
    - unfold tuple_len in LT. unfold tuple_head at 1. lia. }
  destruct (H i Hm) as (t & o' & Et & Eo' & S). rewrite Eo in Eo'. injection Eo' as <-. exists t. split; [assumption|].
  apply nth_error_In in Hx. apply S; auto.
Qed.

Lemma sub_tuple_arr p ts v q e x y : (v = true -> ts <> []) ->
  (if v then length_z ts - 1 else length_z ts) <= x -> y <= (if v then max_int64 else length_z ts) ->
  (forall t, In t (tuple_head ts v) -> sub t e) -> (forall t, tuple_rest ts v = Some t -> sub t e) ->
  sub (TTuple p ts v) (TArrSized q e x y).
Proof.
  intros Hv H1 H2 H3 H4 w Ww Fw E. destruct w as [ | | | | | | | | |l| ]; try discriminate E. rewrite inst_tuple'.
  rewrite inst_arr_sized in E. apply andb_true_iff in E as [E1 E2]. apply size_in_iff in E1. rewrite forallb_forall in E2.
  apply data_arr_inv in Ww. apply fits_arr in Fw as [Fl Fw]. rewrite Forall_forall in *.
  apply tuple_inst_at; [assumption|].
  assert (LT : tuple_len ts v l) by (unfold tuple_len, length_z in *; destruct v; lia).
  split; [exact LT|]. intros i z Hz. pose proof (nth_error_In _ _ Hz) as Hin. unfold t_at.
  destruct (nth_error (tuple_head ts v) i) as [t|] eqn:Et.
  - exists t. split; [reflexivity|]. apply nth_error_In in Et. apply (H3 t Et); auto.
  - destruct (tuple_rest ts v) as [t|] eqn:Er.
    + exists t. split; [reflexivity|]. apply (H4 t); auto.
    + exfalso. destruct v.
      * destruct (exists_last (Hv eq_refl)) as (hs & vt & ->). rewrite tuple_rest_variadic in Er. discriminate.
      * unfold tuple_head in Et. apply nth_error_None in Et. unfold tuple_len in LT.
        assert (i < length l)%nat by (apply nth_error_Some; congruence). lia.
Qed.

(* ---------- maps ---------- *)

Lemma sub_map_map p k v x y p' k' v' x' y' : x <= x' -> y' <= y -> sub k k' -> sub v v' ->
  sub (TMapSized p k v x y) (TMapSized p' k' v' x' y').
Proof.
  intros H1 H2 Hk Hv [ | | | | | | | | | |m] Wv Fv E; try discriminate E. rewrite inst_map_sized in *.
  apply andb_true_iff in E as [E1 E2]. apply size_in_iff in E1. apply andb_true_iff. split; [apply size_in_iff; lia|].
  apply data_map_inv in Wv as [Wv _]. apply fits_map in Fv as [_ Fv]. rewrite Forall_forall in *. rewrite forallb_forall in *.
  intros e He. specialize (E2 e He). apply andb_true_iff in E2 as [E2 E3]. destruct (Wv e He), (Fv e He).
  apply andb_true_iff. split; [apply Hk|apply Hv]; auto.
Qed.

Lemma sub_map_any p k v x y : x <= 0 -> max_int64 <= y -> sub k TAny -> sub v TAny -> sub (TMapSized p k v x y) TMap.
Proof.
  intros H1 H2 Hk Hv [ | | | | | | | | | |m] Wv Fv E; try discriminate E. rewrite inst_map_sized.
  apply data_map_inv in Wv as [Wv _]. apply fits_map in Fv as [F Fv]. rewrite Forall_forall in *.
  apply andb_true_iff. split; [apply size_in_iff; unfold length_z; lia|].
  apply forallb_forall. intros e He. destruct (Wv e He), (Fv e He).
  apply andb_true_iff. split; [apply Hk|apply Hv]; auto.
Qed.

Lemma sub_map_exact p k v x y q m : wf (VMap m) -> x <= length_z m -> length_z m <= y ->
  (forall z, In z (map fst m) -> sub k (type_of 0%nat z)) -> (forall z, In z (map snd m) -> sub v (type_of 0%nat z)) ->
  sub (TMapSized p k v x y) (TExact q (VMap m)).
Proof.
  intros Wm H1 H2 Hk Hv w Ww Fw E. change (veq (VMap m) w = true) in E.
  pose proof (fits_veq _ _ Wm Ww E Fw) as Fm. destruct w as [ | | | | | | | | | |m']; try discriminate E.
  destruct (map_equal_matched m m' Wm Ww E) as (m'' & Hp & Hf). pose proof (Permutation_length Hp) as L1.
  pose proof (Forall2_length' _ _ _ Hf) as L2. rewrite inst_map_sized.
  apply data_map_inv in Wm as [Wm _], Ww as [Ww _]. apply fits_map in Fm as [_ Fm], Fw as [_ Fw]. rewrite Forall_forall in *.
  apply andb_true_iff. split; [apply size_in_iff; unfold length_z in *; lia|].
  apply forallb_forall. intros e He. assert (He' : In e m'') by (eapply Permutation_in; [exact Hp|exact He]).
  destruct (Forall2_in_r _ _ _ _ Hf He') as (d & Hd & E1 & E2).
  destruct (Wm d Hd), (Ww e He), (Fm d Hd), (Fw e He). apply andb_true_iff. split.
  - apply (Hk (fst d)); auto. { now apply in_map. } apply type_of_equal; auto.
  - apply (Hv (snd d)); auto. { now apply in_map. } apply type_of_equal; auto.
Qed.

(* what is known of an instance of a struct type *)
Lemma struct_inst_facts f a m es : wf (VMap m) ->
  Forall (fun e => wf (fst (fst e))) es ->
  ForallOrdPairs (fun e e' : value * ty * bool => veq (fst (fst e)) (fst (fst e')) = false) es ->
  struct_inst f a m 0 es = true <->
  (forall e, In e es -> match assoc veq m (fst (fst e)) with Some x => f (snd (fst e)) x = true | None => snd e = false end) /\
  (a = true \/ forall k x, In (k, x) m -> exists e, In e es /\ veq (fst (fst e)) k = true).
Proof.
  intros Wm We Hes. rewrite struct_inst_iff by lia. rewrite Z.add_0_l, (found_all m es Wm We Hes), Forall_forall. reflexivity.
Qed.

Lemma found_length m es : (length (flat_map (found_in m) es) <= length es)%nat.
Proof.
  induction es as [|e r IH]; cbn; [lia|]. rewrite app_length. unfold found_in at 1. destruct (find _ m); cbn; lia.
Qed.

Lemma required_length m es :
  (forall e, In e es -> assoc veq m (fst (fst e)) = None -> snd e = false) ->
  (length (filter (fun e : value * ty * bool => snd e) es) <= length (flat_map (found_in m) es))%nat.
Proof.
  induction es as [|e r IH]; intros H; [cbn; lia|]. cbn [flat_map filter]. rewrite app_length.
  assert (R : (length (filter (fun e : value * ty * bool => snd e) r) <= length (flat_map (found_in m) r))%nat)
    by (apply IH; intros; apply H; auto; now right).
  unfold found_in at 1. destruct (find (fun x => veq (fst (fst e)) (fst x)) m) eqn:F.
  - destruct (snd e); cbn [length]; lia.
  - rewrite (H e (or_introl eq_refl)); [cbn [length]; lia|].
    rewrite <- get_with_assoc. unfold get_with. now rewrite F.
Qed.

Lemma struct_size_bounds m es a : wf (VMap m) -> Z.of_nat (length m) <= max_int64 ->
  Forall (fun e => wf (fst (fst e))) es ->
  ForallOrdPairs (fun e e' : value * ty * bool => veq (fst (fst e)) (fst (fst e')) = false) es ->
  forall f, struct_inst f a m 0 es = true ->
  count_required es <= length_z m <= (if Nat.eqb (length es) 0 || a then max_int64 else length_z es).
Proof.
  intros Wm F We Hes f H. rewrite struct_inst_iff in H by lia. destruct H as [H1 H2]. rewrite Forall_forall in H1.
  pose proof (nodup_found m es Wm We Hes) as ND. split.
  - unfold count_required, length_z.
    assert (A : (length (filter (fun e : value * ty * bool => snd e) es) <= length (flat_map (found_in m) es))%nat).
    { apply required_length. intros e He N. specialize (H1 e He). rewrite N in H1. exact H1. }
    assert (I : incl (flat_map (found_in m) es) m).
    { intros x Hx. apply in_flat_map in Hx as (e & _ & Hx). now apply found_in_spec in Hx. }
    pose proof (NoDup_incl_length ND I). lia.
  - destruct (Nat.eqb (length es) 0 || a) eqn:E; [unfold length_z; lia|].
    apply orb_false_iff in E as [_ ->]. destruct H2 as [H2|H2]; [discriminate|].
    unfold length_z in *. pose proof (found_length m es). lia.
Qed.

Lemma sub_map_struct p k v x y q es :
  Forall (fun e => wf (fst (fst e))) es ->
  ForallOrdPairs (fun e e' : value * ty * bool => veq (fst (fst e)) (fst (fst e')) = false) es ->
  x <= count_required es -> (if Nat.eqb (length es) 0 then max_int64 else length_z es) <= y ->
  (forall e, In e es -> sub k (TExact 0%nat (fst (fst e)))) -> (forall e, In e es -> sub v (snd (fst e))) ->
  sub (TMapSized p k v x y) (TStruct q false es).
Proof.
  intros We Hes H1 H2 Hk Hv w Ww Fw E. destruct w as [ | | | | | | | | | |m]; try discriminate E.
  rewrite inst_struct' in E. rewrite inst_map_sized. apply fits_map in Fw as [F Fw].
  pose proof (struct_size_bounds m es false Ww F We Hes _ E) as B. rewrite orb_false_r in B.
  apply andb_true_iff. split; [apply size_in_iff; lia|].
  apply struct_inst_facts in E as [E1 [E2|E2]]; auto; [discriminate|]. rewrite Forall_forall in *.
  apply forallb_forall. intros [z1 z2] Hz. destruct (E2 z1 z2 Hz) as (e & He & Ek).
  destruct (wf_map_entry _ _ _ Ww Hz), (Fw _ Hz). cbn [fst snd] in *. specialize (E1 e He).
  rewrite (assoc_unique m (fst (fst e)) z1 z2) in E1; auto.
  apply andb_true_iff. split; [apply (Hk e)|apply (Hv e)]; auto.
Qed.

Lemma struct_find_some k os t r : struct_find k os = Some (t, r) -> exists e, In e os /\ veq k (fst (fst e)) = true /\ t = snd (fst e) /\ r = snd e.
Proof.
  induction os as [|[[k' t'] r'] os IH]; cbn; [discriminate|]. destruct (veq k k') eqn:E.
  - intros H. injection H as <- <-. exists (k', t', r'). cbn. auto.
  - intros H. destruct (IH H) as (e & He & ?). exists e. auto.
Qed.
Lemma struct_find_none k os : struct_find k os = None -> forall e, In e os -> veq k (fst (fst e)) = false.
Proof.
  induction os as [|[[k' t'] r'] os IH]; cbn; [intros _ e []|]. destruct (veq k k') eqn:E; [discriminate|].
  intros H e [<-|He]; [exact E|auto].
Qed.

(* the keys of a struct type as a map *)
Definition key_map (os : list (value * ty * bool)) : list (value * value) := map (fun e => (fst (fst e), VNil)) os.

Lemma key_map_wf os : Forall (fun e => wf (fst (fst e))) os ->
  ForallOrdPairs (fun e e' : value * ty * bool => veq (fst (fst e)) (fst (fst e')) = false) os -> wf (VMap (key_map os)).
Proof.
  intros We Hes. constructor.
  - apply Forall_map_iff. rewrite Forall_forall in *. intros e He. cbn. split; [auto|constructor].
  - induction Hes as [|e os He Hes IH]; cbn; constructor.
    + apply Forall_map_iff. exact He.
    + apply IH. now inversion We.
Qed.

Lemma key_map_find k os : struct_find k os = None <-> find (fun x : value * value => veq k (fst x)) (key_map os) = None.
Proof.
  induction os as [|[[k' t'] r'] os IH]; cbn; [tauto|]. destruct (veq k k'); [split; discriminate|exact IH].
Qed.

(* the number of the keys of es that are in os *)
Definition common_keys (es os : list (value * ty * bool)) : nat :=
  length (filter (fun e : value * ty * bool => match struct_find (fst (fst e)) os with Some _ => true | None => false end) es).

Lemma common_keys_found es os : common_keys es os = length (flat_map (found_in (key_map os)) es).
Proof.
  unfold common_keys. induction es as [|e r IH]; [reflexivity|]. cbn [filter flat_map]. rewrite app_length, <- IH.
  unfold found_in at 1. pose proof (key_map_find (fst (fst e)) os) as K.
  destruct (struct_find (fst (fst e)) os), (find (fun x => veq (fst (fst e)) (fst x)) (key_map os)); cbn [length]; try reflexivity.
  - destruct K as [_ K]. discriminate (K eq_refl).
  - destruct K as [K _]. discriminate (K eq_refl).
Qed.

Lemma sub_struct_struct p ad es q oad os :
  Forall (fun e => wf (fst (fst e))) es ->
  ForallOrdPairs (fun e e' : value * ty * bool => veq (fst (fst e)) (fst (fst e')) = false) es ->
  Forall (fun e => wf (fst (fst e))) os ->
  ForallOrdPairs (fun e e' : value * ty * bool => veq (fst (fst e)) (fst (fst e')) = false) os ->
  (oad = true -> ad = true) ->
  (forall e, In e es -> match struct_find (fst (fst e)) os with
                        | Some (o, orq) => (snd e = true -> orq = true) /\ sub (snd (fst e)) o
                        | None => snd e = false /\ oad = false
                        end) ->
  (ad = true \/ common_keys es os = length os) ->
  sub (TStruct p ad es) (TStruct q oad os).
Proof.
  intros We Hes Wo Hos Hoad H Hc w Ww Fw E. destruct w as [ | | | | | | | | | |m]; try discriminate E.
  rewrite inst_struct' in *. apply struct_inst_facts in E as [E1 E2]; auto. apply struct_inst_facts; auto.
  apply fits_map in Fw as [F Fw]. rewrite Forall_forall in We, Wo, Fw. split.
  - intros e He. specialize (H e He). specialize (We e He). destruct (struct_find (fst (fst e)) os) as [[o orq]|] eqn:S.
    + apply struct_find_some in S as (e' & He' & Ek & -> & ->). destruct H as [H1 H2]. specialize (E1 e' He'). specialize (Wo e' He').
      rewrite <- !get_with_assoc in *. rewrite (get_with_congr m (fst (fst e)) (fst (fst e'))) by auto.
      destruct (get_with (veq (fst (fst e'))) m) as [x|] eqn:G.
      * rewrite get_with_assoc in G. apply assoc_some in G as (k & Hin & _). destruct (wf_map_entry _ _ _ Ww Hin), (Fw _ Hin). apply H2; auto.
      * destruct (snd e); [rewrite H1 in E1 by reflexivity; discriminate|reflexivity].
    + destruct H as [H1 H2]. subst oad. destruct E2 as [E2|E2]; [discriminate|].
      destruct (assoc veq m (fst (fst e))) as [x|] eqn:A; [|exact H1]. exfalso.
      apply assoc_some in A as (k & Hin & Ek). destruct (E2 k x Hin) as (e' & He' & Ek'). destruct (wf_map_entry _ _ _ Ww Hin) as [Wk _].
      pose proof (struct_find_none _ _ S e' He') as N. rewrite (veq_trans _ k _) in N; auto; [discriminate|]. apply veq_sym; auto.
  - destruct Hc as [->|Hc]; [now left|]. destruct oad; [left; auto|]. right. destruct E2 as [E2|E2]; [discriminate|].
    intros k x Hin. destruct (E2 k x Hin) as (e' & He' & Ek). destruct (wf_map_entry _ _ _ Ww Hin) as [Wk _].
    rewrite common_keys_found in Hc.
    assert (A : length_z (flat_map (found_in (key_map os)) es) = length_z (key_map os)).
    { unfold length_z. rewrite Hc. unfold key_map. now rewrite map_length. }
    rewrite (found_all (key_map os) es) in A.
    + destruct (A (fst (fst e')) VNil) as (e & He & Ee).
      { unfold key_map. apply in_map_iff. exists e'. auto. }
      exists e. split; [assumption|]. apply (veq_trans _ (fst (fst e')) _); auto.
    + apply key_map_wf; auto. now apply Forall_forall.
    + now apply Forall_forall.
    + assumption.
Qed.

(* ---------- scalars ---------- *)

Lemma sub_int_range x y (i : bool) x' y' (i' : bool) :
  in64 x -> in64 y -> (i = false -> min_int64 < y) -> in64 x' -> in64 y' ->
  x <= x' -> (if i' then y' else w64 (y' - 1)) <= (if i then y else w64 (y - 1)) ->
  sub (TIntRange x y i) (TIntRange x' y' i').
Proof.
  intros Hx Hy Hi Hx' Hy' H1 H2 [ | |z| | | | | | | | ] _ _ E; try discriminate E.
  change (int_in x' y' i' z = true) in E. change (int_in x y i z = true). unfold int_in in *.
  apply andb_true_iff in E as [E1 E2]. apply Z.leb_le in E1. apply andb_true_iff. split; [apply Z.leb_le; lia|].
  assert (Hz : z <= (if i then y else y - 1)).
  { unfold in64 in *. destruct i'.
    - apply Z.leb_le in E2. destruct i; [lia|]. rewrite w64_id in H2 by (unfold in64; specialize (Hi eq_refl); lia). lia.
    - apply Z.ltb_lt in E2. rewrite w64_id in H2 by (unfold in64; lia).
      destruct i; [lia|]. rewrite w64_id in H2 by (unfold in64; specialize (Hi eq_refl); lia). lia. }
  destruct i; [apply Z.leb_le|apply Z.ltb_lt]; lia.
Qed.

Lemma sub_float_range x y (i : bool) x' y' (i' : bool) :
  x <> S754_nan -> y <> S754_nan -> x' <> S754_nan -> y' <> S754_nan ->
  SFltb x' x = false ->
  (if i || Bool.eqb i i' then SFleb y' y else SFltb y' y) = true ->
  sub (TFloatRange x y i) (TFloatRange x' y' i').
Proof.
  intros Hx Hy Hx' Hy' H1 H2 [ | | |f| | | | | | | ] Wf _ E; try discriminate E. inversion Wf as [| | |? Hf| | | | | | | ]; subst.
  change (float_in x' y' i' f = true) in E. change (float_in x y i f = true). unfold float_in in *.
  apply andb_true_iff in E as [E1 E2]. apply SFleb_iff in E1; auto.
  assert (A : kcmp (fkey x) (fkey x') <> Gt).
  { apply kcmp_not_lt. intros C. apply SFltb_iff in C; auto. congruence. }
  apply andb_true_iff. split; [apply SFleb_iff; auto; now apply (kcmp_trans' _ (fkey x'))|].
  destruct i, i'; cbn [orb Bool.eqb] in H2; rewrite ?SFleb_iff, ?SFltb_iff in * by auto.
  - now apply (kcmp_trans' _ (fkey y')).
  - apply (kcmp_trans' _ (fkey y')); congruence.
  - now apply (kcmp_le_lt _ (fkey y')).
  - now apply (kcmp_lt_le _ (fkey y')).
Qed.

End World.
