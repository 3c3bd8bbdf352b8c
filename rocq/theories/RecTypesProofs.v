(* Instance on types that refer to themselves. *)
From Coq Require Import ZArith List Bool Lia.
From Verif Require Import Int64 HMap Data DataSpec DataProofs Types TypesSpec InstProofs SemProofs Assign Graph RecTypes RecTypesSpec.
Import ListNotations.
Open Scope Z_scope.

(* ---------- computations ---------- *)

(* what a result r says about Q: that it is true if Q is, and the converse if [two] *)
Definition ok (two : bool) (r : bool) (Q : Prop) : Prop := (Q -> r = true) /\ (two = true -> r = true -> Q).
Definition sat (two : bool) (J : option rguard -> Prop) (m : RM bool) (Q : Prop) : Prop :=
  forall s r s', J s -> m s = Some (r, s') -> ok two r Q /\ J s'.

Section Sat.
Variable two : bool.
Variable J : option rguard -> Prop.
Notation sat := (sat two J).

Lemma ok_iff r Q Q' : (Q <-> Q') -> ok two r Q -> ok two r Q'.
Proof. intros H [A B]. split; intros; [apply A|]; apply H; auto. Qed.
Lemma sat_iff m Q Q' : (Q <-> Q') -> sat m Q -> sat m Q'.
Proof. intros H S s r s' Js E. destruct (S s r s' Js E). split; auto. now apply (ok_iff _ Q). Qed.
Lemma sat_ret b Q : ok two b Q -> sat (r_ret b) Q.
Proof. intros H s r s' Js [= <- <-]. auto. Qed.
Lemma sat_true (Q : Prop) : (two = true -> Q) -> sat (r_ret true) Q.
Proof. intros H. apply sat_ret. split; auto. Qed.
Lemma sat_false (Q : Prop) : ~ Q -> sat (r_ret false) Q.
Proof. intros H. apply sat_ret. split; [tauto|discriminate]. Qed.
Lemma sat_fail Q : sat r_fail Q.
Proof. intros s r s' _ E. discriminate E. Qed.
Lemma sat_bind m f (Q Q' : Prop) : sat m Q' ->
  ((two = true -> Q') -> sat (f true) Q) -> (~ Q' -> sat (f false) Q) -> sat (r_bind m f) Q.
Proof.
  intros H Ht Hf s r s' Js E. unfold r_bind in E. destruct (m s) as [[b s1]|] eqn:M; [|discriminate].
  destruct (H s b s1 Js M) as [[O1 O2] J1]. destruct b.
  - apply (Ht (fun T => O2 T eq_refl) s1 r s' J1 E).
  - apply (Hf (fun q => ltac:(discriminate (O1 q))) s1 r s' J1 E).
Qed.
Lemma sat_and m n Q Q' : sat m Q -> sat n Q' -> sat (r_and m n) (Q /\ Q').
Proof.
  intros Hm Hn. apply (sat_bind _ _ _ Q); auto.
  - intros HQ s r s' Js E. destruct (Hn s r s' Js E) as [[A B] J1]. split; [|exact J1]. split; [tauto|intros Tw R; split; auto].
  - intros N. apply sat_false. tauto.
Qed.
Lemma sat_all {A} (f : A -> RM bool) (Q : A -> Prop) l : (forall x, In x l -> sat (f x) (Q x)) -> sat (r_all f l) (Forall Q l).
Proof.
  induction l as [|x l IH]; intros H; cbn [r_all]; [apply sat_true; constructor|].
  apply (sat_iff _ (Q x /\ Forall Q l)); [now rewrite Forall_cons_iff|]. apply sat_and; [apply H; now left|]. apply IH. intros. apply H. now right.
Qed.
Lemma sat_any {A} (f : A -> RM bool) (Q : A -> Prop) l : (forall x, In x l -> sat (f x) (Q x)) -> sat (r_any f l) (Exists Q l).
Proof.
  induction l as [|x l IH]; intros H; cbn [r_any]; [apply sat_false; intros E; inversion E|]. apply (sat_bind _ _ _ (Q x)).
  - apply H. now left.
  - intros HQ. apply sat_true. intros Tw. apply Exists_cons. auto.
  - intros N. apply (sat_iff _ (Exists Q l)); [rewrite Exists_cons; tauto|]. apply IH. intros. apply H. now right.
Qed.
Lemma sat_zip {A B} (f : A -> B -> RM bool) (Q : A -> B -> Prop) l : forall l', (forall x y, In x l -> In y l' -> sat (f x y) (Q x y)) ->
  sat (r_zip f l l') (Forall2 Q l (firstn (length l) l')).
Proof.
  induction l as [|x l IH]; intros [|y l'] H; cbn [r_zip length firstn]; try (apply sat_true; constructor); [apply sat_fail|].
  apply (sat_iff _ (Q x y /\ Forall2 Q l (firstn (length l) l'))).
  - split; [intros [A1 A2]; now constructor|intros A1; now inversion A1].
  - apply sat_and; [apply H; now left|]. apply IH. intros. apply H; now right.
Qed.
Lemma sat_one {A} (f : A -> RM bool) (Q : A -> Prop) l : two = true -> (forall x, In x l -> sat (f x) (Q x)) -> forall found,
  sat (r_one f found l) (if found then Forall (fun x => ~ Q x) l else exists l1 x l2, l = l1 ++ x :: l2 /\ Q x /\ Forall (fun y => ~ Q y) (l1 ++ l2)).
Proof.
  intros Tw. induction l as [|x l IH]; intros H found; cbn [r_one].
  - destruct found; [apply sat_true; constructor|apply sat_false]. intros ([|] & y & l2 & E & _); discriminate E.
  - assert (IH' : forall found, sat (r_one f found l) (if found then Forall (fun x => ~ Q x) l else exists l1 x l2, l = l1 ++ x :: l2 /\ Q x /\ Forall (fun y => ~ Q y) (l1 ++ l2))).
    { apply IH. intros. apply H. now right. }
    apply (sat_bind _ _ _ (Q x)); [apply H; now left| |].
    + intros HQ. specialize (HQ Tw). destruct found.
      * apply sat_false. intros F. inversion F; auto.
      * apply (sat_iff _ (Forall (fun x => ~ Q x) l)); [|apply (IH' true)]. split.
        -- intros F. exists [], x, l. auto.
        -- intros ([|z l1] & y & l2 & E & Qy & F); cbn [app] in *.
           ++ injection E as -> ->. exact F.
           ++ injection E as -> ->. inversion F; tauto.
    + intros N. destruct found.
      * apply (sat_iff _ (Forall (fun x => ~ Q x) l)); [|apply (IH' true)]. rewrite Forall_cons_iff. tauto.
      * apply (sat_iff _ (exists l1 x l2, l = l1 ++ x :: l2 /\ Q x /\ Forall (fun y => ~ Q y) (l1 ++ l2))); [|apply (IH' false)]. split.
        -- intros (l1 & y & l2 & -> & Qy & F). exists (x :: l1), y, l2. repeat split; auto. now constructor.
        -- intros ([|z l1] & y & l2 & E & Qy & F); cbn [app] in *.
           ++ injection E as -> ->. tauto.
           ++ injection E as -> ->. inversion F; subst. exists l1, y, l2. auto.
Qed.
Lemma sat_tuple (f : nat -> gval -> RM bool) (P : nat -> gval -> Prop) ts variadic l :
  (variadic = true -> ts <> []) -> (forall t x, In t ts -> In x l -> sat (f t x) (P t x)) ->
  sat (r_tuple f ts variadic l)
    (if variadic then exists us t l1 l2, ts = us ++ [t] /\ l = l1 ++ l2 /\ Forall2 P us l1 /\ Forall (P t) l2 else Forall2 P ts l).
Proof.
  intros NE H. unfold r_tuple. destruct variadic.
  - destruct (exists_last (NE eq_refl)) as (us & t & ->). rewrite app_length. cbn [length]. rewrite Nat.add_1_r. cbn [Nat.pred].
    rewrite nth_error_app2, Nat.sub_diag by lia. cbn [nth_error]. rewrite firstn_app, Nat.sub_diag, firstn_all. cbn [firstn]. rewrite app_nil_r.
    destruct (_ <? _)%nat eqn:L.
    + apply sat_false. intros (us' & t' & l1 & l2 & E & -> & F & _). apply app_inj_tail in E as [<- <-]. apply Nat.ltb_lt in L. rewrite app_length in L.
      apply SemProofs.Forall2_length' in F. lia.
    + apply Nat.ltb_ge in L. apply (sat_iff _ (Forall2 P us (firstn (length us) l) /\ Forall (P t) (skipn (length us) l))).
      * split.
        -- intros [F1 F2]. exists us, t, (firstn (length us) l), (skipn (length us) l). repeat split; auto. now rewrite firstn_skipn.
        -- intros (us' & t' & l1 & l2 & E & -> & F & F2). apply app_inj_tail in E as [<- <-]. pose proof (SemProofs.Forall2_length' _ _ _ F) as L1.
           rewrite L1, firstn_app, Nat.sub_diag, firstn_all, skipn_app, Nat.sub_diag, skipn_all. cbn [firstn skipn app]. rewrite app_nil_r. auto.
      * apply sat_and; [apply sat_zip|apply sat_all]; intros; apply H.
        -- apply in_or_app. auto.
        -- auto.
        -- apply in_or_app. right. now left.
        -- now apply SemProofs.In_skipn in H0.
  - destruct (Nat.eqb _ _) eqn:L.
    + apply Nat.eqb_eq in L. apply (sat_iff _ (Forall2 P ts (firstn (length ts) l))); [rewrite <- L, firstn_all; tauto|]. apply sat_zip. auto.
    + apply sat_false. intros F. apply SemProofs.Forall2_length' in F. apply Nat.eqb_neq in L. congruence.
Qed.

(* structs *)
Definition keyed {V} (m : list (value * V)) : list (value * value) := map (fun e => (fst e, VNil)) m.
Definition entry_key (e : value * nat * bool) : value * ty * bool := (fst (fst e), TAny, snd e).
Lemma get_keyed {V} k (m : list (value * V)) : get_with (veq k) (keyed m) = option_map (fun _ => VNil) (get_with (veq k) m).
Proof.
  unfold get_with, keyed. induction m as [|[k' y] m IH]; [reflexivity|]. cbn [map find fst]. destruct (veq k k'); [reflexivity|exact IH].
Qed.
Lemma sat_struct (f : nat -> gval -> RM bool) (P : nat -> gval -> Prop) additional m es : forall oc, 0 <= oc ->
  (forall e k y, In e es -> In (k, y) m -> sat (f (snd (fst e)) y) (P (snd (fst e)) y)) ->
  sat (r_struct f additional es m oc)
    (Forall (fun e : value * nat * bool => match get_with (veq (fst (fst e))) m with Some y => P (snd (fst e)) y | None => snd e = false end) es /\
     (additional = true \/ oc + length_z (flat_map (found_in (keyed m)) (map entry_key es)) = length_z m)).
Proof.
  induction es as [|[[k t] b] es IH]; intros oc Hoc H; cbn [r_struct map flat_map].
  - apply sat_ret. change (length_z (@nil (value * value))) with 0. rewrite Z.add_0_r. split.
    + intros [_ A]. rewrite orb_true_iff, Z.eqb_eq. exact A.
    + intros _ A. rewrite orb_true_iff, Z.eqb_eq in A. split; [constructor|exact A].
  - pose proof (get_keyed k m) as GK. unfold found_in at 1. cbn [entry_key fst snd]. unfold get_with in GK at 1.
    assert (IH' : forall oc, 0 <= oc -> sat (r_struct f additional es m oc) (Forall (fun e : value * nat * bool => match get_with (veq (fst (fst e))) m with Some y => P (snd (fst e)) y | None => snd e = false end) es /\
     (additional = true \/ oc + length_z (flat_map (found_in (keyed m)) (map entry_key es)) = length_z m))).
    { intros oc' Hoc'. apply IH; auto. intros e k' y He Hk. apply (H e k' y); auto. now right. }
    destruct (get_with (veq k) m) as [y|] eqn:GW.
    + cbn [option_map] in GK. destruct (find _ (keyed m)) as [z|]; [|discriminate]. cbn [app].
      assert (LZ : forall (l : list (value * value)), length_z (z :: l) = 1 + length_z l) by (intros; unfold length_z; cbn [length]; lia). rewrite LZ.
      apply (sat_bind _ _ _ (P t y)).
      * apply get_with_some in GW as (k' & Hk & _). apply (H (k, t, b) k' y); auto. now left.
      * intros HP s r s' Js E. destruct (IH' (oc + 1) ltac:(lia) s r s' Js E) as [[A B] J1]. split; [|exact J1]. split; rewrite Forall_cons_iff; cbn [fst snd]; rewrite GW.
        -- intros [[_ F] C]. apply A. split; [exact F|]. destruct C as [C|C]; [auto|right; lia].
        -- intros Tw R. destruct (B Tw R) as [F C]. split; [split; auto|]. destruct C as [C|C]; [auto|right; lia].
      * intros N. apply sat_false. rewrite Forall_cons_iff. cbn [fst snd]. rewrite GW. tauto.
    + cbn [option_map] in GK. destruct (find _ (keyed m)) as [z|]; [discriminate|]. cbn [app]. destruct b.
      * apply sat_false. rewrite Forall_cons_iff. cbn [fst snd]. rewrite GW. intros [[A _] _]. discriminate A.
      * refine (sat_iff _ _ _ _ (IH' oc Hoc)). rewrite Forall_cons_iff. cbn [fst snd]. rewrite GW. tauto.
Qed.
End Sat.

(* ---------- values and types without types in them ---------- *)

Section Graphs.
Variable W : world.
Variable T : tgraph.
Variable G : graph.
Notation view := (view G).
Notation elements := (elements G).
Notation entries := (entries G).
Notation wraps := (wraps G).
Notation part := (part G).

Lemma view_arr x l : view x = Some (inr (GArr l)) <-> elements x l.
Proof.
  split.
  - destruct x as [v|p]; cbn.
    + destruct v; try discriminate. intros [= <-]. constructor.
    + destruct (nth_error G p) eqn:E; [|discriminate]. intros [= ->]. now constructor.
  - intros H. destruct H as [p l E|l]; cbn; [now rewrite E|reflexivity].
Qed.
Lemma view_map x m : view x = Some (inr (GMap m)) <-> entries x m.
Proof.
  split.
  - destruct x as [v|p]; cbn.
    + destruct v; try discriminate. intros [= <-]. constructor.
    + destruct (nth_error G p) eqn:E; [|discriminate]. intros [= ->]. now constructor.
  - intros H. destruct H as [p l E|l]; cbn; [now rewrite E|reflexivity].
Qed.
Lemma view_sens x y : view x = Some (inr (GSens y)) <-> wraps x y.
Proof.
  split.
  - destruct x as [v|p]; cbn.
    + destruct v; try discriminate. intros [= <-]. constructor.
    + destruct (nth_error G p) eqn:E; [|discriminate]. intros [= ->]. now constructor.
  - intros H. destruct H as [p l E|l]; cbn; [now rewrite E|reflexivity].
Qed.

Lemma leaf_inst_v t v w : leaf_type t = true -> view (GLeaf v) = Some w -> leaf_inst W t w = inst W t v.
Proof.
  intros L. destruct t; try discriminate L; destruct v; cbn; intros [= <-]; cbn; try reflexivity; destruct v0; try discriminate L; reflexivity.
Qed.
Lemma leaf_inst_ok t x w : leaf_type t = true -> type_ok t -> val_ok G x -> view x = Some w -> (leaf_inst W t w = true <-> leaf_holds W G t x).
Proof.
  intros L O V E. destruct x as [v|p].
  - rewrite (leaf_inst_v t v w L E). cbn. apply inst_iff; auto.
  - cbn [leaf_holds]. assert (S : exists nd, w = inr nd) by (cbn in E; destruct (nth_error G p); [injection E as <-; eauto|discriminate]). destruct S as [nd ->].
    destruct nd as [l|y|m]; cbn [leaf_inst].
    + apply view_arr in E. split.
      * destruct t; try discriminate; intros _; [now left|right; left; split; eauto].
      * intros [->|[[-> _]|[-> [m H]]]]; auto. inversion E; inversion H; congruence.
    + apply view_sens in E. split.
      * destruct t; try discriminate; intros _; now left.
      * intros [->|[[-> [m H]]|[-> [m H]]]]; auto; inversion E; inversion H; congruence.
    + apply view_map in E. split.
      * destruct t; try discriminate; intros _; [now left|right; right; split; eauto].
      * intros [->|[[-> [l H]]|[-> _]]]; auto. inversion E; inversion H; congruence.
Qed.

Lemma elements_eq x l l' : elements x l -> elements x l' -> l = l'.
Proof. rewrite <- !view_arr. congruence. Qed.
Lemma entries_eq x l l' : entries x l -> entries x l' -> l = l'.
Proof. rewrite <- !view_map. congruence. Qed.
Lemma wraps_eq x l l' : wraps x l -> wraps x l' -> l = l'.
Proof. rewrite <- !view_sens. congruence. Qed.

Lemma at_node p nd : values_ok G -> nth_error G p = Some nd -> value_node_ok G nd.
Proof. intros VG E. unfold values_ok in VG. rewrite Forall_forall in VG. apply nth_error_In in E. auto. Qed.
Lemma part_ok x y : values_ok G -> val_ok G x -> part x y -> val_ok G y.
Proof.
  intros VG V Pt. revert V. destruct Pt as [x0 l y0 E I|x0 m k y0 E I|x0 m k y0 E I|x0 y0 E]; intros V; revert V.
  - destruct E as [p l E|l]; intros V.
    + apply (at_node _ _ VG) in E. cbn in E. rewrite Forall_forall in E. auto.
    + apply in_map_iff in I as (v & <- & I). cbn in V |- *. apply data_arr_inv in V. rewrite Forall_forall in V. auto.
  - destruct E as [p m E|m]; intros V.
    + apply (at_node _ _ VG) in E. destruct E as [E _]. rewrite Forall_forall in E. apply (E _ I).
    + apply in_map_iff in I as ([k' v] & [= <- <-] & I). cbn in V |- *. apply data_map_inv in V as [V _]. rewrite Forall_forall in V. apply (V _ I).
  - destruct E as [p m E|m]; intros V.
    + apply (at_node _ _ VG) in E. destruct E as [E _]. rewrite Forall_forall in E. apply (E _ I).
    + apply in_map_iff in I as ([k' v] & [= <- <-] & I). cbn in V |- *. apply data_map_inv in V as [V _]. rewrite Forall_forall in V. apply (V _ I).
  - destruct E as [p y E|v]; intros V.
    + now apply (at_node _ _ VG) in E.
    + cbn in V |- *. now inversion V.
Qed.

Lemma entries_ok x m : values_ok G -> val_ok G x -> entries x m ->
  Forall (fun e => wf (fst e) /\ val_ok G (snd e)) m /\ ForallOrdPairs (fun e e' : value * gval => veq (fst e) (fst e') = false) m.
Proof.
  intros VG V E. revert V. destruct E as [p m' E|m']; intros V.
  - now apply (at_node _ _ VG) in E.
  - cbn in V. apply data_map_inv in V as [V1 V2]. split.
    + rewrite Forall_map. eapply Forall_impl; [|exact V1]. auto.
    + clear V1. induction V2 as [|e l H V2 IH]; cbn [map]; constructor; auto. rewrite Forall_map. eapply Forall_impl; [|exact H]. auto.
Qed.

(* ---------- one step ---------- *)

Lemma sat_weak two J m (Q Q' : Prop) : (Q' -> Q) -> (two = true -> Q -> Q') -> sat two J m Q -> sat two J m Q'.
Proof. intros H1 H2 S s r s' Js E. destruct (S s r s' Js E) as [[A B] J1]. split; [|exact J1]. split; auto. Qed.

Lemma wf_keyed m : Forall (fun e => wf (fst e) /\ val_ok G (snd e)) m -> ForallOrdPairs (fun e e' : value * gval => veq (fst e) (fst e') = false) m -> wf (VMap (keyed m)).
Proof.
  intros F O. constructor.
  - unfold keyed. rewrite Forall_map. eapply Forall_impl; [|exact F]. intros e [H _]. split; [exact H|constructor].
  - unfold keyed. clear F. induction O as [|e l H O IH]; cbn [map]; constructor; auto. rewrite Forall_map. eapply Forall_impl; [|exact H]. auto.
Qed.
Lemma ordered_unique {V} (m : list (value * V)) k y k' y' : ForallOrdPairs (fun e e' : value * V => veq (fst e) (fst e') = false) m ->
  Forall (fun e => wf (fst e)) m -> In (k, y) m -> In (k', y') m -> veq k k' = true -> y = y'.
Proof.
  intros O F. induction O as [|e l H O IH]; [intros []|]. inversion F as [|? ? F1 F2]; subst. rewrite Forall_forall in H, F2.
  intros [->|I] [E|I'] Vk; [congruence| | |].
  - specialize (H _ I'). cbn in H. congruence.
  - subst e. specialize (H _ I). cbn in H. rewrite veq_sym_eq in H; [congruence|exact F1|exact (F2 _ I)].
  - apply IH; auto. now apply Forall_forall.
Qed.

Lemma struct_holds (P : nat -> gval -> Prop) additional es m :
  Forall (fun e : value * nat * bool => wf (fst (fst e))) es ->
  ForallOrdPairs (fun e e' : value * nat * bool => veq (fst (fst e)) (fst (fst e')) = false) es ->
  Forall (fun e => wf (fst e) /\ val_ok G (snd e)) m -> ForallOrdPairs (fun e e' : value * gval => veq (fst e) (fst e') = false) m ->
  ((Forall (fun e : value * nat * bool => match get_with (veq (fst (fst e))) m with Some y => P (snd (fst e)) y | None => snd e = false end) es /\
     (additional = true \/ 0 + length_z (flat_map (found_in (keyed m)) (map entry_key es)) = length_z m)) <->
   (Forall (fun e : value * nat * bool =>
        (exists k y, In (k, y) m /\ veq (fst (fst e)) k = true /\ P (snd (fst e)) y) \/
        ((forall k y, In (k, y) m -> veq (fst (fst e)) k = false) /\ snd e = false)) es /\
      (additional = true \/ forall k y, In (k, y) m -> exists e, In e es /\ veq (fst (fst e)) k = true))).
Proof.
  intros We Oe Fm Om. assert (Fm1 : Forall (fun e : value * gval => wf (fst e)) m) by (eapply Forall_impl; [|exact Fm]; intros ? []; auto).
  assert (A : Forall (fun e : value * nat * bool => match get_with (veq (fst (fst e))) m with Some y => P (snd (fst e)) y | None => snd e = false end) es <->
    Forall (fun e : value * nat * bool =>
        (exists k y, In (k, y) m /\ veq (fst (fst e)) k = true /\ P (snd (fst e)) y) \/
        ((forall k y, In (k, y) m -> veq (fst (fst e)) k = false) /\ snd e = false)) es).
  { rewrite !Forall_forall. split; intros H e He; specialize (H e He).
    - destruct (get_with _ m) as [y|] eqn:GW.
      + left. apply get_with_some in GW as (k & Hk & V). eauto.
      + right. split; [|exact H]. now apply get_with_none.
    - destruct (get_with _ m) as [y|] eqn:GW.
      + apply get_with_some in GW as (k & Hk & V). destruct H as [(k' & y' & Hk' & V' & H)|[N _]].
        * rewrite Forall_forall in We, Fm1. pose proof (We e He). pose proof (Fm1 _ Hk). pose proof (Fm1 _ Hk'). cbn in *.
          rewrite (ordered_unique m k y k' y'); auto; [now rewrite Forall_forall|]. apply (veq_trans k (fst (fst e)) k'); auto. apply veq_sym; auto.
        * rewrite (N _ _ Hk) in V. discriminate.
      + destruct H as [(k' & y' & Hk' & V' & H)|[_ N]]; [|exact N]. rewrite (get_with_none _ _ GW _ _ Hk') in V'. discriminate. }
  rewrite A, Z.add_0_l. apply and_iff_compat_l, or_iff_compat_l.
  replace (length_z m) with (length_z (keyed m)) by (unfold length_z, keyed; now rewrite map_length).
  rewrite found_all.
  - split; intros H k y I.
    + destruct (H k VNil) as (e & He & V).
      * apply in_map_iff. now exists (k, y).
      * apply in_map_iff in He as (e0 & <- & He). now exists e0.
    + apply in_map_iff in I as ([k' y'] & [= <- _] & I). destruct (H _ _ I) as (e & He & V). exists (entry_key e). split; [|exact V]. now apply in_map.
  - now apply wf_keyed.
  - rewrite Forall_map. exact We.
  - clear We A. induction Oe as [|e l H O IH]; cbn [map]; constructor; auto. rewrite Forall_map. exact H.
Qed.

Definition child (nd : rnode) (x : gval) (q : nat) (y : gval) : Prop := In q (refers nd) /\ (part x y \/ (In q (same_value nd) /\ y = x)).

Lemma step_sat two J P R nd x : values_ok G -> val_ok G x -> type_node_ok T nd ->
  (forall b q y, child nd x q y -> sat two J (R b q y) (P q y)) ->
  (two = true -> forall q y, In q (refers nd) -> part x y -> node_any T q = true -> P q y) ->
  (two = false -> match nd with NOne _ | NNot _ => False | _ => True end) ->
  sat two J (r_step W T G R nd x) (holds W G P nd x).
Proof.
  intros VG V [_ O] H HA Pos. unfold r_step. destruct (view x) as [w|] eqn:E; [|apply sat_fail].
  assert (HE : forall l, elements x l -> w = inr (GArr l)) by (intros l Hl; apply view_arr in Hl; congruence).
  assert (HM : forall l, entries x l -> w = inr (GMap l)) by (intros l Hl; apply view_map in Hl; congruence).
  assert (HS : forall l, wraps x l -> w = inr (GSens l)) by (intros l Hl; apply view_sens in Hl; congruence).
  destruct nd as [t|e lo hi|ts variadic|k v lo hi|additional es|ts|ts|ts|t|t]; cbn [holds].
  - destruct O as [O1 O2]. apply sat_ret. pose proof (leaf_inst_ok t x w O1 O2 V E) as [A B]. split; auto.
  - destruct w as [|[l|y|m]]; try (apply sat_false; intros (l' & Hl & _); apply HE in Hl; discriminate Hl).
    pose proof (proj1 (view_arr x l) E) as El. unfold size_in. fold (length_z l).
    assert (Q : (exists l0, elements x l0 /\ lo <= Z.of_nat (length l0) <= hi /\ Forall (P e) l0) <-> lo <= length_z l <= hi /\ Forall (P e) l).
    { split; [intros (l0 & E0 & A)|intros A; exists l; auto]. rewrite (elements_eq _ _ _ E0 El) in A. exact A. }
    destruct (_ && _) eqn:S.
    + apply andb_true_iff in S. rewrite !Z.leb_le in S. destruct (node_any T e) eqn:NA.
      * apply sat_true. intros Tw. apply Q. split; [lia|]. apply Forall_forall. intros y Hy. apply HA; auto; [now left|]. now apply (part_element G x l).
      * apply (sat_iff _ _ _ (Forall (P e) l)); [rewrite Q; split; [intros; split; [lia|assumption]|tauto]|]. apply sat_all. intros y Hy. apply H. split; [now left|]. left. now apply (part_element G x l).
    + apply sat_false. rewrite Q. intros [A _]. apply andb_false_iff in S. rewrite !Z.leb_gt in S. lia.
  - destruct w as [|[l|y|m]]; try (apply sat_false; intros (l' & Hl & _); apply HE in Hl; discriminate Hl).
    pose proof (proj1 (view_arr x l) E) as El. eapply sat_iff; [|apply (sat_tuple two J (R true) P ts variadic l)].
    + split; [intros A; exists l; split; [exact El|exact A]|intros (l0 & E0 & A)]. rewrite (elements_eq _ _ _ E0 El) in A. exact A.
    + intros ->. exact O.
    + intros t y Ht Hy. apply H. split; [exact Ht|]. left. now apply (part_element G x l).
  - destruct w as [|[l|y|m]]; try (apply sat_false; intros (l' & Hl & _); apply HM in Hl; discriminate Hl).
    pose proof (proj1 (view_map x m) E) as El. unfold size_in. fold (length_z m).
    assert (Q : (exists l0, entries x l0 /\ lo <= Z.of_nat (length l0) <= hi /\ Forall (fun e => P k (GLeaf (fst e)) /\ P v (snd e)) l0) <-> lo <= length_z m <= hi /\ Forall (fun e => P k (GLeaf (fst e)) /\ P v (snd e)) m).
    { split; [intros (l0 & E0 & A)|intros A; exists m; auto]. rewrite (entries_eq _ _ _ E0 El) in A. exact A. }
    assert (Pk : forall e, In e m -> part x (GLeaf (fst e))) by (intros [a b] I; now apply (part_key G x m a b)).
    assert (Pv : forall e, In e m -> part x (snd e)) by (intros [a b] I; now apply (part_value G x m a b)).
    destruct (_ && _) eqn:S.
    + apply andb_true_iff in S. rewrite !Z.leb_le in S.
      apply (sat_iff _ _ _ (Forall (fun e => P k (GLeaf (fst e)) /\ P v (snd e)) m)); [rewrite Q; split; [intros; split; [lia|assumption]|tauto]|].
      assert (Hk : forall b e, In e m -> sat two J (R b k (GLeaf (fst e))) (P k (GLeaf (fst e)))) by (intros; apply H; split; [now left|left; auto]).
      assert (Hv : forall b e, In e m -> sat two J (R b v (snd e)) (P v (snd e))) by (intros; apply H; split; [right; now left|left; auto]).
      destruct (node_any T k) eqn:NK, (node_any T v) eqn:NV.
      * apply sat_true. intros Tw. apply Forall_forall. intros e He. split; apply HA; auto; [now left|right; now left].
      * apply (sat_weak _ _ _ (Forall (fun e => P v (snd e)) m)).
        -- rewrite !Forall_forall. intros A e He. apply (A e He).
        -- intros Tw. rewrite !Forall_forall. intros A e He. split; [apply HA; auto; now left|auto].
        -- apply (sat_all two J (fun e => R true v (snd e)) (fun e => P v (snd e))). auto.
      * apply (sat_weak _ _ _ (Forall (fun e => P k (GLeaf (fst e))) m)).
        -- rewrite !Forall_forall. intros A e He. apply (A e He).
        -- intros Tw. rewrite !Forall_forall. intros A e He. split; [auto|apply HA; auto; right; now left].
        -- apply (sat_all two J (fun e => R false k (GLeaf (fst e))) (fun e => P k (GLeaf (fst e)))). auto.
      * apply (sat_all two J (fun e => r_and (R true k (GLeaf (fst e))) (R true v (snd e))) (fun e => P k (GLeaf (fst e)) /\ P v (snd e))). intros. apply sat_and; auto.
    + apply sat_false. rewrite Q. intros [A _]. apply andb_false_iff in S. rewrite !Z.leb_gt in S. lia.
  - destruct w as [|[l|y|m]]; try (apply sat_false; intros (l' & Hl & _); apply HM in Hl; discriminate Hl).
    pose proof (proj1 (view_map x m) E) as El. destruct (entries_ok x m VG V El) as [M1 M2]. destruct O as [O1 O2].
    eapply sat_iff; [|apply (sat_struct two J (R true) P additional m es 0 ltac:(lia))].
    + rewrite (struct_holds P additional es m O1 O2 M1 M2). split; [intros A; exists m; split; [exact El|exact A]|intros (l0 & E0 & A)].
      rewrite (entries_eq _ _ _ E0 El) in A. exact A.
    + intros e k y He I. apply H. split; [cbn [refers]; apply in_map_iff; now exists e|]. left. now apply (part_value G x m k y).
  - apply (sat_all two J (fun t => R true t x) (fun t => P t x)). intros. apply H. split; [assumption|]. right. auto.
  - apply (sat_any two J (fun t => R true t x) (fun t => P t x)). intros. apply H. split; [assumption|]. right. auto.
  - destruct two; [|destruct (Pos eq_refl)].
    apply (sat_one true J (fun t => R true t x) (fun t => P t x) ts eq_refl). intros. apply H. split; [assumption|]. right. auto.
  - destruct two; [|destruct (Pos eq_refl)]. apply (sat_bind _ _ _ _ _ (P t x)).
    + apply H. split; [now left|right; split; [now left|reflexivity]].
    + intros A. specialize (A eq_refl). apply sat_false. auto.
    + intros N. apply sat_true. auto.
  - destruct w as [|[l|y|m]]; try (apply sat_false; intros (l' & Hl & _); apply HS in Hl; discriminate Hl).
    pose proof (proj1 (view_sens x y) E) as El. apply (sat_iff _ _ _ (P t y)).
    + split; [intros A; exists y; auto|intros (y0 & E0 & A)]. rewrite (wraps_eq _ _ _ E0 El) in A. exact A.
    + apply H. split; [now left|]. left. now apply part_wrapped.
Qed.

(* ---------- calls ---------- *)

Notation rinst := (rinst W T G).
Notation r_step := (r_step W T G).

Lemma sat_with two J g m Q : (forall r s', m g = Some (r, s') -> ok two r Q) -> sat two J (with_rguard g m) Q.
Proof. intros H s r s' Js E. unfold with_rguard in E. destruct (m g) as [[b s1]|] eqn:M; [|discriminate]. injection E as <- <-. split; [|exact Js]. eauto. Qed.

Lemma node_ok p nd : types_ok T -> nth_error T p = Some nd -> type_node_ok T nd.
Proof. intros H E. unfold types_ok in H. rewrite Forall_forall in H. apply H. now apply nth_error_In in E. Qed.

Lemma child_ok nd x q y : values_ok G -> val_ok G x -> child nd x q y -> val_ok G y.
Proof. intros VG V [_ [Pt|[_ ->]]]; [|exact V]. now apply (part_ok x). Qed.

Definition anything (s : option rguard) : Prop := True.
Definition unguarded (s : option rguard) : Prop := s = None.

(* nothing that belongs to the type is rejected *)
Theorem accepted P : types_ok T -> values_ok G -> positive T -> consistent W T G P ->
  forall n fn p x, val_ok G x -> P p x -> forall s r s', rinst n fn p x s = Some (r, s') -> r = true.
Proof.
  intros TG VG Pos C n. assert (K : forall fn p x, val_ok G x -> sat false anything (rinst n fn p x) (P p x)).
  { induction n as [|n IH]; intros fn p x V; [apply sat_fail|]. cbn [RecTypes.rinst]. destruct (nth_error T p) as [nd|] eqn:E; [|apply sat_fail].
    assert (S : sat false anything (r_step (rinst n) nd x) (P p x)).
    { apply (sat_weak _ _ _ (holds W G P nd x)); [now apply C|discriminate|]. apply step_sat; auto.
      - now apply (node_ok p).
      - intros b q y Ch. apply IH. now apply (child_ok nd x q).
      - discriminate.
      - intros _. exact (Pos p nd E). }
    assert (S' : forall g r s', r_step (rinst n) nd x g = Some (r, s') -> ok false r (P p x)) by (intros g r s' M; now destruct (S g r s' I M)).
    destruct (deep_node nd); [destruct fn|].
    - intros s r s' _ M. split; [|exact I]. unfold r_enter in M. destruct (deep_gval G x); [|eauto]. destruct s as [g|].
      + destruct (r_append g p x) as [g' c]. destruct (r_hit c).
        * injection M as <- <-. split; [reflexivity|discriminate].
        * apply (sat_with false anything _ _ _ (S' (Some c)) (Some g') r s' I M).
      + apply (sat_with false anything _ _ _ (S' _) None r s' I M).
    - apply sat_with. intros r s' M. now destruct (IH true p x V None r s' I M).
    - apply sat_with. apply S'. }
  intros fn p x V Px s r s' M. destruct (K fn p x V s r s' I M) as [[A _] _]. auto.
Qed.

Lemma meaning_any D P q y : meaning W T G D P -> D y -> node_any T q = true -> P q y.
Proof.
  intros M Dy A. unfold node_any in A. destruct (nth_error T q) as [nd|] eqn:E; [|discriminate]. destruct nd as [t| | | | | | | | |]; try discriminate A.
  destruct t; try discriminate A. apply (M q _ y Dy E). cbn. destruct y; [exact I|now left].
Qed.

(* values that do not contain themselves *)
Inductive inside : gval -> gval -> Prop :=
| inside_part x y : part x y -> inside x y
| inside_more x y z : inside x y -> part y z -> inside x z.

Lemma finite_part x y : finite G x -> part x y -> finite G y.
Proof. intros [x' H]. apply H. Qed.
Lemma inside_first x y : inside x y -> exists z, part x z /\ (z = y \/ inside z y).
Proof.
  induction 1 as [x y H|x y z H IH H2]; [eauto|]. destruct IH as (w & A & B). exists w. split; [exact A|]. right.
  destruct B as [->|B]; [now constructor|now apply (inside_more _ y)].
Qed.
Lemma inside_join x y : inside x y -> forall z, inside y z -> inside x z.
Proof. intros H z H2. induction H2 as [y z H2|y w z H2 IH H3]; [now apply (inside_more _ y)|]. apply (inside_more _ w); auto. Qed.
Lemma finite_inside x : finite G x -> ~ inside x x.
Proof.
  induction 1 as [x H IH]. intros C. destruct (inside_first x x C) as (z & A & B). apply (IH z A).
  destruct B as [->|B]; [now apply inside_part|]. apply (inside_more _ x); [exact B|exact A].
Qed.

Lemma same_val_eq a b : same_val a b = true <-> a = b.
Proof. unfold same_val. destruct (gval_eq_dec a b); split; congruence. Qed.

(* the values of the guard are l, and none was met twice *)
Definition fresh_b (l : option (list gval)) (s : option rguard) : Prop :=
  match s, l with
  | None, None => True
  | Some g, Some l => b_seen g = l /\ in_b g = false
  | _, _ => False
  end.
Definition outside (l : option (list gval)) (x : gval) : Prop := match l with None => True | Some l => Forall (fun z => finite G z /\ inside z x) l end.

Theorem exact_finite P : types_ok T -> values_ok G -> flat_alternatives T -> meaning W T G (fun x => finite G x) P ->
  forall n fn p x l, val_ok G x -> finite G x -> outside l x -> sat true (fresh_b l) (rinst n fn p x) (P p x).
Proof.
  intros TG VG Fl M. induction n as [|n IH]; intros fn p x l V F Out; [apply sat_fail|]. cbn [RecTypes.rinst].
  destruct (nth_error T p) as [nd|] eqn:E; [|apply sat_fail].
  assert (S : forall l', (forall y, part x y -> outside l' y) -> (deep_node nd = false -> l' = None) -> sat true (fresh_b l') (r_step (rinst n) nd x) (P p x)).
  { intros l' Hl HN. apply (sat_iff _ _ _ (holds W G P nd x)); [symmetry; now apply M|]. apply step_sat; auto.
    - now apply (node_ok p).
    - intros b q y Ch. destruct Ch as [Hq [Pt|[Sv ->]]].
      + apply IH; auto; [now apply (part_ok x)|now apply (finite_part x)].
      + destruct (deep_node nd) eqn:Dn.
        * (* an alternative: it gets no guard *)
          destruct n as [|n']; [apply sat_fail|]. pose proof (Fl p nd q E Sv) as Fq.
          assert (Fq' : match nth_error T q with Some nq => deep_node nq = false | None => True end).
          { destruct nd; try discriminate Dn; try (exfalso; exact Sv); destruct (nth_error T q) as [[]|]; auto; destruct Fq. }
          assert (N : forall s r s', rinst (Datatypes.S n') b q x s = Some (r, s') -> s' = s /\ exists s2, rinst (Datatypes.S n') b q x None = Some (r, s2)).
          { cbn [RecTypes.rinst]. destruct (nth_error T q) as [nq|]; [|discriminate]. rewrite Fq'. intros s r s' Ms. unfold with_rguard in Ms |- *.
            destruct (r_step (rinst n') nq x None) as [[r0 s0]|]; [|discriminate]. injection Ms as <- <-. eauto. }
          intros s r s' Js Ms. destruct (N s r s' Ms) as (-> & s2 & Ms'). split; [|exact Js].
          destruct (IH b q x None V F I None r s2 I Ms') as [O1 _]. exact O1.
        * specialize (HN eq_refl). subst l'. now apply IH.
    - intros _ q y Hq Pt A. apply (meaning_any (fun x => finite G x)); auto. now apply (finite_part x).
    - discriminate. }
  destruct (deep_node nd) eqn:Dn; [destruct fn|].
  - intros s r s' Js Ms. unfold r_enter in Ms. destruct (deep_gval G x) eqn:Dg.
    + destruct s as [g|].
      * destruct l as [l|]; [|destruct Js]. destruct Js as [J1 J2]. unfold r_append in Ms. rewrite J1, J2 in Ms. cbn [orb] in Ms.
        assert (NS : existsb (same_val x) l = false).
        { apply not_true_iff_false. intros H. apply existsb_exists in H as (z & Hz & Sz). apply same_val_eq in Sz as <-. cbn in Out. rewrite Forall_forall in Out.
          destruct (Out _ Hz) as [H1 H2]. now apply (finite_inside x). }
        rewrite NS in Ms. unfold r_hit in Ms. cbn [in_a in_b] in Ms. rewrite andb_false_r in Ms. revert Ms. match goal with |- with_rguard (Some ?c) _ _ = _ -> _ => set (cc := c) end. intros Ms.
        unfold with_rguard in Ms. destruct (r_step (rinst n) nd x (Some cc)) as [[r0 s0]|] eqn:Ms'; [|discriminate]. injection Ms as <- <-.
        split; [|cbn; auto]. refine (proj1 (S (Some (l ++ [x])) _ _ (Some cc) r0 s0 (conj eq_refl eq_refl) Ms')).
        -- intros y Pt. cbn in Out |- *. apply Forall_app. split.
           ++ eapply Forall_impl; [|exact Out]. intros z [H1 H2]. split; [exact H1|]. now apply (inside_more _ x).
           ++ constructor; [|constructor]. split; [exact F|now apply inside_part].
        -- discriminate.
      * destruct l as [l|]; [destruct Js|]. unfold with_rguard in Ms. revert Ms. match goal with |- match r_step _ _ _ (Some ?c) with _ => _ end = _ -> _ => set (cc := c) end. intros Ms.
        destruct (r_step (rinst n) nd x (Some cc)) as [[r0 s0]|] eqn:Ms'; [|discriminate]. injection Ms as <- <-.
        split; [|exact I]. refine (proj1 (S (Some [x]) _ _ (Some cc) r0 s0 (conj eq_refl eq_refl) Ms')).
        -- intros y Pt. constructor; [|constructor]. split; [exact F|now apply inside_part].
        -- discriminate.
    + refine (S l _ _ s r s' Js Ms); [|discriminate]. intros y Pt. exfalso. unfold deep_gval in Dg.
      destruct Pt as [x l0 y E0|x l0 k y E0|x l0 k y E0|x y E0]; [apply view_arr in E0|apply view_map in E0|apply view_map in E0|apply view_sens in E0]; rewrite E0 in Dg; discriminate.
  - apply sat_with. intros r s' Ms. now destruct (IH true p x None V F I None r s' I Ms).
  - apply sat_with. intros r s' Ms. exact (proj1 (S None (fun _ _ => I) (fun _ => eq_refl) None r s' I Ms)).
Qed.

(* the types of the guard are l, and none was met twice *)
Definition fresh_a (l : option (list nat)) (s : option rguard) : Prop :=
  match s, l with
  | None, None => True
  | Some g, Some l => a_seen g = l /\ in_a g = false
  | _, _ => False
  end.
Definition above (rank : nat -> nat) (l : option (list nat)) (p : nat) : Prop := match l with None => True | Some l => Forall (fun q => (rank p < rank q)%nat) l end.

Theorem exact_plain P rank : types_ok T -> values_ok G ->
  (forall p nd q, nth_error T p = Some nd -> In q (refers nd) -> (rank q < rank p)%nat) -> meaning W T G (fun _ => True) P ->
  forall n fn p x l, val_ok G x -> above rank l p -> sat true (fresh_a l) (rinst n fn p x) (P p x).
Proof.
  intros TG VG Rk M. induction n as [|n IH]; intros fn p x l V Ab; [apply sat_fail|]. cbn [RecTypes.rinst].
  destruct (nth_error T p) as [nd|] eqn:E; [|apply sat_fail].
  assert (S : forall l', (forall q, In q (refers nd) -> above rank l' q) -> sat true (fresh_a l') (r_step (rinst n) nd x) (P p x)).
  { intros l' Hl. apply (sat_iff _ _ _ (holds W G P nd x)); [symmetry; now apply M|]. apply step_sat; auto.
    - now apply (node_ok p).
    - intros b q y Ch. apply IH; [now apply (child_ok nd x q)|]. apply Hl. apply Ch.
    - intros _ q y _ _ A. now apply (meaning_any (fun _ => True)).
    - discriminate. }
  destruct (deep_node nd) eqn:Dn; [destruct fn|].
  - intros s r s' Js Ms. unfold r_enter in Ms. destruct (deep_gval G x) eqn:Dg.
    + destruct s as [g|].
      * destruct l as [l|]; [|destruct Js]. destruct Js as [J1 J2]. unfold r_append in Ms. rewrite J1, J2 in Ms. cbn [orb] in Ms.
        assert (NS : existsb (Nat.eqb p) l = false).
        { apply not_true_iff_false. intros H. apply existsb_exists in H as (z & Hz & Sz). apply Nat.eqb_eq in Sz as <-. cbn in Ab. rewrite Forall_forall in Ab.
          specialize (Ab _ Hz). lia. }
        rewrite NS in Ms. unfold r_hit in Ms. cbn [in_a in_b andb] in Ms. revert Ms. match goal with |- with_rguard (Some ?c) _ _ = _ -> _ => set (cc := c) end. intros Ms.
        unfold with_rguard in Ms. destruct (r_step (rinst n) nd x (Some cc)) as [[r0 s0]|] eqn:Ms'; [|discriminate]. injection Ms as <- <-.
        split; [|cbn; auto]. refine (proj1 (S (Some (l ++ [p])) _ (Some cc) r0 s0 (conj eq_refl eq_refl) Ms')).
        intros q Hq. cbn in Ab |- *. apply Forall_app. specialize (Rk p nd q E Hq). split.
        -- eapply Forall_impl; [|exact Ab]. intros z H. cbn in H. lia.
        -- constructor; [exact Rk|constructor].
      * destruct l as [l|]; [destruct Js|]. unfold with_rguard in Ms. revert Ms. match goal with |- match r_step _ _ _ (Some ?c) with _ => _ end = _ -> _ => set (cc := c) end. intros Ms.
        destruct (r_step (rinst n) nd x (Some cc)) as [[r0 s0]|] eqn:Ms'; [|discriminate]. injection Ms as <- <-.
        split; [|exact I]. refine (proj1 (S (Some [p]) _ (Some cc) r0 s0 (conj eq_refl eq_refl) Ms')).
        intros q Hq. specialize (Rk p nd q E Hq). constructor; [exact Rk|constructor].
    + refine (S l _ s r s' Js Ms). intros q Hq. specialize (Rk p nd q E Hq). destruct l as [l|]; [|exact I]. cbn in Ab |- *. eapply Forall_impl; [|exact Ab]. intros z H. cbn in H. lia.
  - apply sat_with. intros r s' Ms. now destruct (IH true p x None V I None r s' I Ms).
  - apply sat_with. intros r s' Ms. exact (proj1 (S None (fun _ _ => I) None r s' I Ms)).
Qed.
End Graphs.
