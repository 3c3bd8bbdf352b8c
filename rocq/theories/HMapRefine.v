(* Refinement: every sequence of operations on a world of pointer-level maps gives the
   outputs of the dictionary specification. *)
From Coq Require Import ZArith List Bool Lia.
From Verif Require Import Int64 HMap HMapSpec HMapBase HMapInv.
Import ListNotations.
Open Scope Z_scope.

Lemma map_upd {A B} (f : A -> B) l i x : map f (upd l i x) = upd (map f l) i (f x).
Proof. revert i. induction l as [|y r IH]; intros [|i]; cbn; congruence. Qed.

Section Refine.
Variables (K V : Type).
Variable keq : K -> K -> bool.
Variable khash : K -> Z.
Variable veq : V -> V -> bool.
Variable vnil : V -> bool.
Variables vfreeze vthaw : V -> V.
Hypothesis keq_refl : forall k, keq k k = true.
Hypothesis keq_sym : forall a b, keq a b = true -> keq b a = true.
Hypothesis keq_trans : forall a b c, keq a b = true -> keq b c = true -> keq a c = true.
Hypothesis keq_hash : forall a b, keq a b = true -> khash a = khash b.

Notation node := (node K V).
Notation repr := (repr K V keq khash).
Notation effect := (effect K V).
Notation step := (step K V keq khash veq vnil vfreeze vthaw).
Notation step_spec := (step_spec K V keq veq vfreeze vthaw).
Notation run := (run K V keq khash veq vnil vfreeze vthaw).
Notation run_spec := (run_spec K V keq veq vfreeze vthaw).
Notation op_ok := (op_ok K V keq vnil).
Notation distinct := (distinct K V keq).
Notation dget := (dget K V keq).
Notation dput := (dput K V keq).
Notation dputall := (dputall K V keq).
Notation dremoveall := (dremoveall K V keq).

Record cell := Cell { cg : hmap; ca : amap K V; cids : list nat }.

Record cell_ok (s : list node) (c : cell) : Prop := {
  k_repr : repr s (cg c) (cids c) (ad (ca c));
  k_frozen : hfrozen (cg c) = af (ca c);
  k_table : hfrozen (cg c) = false -> htbl (cg c) <> [] }.

Record inv (s : list node) (cs : list cell) : Prop := {
  i_ok : forall m c, nth_error cs m = Some c -> cell_ok s c;
  i_dis : forall m m' c c' i, m <> m' -> nth_error cs m = Some c -> nth_error cs m' = Some c' ->
            In i (cids c) -> ~ In i (cids c') }.

Lemma cell_lt s c i : cell_ok s c -> In i (cids c) -> (i < length s)%nat.
Proof. intros H Hi. eapply links_lt; [|exact Hi]. apply (k_repr _ _ H). Qed.

Lemma cell_frame s s' c : agree K V s s' (cids c) -> cell_ok s c -> cell_ok s' c.
Proof. intros Ha H. constructor; try apply H. eapply repr_frame; [exact Ha|apply H]. Qed.

Lemma inv_keep s cs s' ids' : inv s cs -> effect s [] s' ids' -> inv s' cs.
Proof.
  intros H E. constructor; [|apply H]. intros m c Hc. pose proof (i_ok _ _ H m c Hc) as Hk.
  eapply cell_frame; [|exact Hk]. intros i Hi. apply (e_same _ _ _ _ _ _ E); [eapply cell_lt; eauto|intros []].
Qed.

Lemma inv_add s cs s' c : inv s cs -> effect s [] s' (cids c) -> cell_ok s' c -> inv s' (cs ++ [c]).
Proof.
  intros H E Hc. pose proof (inv_keep _ _ _ _ H E) as H'. constructor.
  - intros m x Hx. rewrite nth_error_snoc in Hx. destruct (Nat.eqb m (length cs)).
    + inversion Hx; subst. exact Hc.
    + eapply i_ok; eauto.
  - intros m m' x x' i Hne Hx Hx' Hi Hi'. rewrite nth_error_snoc in Hx, Hx'.
    destruct (Nat.eqb_spec m (length cs)), (Nat.eqb_spec m' (length cs)); subst; try congruence.
    + inversion Hx; subst. destruct (e_new _ _ _ _ _ _ E i Hi) as [[]|Hge].
      pose proof (cell_lt _ _ _ (i_ok _ _ H _ _ Hx') Hi'). lia.
    + inversion Hx'; subst. destruct (e_new _ _ _ _ _ _ E i Hi') as [[]|Hge].
      pose proof (cell_lt _ _ _ (i_ok _ _ H _ _ Hx) Hi). lia.
    + exact (i_dis _ _ H m m' x x' i Hne Hx Hx' Hi Hi').
Qed.

Lemma inv_set s cs s' m c c' :
  inv s cs -> nth_error cs m = Some c -> effect s (cids c) s' (cids c') -> cell_ok s' c' ->
  inv s' (upd cs m c').
Proof.
  intros H Hm E Hc'. pose proof (nth_error_Some_lt _ _ _ Hm) as Hlt. constructor.
  - intros n x Hx. destruct (Nat.eq_dec m n) as [<-|Hne].
    + rewrite nth_error_upd_eq in Hx by exact Hlt. inversion Hx; subst. exact Hc'.
    + rewrite nth_error_upd_neq in Hx by exact Hne. pose proof (i_ok _ _ H _ _ Hx) as Hk.
      eapply cell_frame; [|exact Hk]. intros i Hi. apply (e_same _ _ _ _ _ _ E).
      * eapply cell_lt; eauto.
      * intros Hi'. eapply (i_dis _ _ H m n); eauto.
  - assert (X : forall n x i, n <> m -> nth_error cs n = Some x -> In i (cids x) -> ~ In i (cids c')).
    { intros n x i Hne Hx Hi Hi'. destruct (e_new _ _ _ _ _ _ E i Hi') as [Hi2|Hge].
      - eapply (i_dis _ _ H n m); eauto.
      - pose proof (cell_lt _ _ _ (i_ok _ _ H _ _ Hx) Hi). lia. }
    intros n n' x x' i Hne Hx Hx' Hi Hi'.
    destruct (Nat.eq_dec m n) as [<-|Hn]; [|destruct (Nat.eq_dec m n') as [<-|Hn']].
    + rewrite nth_error_upd_eq in Hx by exact Hlt. rewrite nth_error_upd_neq in Hx' by exact Hne.
      inversion Hx; subst. eapply X; [|exact Hx'|exact Hi'|exact Hi]. auto.
    + rewrite nth_error_upd_eq in Hx' by exact Hlt. rewrite nth_error_upd_neq in Hx by exact Hn.
      inversion Hx'; subst. eapply X; [|exact Hx|exact Hi|exact Hi']. auto.
    + rewrite nth_error_upd_neq in Hx by exact Hn. rewrite nth_error_upd_neq in Hx' by exact Hn'.
      eapply (i_dis _ _ H n n'); eauto.
Qed.

Definition related (w : world K V) (aw : aworld K V) (cs : list cell) : Prop :=
  maps w = map cg cs /\ aw = map ca cs /\ inv (nodes w) cs.

Definition simulates (r : world K V * out K V) (r' : aworld K V * out K V) : Prop :=
  snd r = snd r' /\ exists cs, related (fst r) (fst r') cs.

Lemma sim_keep w aw cs x : related w aw cs -> simulates (w, x) (aw, x).
Proof. intros H. split; [reflexivity|]. exists cs. exact H. Qed.

Lemma sim_add w aw cs s' g' ids' d fr :
  related w aw cs -> effect (nodes w) [] s' ids' -> repr s' g' ids' d -> hfrozen g' = fr ->
  (fr = false -> htbl g' <> []) ->
  simulates (add_map w s' g') (anew K V aw d fr).
Proof.
  intros (Hm & Ha & Hi) E R F T. unfold add_map, anew. split.
  - cbn. rewrite Hm, Ha, !map_length. reflexivity.
  - exists (cs ++ [Cell g' (AMap d fr) ids']). split; [|split].
    + cbn. rewrite Hm, map_app. reflexivity.
    + cbn. rewrite Ha, map_app. reflexivity.
    + cbn. eapply inv_add; [exact Hi|exact E|]. constructor; cbn; auto. intros Hf. apply T. congruence.
Qed.

Lemma sim_set w aw cs m c s' g' ids' d fr x :
  related w aw cs -> nth_error cs m = Some c -> effect (nodes w) (cids c) s' ids' -> repr s' g' ids' d ->
  hfrozen g' = fr -> (fr = false -> htbl g' <> []) ->
  simulates (set_map w m s' g', x) (aset K V aw m d fr, x).
Proof.
  intros (Hm & Ha & Hi) Hc E R F T. unfold set_map, aset. split; [reflexivity|].
  exists (upd cs m (Cell g' (AMap d fr) ids')). split; [|split].
  - cbn. rewrite Hm, map_upd. reflexivity.
  - cbn. rewrite Ha, map_upd. reflexivity.
  - cbn. eapply inv_set; eauto. constructor; cbn; auto. intros Hf. apply T. congruence.
Qed.

Lemma with_map_sim w aw cs m f f' :
  related w aw cs ->
  (forall c, nth_error cs m = Some c -> cell_ok (nodes w) c -> simulates (f (cg c)) (f' (ca c))) ->
  simulates (with_map w m f) (awith K V aw m f').
Proof.
  intros HR Hf. pose proof HR as (Hm & Ha & Hi). unfold with_map, awith. rewrite Hm, Ha, !nth_error_map.
  destruct (nth_error cs m) as [c|] eqn:E; cbn.
  - apply Hf; [reflexivity|]. eapply i_ok; eauto.
  - rewrite <- Ha. eapply sim_keep. exact HR.
Qed.

Lemma with_frozen_repr s g ids d fr : repr s g ids d -> repr s (with_frozen g fr) ids d.
Proof.
  intros H. constructor; try apply H. eapply links_same; [| | |apply H]; reflexivity.
Qed.

Lemma dget_existsb d k : (match dget d k with Some _ => true | None => false end) =
  existsb (fun kv => keq k (fst kv)) d.
Proof. induction d as [|[a b] r IH]; cbn; [reflexivity|]. destruct (keq k a); auto. Qed.

Lemma holds_nil s ids (d : list (K * V)) : holds K V s ids d -> d = [] -> ids = [].
Proof. intros H ->. inversion H. reflexivity. Qed.

Lemma clone_ok s g ids d fr capInc :
  repr s g ids d ->
  exists s' g' ids', clone K V khash s g (hlen g) fr capInc = Some (s', g') /\
    repr s' g' ids' d /\ effect s [] s' ids' /\ hfrozen g' = fr /\ htbl g' <> [].
Proof.
  intros H. unfold clone.
  destruct (hresize_ok K V khash s g (blank (hlen g) fr) capInc ids d) as (s1 & g1 & ids1 & A & B & C & D & E & F & G);
    [apply H|apply H|right; reflexivity|].
  exists s1, g1, ids1. split; [exact A|]. split; [|auto].
  constructor; auto; [rewrite E; apply H|apply H].
Qed.

Lemma len_zero s g ids d : repr s g ids d -> (hlen g =? 0) = match d with [] => true | _ => false end.
Proof. intros H. rewrite (r_len _ _ _ _ _ _ _ _ H). destruct d; reflexivity. Qed.

Lemma distinct_map d (f : K * V -> V) : distinct d -> distinct (map (fun kv => (fst kv, f kv)) d).
Proof.
  induction d as [|[k v] r IH]; cbn; [auto|]. intros [H1 H2]. split; [|auto].
  intros k' v' Hin. apply in_map_iff in Hin. destruct Hin as ([k2 v2] & E & Hin). cbn in E.
  inversion E; subst. eauto.
Qed.

Lemma clone_map_ok s g ids d fr (f : K -> V -> V) :
  repr s g ids d ->
  exists s1 g1 s2 ids2, clone K V khash s g (hlen g) fr 0 = Some (s1, g1) /\
    mapvals (fuel_of s1) s1 (hfirst g1) f = Some s2 /\
    repr s2 g1 ids2 (map (fun kv => (fst kv, f (fst kv) (snd kv))) d) /\
    effect s [] s2 ids2 /\ hfrozen g1 = fr /\ htbl g1 <> [].
Proof.
  intros H. destruct (clone_ok s g ids d fr 0 H) as (s1 & g1 & ids1 & A & B & C & D & E).
  destruct (mapvals_ok K V khash f ids1 (fuel_of s1) [] s1 g1 [] d) as (s2 & M1 & M2 & M3 & M4).
  - apply B.
  - constructor.
  - apply B.
  - eapply ids_fuel. apply (r_links _ _ _ _ _ _ _ _ B).
  - exists s1, g1, s2, ids1. split; [exact A|].
    rewrite (l_first _ _ _ _ _ _ (r_links _ _ _ _ _ _ _ _ B)). split; [exact M1|]. split.
    + constructor; [exact M2|exact M3| |].
      * rewrite (r_len _ _ _ _ _ _ _ _ B), map_length. reflexivity.
      * apply (distinct_map d (fun kv => f (fst kv) (snd kv))). apply B.
    + split; [eapply effect_trans; eauto|auto].
Qed.

Theorem step_refines w aw cs o :
  related w aw cs -> op_ok o -> simulates (step w o) (step_spec aw o).
Proof.
  intros HR Hok. destruct o; cbn [HMap.step HMapSpec.step_spec].
  - (* New *)
    eapply sim_add; [exact HR| | |reflexivity|].
    + apply effect_refl.
    + unfold new_with_capacity. apply repr_intro; cbn; auto; [apply links_empty|constructor].
    + intros _. apply pow2_nonempty, pow2_repeat.
  - (* Empty *)
    eapply sim_add; [exact HR|apply effect_refl| |reflexivity|discriminate].
    apply repr_intro; cbn; auto; [|constructor]. constructor; cbn; auto. constructor.
  - (* ToMap *)
    destruct (htomap_ok K V keq khash keq_sym (nodes w) kvs fr Hok) as (s' & g' & ids' & -> & R & E & F & T).
    eapply sim_add; eauto.
  - (* Get *)
    eapply with_map_sim; [exact HR|]. intros c _ Hc.
    rewrite (hget_ok K V keq khash keq_sym keq_trans keq_hash _ _ _ _ k (k_repr _ _ Hc)). eapply sim_keep; eauto.
  - (* ContainsKey *)
    eapply with_map_sim; [exact HR|]. intros c _ Hc.
    rewrite (hget_ok K V keq khash keq_sym keq_trans keq_hash _ _ _ _ k (k_repr _ _ Hc)).
    rewrite dget_existsb. eapply sim_keep; eauto.
  - (* Len *)
    eapply with_map_sim; [exact HR|]. intros c _ Hc. rewrite (r_len _ _ _ _ _ _ _ _ (k_repr _ _ Hc)).
    eapply sim_keep; eauto.
  - (* Entries *)
    eapply with_map_sim; [exact HR|]. intros c _ Hc.
    rewrite (hentries_ok K V keq khash _ _ _ _ (k_repr _ _ Hc)). eapply sim_keep; eauto.
  - (* Put *)
    eapply with_map_sim; [exact HR|]. intros c Hm Hc. rewrite (k_frozen _ _ Hc).
    destruct (af (ca c)) eqn:Ef; [eapply sim_keep; eauto|].
    destruct (hput_ok K V keq khash keq_sym keq_trans keq_hash _ _ _ _ k v (k_repr _ _ Hc))
      as (s' & g' & ids' & -> & R & E & F & T).
    eapply sim_set; eauto. rewrite F, (k_frozen _ _ Hc). exact Ef.
  - (* PutAll *)
    eapply with_map_sim; [exact HR|]. intros c Hm Hc. eapply with_map_sim; [exact HR|]. intros c2 Hm2 Hc2.
    rewrite (len_zero _ _ _ _ (k_repr _ _ Hc2)).
    destruct (ad (ca c2)) as [|kv0 e0] eqn:Ee; [eapply sim_keep; eauto|]. rewrite <- Ee.
    rewrite (k_frozen _ _ Hc). destruct (af (ca c)) eqn:Ef; [eapply sim_keep; eauto|].
    destruct (Nat.eqb_spec m a) as [<-|Hne].
    + rewrite Hm in Hm2. inversion Hm2; subst c2.
      destruct (hputall_self K V keq khash keq_refl keq_sym keq_trans keq_hash _ _ _ _ (k_repr _ _ Hc))
        as (s' & g' & ids' & A & R & E & F & T); [congruence|].
      change (fun g1 : hmap => hfirst g1) with hfirst. rewrite A.
      rewrite (dputall_sub K V keq keq_refl keq_sym keq_trans) by (auto; apply (k_repr _ _ Hc)).
      eapply sim_set; eauto. rewrite F, (k_frozen _ _ Hc). exact Ef.
    + destruct (hputall_ok K V keq khash keq_sym keq_trans keq_hash _ _ _ _ _ _ _ (k_repr _ _ Hc) (k_repr _ _ Hc2))
        as (s' & g' & ids' & A & R & E & F & T).
      * intros i Hi Hi2. destruct HR as (_ & _ & Hinv). eapply (i_dis _ _ Hinv a m); eauto.
      * congruence.
      * rewrite A. eapply sim_set; eauto. rewrite F, (k_frozen _ _ Hc). exact Ef.
  - (* Remove *)
    eapply with_map_sim; [exact HR|]. intros c Hm Hc. rewrite (k_frozen _ _ Hc).
    destruct (af (ca c)) eqn:Ef; [eapply sim_keep; eauto|].
    destruct (hremove_ok K V keq khash keq_sym keq_trans keq_hash _ _ _ _ k (k_repr _ _ Hc))
      as (s' & g' & ids' & -> & R & E & F & T).
    { apply (k_table _ _ Hc). rewrite (k_frozen _ _ Hc). exact Ef. }
    eapply sim_set; eauto. rewrite F, (k_frozen _ _ Hc). exact Ef.
  - (* RemoveAll *)
    eapply with_map_sim; [exact HR|]. intros c Hm Hc. rewrite (k_frozen _ _ Hc).
    destruct (af (ca c)) eqn:Ef; [eapply sim_keep; eauto|].
    destruct (hremoveall_ok K V keq khash keq_sym keq_trans keq_hash _ _ _ _ ks (k_repr _ _ Hc))
      as (s' & g' & ids' & -> & R & E & F & T).
    { apply (k_table _ _ Hc). rewrite (k_frozen _ _ Hc). exact Ef. }
    eapply sim_set; eauto. rewrite F, (k_frozen _ _ Hc). exact Ef.
  - (* With *)
    eapply with_map_sim; [exact HR|]. intros c Hm Hc. unfold step_with. cbn in Hok.
    pose proof (k_repr _ _ Hc) as R0.
    destruct (htbl (cg c)) as [|t0 tr] eqn:Et.
    + destruct (repr_ids_nil _ _ _ _ _ _ _ _ R0 Et) as [Ei Ed].
      destruct (hput_ok K V keq khash keq_sym keq_trans keq_hash (nodes w)
         (HMap (repeat None (Z.to_nat (tableSizeFor initialCapacity))) (hlen (cg c)) None None false) [] [] k v)
        as (s' & g' & ids' & -> & R & E & F & T).
      { apply repr_intro; [apply links_empty|constructor|exact I|]. cbn [hlen].
        rewrite (r_len _ _ _ _ _ _ _ _ R0), Ed. reflexivity. }
      rewrite Ed. cbn [HMapSpec.dget HMapSpec.dput].
      eapply sim_add; [exact HR|exact E| | |].
      * apply with_frozen_repr. exact R.
      * apply (k_frozen _ _ Hc).
      * intros _. exact T.
    + rewrite (hget_ok K V keq khash keq_sym keq_trans keq_hash _ _ _ _ k R0).
      assert (Hs : (match dget (ad (ca c)) k with Some x => veq v x | None => vnil v end) =
                   (match dget (ad (ca c)) k with Some x => veq v x | None => false end)).
      { destruct (dget (ad (ca c)) k); [reflexivity|exact Hok]. }
      rewrite Hs. destruct (match dget (ad (ca c)) k with Some x => veq v x | None => false end);
        [eapply sim_keep; eauto|].
      destruct (clone_ok _ _ _ _ false 1 R0) as (s1 & g1 & ids1 & -> & R1 & E1 & F1 & T1).
      destruct (hput_ok K V keq khash keq_sym keq_trans keq_hash s1 g1 ids1 _ k v R1)
        as (s' & g' & ids' & -> & R & E & F & T).
      eapply sim_add; [exact HR|eapply effect_trans; eauto| | |].
      * apply with_frozen_repr. exact R.
      * apply (k_frozen _ _ Hc).
      * intros _. exact T.
  - (* Without *)
    eapply with_map_sim; [exact HR|]. intros c Hm Hc. unfold step_without.
    pose proof (k_repr _ _ Hc) as R0.
    rewrite (hget_ok K V keq khash keq_sym keq_trans keq_hash _ _ _ _ k R0).
    destruct (dget (ad (ca c)) k); [|eapply sim_keep; eauto].
    destruct (clone_ok _ _ _ _ false 0 R0) as (s1 & g1 & ids1 & -> & R1 & E1 & F1 & T1).
    destruct (hremove_ok K V keq khash keq_sym keq_trans keq_hash s1 g1 ids1 _ k R1 T1)
      as (s' & g' & ids' & -> & R & E & F & T).
    eapply sim_add; [exact HR|eapply effect_trans; eauto| | |].
    + apply with_frozen_repr. exact R.
    + apply (k_frozen _ _ Hc).
    + intros _. exact T.
  - (* WithoutAll *)
    eapply with_map_sim; [exact HR|]. intros c Hm Hc. unfold step_withoutall.
    pose proof (k_repr _ _ Hc) as R0. rewrite (len_zero _ _ _ _ R0).
    destruct (_ || _) eqn:E0.
    + assert (Hd : dremoveall (ad (ca c)) ks = ad (ca c)).
      { apply orb_true_iff in E0. destruct E0 as [E0|E0].
        - destruct (ad (ca c)); [|discriminate]. apply dremoveall_nil.
        - destruct ks; [reflexivity|discriminate]. }
      rewrite Hd, Nat.eqb_refl. eapply sim_keep; eauto.
    + destruct (clone_ok _ _ _ _ false 0 R0) as (s1 & g1 & ids1 & -> & R1 & E1 & F1 & T1).
      destruct (hremoveall_ok K V keq khash keq_sym keq_trans keq_hash s1 g1 ids1 _ ks R1 T1)
        as (s' & g' & ids' & -> & R & E & F & T).
      assert (EE : effect (nodes w) [] s' ids') by (eapply effect_trans; eauto).
      rewrite (r_len _ _ _ _ _ _ _ _ R), (r_len _ _ _ _ _ _ _ _ R0).
      destruct (Nat.eqb_spec (length (dremoveall (ad (ca c)) ks)) (length (ad (ca c)))) as [El|El].
      * rewrite El, Z.eqb_refl. split; [reflexivity|]. exists cs. destruct HR as (A & B & C).
        split; [exact A|]. split; [exact B|]. cbn. eapply inv_keep; eauto.
      * destruct (Z.eqb_spec (Z.of_nat (length (ad (ca c)))) (Z.of_nat (length (dremoveall (ad (ca c)) ks)))); [lia|].
        eapply sim_add; [exact HR|exact EE| | |].
        -- apply with_frozen_repr. exact R.
        -- apply (k_frozen _ _ Hc).
        -- intros _. exact T.
  - (* Merge *)
    eapply with_map_sim; [exact HR|]. intros c Hm Hc. eapply with_map_sim; [exact HR|]. intros c2 Hm2 Hc2.
    unfold step_merge. pose proof (k_repr _ _ Hc) as R0. pose proof (k_repr _ _ Hc2) as R2.
    rewrite (len_zero _ _ _ _ R0), (len_zero _ _ _ _ R2).
    destruct (ad (ca c2)) as [|kv0 e0] eqn:Ee; [eapply sim_keep; eauto|]. rewrite <- Ee in *. cbn [orb].
    destruct (Nat.eqb_spec m a) as [<-|Hne]; [eapply sim_keep; eauto|].
    destruct (ad (ca c)) as [|kv1 e1] eqn:Ed; [eapply sim_keep; eauto|]. rewrite <- Ed in *.
    destruct (clone_ok _ _ _ _ false (hlen (cg c) + hlen (cg c2)) R0) as (s1 & g1 & ids1 & -> & R1 & E1 & F1 & T1).
    assert (R2' : repr s1 (cg c2) (cids c2) (ad (ca c2))).
    { eapply repr_frame; [|exact R2]. intros i Hi. apply (e_same _ _ _ _ _ _ E1); [eapply cell_lt; eauto|intros []]. }
    destruct (hputall_ok K V keq khash keq_sym keq_trans keq_hash _ _ _ _ _ _ _ R1 R2')
      as (s' & g' & ids' & -> & R & E & F & T).
    + intros i Hi Hi1. destruct (e_new _ _ _ _ _ _ E1 i Hi1) as [[]|Hge].
      pose proof (cell_lt _ _ _ Hc2 Hi). lia.
    + congruence.
    + eapply sim_add; [exact HR|eapply effect_trans; eauto| | |].
      * apply with_frozen_repr. exact R.
      * apply (k_frozen _ _ Hc).
      * intros _. exact T.
  - (* Copy *)
    eapply with_map_sim; [exact HR|]. intros c Hm Hc. unfold step_copy.
    pose proof (k_repr _ _ Hc) as R0. rewrite (k_frozen _ _ Hc).
    destruct (fr && af (ca c)); [eapply sim_keep; eauto|].
    destruct (clone_map_ok _ _ _ _ fr (fun _ v => if fr then vfreeze v else vthaw v) R0)
      as (s1 & g1 & s2 & ids2 & -> & -> & R & E & F & T).
    eapply sim_add; eauto.
  - (* Map *)
    eapply with_map_sim; [exact HR|]. intros c Hm Hc. unfold step_map.
    pose proof (k_repr _ _ Hc) as R0. 
    destruct (clone_map_ok _ _ _ _ (hfrozen (cg c)) f R0)
      as (s1 & g1 & s2 & ids2 & -> & -> & R & E & F & T).
    eapply sim_add; eauto. rewrite F. apply (k_frozen _ _ Hc).
  - (* Freeze *)
    eapply with_map_sim; [exact HR|]. intros c Hm Hc.
    eapply sim_set; [exact HR|exact Hm|apply effect_refl|apply with_frozen_repr; apply Hc|reflexivity|discriminate].
  - (* Frozen *)
    eapply with_map_sim; [exact HR|]. intros c _ Hc. rewrite (k_frozen _ _ Hc). eapply sim_keep; eauto.
Qed.

Lemma run_refines os : forall w aw cs,
  related w aw cs -> (forall o, In o os -> op_ok o) ->
  simulates (fst (run w os), RUnit) (fst (run_spec aw os), RUnit) /\ snd (run w os) = snd (run_spec aw os).
Proof.
  induction os as [|o r IH]; intros w aw cs HR Hok; cbn.
  - split; [eapply sim_keep; eauto|reflexivity].
  - destruct (step_refines w aw cs o HR (Hok o (or_introl eq_refl))) as (Hx & cs1 & HR1).
    destruct (step w o) as [w1 x1], (step_spec aw o) as [aw1 y1]. cbn in Hx, HR1. subst y1.
    destruct (IH w1 aw1 cs1 HR1 (fun o' H => Hok o' (or_intror H))) as [A B].
    destruct (run w1 r), (run_spec aw1 r). cbn in *. split; [exact A|congruence].
Qed.

Lemma related_init : related init [] [].
Proof.
  split; [reflexivity|]. split; [reflexivity|]. constructor.
  - intros [|m] c H; discriminate.
  - intros [|m] m' c c' i _ H; discriminate.
Qed.

Theorem run_init_refines os :
  (forall o, In o os -> op_ok o) -> snd (run init os) = snd (run_spec [] os).
Proof. intros H. apply (run_refines os init [] [] related_init H). Qed.

End Refine.
