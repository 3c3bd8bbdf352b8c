(* Consequences of the refinement, in the form in which the properties are stated. *)
From Coq Require Import ZArith List Bool Lia.
From Verif Require Import Int64 HMap HMapSpec HMapBase HMapInv HMapRefine.
Import ListNotations.
Open Scope Z_scope.

Section Cor.
Variables (K V : Type).
Variable keq : K -> K -> bool.
Variable khash : K -> Z.
Variable veq : V -> V -> bool.
Variable vnil : V -> bool.
Variables vfreeze vthaw : V -> V.
Hypothesis Law : lawful K keq khash.

Notation step := (step K V keq khash veq vnil vfreeze vthaw).
Notation step_spec := (step_spec K V keq veq vfreeze vthaw).
Notation run := (run K V keq khash veq vnil vfreeze vthaw).
Notation run_spec := (run_spec K V keq veq vfreeze vthaw).
Notation op_ok := (op_ok K V keq vnil).
Notation basic_op := (basic_op K V).
Notation distinct := (distinct K V keq).
Notation dget := (dget K V keq).
Notation dput := (dput K V keq).
Notation dremove := (dremove K V keq).
Notation dputall := (dputall K V keq).
Notation dremoveall := (dremoveall K V keq).
Notation related := (related K V keq khash).
Notation latest := (latest K V keq).
Notation pure_result := (pure_result K V keq veq vfreeze vthaw).

Let kr := law_refl _ _ _ Law.
Let ks := law_sym _ _ _ Law.
Let kt := law_trans _ _ _ Law.
Let kh := law_hash _ _ _ Law.

Lemma basic_ok o : basic_op o -> op_ok o.
Proof. destruct o; cbn; tauto. Qed.

Lemma refines os : (forall o, In o os -> op_ok o) -> snd (run init os) = snd (run_spec [] os).
Proof. apply run_init_refines; assumption. Qed.

Lemma refines_basic os : (forall o, In o os -> basic_op o) -> snd (run init os) = snd (run_spec [] os).
Proof. intros H. apply refines. intros o Ho. apply basic_ok. auto. Qed.

(* every reachable world is related to the specification's world *)
Lemma reach os : (forall o, In o os -> op_ok o) ->
  exists cs, related (fst (run init os)) (fst (run_spec [] os)) cs.
Proof.
  intros H. destruct (run_refines K V keq khash veq vnil vfreeze vthaw kr ks kt kh os _ _ _
    (related_init K V keq khash) H) as ((_ & cs & HR) & _). exists cs. exact HR.
Qed.

Lemma run_app os1 os2 w : run w (os1 ++ os2) =
  (fst (run (fst (run w os1)) os2), snd (run w os1) ++ snd (run (fst (run w os1)) os2)).
Proof.
  revert w. induction os1 as [|o r IH]; intros w; cbn.
  - destruct (run w os2); reflexivity.
  - destruct (step w o) as [w1 x]. rewrite IH. destruct (run w1 r) as [w2 xs]. reflexivity.
Qed.

Lemma run_spec_app os1 os2 w : run_spec w (os1 ++ os2) =
  (fst (run_spec (fst (run_spec w os1)) os2), snd (run_spec w os1) ++ snd (run_spec (fst (run_spec w os1)) os2)).
Proof.
  revert w. induction os1 as [|o r IH]; intros w; cbn.
  - destruct (run_spec w os2); reflexivity.
  - destruct (step_spec w o) as [w1 x]. rewrite IH. destruct (run_spec w1 r) as [w2 xs]. reflexivity.
Qed.

(* ---- Get after a history ---- *)

Lemma dget_cong d a b : keq a b = true -> dget d a = dget d b.
Proof.
  intros H. induction d as [|[k v] r IH]; cbn; [reflexivity|].
  destruct (keq a k) eqn:E1, (keq b k) eqn:E2; auto.
  - rewrite (kt b a k (ks _ _ H) E1) in E2. discriminate.
  - rewrite (kt a b k H E2) in E1. discriminate.
Qed.

Lemma dget_dput d k v k' : dget (dput d k v) k' = if keq k' k then Some v else dget d k'.
Proof.
  induction d as [|[a b] r IH]; cbn.
  - reflexivity.
  - destruct (keq k a) eqn:E; cbn.
    + destruct (keq k' a) eqn:E', (keq k' k) eqn:E2; auto.
      * rewrite (kt k' a k E' (ks _ _ E)) in E2. discriminate.
      * rewrite (kt k' k a E2 E) in E'. discriminate.
    + destruct (keq k' a) eqn:E'; [|exact IH]. destruct (keq k' k) eqn:E2; [|reflexivity].
      rewrite (kt k k' a (ks _ _ E2) E') in E. discriminate.
Qed.

Lemma dget_dremove d k k' : distinct d -> dget (dremove d k) k' = if keq k' k then None else dget d k'.
Proof.
  induction d as [|[a b] r IH]; cbn; [destruct (keq k' k); reflexivity|]. intros [H1 H2].
  destruct (keq k a) eqn:E; cbn.
  - destruct (keq k' k) eqn:E2.
    + apply dget_none. intros x y Hin. destruct (keq k' x) eqn:Ex; [|reflexivity].
      pose proof (H1 x y Hin) as F. assert (keq a x = true); [|congruence].
      apply (kt a k' x); [|exact Ex]. apply ks. apply (kt k' k a); assumption.
    + destruct (keq k' a) eqn:E'; [|reflexivity]. rewrite (kt k' a k E' (ks _ _ E)) in E2. discriminate.
  - destruct (keq k' a) eqn:E'; [|auto]. destruct (keq k' k) eqn:E2; [|reflexivity].
    rewrite (kt k k' a (ks _ _ E2) E') in E. discriminate.
Qed.

Lemma distinct_dput d k v : distinct d -> distinct (dput d k v).
Proof.
  intros H. destruct (dget d k) as [x|] eqn:E.
  - destruct (dput_found K V keq d k x E) as (d1 & k' & d2 & -> & A & B).
    rewrite (dput_split K V keq d1 d2 k k' v x A B). eapply distinct_replace. exact H.
  - rewrite (dput_new K V keq d k v E). apply distinct_snoc; assumption.
Qed.

Lemma distinct_dremove d k : distinct d -> distinct (dremove d k).
Proof.
  intros H. destruct (dget d k) as [x|] eqn:E.
  - destruct (dput_found K V keq d k x E) as (d1 & k' & d2 & -> & A & B).
    rewrite (dremove_split K V keq d1 d2 k k' x A B). eapply distinct_drop. exact H.
  - rewrite (dremove_none K V keq d k E). exact H.
Qed.

Lemma run_spec_history h : forall d,
  distinct d ->
  exists d', fst (run_spec [AMap d false] (map (event_op K V 0) h)) = [AMap d' false] /\ distinct d' /\
    forall k, dget d' k =
      fold_left (fun acc e =>
        match e with
        | EvPut k' v => if keq k k' then Some v else acc
        | EvRemove k' => if keq k k' then None else acc
        end) h (dget d k).
Proof.
  induction h as [|e r IH]; intros d Hd.
  - exists d. auto.
  - cbn [map]. destruct e as [k v|k]; cbn [event_op HMapSpec.run_spec HMapSpec.step_spec].
    + unfold awith, aset. cbn [nth_error af ad upd].
      destruct (IH (dput d k v) (distinct_dput _ _ _ Hd)) as (d' & A & B & C).
      destruct (run_spec [AMap (dput d k v) false] _) as [w2 xs]. cbn in A |- *.
      exists d'. split; [exact A|]. split; [exact B|]. intros k'. rewrite C, dget_dput. reflexivity.
    + unfold awith, aset. cbn [nth_error af ad upd].
      destruct (IH (dremove d k) (distinct_dremove _ _ Hd)) as (d' & A & B & C).
      destruct (run_spec [AMap (dremove d k) false] _) as [w2 xs]. cbn in A |- *.
      exists d'. split; [exact A|]. split; [exact B|]. intros k'. rewrite C, dget_dremove by exact Hd. reflexivity.
Qed.

Lemma get_after_history cap h k :
  last (snd (run init (OpNew cap :: map (event_op K V 0) h ++ [OpGet 0 k]))) RBad = RVal (latest h k).
Proof.
  rewrite refines_basic.
  2: { intros o [<-|Ho]; [exact I|]. apply in_app_iff in Ho. destruct Ho as [Ho|[<-|[]]]; [|exact I].
       apply in_map_iff in Ho. destruct Ho as ([a b|a] & <- & _); exact I. }
  change (OpNew cap :: map (event_op K V 0) h ++ [OpGet 0 k]) with ([OpNew cap] ++ (map (event_op K V 0) h ++ [OpGet 0 k])).
  rewrite run_spec_app, run_spec_app. cbn [HMapSpec.run_spec HMapSpec.step_spec fst snd anew].
  destruct (run_spec_history h [] I) as (d' & A & B & C). change ([] ++ [AMap [] false]) with [AMap (K:=K) (V:=V) [] false].
  rewrite A. cbn [fst snd]. unfold awith. cbn [nth_error ad].
  cbn [snd]. rewrite app_assoc, last_last. rewrite C. reflexivity.
Qed.

(* ---- consistency of reachable maps ---- *)

Lemma read_any w aw cs m c : related w aw cs -> nth_error cs m = Some c ->
  nth_error (maps w) m = Some (cg K V c) /\ cell_ok K V keq khash (nodes w) c.
Proof.
  intros (A & B & C) H. split.
  - rewrite A, nth_error_map, H. reflexivity.
  - eapply i_ok; eauto.
Qed.

(* following prev from the last entry, the way Remove does *)
Fixpoint walk_back (fuel : nat) (s : list (node K V)) (oe : option nat) : option (list (K * V)) :=
  match oe with
  | None => Some []
  | Some i =>
    match fuel with
    | O => None
    | S fuel' =>
      match nth_error s i with
      | None => None
      | Some nd => match walk_back fuel' s (nprev nd) with
                   | None => None
                   | Some r => Some ((nkey nd, nval nd) :: r)
                   end
      end
    end
  end.

Lemma walk_back_ok ids : forall fuel s d,
  seg K V s None ids None -> holds K V s ids d -> (length ids < fuel)%nat ->
  walk_back fuel s (last_or ids None) = Some (rev d).
Proof.
  assert (G : forall ids fuel s d n, seg K V s None ids n -> holds K V s ids d -> (length ids < fuel)%nat ->
     walk_back fuel s (last_or ids None) = Some (rev d)); [|intros; eapply G; eauto].
  clear ids. intros ids. induction ids as [|i r IH] using rev_ind; intros fuel s d n Hs Hh Hf.
  - inversion Hh; subst. destruct fuel; reflexivity.
  - rewrite last_or_snoc. apply seg_app in Hs. cbn in Hs. destruct Hs as (Hs & nd & Hn & Hp & _).
    apply Forall2_app_inv_l in Hh. destruct Hh as (d1 & d2 & H1 & H2 & ->).
    inversion H2 as [|x y l l' (nd' & N1 & N2 & N3) Hb' E1 E2]; subst. inversion Hb'; subst.
    rewrite Hn in N1. inversion N1; subst nd'. rewrite app_length in Hf. cbn in Hf.
    destruct fuel as [|fuel]; [lia|]. cbn [walk_back]. rewrite Hn, Hp.
    rewrite (IH fuel s d1 _ Hs H1 ltac:(lia)). rewrite rev_app_distr, N2, N3. destruct y; reflexivity.
Qed.

Lemma reachable_consistent os m :
  (forall o, In o os -> op_ok o) ->
  let w := fst (run init os) in
  (m < length (maps w))%nat ->
  exists d, step w (OpEntries m) = (w, REntries d) /\
    distinct d /\
    step w (OpLen m) = (w, RLen (Z.of_nat (length d))) /\
    (forall k v k', In (k, v) d -> keq k' k = true -> step w (OpGet m k') = (w, RVal (Some v))) /\
    (forall k v, step w (OpGet m k) = (w, RVal (Some v)) -> exists k', In (k', v) d /\ keq k k' = true) /\
    (forall k, step w (OpContainsKey m k) =
               (w, RBool (existsb (fun kv => keq k (fst kv)) d))) /\
    (forall g, nth_error (maps w) m = Some g ->
       walk_back (fuel_of (nodes w)) (nodes w) (hlast g) = Some (rev d)).
Proof.
  intros Hok w Hm. destruct (reach os Hok) as (cs & HR). fold w in HR.
  assert (Hm' : (m < length cs)%nat) by (destruct HR as (A & _); rewrite A, map_length in Hm; exact Hm).
  destruct (nth_error cs m) as [c|] eqn:Ec; [|apply nth_error_None in Ec; lia].
  destruct (read_any _ _ _ _ _ HR Ec) as [Hg Hc].
  pose proof (k_repr _ _ _ _ _ _ Hc) as R.
  exists (ad (ca K V c)). cbn [HMap.step]. unfold with_map. rewrite Hg.
  rewrite (hentries_ok _ _ _ _ _ _ _ _ R). split; [reflexivity|]. split; [apply R|].
  split; [rewrite (r_len _ _ _ _ _ _ _ _ R); reflexivity|].
  split; [|split; [|split]].
  - intros k v k' Hin Hk. rewrite (hget_ok _ _ _ _ ks kt kh _ _ _ _ k' R).
    destruct (dget_split K V keq ks kt (ad (ca K V c)) k' k v (r_distinct _ _ _ _ _ _ _ _ R) Hin Hk) as [-> _].
    reflexivity.
  - intros k v. rewrite (hget_ok _ _ _ _ ks kt kh _ _ _ _ k R). intros E. inversion E as [E'].
    destruct (dput_found K V keq _ _ _ E') as (d1 & k' & d2 & -> & _ & B). exists k'.
    split; [apply in_app_iff; right; left; reflexivity|exact B].
  - intros k. rewrite (hget_ok _ _ _ _ ks kt kh _ _ _ _ k R). rewrite dget_existsb. reflexivity.
  - intros g E. inversion E; subst g. pose proof (r_links _ _ _ _ _ _ _ _ R) as L.
    rewrite (l_last _ _ _ _ _ _ L). apply walk_back_ok; [apply L|apply R|]. eapply ids_fuel; eauto.
Qed.

(* ---- spec level facts ---- *)

Lemma spec_frozen_stays aw o m d :
  nth_error aw m = Some (AMap d true) -> nth_error (fst (step_spec aw o)) m = Some (AMap d true).
Proof.
  intros H. assert (Hlt : (m < length aw)%nat) by (eapply nth_error_Some_lt; eauto).
  assert (Hadd : forall x fr, nth_error (fst (anew K V aw x fr)) m = Some (AMap d true)).
  { intros x fr. unfold anew. cbn [fst]. rewrite nth_error_app1 by exact Hlt. exact H. }
  assert (Hset : forall n a x fr, nth_error aw n = Some a -> af a = false ->
     nth_error (aset K V aw n x fr) m = Some (AMap d true)).
  { intros n a x fr Ha Hf. unfold aset. rewrite nth_error_upd_neq; [exact H|]. intros ->.
    rewrite H in Ha. inversion Ha; subst. discriminate. }
  assert (Hw : forall n f, (forall a, nth_error aw n = Some a -> nth_error (fst (f a)) m = Some (AMap d true)) ->
     nth_error (fst (awith K V aw n f)) m = Some (AMap d true)).
  { intros n f Hf. unfold awith. destruct (nth_error aw n) as [a|]; auto. }
  destruct o; cbn [HMapSpec.step_spec]; auto;
    try (apply Hw; intros a0 Ha0); try (apply Hw; intros b0 Hb0);
    repeat match goal with |- context[match ?x with _ => _ end] =>
      match x with
      | af _ => destruct x eqn:?
      | _ => destruct x
      end end; cbn [fst]; eauto.
  (* Freeze *)
  unfold aset. destruct (Nat.eq_dec m0 m) as [->|Hne].
  - rewrite H in Ha0. inversion Ha0; subst. rewrite nth_error_upd_eq by exact Hlt. reflexivity.
  - rewrite nth_error_upd_neq by exact Hne. exact H.
Qed.

Lemma spec_frozen_run os : forall aw m d,
  nth_error aw m = Some (AMap d true) -> nth_error (fst (run_spec aw os)) m = Some (AMap d true).
Proof.
  induction os as [|o r IH]; intros aw m d H; cbn; [exact H|].
  pose proof (spec_frozen_stays aw o m d H) as H1. destruct (step_spec aw o) as [aw1 x].
  pose proof (IH aw1 m d H1) as H2. destruct (run_spec aw1 r). exact H2.
Qed.

Lemma snd_step_reach os o : (forall x, In x os -> op_ok x) -> op_ok o ->
  snd (step (fst (run init os)) o) = snd (step_spec (fst (run_spec [] os)) o).
Proof.
  intros H Ho. destruct (reach os H) as (cs & HR).
  destruct (step_refines K V keq khash veq vnil vfreeze vthaw kr ks kt kh _ _ _ o HR Ho) as (A & _). exact A.
Qed.

Lemma read_ok m r : read_op K V m r -> op_ok r.
Proof. destruct r; cbn; tauto. Qed.

Lemma spec_read_cong aw aw' m r : read_op K V m r -> nth_error aw m = nth_error aw' m ->
  snd (step_spec aw r) = snd (step_spec aw' r).
Proof.
  intros Hr E. destruct r; cbn in Hr; try contradiction; subst; cbn [HMapSpec.step_spec]; unfold awith; rewrite E;
    destruct (nth_error aw' m); reflexivity.
Qed.

(* after Freeze nothing changes any observation, and mutation panics *)
Lemma frozen_forever os1 os2 m :
  (forall o, In o (os1 ++ os2) -> op_ok o) ->
  let w1 := fst (run init (os1 ++ [OpFreeze m])) in
  let w2 := fst (run init (os1 ++ [OpFreeze m] ++ os2)) in
  (m < length (maps w1))%nat ->
  (forall r, read_op K V m r -> snd (step w2 r) = snd (step w1 r)) /\
  (forall o, mutates K V m o -> step w2 o = (w2, RPanic)) /\
  (forall a, snd (step w2 (OpLen a)) <> RLen 0 -> snd (step w2 (OpLen a)) <> RBad ->
     step w2 (OpPutAll m a) = (w2, RPanic)).
Proof.
  intros Hok w1 w2 Hm.
  assert (Hok1 : forall o, In o (os1 ++ [OpFreeze m]) -> op_ok o).
  { intros o Ho. apply in_app_iff in Ho. destruct Ho as [Ho|[<-|[]]]; [|exact I]. apply Hok. apply in_app_iff. auto. }
  assert (Hok2 : forall o, In o (os1 ++ [OpFreeze m] ++ os2) -> op_ok o).
  { intros o Ho. rewrite !in_app_iff in Ho. destruct Ho as [Ho|[[<-|[]]|Ho]]; [|exact I|]; apply Hok; apply in_app_iff; auto. }
  destruct (reach _ Hok1) as (cs & HR). fold w1 in HR.
  assert (Hm' : (m < length cs)%nat) by (destruct HR as (A & _); rewrite A, map_length in Hm; exact Hm).
  set (aw1 := fst (run_spec [] (os1 ++ [OpFreeze m]))) in *.
  assert (Hf1 : exists d, nth_error aw1 m = Some (AMap d true)).
  { assert (Hlen : (m < length aw1)%nat) by (destruct HR as (_ & A & _); rewrite A, map_length; exact Hm').
    unfold aw1 in *. rewrite run_spec_app in *. cbn [HMapSpec.run_spec HMapSpec.step_spec fst] in *.
    unfold awith in *. destruct (nth_error (fst (run_spec [] os1)) m) as [a|] eqn:Ea; cbn [fst] in *.
    - exists (ad a). unfold aset. apply nth_error_upd_eq. eapply nth_error_Some_lt; eauto.
    - apply nth_error_None in Ea. lia. }
  destruct Hf1 as (d & Hd).
  assert (Hd2 : nth_error (fst (run_spec [] (os1 ++ [OpFreeze m] ++ os2))) m = Some (AMap d true)).
  { rewrite app_assoc, run_spec_app. cbn [fst]. apply spec_frozen_run. exact Hd. }
  destruct (reach _ Hok2) as (cs2 & HR2). fold w2 in HR2.
  assert (Hfz : exists g, nth_error (maps w2) m = Some g /\ hfrozen g = true).
  { pose proof HR2 as (A & B & C). rewrite B, nth_error_map in Hd2.
    destruct (nth_error cs2 m) as [c|] eqn:Ec; [|discriminate]. cbn in Hd2. inversion Hd2 as [E].
    exists (cg K V c). rewrite A, nth_error_map, Ec. split; [reflexivity|].
    rewrite (k_frozen _ _ _ _ _ _ (i_ok _ _ _ _ _ _ C m c Ec)), E. reflexivity. }
  destruct Hfz as (g & Hg & Hfr). split; [|split].
  - intros r Hr. unfold w1, w2. rewrite !snd_step_reach; auto; try (eapply read_ok; exact Hr).
    apply (spec_read_cong _ _ m); [exact Hr|]. rewrite Hd2. symmetry. exact Hd.
  - intros o Ho. destruct o; cbn in Ho; try contradiction; subst; cbn [HMap.step]; unfold with_map; rewrite Hg, Hfr; reflexivity.
  - intros a H1 H2. cbn [HMap.step] in *. unfold with_map in *. rewrite Hg.
    destruct (nth_error (maps w2) a) as [ga|] eqn:Ea; [|cbn in H2; congruence]. cbn in H1.
    destruct (Z.eqb_spec (hlen ga) 0) as [E|E]; [rewrite E in H1; congruence|]. rewrite Hfr. reflexivity.
Qed.

(* ---- pure operations ---- *)

Lemma dremove_length d k : (length (dremove d k) <= length d)%nat.
Proof. induction d as [|[a b] r IH]; cbn; [lia|]. destruct (keq k a); cbn; lia. Qed.

Lemma dremove_length_eq d k : length (dremove d k) = length d -> dremove d k = d.
Proof.
  induction d as [|[a b] r IH]; cbn; [reflexivity|]. destruct (keq k a); cbn; intros H; [lia|].
  rewrite IH; [reflexivity|lia].
Qed.

Lemma dremoveall_length l : forall d, (length (dremoveall d l) <= length d)%nat.
Proof.
  induction l as [|k r IH]; intros d; cbn; [lia|]. pose proof (IH (dremove d k)).
  pose proof (dremove_length d k). unfold HMapSpec.dremoveall in *. lia.
Qed.

Lemma dremoveall_length_eq l : forall d, length (dremoveall d l) = length d -> dremoveall d l = d.
Proof.
  induction l as [|k r IH]; intros d H; [reflexivity|].
  change (dremoveall d (k :: r)) with (dremoveall (dremove d k) r) in *.
  pose proof (dremoveall_length r (dremove d k)). pose proof (dremove_length d k).
  assert (E : dremove d k = d) by (apply dremove_length_eq; lia). rewrite E in *. auto.
Qed.

Lemma spec_pure_keeps aw o m a :
  (exists d fr e d', pure_result d fr e o = Some d') -> nth_error aw m = Some a ->
  nth_error (fst (step_spec aw o)) m = Some a.
Proof.
  intros (d & fr & e & d' & Hp) H. assert (Hlt : (m < length aw)%nat) by (eapply nth_error_Some_lt; eauto).
  assert (Hadd : forall x f, nth_error (fst (anew K V aw x f)) m = Some a).
  { intros x f. unfold anew. cbn [fst]. rewrite nth_error_app1 by exact Hlt. exact H. }
  assert (Hw : forall n f, (forall b, nth_error (fst (f b)) m = Some a) ->
     nth_error (fst (awith K V aw n f)) m = Some a).
  { intros n f Hf. unfold awith. destruct (nth_error aw n); auto. }
  destruct o; cbn in Hp; try discriminate; cbn [HMapSpec.step_spec];
    apply Hw; intros b0; try (apply Hw; intros b1);
    repeat match goal with |- context[match ?x with _ => _ end] => destruct x end; cbn [fst]; auto.
Qed.

Lemma spec_pure_result aw o a b d' :
  pure_result (ad a) (af a) (ad b) o = Some d' ->
  nth_error aw (receiver K V o) = Some a -> nth_error aw (argument K V o) = Some b ->
  distinct (ad a) -> distinct (ad b) ->
  exists r, snd (step_spec aw o) = RMap r /\
    exists f, nth_error (fst (step_spec aw o)) r = Some (AMap d' f).
Proof.
  intros Hp Ha Hb Da Db.
  assert (Hadd : forall x f, exists r, snd (anew K V aw x f) = RMap r /\
     exists f', nth_error (fst (anew K V aw x f)) r = Some (AMap x f')).
  { intros x f. exists (length aw). split; [reflexivity|]. exists f. unfold anew. cbn [fst].
    rewrite nth_error_snoc, Nat.eqb_refl. reflexivity. }
  assert (Hself : forall n c x, nth_error aw n = Some c -> ad c = x -> exists r,
     @snd (aworld K V) _ (aw, @RMap K V n) = RMap r /\ exists f, nth_error (@fst (aworld K V) (out K V) (aw, RMap n)) r = Some (AMap x f)).
  { intros n c x Hc <-. exists n. split; [reflexivity|]. exists (af c). cbn. rewrite Hc. destruct c; reflexivity. }
  destruct o; cbn [HMapSpec.pure_result receiver argument] in Hp, Ha, Hb; try discriminate;
    try match type of Hp with context[if ?b then _ else _] => is_var b; destruct b end;
    cbn [HMapSpec.step_spec]; unfold awith; rewrite Ha; try rewrite Hb; inversion Hp as [E]; subst d'; clear Hp.
  - destruct (dget (ad a) k) as [x|] eqn:E.
    + destruct (veq v x); [eapply Hself; [exact Ha|reflexivity]|apply Hadd].
    + rewrite <- (dput_new K V keq _ _ v E). apply Hadd.
  - destruct (dget (ad a) k) eqn:E; [apply Hadd|]. eapply Hself; [exact Ha|].
    symmetry. apply dremove_none. exact E.
  - destruct (Nat.eqb_spec (length (dremoveall (ad a) ks0)) (length (ad a))) as [E|E]; [|apply Hadd].
    eapply Hself; [exact Ha|]. symmetry. apply dremoveall_length_eq. exact E.
  - destruct (ad b) as [|p q] eqn:Eb; [eapply Hself; [exact Ha|reflexivity]|]. rewrite <- Eb in *.
    destruct (Nat.eqb_spec m a0) as [->|Hne].
    + rewrite Ha in Hb. inversion Hb; subst b. eapply Hself; [exact Ha|].
      symmetry. apply (dputall_sub K V keq kr ks kt); auto.
    + destruct (ad a) as [|p1 q1] eqn:Ea; [|apply Hadd].
      eapply Hself; [exact Hb|]. symmetry. apply (dputall_distinct K V keq ks (ad b) []). exact Db.
  - cbn [andb]. destruct (af a) eqn:Ef; [eapply Hself; [exact Ha|reflexivity]|apply Hadd].
  - cbn [andb]. apply Hadd.
  - apply Hadd.
Qed.

Lemma entries_reach os m d : (forall x, In x os -> op_ok x) ->
  snd (step (fst (run init os)) (OpEntries m)) = REntries d ->
  exists a, nth_error (fst (run_spec [] os)) m = Some a /\ ad a = d /\ distinct d.
Proof.
  intros Hok H. rewrite snd_step_reach in H by (auto; exact I).
  destruct (reach os Hok) as (cs & A & B & C).
  cbn [HMapSpec.step_spec] in H. unfold awith in H.
  destruct (nth_error (fst (run_spec [] os)) m) as [a|] eqn:E; [|discriminate].
  cbn in H. inversion H; subst. exists a. split; [reflexivity|]. split; [reflexivity|].
  rewrite B, nth_error_map in E. destruct (nth_error cs m) as [c|] eqn:Ec; [|discriminate].
  cbn in E. inversion E; subst. apply (k_repr _ _ _ _ _ _ (i_ok _ _ _ _ _ _ C m c Ec)).
Qed.

(* w is the world before, w' after the operation *)
Lemma pure_ops os o :
  (forall x, In x os -> op_ok x) -> op_ok o ->
  let w := fst (run init os) in
  let w' := fst (step w o) in
  forall d e fr d',
  snd (step w (OpEntries (receiver K V o))) = REntries d ->
  snd (step w (OpFrozen (receiver K V o))) = RBool fr ->
  snd (step w (OpEntries (argument K V o))) = REntries e ->
  pure_result d fr e o = Some d' ->
  (exists r, snd (step w o) = RMap r /\ snd (step w' (OpEntries r)) = REntries d') /\
  (forall m q, (m < length (maps w))%nat -> read_op K V m q -> snd (step w' q) = snd (step w q)).
Proof.
  intros Hok Ho w w' d e fr d' Hd Hf He Hp.
  assert (Hok' : forall x, In x (os ++ [o]) -> op_ok x).
  { intros x Hx. apply in_app_iff in Hx. destruct Hx as [Hx|[<-|[]]]; auto. }
  assert (Ew : w' = fst (run init (os ++ [o]))).
  { rewrite run_app. cbn [HMap.run fst]. fold w. unfold w'. destruct (step w o). reflexivity. }
  assert (Eaw : fst (run_spec [] (os ++ [o])) = fst (step_spec (fst (run_spec [] os)) o)).
  { rewrite run_spec_app. cbn [HMapSpec.run_spec fst]. destruct (step_spec (fst (run_spec [] os)) o). reflexivity. }
  destruct (entries_reach os _ d Hok Hd) as (a & Ha & Ea & Da).
  destruct (entries_reach os _ e Hok He) as (b & Hb & Eb & Db).
  assert (Efr : af a = fr).
  { unfold w in Hf. rewrite snd_step_reach in Hf by (auto; exact I). cbn [HMapSpec.step_spec] in Hf.
    unfold awith in Hf. rewrite Ha in Hf. cbn in Hf. congruence. }
  subst d e fr. split.
  - destruct (spec_pure_result _ o a b d' Hp Ha Hb Da Db) as (r & Hr & f & Hn). exists r.
    unfold w. rewrite snd_step_reach by auto. split; [exact Hr|].
    rewrite Ew, snd_step_reach by (auto; exact I). rewrite Eaw. cbn [HMapSpec.step_spec]. unfold awith.
    rewrite Hn. reflexivity.
  - intros m q Hm Hq. destruct (reach os Hok) as (cs & A & B & C).
    assert (Hx : exists x, nth_error (fst (run_spec [] os)) m = Some x).
    { fold w in A. rewrite A, map_length in Hm. rewrite B, nth_error_map.
      destruct (nth_error cs m) eqn:E; [cbn; eauto|apply nth_error_None in E; lia]. }
    destruct Hx as (x & Hx).
    unfold w. rewrite Ew, !snd_step_reach; auto; try (eapply read_ok; exact Hq).
    apply (spec_read_cong _ _ m); [exact Hq|]. rewrite Eaw, Hx. apply spec_pure_keeps; [|exact Hx].
    exists (ad a), (af a), (ad b), d'. exact Hp.
Qed.

(* ---- ToMap, ToMapFromEntries ---- *)

Lemma upd_snoc {A} (l : list A) x y : upd (l ++ [x]) (length l) y = l ++ [y].
Proof. induction l as [|a r IH]; cbn; [reflexivity|]. rewrite IH. reflexivity. Qed.

Lemma fromentries_pairs kvs : forall s g,
  fromentries_loop K V khash s g (map (fun kv => EPair (fst kv) (snd kv)) kvs) = tomap_loop K V khash s g kvs.
Proof.
  induction kvs as [|[k v] r IH]; intros s g; [reflexivity|].
  cbn [map fst snd fromentries_loop tomap_loop]. unfold append_node.
  rewrite nth_error_snoc, Nat.eqb_refl. cbn [nkey].
  destruct (nth_error (htbl g) (hidx K khash (htbl g) k)) as [b|]; [|reflexivity].
  rewrite upd_snoc. cbn [set_prev set_hash nkey nval nnext nhash nprev].
  unfold set_prev, set_hash. cbn [nkey nval nnext nhash nprev].
  destruct (hfirst g); [|apply IH].
  destruct (mutate _ _ _); [apply IH|reflexivity].
Qed.

Lemma hfromentries_pairs s kvs fr :
  hfromentries K V khash s (map (fun kv => EPair (fst kv) (snd kv)) kvs) fr = htomap K V khash s kvs fr.
Proof. unfold hfromentries, htomap. rewrite map_length. apply fromentries_pairs. Qed.

Lemma tomap_reach os kvs fr :
  (forall x, In x os -> op_ok x) -> distinct kvs ->
  let w := fst (run init os) in
  let w' := fst (step w (OpToMap kvs fr)) in
  (exists r, snd (step w (OpToMap kvs fr)) = RMap r /\ snd (step w' (OpEntries r)) = REntries kvs /\
     (forall k, snd (step w' (OpGet r k)) = RVal (dget kvs k)) /\
     snd (step w' (OpLen r)) = RLen (Z.of_nat (length kvs))) /\
  (forall m q, (m < length (maps w))%nat -> read_op K V m q -> snd (step w' q) = snd (step w q)).
Proof.
  intros Hok Hd w w'.
  assert (Ho : op_ok (OpToMap kvs fr)) by exact Hd.
  assert (Hok' : forall x, In x (os ++ [OpToMap kvs fr]) -> op_ok x).
  { intros x Hx. apply in_app_iff in Hx. destruct Hx as [Hx|[<-|[]]]; auto. }
  assert (Ew : w' = fst (run init (os ++ [OpToMap kvs fr]))).
  { rewrite run_app. cbn [HMap.run fst]. fold w. unfold w'. destruct (step w _). reflexivity. }
  set (aw := fst (run_spec [] os)).
  assert (Eaw : fst (run_spec [] (os ++ [OpToMap kvs fr])) = aw ++ [AMap kvs fr]).
  { rewrite run_spec_app. cbn [HMapSpec.run_spec fst HMapSpec.step_spec]. fold aw. unfold anew. cbn [fst].
    rewrite (dputall_distinct K V keq ks kvs []) by exact Hd. reflexivity. }
  split.
  - exists (length aw). unfold w. rewrite snd_step_reach by auto. split; [reflexivity|].
    rewrite Ew. rewrite !snd_step_reach by (auto; exact I). rewrite Eaw.
    cbn [HMapSpec.step_spec]. unfold awith. rewrite nth_error_snoc, Nat.eqb_refl. cbn [snd ad].
    split; [reflexivity|]. split; [|reflexivity]. intros k. rewrite snd_step_reach by (auto; exact I).
    rewrite Eaw. cbn [HMapSpec.step_spec]. unfold awith. rewrite nth_error_snoc, Nat.eqb_refl. reflexivity.
  - intros m q Hm Hq. destruct (reach os Hok) as (cs & A & B & C).
    assert (Hx : (m < length aw)%nat).
    { fold w in A. rewrite A, map_length in Hm. unfold aw. rewrite B, map_length. exact Hm. }
    unfold w. rewrite Ew, !snd_step_reach; auto; try (eapply read_ok; exact Hq).
    apply (spec_read_cong _ _ m); [exact Hq|]. rewrite Eaw. rewrite nth_error_app1 by exact Hx. reflexivity.
Qed.

End Cor.

(* What holds of all histories, whatever == of keys is and also if keys are repeated. *)
Section Always.
Variables (K V : Type).
Variable keq : K -> K -> bool.
Variable khash : K -> Z.
Variable veq : V -> V -> bool.
Variable vnil : V -> bool.
Variables vfreeze vthaw : V -> V.
Notation step := (step K V keq khash veq vnil vfreeze vthaw).
Notation run := (run K V keq khash veq vnil vfreeze vthaw).

Definition frozen_at (w : world K V) (m : nat) : Prop :=
  exists g, nth_error (maps w) m = Some g /\ hfrozen g = true.

Lemma frozen_add w s g m : frozen_at w m -> frozen_at (fst (add_map w s g)) m.
Proof.
  intros (g0 & A & B). exists g0. split; [|exact B]. cbn. rewrite nth_error_app1; [exact A|].
  apply nth_error_Some. rewrite A. discriminate.
Qed.

Lemma frozen_set w m' g s g' m : nth_error (maps w) m' = Some g -> hfrozen g = false ->
  frozen_at w m -> frozen_at (set_map w m' s g') m.
Proof.
  intros A B (g0 & C & D). exists g0. split; [|exact D]. cbn.
  rewrite nth_error_upd_neq; [exact C|]. intros ->. rewrite C in A. injection A as ->. congruence.
Qed.

Lemma frozen_step w o m : frozen_at w m -> frozen_at (fst (step w o)) m.
Proof.
  intros H.
  destruct o; cbn [HMap.step]; unfold with_map, step_with, step_without, step_withoutall, step_merge, step_copy, step_map;
    try (apply frozen_add; exact H);
    repeat match goal with
           | |- frozen_at (fst (add_map _ _ _)) _ => apply frozen_add; exact H
           | |- frozen_at (fst (w, _)) _ => exact H
           | |- frozen_at (fst (World _ (maps w), _)) _ => exact H
           | A : nth_error (maps w) ?i = Some ?g, B : hfrozen ?g = false |- frozen_at (fst (set_map w ?i _ _, _)) _ =>
               exact (frozen_set w i g _ _ m A B H)
           | |- frozen_at (fst (match ?x with _ => _ end)) _ => destruct x eqn:?
           | |- frozen_at (fst (if ?x then _ else _)) _ => destruct x eqn:?
           end.
  destruct H as (g0 & C & D). unfold frozen_at. cbn [fst maps set_map].
  destruct (Nat.eq_dec m m0) as [->|N].
  - eexists. split; [apply nth_error_upd_eq; eapply nth_error_Some_lt; eauto|]. reflexivity.
  - exists g0. split; [|exact D]. rewrite nth_error_upd_neq by auto. exact C.
Qed.

Lemma frozen_run os : forall w m, frozen_at w m -> frozen_at (fst (run w os)) m.
Proof.
  induction os as [|o r IH]; intros w m H; [exact H|]. cbn [HMap.run].
  pose proof (frozen_step w o m H) as H1. destruct (step w o) as (w1, x). cbn [fst] in H1.
  specialize (IH w1 m H1). destruct (run w1 r) as (w2, xs). exact IH.
Qed.

Lemma run_snoc_freeze os m : (m < length (maps (fst (run (@init K V) (os ++ [OpFreeze m])))))%nat ->
  frozen_at (fst (run (@init K V) (os ++ [OpFreeze m]))) m.
Proof.
  generalize (@init K V). induction os as [|o r IH]; intros w H; cbn [HMap.run app] in *.
  - cbn [HMap.step] in *. unfold with_map in *. destruct (nth_error (maps w) m) as [g|] eqn:E; cbn [fst] in *.
    + eexists. split; [apply nth_error_upd_eq; eapply nth_error_Some_lt; eauto|]. reflexivity.
    + apply nth_error_None in E. lia.
  - destruct (step w o) as (w1, x). specialize (IH w1).
    destruct (run w1 (r ++ [OpFreeze m])) as (w2, xs). exact (IH H).
Qed.

Lemma run_app_fst a : forall w b, fst (run w (a ++ b)) = fst (run (fst (run w a)) b).
Proof.
  induction a as [|o r IH]; intros w b; [reflexivity|]. cbn [HMap.run app].
  destruct (step w o) as (w1, x). specialize (IH w1 b).
  destruct (run w1 (r ++ b)) as (w2, xs). destruct (run w1 r) as (w3, ys). exact IH.
Qed.

(* every attempt to change a frozen map panics and has no effect, at any time after Freeze *)
Lemma frozen_rejects os1 os2 os3 m :
  (m < length (maps (fst (run (@init K V) (os1 ++ [OpFreeze m])))))%nat ->
  let w := fst (run (@init K V) (os1 ++ [OpFreeze m] ++ os2)) in
  (forall o, In o os3 -> attempt K V m (fun a => snd (step w (OpLen a))) o) ->
  run w os3 = (w, map (fun _ => RPanic) os3).
Proof.
  intros Hm w Ha.
  assert (H : frozen_at w m).
  { unfold w. rewrite app_assoc, run_app_fst. apply frozen_run, run_snoc_freeze, Hm. }
  clearbody w. destruct H as (g & A & B). induction os3 as [|o r IH]; [reflexivity|].
  assert (E : step w o = (w, RPanic)).
  { specialize (Ha o (or_introl eq_refl)). destruct o; cbn in Ha; try contradiction;
      try (subst; cbn [HMap.step]; unfold with_map; rewrite A, B; reflexivity).
    destruct Ha as (-> & n & E & N). cbn [HMap.step]. unfold with_map in *. rewrite A.
    destruct (nth_error (maps w) a) as [ga|]; [|discriminate E]. cbn in E. injection E as ->.
    apply Z.eqb_neq in N. rewrite N, B. reflexivity. }
  cbn [HMap.run]. rewrite E, IH by (intros o' Ho'; apply Ha; right; exact Ho'). reflexivity.
Qed.
End Always.
