From Coq Require Import ZArith List Bool Lia.
From Verif Require Import Int64 HMap HMapSpec HMapBase HMapInv HMapRefine HMapCor MapEach MapEachSpec.
Import ListNotations.
Open Scope Z_scope.
Local Notation length := List.length.

Section Proofs.
Variables (K V : Type).
Variable keq : K -> K -> bool.
Variable khash : K -> Z.
Hypothesis keq_refl : forall k, keq k k = true.
Hypothesis keq_sym : forall a b, keq a b = true -> keq b a = true.
Hypothesis keq_trans : forall a b c, keq a b = true -> keq b c = true -> keq a c = true.
Hypothesis keq_hash : forall a b, keq a b = true -> khash a = khash b.
Notation node := (node K V).
Notation dget := (dget K V keq).
Notation dput := (dput K V keq).
Notation dremove := (dremove K V keq).
Notation repr := (repr K V keq khash).
Notation links := (links K V khash).
Notation holds := (holds K V).
Notation effect := (effect K V).
Notation seg := (seg K V).
Implicit Types (s : list node) (g : hmap) (d : list (K * V)) (ids : list nat).

(* ---------- what Put does to the order ---------- *)
Lemma hput_ids s g ids d k v : repr s g ids d ->
  exists s' g' ids', hput K V keq khash s g k v = Some (s', g', dget d k) /\ repr s' g' ids' (dput d k v) /\ effect s ids s' ids' /\
    hfrozen g' = hfrozen g /\ htbl g' <> [] /\
    ((ids' = ids /\ dget d k <> None) \/ (ids' = ids ++ [length s] /\ dget d k = None) \/ (effect s [] s' ids' /\ dget d k = None)).
Proof using keq_refl keq_sym keq_trans keq_hash.
  intros H. unfold hput.
  set (g0 := match htbl g with [] => _ | _ => g end).
  assert (H0 : repr s g0 ids d /\ htbl g0 <> [] /\ hfrozen g0 = hfrozen g).
  { unfold g0. destruct (htbl g) as [|t0 tr] eqn:E.
    - destruct (repr_ids_nil _ _ _ _ _ _ _ _ H E) as [-> ->].
      split; [|split; [apply pow2_nonempty, pow2_repeat|reflexivity]].
      constructor; try apply H.
      rewrite (l_first _ _ _ _ _ _ (r_links _ _ _ _ _ _ _ _ H)), (l_last _ _ _ _ _ _ (r_links _ _ _ _ _ _ _ _ H)).
      apply links_empty.
    - split; [exact H|]. split; [congruence|reflexivity]. }
  destruct H0 as (H0 & Hne & Hfr). clearbody g0.
  destruct (l_tbl _ _ _ _ _ _ (r_links _ _ _ _ _ _ _ _ H0)) as [[E' _]|[P _]]; [contradiction|].
  rewrite (nth_error_hidx _ _ _ _ P).
  destruct (repr_find _ _ keq khash keq_sym keq_trans keq_hash s g0 ids d k H0 Hne) as (r & -> & Hr).
  destruct r as [i|].
  - destruct Hr as (Hi & nd & Hn & Hk & Hg). rewrite Hn. rewrite Hg.
    destruct (set_val_repr _ _ keq khash keq_sym keq_trans s g0 ids d i nd k v H0 Hi Hn Hk) as [R E].
    eexists. eexists. exists ids. split; [reflexivity|]. split; [exact R|]. split; [exact E|]. split; [exact Hfr|]. split; [exact Hne|]. left. split; [reflexivity|discriminate].
  - rewrite Hr.
    assert (HS : exists s1 g1 ids1, (if over_load (hlen g0 + 1) (tlen (htbl g0)) then hresize K V khash s g0 g0 1 else Some (s, g0)) = Some (s1, g1)
       /\ links s1 g1 ids1 /\ holds s1 ids1 d /\ effect s ids s1 ids1 /\ hlen g1 = hlen g0 /\
       hfrozen g1 = hfrozen g0 /\ htbl g1 <> [] /\ (s1 = s /\ ids1 = ids \/ effect s [] s1 ids1)).
    { destruct (over_load _ _).
      - destruct (hresize_ok _ _ khash s g0 g0 1 ids d) as (s1 & g1 & ids1 & A & B & C & D & E & F & G);
          [apply H0|apply H0|left; reflexivity|].
        exists s1, g1, ids1. repeat (split; [auto; fail|]). split; [|auto 10]. constructor; [apply D| |].
        + intros i Hi Hni. apply (e_same _ _ _ _ _ _ D); [exact Hi|intros []].
        + intros i Hi. right. destruct (e_new _ _ _ _ _ _ D i Hi) as [[]|]; assumption.
      - exists s, g0, ids. split; [reflexivity|]. split; [apply H0|]. split; [apply H0|]. split; [apply effect_refl|]. auto 10. }
    destruct HS as (s1 & g1 & ids1 & -> & L1 & Hh1 & E1 & Hl1 & Hf1 & Hn1 & O1).
    destruct (append_node_ok _ _ khash s1 g1 ids1 d k v L1 Hh1 Hn1)
      as (s2 & g2 & -> & L2 & Hh2 & E2 & Hl2 & Hf2 & Ht2).
    eexists. eexists. eexists. split; [reflexivity|].
    rewrite (dput_new _ _ _ _ _ _ Hr). split; [constructor|].
    + eapply links_same; [| | |exact L2]; reflexivity.
    + exact Hh2.
    + cbn. rewrite Hl2, Hl1, (r_len _ _ _ _ _ _ _ _ H0), app_length. cbn. lia.
    + eapply distinct_snoc; eauto. apply H0.
    + split; [eapply effect_trans; eauto|]. cbn. split; [congruence|].
      split; [intros E; rewrite E in Ht2; destruct (htbl g1); [contradiction|discriminate]|].
      right. destruct O1 as [[-> ->]|O1]; [left; auto|right; split; [|reflexivity]]. eapply effect_trans; eauto.
Qed.

(* ---------- what Remove does to the order ---------- *)
Lemma mutate_next s p f s' i (nd : node) : mutate s p f = Some s' -> (p <> Some i \/ forall n, nnext (f n) = nnext n) -> nth_error s i = Some nd ->
  exists nd', nth_error s' i = Some nd' /\ nnext nd' = nnext nd.
Proof.
  unfold mutate. destruct p as [j|]; [|discriminate]. destruct (nth_error s j) as [x|] eqn:E; [|discriminate]. intros X C N. injection X as <-.
  destruct (Nat.eq_dec j i) as [->|D].
  - rewrite E in N. injection N as ->. rewrite nth_error_upd_eq by (eapply nth_error_Some_lt; eauto). eexists. split; [reflexivity|]. destruct C as [C|C]; [congruence|apply C].
  - rewrite nth_error_upd_neq by exact D. eauto.
Qed.
Lemma unlink_next s g hk p i s' g' (nd : node) : unlink s g hk p i = Some (s', g') -> nth_error s i = Some nd -> nprev nd <> Some i ->
  exists nd', nth_error s' i = Some nd' /\ nnext nd' = nnext nd.
Proof.
  unfold unlink. intros H N P. rewrite N in H.
  set (x := match p with None => _ | Some _ => _ end) in H.
  assert (A : forall s1 t1, x = Some (s1, t1) -> exists n1, nth_error s1 i = Some n1 /\ nnext n1 = nnext nd).
  { intros s1 t1. unfold x. destruct p as [q|]; [|intros X; injection X as <- <-; eauto]. destruct (mutate s (Some q) _) as [s0|] eqn:M; [|discriminate]. intros X. injection X as <- <-.
    eapply mutate_next; [exact M|right; reflexivity|exact N]. }
  destruct x as [[s1 t1]|]; [|discriminate]. destruct (A s1 t1 eq_refl) as (n1 & N1 & X1).
  set (y := match nprev nd with None => _ | Some _ => _ end) in H.
  assert (B : forall s2 f2, y = Some (s2, f2) -> exists n2, nth_error s2 i = Some n2 /\ nnext n2 = nnext nd).
  { intros s2 f2. unfold y. destruct (nprev nd) as [q|] eqn:Q; [|intros X; injection X as <- <-; eauto]. destruct (mutate s1 (Some q) _) as [s0|] eqn:M; [|discriminate]. intros X. injection X as <- <-.
    rewrite <- X1. eapply mutate_next; [exact M|left; exact P|exact N1]. }
  destruct y as [[s2 f2]|]; [|discriminate]. destruct (B s2 f2 eq_refl) as (n2 & N2 & X2).
  destruct (nnext nd) as [q|] eqn:Q.
  - destruct (mutate s2 (Some q) _) as [s0|] eqn:M; [|discriminate]. injection H as <- <-. rewrite <- X2. eapply mutate_next; [exact M|right; reflexivity|exact N2].
  - injection H as <- <-. eauto.
Qed.
Lemma last_or_not a i p : ~ In i a -> p <> Some i -> last_or a p <> Some i.
Proof. revert p. induction a as [|x a IH]; intros p N P; cbn [last_or]; [exact P|]. apply IH; [intros X; apply N; now right|]. intros X. injection X as ->. apply N. now left. Qed.
Lemma seg_at s p a i b n : seg s p (a ++ i :: b) n -> exists nd, nth_error s i = Some nd /\ nprev nd = last_or a p /\ nnext nd = hd_or b n.
Proof.
  revert p. induction a as [|x a IH]; intros p; cbn [app HMapInv.seg last_or].
  - intros (nd & A & B & C & _). eauto.
  - intros (nd & _ & _ & _ & H). now apply IH.
Qed.
Lemma found_same s g a i b d nd j ndj k : repr s g (a ++ i :: b) d -> nth_error s i = Some nd -> keq k (nkey nd) = true ->
  In j (a ++ i :: b) -> nth_error s j = Some ndj -> keq k (nkey ndj) = true -> j = i.
Proof using keq_sym keq_trans.
  intros H Ni Ki Hj Nj Kj. destruct (holds_split _ _ _ _ _ _ _ (r_holds _ _ _ _ _ _ _ _ H)) as (d1 & d2 & nd' & -> & N' & H1 & H2). rewrite Ni in N'. injection N' as <-.
  pose proof (r_distinct _ _ _ _ _ _ _ _ H) as D. apply (distinct_app _ _ keq) in D as (_ & D2 & D).
  assert (E : keq (nkey ndj) (nkey nd) = true) by (eapply keq_trans; [apply keq_sym; exact Kj|exact Ki]).
  apply in_app_or in Hj as [Hj|[->|Hj]]; [| reflexivity|]; exfalso.
  - destruct (holds_in _ _ _ _ _ _ H1 Hj) as (x & X & In1). rewrite Nj in X. injection X as <-. rewrite (D _ _ _ _ In1 (or_introl eq_refl)) in E. discriminate.
  - destruct (holds_in _ _ _ _ _ _ H2 Hj) as (x & X & In1). rewrite Nj in X. injection X as <-. cbn in D2. destruct D2 as [D2 _]. apply keq_sym in E. rewrite (D2 _ _ In1) in E. discriminate.
Qed.
Lemma hremove_absent s g ids d k : repr s g ids d -> htbl g <> [] -> dget d k = None -> hremove K V keq khash s g k = Some (s, g, None).
Proof using keq_refl keq_sym keq_trans keq_hash.
  intros H Hne Hg. unfold hremove. pose proof (r_links _ _ _ _ _ _ _ _ H) as L.
  destruct (l_tbl _ _ _ _ _ _ L) as [[E' _]|[P B]]; [contradiction|]. rewrite (nth_error_hidx _ _ _ _ P).
  destruct (B _ (hidx_lt K khash (htbl g) k P)) as (c & Hc & Hnd & Hin).
  destruct (remove_loop_find _ _ keq s g k (hidx K khash (htbl g) k) c [] (fuel_of s) _ Hc) as [(a & i & b & nd & -> & Hn & Hk & Hr)|[Hno Hr]].
  { apply chain_fuel; [exact Hnd|]. intros i Hi. eapply schain_in; eauto. }
  - exfalso. assert (Hi : In i ids) by (apply Hin; apply in_app_iff; right; left; reflexivity).
    destruct (holds_in _ _ _ _ _ _ (r_holds _ _ _ _ _ _ _ _ H) Hi) as (nd' & A & I1). rewrite Hn in A. injection A as <-.
    rewrite (dget_none _ _ keq) in Hg. rewrite (Hg _ _ I1) in Hk. discriminate.
  - exact Hr.
Qed.
Lemma hremove_current s g a i b d nd k : repr s g (a ++ i :: b) d -> htbl g <> [] -> nth_error s i = Some nd -> keq k (nkey nd) = true ->
  exists s' g' d1 d2, hremove K V keq khash s g k = Some (s', g', Some (nval nd)) /\ d = d1 ++ (nkey nd, nval nd) :: d2 /\ length d1 = length a /\
    repr s' g' (a ++ b) (d1 ++ d2) /\ dremove d k = d1 ++ d2 /\ effect s (a ++ i :: b) s' (a ++ b) /\ hfrozen g' = hfrozen g /\ htbl g' <> [] /\
    exists nd', nth_error s' i = Some nd' /\ nnext nd' = nnext nd.
Proof using keq_refl keq_sym keq_trans keq_hash.
  intros H Hne Hni Hki. unfold hremove. pose proof (r_links _ _ _ _ _ _ _ _ H) as L.
  destruct (l_tbl _ _ _ _ _ _ L) as [[E' _]|[P B]]; [contradiction|]. rewrite (nth_error_hidx _ _ _ _ P).
  destruct (B _ (hidx_lt K khash (htbl g) k P)) as (c & Hc & Hnd & Hin).
  assert (Ehk : hidx K khash (htbl g) k = hidx K khash (htbl g) (nkey nd)).
  { unfold hidx. rewrite (keq_hash _ _ Hki). reflexivity. }
  destruct (remove_loop_find _ _ keq s g k (hidx K khash (htbl g) k) c [] (fuel_of s) _ Hc) as [(a' & j & b' & ndj & -> & Hn & Hk & Hr)|[Hno Hr]].
  { apply chain_fuel; [exact Hnd|]. intros x Hx. eapply schain_in; eauto. }
  2:{ exfalso. assert (Hic : In i c). { apply Hin. split; [apply in_app_iff; right; now left|]. exists nd. split; [exact Hni|now symmetry]. } rewrite (Hno i nd Hic Hni) in Hki. discriminate. }
  assert (Hj : In j (a ++ i :: b)) by (apply Hin; apply in_app_iff; right; left; reflexivity).
  assert (j = i) as -> by (eapply found_same; eauto). rewrite Hni in Hn. injection Hn as <-.
  cbn [last_or app] in Hr. rewrite Hr.
  destruct (holds_split _ _ _ _ _ _ _ (r_holds _ _ _ _ _ _ _ _ H)) as (d1 & d2 & nd' & -> & Hn' & Hh1 & Hh2).
  rewrite Hni in Hn'. injection Hn' as <-. rewrite Ehk in *.
  destruct (unlink_ok _ _ khash s g a i b nd a' b' L Hni Hne) as (s' & g' & U & L' & Kp & Ef & Hl & Hfz & Ht).
  { split; [exact Hc|]. split; [exact Hnd|exact Hin]. }
  rewrite U.
  pose proof (r_distinct _ _ _ _ _ _ _ _ H) as Hd.
  assert (Hf : forall p q, In (p, q) d1 -> keq k p = false).
  { intros p q Hpq. apply (distinct_app _ _ keq) in Hd. destruct Hd as (_ & _ & D).
    pose proof (D p q (nkey nd) (nval nd) Hpq (or_introl eq_refl)) as F.
    destruct (keq k p) eqn:E; [|reflexivity]. apply keq_sym in E. rewrite (keq_trans _ _ _ E Hki) in F. discriminate. }
  exists s', g', d1, d2. split; [reflexivity|]. split; [reflexivity|]. split; [symmetry; eapply holds_length; eauto|]. split; [|split; [|split; [exact Ef|split; [exact Hfz|split]]]].
  - apply repr_intro; [exact L'| | |].
    + eapply holds_ext; [|apply holds_app; eassumption]. intros x ndx Hx Hnx. destruct (Kp x ndx Hx Hnx) as (y & A & B1 & B2). eauto.
    + eapply distinct_drop; eauto.
    + rewrite Hl, (r_len _ _ _ _ _ _ _ _ H), !app_length. cbn. lia.
  - eapply dremove_split; eauto.
  - intros E. rewrite E in Ht. destruct (htbl g); [contradiction|discriminate].
  - destruct (seg_at _ _ _ _ _ _ (l_seg _ _ _ _ _ _ L)) as (nd0 & N0 & P0 & _). rewrite Hni in N0. injection N0 as <-.
    eapply unlink_next; [exact U|exact Hni|]. rewrite P0. apply last_or_not; [|discriminate].
    pose proof (NoDup_remove_2 _ _ _ (l_nodup _ _ _ _ _ _ L)) as X. intros Y. apply X, in_or_app. now left.
Qed.

(* ---------- the nodes that the iteration will visit ---------- *)
Definition keysof s (b : list nat) (kb : list K) : Prop := Forall2 (fun j k => exists n, nth_error s j = Some n /\ nkey n = k) b kb.
Fixpoint fwd s (b : list nat) : Prop := match b with [] => True | i :: r => exists nd, nth_error s i = Some nd /\ nnext nd = hd_or r None /\ fwd s r end.
Lemma keysof_functional s b kb kb' : keysof s b kb -> keysof s b kb' -> kb = kb'.
Proof.
  intros H. revert kb'. induction H as [|j k b kb (n & N & E) F IH]; intros kb' H'; inversion H' as [|? k' ? kb2 (n' & N' & E') F']; subst; [reflexivity|].
  rewrite N in N'. injection N' as <-. f_equal. now apply IH.
Qed.
Lemma holds_keys s ids d : holds s ids d -> keysof s ids (map fst d).
Proof. induction 1 as [|j x b kb (n & N & E & _) F IH]; cbn [map]; constructor; eauto. Qed.
Lemma keysof_app s a b ka kb : keysof s a ka -> keysof s b kb -> keysof s (a ++ b) (ka ++ kb).
Proof. intros. now apply Forall2_app. Qed.
Lemma keysof_split s a b k : keysof s (a ++ b) k -> exists ka kb, k = ka ++ kb /\ keysof s a ka /\ keysof s b kb.
Proof. intros H. apply Forall2_app_inv_l in H as (ka & kb & A & B & E). eauto. Qed.
Lemma seg_fwd s a b p : seg s p (a ++ b) None -> fwd s b.
Proof.
  revert p. induction a as [|x a IH]; intros p; cbn [app HMapInv.seg].
  - revert p. induction b as [|i b IH]; intros p; cbn [HMapInv.seg fwd]; [auto|]. intros (nd & A & _ & B & C). exists nd. split; [exact A|]. split; [exact B|]. eapply IH; eauto.
  - intros (nd & _ & _ & _ & H). eapply IH; eauto.
Qed.
Lemma fwd_same s s' b : (forall j, In j b -> nth_error s' j = nth_error s j) -> fwd s b -> fwd s' b.
Proof. induction b as [|i b IH]; intros E; cbn [fwd]; [auto|]. intros (nd & A & B & C). exists nd. rewrite E by now left. split; [exact A|]. split; [exact B|]. apply IH; auto. intros j Hj. apply E. now right. Qed.
Lemma keysof_same s s' b kb : (forall j, In j b -> nth_error s' j = nth_error s j) -> keysof s b kb -> keysof s' b kb.
Proof. intros E H. induction H as [|j k b kb (n & N & X) F IH]; constructor; [exists n; rewrite E by (now left); auto|]. apply IH. intros x Hx. apply E. now right. Qed.
Lemma keysof_lt s b kb j : keysof s b kb -> In j b -> (j < length s)%nat.
Proof. intros H. induction H as [|i k b kb (n & N & _) F IH]; [contradiction|]. intros [<-|X]; [eapply nth_error_Some_lt; eauto|auto]. Qed.

(* linked into the map up to its end, or left behind by it *)
Definition follow s ids (b : list nat) (kb : list K) : Prop := keysof s b kb /\ fwd s b /\ ((exists a, ids = a ++ b) \/ forall j, In j b -> ~ In j ids).
Lemma keysof_length s b kb : keysof s b kb -> length b = length kb.
Proof. induction 1; cbn; congruence. Qed.
Lemma follow_attached s g a b d kb : repr s g (a ++ b) d -> keysof s (a ++ b) (map fst d) -> (exists ka, map fst d = ka ++ kb /\ length ka = length a) -> follow s (a ++ b) b kb.
Proof.
  intros R H (ka & E & L). rewrite E in H. apply keysof_split in H as (ka' & kb' & E' & A & B).
  assert (LA : length ka = length ka') by (rewrite L; eapply keysof_length; eauto). apply app_inj_len in E'; [|exact LA]. destruct E' as [-> ->].
  split; [exact B|]. split; [|left; eauto]. eapply seg_fwd. apply R.
Qed.
Lemma attached_keys s g a b d kb : repr s g (a ++ b) d -> keysof s b kb -> exists ka, map fst d = ka ++ kb /\ length ka = length a.
Proof.
  intros R B. pose proof (holds_keys _ _ _ (r_holds _ _ _ _ _ _ _ _ R)) as H. apply keysof_split in H as (ka & kb' & E & A & B').
  rewrite (keysof_functional _ _ _ _ B B'). exists ka. split; [exact E|]. symmetry. eapply keysof_length; eauto.
Qed.
Lemma dput_keys d k v : dget d k <> None -> map fst (dput d k v) = map fst d.
Proof.
  induction d as [|[k' v'] r IH]; cbn; [congruence|]. destruct (keq k k'); cbn; [reflexivity|]. intros H. f_equal. now apply IH.
Qed.
Lemma follow_put s g ids d b kb k v : repr s g ids d -> follow s ids b kb -> hfrozen g = false ->
  exists s' g' ids' xb xk, do_act K V keq khash s g (APut K V k v) = Some (s', g') /\ repr s' g' ids' (dput d k v) /\ htbl g' <> [] /\ hfrozen g' = false /\ follow s' ids' (b ++ xb) (kb ++ xk).
Proof using keq_refl keq_sym keq_trans keq_hash.
  intros R (FK & FW & FA) Z0. destruct (hput_ids s g ids d k v R) as (s' & g' & ids' & E & R' & EF & Z1 & T & C). unfold do_act. rewrite Z0, E. exists s', g', ids'.
  destruct FA as [[a ->]|FA].
  - destruct (attached_keys _ _ _ _ _ _ R FK) as (ka & E1 & L1). pose proof (holds_keys _ _ _ (r_holds _ _ _ _ _ _ _ _ R')) as HK.
    destruct C as [[-> G]|[[-> G]|[EF0 G]]].
    + exists [], []. rewrite !app_nil_r. split; [reflexivity|]. split; [exact R'|]. split; [exact T|]. split; [congruence|].
      eapply follow_attached; eauto. exists ka. rewrite dput_keys by exact G. auto.
    + exists [length s], [k]. split; [reflexivity|]. split; [exact R'|]. split; [exact T|]. split; [congruence|].
      rewrite <- app_assoc in *. eapply follow_attached; eauto. exists ka. rewrite (dput_new _ _ _ _ _ _ G), map_app, E1, <- app_assoc. auto.
    + exists [], []. rewrite !app_nil_r. split; [reflexivity|]. split; [exact R'|]. split; [exact T|]. split; [congruence|].
      assert (SM : forall j, In j b -> nth_error s' j = nth_error s j). { intros j Hj. apply (e_same _ _ _ _ _ _ EF0); [eapply keysof_lt; eauto|intros []]. }
      split; [eapply keysof_same; eauto|]. split; [eapply fwd_same; eauto|]. right. intros j Hj X. pose proof (keysof_lt _ _ _ _ FK Hj). destruct (e_new _ _ _ _ _ _ EF0 j X) as [[]|]. lia.
  - exists [], []. rewrite !app_nil_r. split; [reflexivity|]. split; [exact R'|]. split; [exact T|]. split; [congruence|].
    assert (SM : forall j, In j b -> nth_error s' j = nth_error s j). { intros j Hj. apply (e_same _ _ _ _ _ _ EF); [eapply keysof_lt; eauto|now apply FA]. }
    split; [eapply keysof_same; eauto|]. split; [eapply fwd_same; eauto|]. right. intros j Hj X. pose proof (keysof_lt _ _ _ _ FK Hj). destruct (e_new _ _ _ _ _ _ EF j X) as [Y|Y]; [exact (FA j Hj Y)|lia].
Qed.
Lemma follow_puts puts : Forall (is_put K V) puts -> forall s g ids d b kb, repr s g ids d -> htbl g <> [] -> follow s ids b kb -> hfrozen g = false ->
  exists s' g' ids' d' xb xk, do_acts K V keq khash s g puts = Some (s', g') /\ repr s' g' ids' d' /\ htbl g' <> [] /\ hfrozen g' = false /\ follow s' ids' (b ++ xb) (kb ++ xk).
Proof using keq_refl keq_sym keq_trans keq_hash.
  induction 1 as [|a puts A F IH]; intros s g ids d b kb R T FO Z0.
  - exists s, g, ids, d, [], []. rewrite !app_nil_r. cbn. auto.
  - destruct a as [k v|k]; [|contradiction]. destruct (follow_put s g ids d b kb k v R FO Z0) as (s1 & g1 & ids1 & xb & xk & E & R1 & T1 & Z1 & FO1).
    destruct (IH s1 g1 ids1 _ _ _ R1 T1 FO1 Z1) as (s2 & g2 & ids2 & d2 & yb & yk & E2 & R2 & T2 & Z2 & FO2).
    exists s2, g2, ids2, d2, (xb ++ yb), (xk ++ yk). cbn [do_acts]. rewrite E. rewrite !app_assoc. auto.
Qed.
Lemma follow_remove s g ids d i b k kb k' : repr s g ids d -> htbl g <> [] -> hfrozen g = false -> follow s ids (i :: b) (k :: kb) -> keq k' k = true ->
  exists s' g' ids' d' nd, do_act K V keq khash s g (ARemove K V k') = Some (s', g') /\ repr s' g' ids' d' /\ htbl g' <> [] /\ hfrozen g' = false /\ follow s' ids' b kb /\
    nth_error s' i = Some nd /\ nnext nd = hd_or b None.
Proof using keq_refl keq_sym keq_trans keq_hash.
  intros R T Z0 (FK & FW & FA) Q. inversion FK as [|? ? ? ? (nd & N & NK) FK']; subst. cbn [fwd] in FW. destruct FW as (nd2 & N2 & X2 & FW). rewrite N in N2. injection N2 as <-. unfold do_act. rewrite Z0. destruct FA as [[a ->]|FA].
  - destruct (hremove_current s g a i b d nd k' R T N Q) as (s' & g' & d1 & d2 & E & -> & L & R' & _ & EF & Z1 & T' & nd' & N' & X'). rewrite E.
    exists s', g', (a ++ b), (d1 ++ d2), nd'. split; [reflexivity|]. split; [exact R'|]. split; [exact T'|]. split; [congruence|]. split; [|split; [exact N'|congruence]].
    eapply follow_attached; [exact R'|apply holds_keys, R'|]. exists (map fst d1). rewrite map_app, map_length. split; [|exact L]. f_equal.
    destruct (attached_keys _ _ a (i :: b) _ _ R FK) as (ka & E1 & L1). rewrite map_app in E1. apply app_inj_len in E1; [|rewrite map_length; lia]. destruct E1 as [_ E1]. cbn in E1. congruence.
  - destruct (hremove_ok _ _ keq khash keq_sym keq_trans keq_hash s g ids d k' R T) as (s' & g' & ids' & E & R' & EF & Z1 & T'). rewrite E.
    assert (SM : forall j, In j (i :: b) -> nth_error s' j = nth_error s j). { intros j Hj. apply (e_same _ _ _ _ _ _ EF); [exact (keysof_lt _ _ _ _ FK Hj)|now apply FA]. }
    exists s', g', ids', (dremove d k'), nd. split; [reflexivity|]. split; [exact R'|]. split; [exact T'|]. split; [congruence|]. split; [|split; [rewrite SM by (now left); exact N|exact X2]].
    split; [eapply keysof_same; [|exact FK']; intros j Hj; apply SM; now right|]. split; [eapply fwd_same; [|exact FW]; intros j Hj; apply SM; now right|].
    right. intros j Hj X. pose proof (keysof_lt _ _ _ _ FK' Hj). destruct (e_new _ _ _ _ _ _ EF j X) as [Y|Y]; [exact (FA j (or_intror Hj) Y)|lia].
Qed.
Lemma follow_tail s ids i b k kb : follow s ids (i :: b) (k :: kb) -> follow s ids b kb.
Proof.
  intros (FK & FW & FA). inversion FK; subst. cbn [fwd] in FW. destruct FW as (nd & _ & _ & FW). split; [assumption|]. split; [exact FW|].
  destruct FA as [[a ->]|FA]; [left; exists (a ++ [i]); now rewrite <- app_assoc|right; intros j Hj; apply FA; now right].
Qed.
Lemma do_acts_app s g l1 l2 : do_acts K V keq khash s g (l1 ++ l2) = match do_acts K V keq khash s g l1 with Some (s', g') => do_acts K V keq khash s' g' l2 | None => None end.
Proof. revert s g. induction l1 as [|a l1 IH]; intros s g; cbn [app do_acts]; [reflexivity|]. destruct (do_act K V keq khash s g a) as [[s' g']|]; [apply IH|reflexivity]. Qed.
Lemma ids_table s g ids d : repr s g ids d -> ids <> [] -> htbl g <> [].
Proof. intros R N E. destruct (repr_ids_nil _ _ _ _ _ _ _ _ R E) as [X _]. contradiction. Qed.

Section Callback.
Variable f : list (K * V) -> list (act K V).
Lemma each_all (F : may_remove_current K V keq f) fuel : forall ks s g ids d b xk seen, repr s g ids d -> (b <> [] -> htbl g <> []) -> hfrozen g = false -> follow s ids b (ks ++ xk) -> (length ks <= fuel)%nat ->
  exists s' g' vs fin, each K V keq khash fuel f s g seen (hd_or b None) = Some (s', g', vs, fin) /\ exists extra, map fst vs = map fst (rev seen) ++ ks ++ extra.
Proof using keq_refl keq_sym keq_trans keq_hash.
  induction fuel as [|fuel IH]; intros ks s g ids d b xk seen R T Z0 FO LE.
  - destruct ks; [|cbn in LE; lia]. destruct b as [|i b]; cbn [hd_or each]; (do 4 eexists; split; [reflexivity|]; exists []; now rewrite app_nil_r).
  - destruct b as [|i b]; cbn [hd_or each].
    + destruct FO as (FK & _). apply keysof_length in FK. destruct ks; [|discriminate]. do 4 eexists. split; [reflexivity|]. exists []. now rewrite app_nil_r.
    + assert (X : exists k kb, ks ++ xk = k :: kb). { destruct FO as (FK & _). apply keysof_length in FK. destruct (ks ++ xk); [discriminate|eauto]. }
      destruct X as (k & kb & EK). rewrite EK in FO.
      assert (N : exists nd, nth_error s i = Some nd /\ nkey nd = k). { destruct FO as (FK & _). now inversion FK. }
      destruct N as (nd & N & NK). rewrite N. cbn zeta. specialize (T ltac:(discriminate)).
      destruct (F (nkey nd) (nval nd) seen) as (puts & FP & O).
      destruct (follow_puts puts FP s g ids d _ _ R T FO Z0) as (s1 & g1 & ids1 & d1 & xb & xk1 & E1 & R1 & T1 & Z1 & FO1). cbn [app] in FO1.
      assert (Y : exists s2 g2 ids2 d2 nd2, do_acts K V keq khash s g (f ((nkey nd, nval nd) :: seen)) = Some (s2, g2) /\ repr s2 g2 ids2 d2 /\ htbl g2 <> [] /\ hfrozen g2 = false /\
        follow s2 ids2 (b ++ xb) (kb ++ xk1) /\ nth_error s2 i = Some nd2 /\ nnext nd2 = hd_or (b ++ xb) None).
      { destruct O as [->|(k' & Q & ->)].
        - pose proof FO1 as (_ & FW & _). cbn [fwd] in FW. destruct FW as (nd2 & N2 & X2 & _). exists s1, g1, ids1, d1, nd2. split; [exact E1|]. split; [exact R1|]. split; [exact T1|]. split; [exact Z1|]. split; [eapply follow_tail; eauto|auto].
        - rewrite do_acts_app, E1. rewrite NK in Q. destruct (follow_remove s1 g1 ids1 d1 i (b ++ xb) k (kb ++ xk1) k' R1 T1 Z1 FO1 Q) as (s2 & g2 & ids2 & d2 & nd2 & E2 & R2 & T2 & Z2 & FO2 & N2 & X2).
          exists s2, g2, ids2, d2, nd2. cbn [do_acts]. rewrite E2. auto 10. }
      destruct Y as (s2 & g2 & ids2 & d2 & nd2 & E2 & R2 & T2 & Z2 & FO2 & N2 & X2). rewrite E2, N2, X2.
      destruct ks as [|k0 ks].
      * cbn [app] in EK. assert (FO3 : follow s2 ids2 (b ++ xb) ([] ++ kb ++ xk1)) by exact FO2.
        destruct (IH [] s2 g2 ids2 d2 (b ++ xb) (kb ++ xk1) ((nkey nd, nval nd) :: seen) R2 (fun _ => T2) Z2 FO3 ltac:(cbn; lia)) as (s3 & g3 & vs & fin & E3 & extra & V3).
        exists s3, g3, vs, fin. split; [exact E3|]. cbn [rev app] in V3. rewrite map_app in V3. cbn [map fst] in V3. rewrite <- app_assoc in V3. cbn [app] in *. eauto.
      * cbn [app] in EK. injection EK as <- <-. rewrite <- app_assoc in FO2.
        destruct (IH ks s2 g2 ids2 d2 (b ++ xb) (xk ++ xk1) ((nkey nd, nval nd) :: seen) R2 (fun _ => T2) Z2 FO2 ltac:(cbn in LE; lia)) as (s3 & g3 & vs & fin & E3 & extra & V3).
        exists s3, g3, vs, fin. split; [exact E3|]. exists extra. rewrite V3. cbn [rev]. rewrite map_app, <- app_assoc. cbn [map fst app]. now rewrite NK.
Qed.

(* ---------- keys that are there ---------- *)
Lemma keysof_at s a i b ks : keysof s (a ++ i :: b) ks -> exists n, nth_error s i = Some n /\ nth_error ks (length a) = Some (nkey n).
Proof. intros H. apply keysof_split in H as (ka & kb & -> & A & B). inversion B as [|? ? ? ? (n & N & E) F]; subst. exists n. split; [exact N|]. rewrite (keysof_length _ _ _ A), nth_error_app2, Nat.sub_diag by lia. reflexivity. Qed.
Let Law : lawful K keq khash.
Proof. constructor; assumption. Qed.
Definition current s g i b k d kb : Prop := exists pre nd, repr s g (pre ++ b) d /\ htbl g <> [] /\ hfrozen g = false /\ nth_error s i = Some nd /\ nnext nd = hd_or b None /\
  (exists ka, map fst d = ka ++ kb /\ length ka = length pre) /\ ((exists a, pre = a ++ [i] /\ nkey nd = k) \/ (~ In i (pre ++ b) /\ dget d k = None)).
Lemma current_act s g i b k d kb a d' : current s g i b k d kb -> act_spec K V keq k d a = Some d' ->
  exists s' g', do_act K V keq khash s g a = Some (s', g') /\ current s' g' i b k d' kb.
Proof using keq_refl keq_sym keq_trans keq_hash.
  intros (pre & nd & R & T & Z0 & N & X & KA & C) A. destruct a as [k' v|k']; cbn [act_spec] in A.
  - destruct (dget d k') as [v0|] eqn:G; [|discriminate]. injection A as <-.
    destruct (hput_ids s g _ d k' v R) as (s' & g' & ids' & E & R' & EF & Z1 & T' & CC). unfold do_act. rewrite Z0, E. exists s', g'. split; [reflexivity|].
    destruct CC as [[-> _]|[[_ G']|[_ G']]]; [|congruence|congruence].
    assert (DK : map fst (dput d k' v) = map fst d) by (apply dput_keys; congruence).
    destruct C as [(a & -> & NK)|[NI DG]].
    + rewrite <- app_assoc in R, R'. cbn [app] in R, R'. destruct (keysof_at s _ _ _ _ (holds_keys _ _ _ (r_holds _ _ _ _ _ _ _ _ R))) as (n1 & N1 & K1).
      destruct (keysof_at s' _ _ _ _ (holds_keys _ _ _ (r_holds _ _ _ _ _ _ _ _ R'))) as (n2 & N2 & K2). rewrite DK, K1 in K2. injection K2 as K2. rewrite N in N1. injection N1 as <-.
      destruct (seg_at _ _ _ _ _ _ (l_seg _ _ _ _ _ _ (r_links _ _ _ _ _ _ _ _ R'))) as (n3 & N3 & _ & X3). rewrite N2 in N3. injection N3 as <-.
      exists (a ++ [i]), n2. rewrite <- app_assoc. cbn [app]. split; [exact R'|]. split; [exact T'|]. split; [congruence|]. split; [exact N2|]. split; [exact X3|].
      split; [rewrite DK; exact KA|left; exists a; split; [reflexivity|congruence]].
    + exists pre, nd. split; [exact R'|]. split; [exact T'|]. split; [congruence|].
      split; [rewrite (e_same _ _ _ _ _ _ EF); [exact N|eapply nth_error_Some_lt; eauto|exact NI]|]. split; [exact X|]. split; [rewrite DK; exact KA|right; split; [exact NI|]].
      rewrite (dget_dput K V keq khash Law). destruct (keq k k') eqn:Q; [|exact DG]. rewrite (dget_cong K V keq khash Law d _ _ Q) in DG. congruence.
  - destruct (keq k' k) eqn:Q; [|discriminate]. injection A as <-. unfold do_act. rewrite Z0. destruct C as [(a & -> & NK)|[NI DG]].
    + rewrite <- app_assoc in R. cbn [app] in R. rewrite <- NK in Q.
      destruct (hremove_current s g a i b d nd k' R T N Q) as (s' & g' & d1 & d2 & E & ED & L & R' & DR & EF & Z1 & T' & nd' & N' & X'). rewrite E, DR.
      exists s', g'. split; [reflexivity|]. exists a, nd'. split; [exact R'|]. split; [exact T'|]. split; [congruence|]. split; [exact N'|]. split; [congruence|]. split.
      * destruct KA as (ka & E1 & L1). exists (map fst d1). rewrite map_length. split; [|exact L]. rewrite map_app. f_equal. rewrite ED, map_app in E1. cbn [map fst] in E1.
        change (nkey nd :: map fst d2) with ([nkey nd] ++ map fst d2) in E1. rewrite app_assoc in E1. apply app_inj_len in E1; [apply E1|]. rewrite !app_length in *. rewrite map_length. cbn in *. lia.
      * right. split; [apply NoDup_remove_2, (l_nodup _ _ _ _ _ _ (r_links _ _ _ _ _ _ _ _ R))|]. rewrite <- DR.
        rewrite (dget_dremove K V keq khash Law) by apply R. rewrite <- NK, (keq_sym _ _ Q). reflexivity.
    + rewrite <- (dget_cong K V keq khash Law d _ _ Q) in DG. rewrite (hremove_absent s g _ d k' R T DG). exists s, g. split; [reflexivity|].
      rewrite (dremove_none _ _ _ _ _ DG). exists pre, nd. rewrite (dget_cong K V keq khash Law d _ _ Q) in DG. auto 12.
Qed.
Lemma current_acts i b k kb l : forall s g d d', current s g i b k d kb -> acts_spec K V keq k d l = Some d' ->
  exists s' g', do_acts K V keq khash s g l = Some (s', g') /\ current s' g' i b k d' kb.
Proof using keq_refl keq_sym keq_trans keq_hash.
  induction l as [|a l IH]; intros s g d d' C A; cbn [acts_spec] in A; [injection A as <-; cbn; eauto|].
  destruct (act_spec K V keq k d a) as [d1|] eqn:A1; [|discriminate]. destruct (current_act _ _ _ _ _ _ _ _ _ C A1) as (s1 & g1 & E1 & C1). cbn [do_acts]. rewrite E1. eauto.
Qed.
Lemma each_same ks : forall fuel s g pre b d seen d' vs, repr s g (pre ++ b) d -> hfrozen g = false -> (exists ka, map fst d = ka ++ ks /\ length ka = length pre) -> (length ks <= fuel)%nat ->
  each_spec K V keq f ks d seen = Some (d', vs) ->
  exists s' g' ids', each K V keq khash fuel f s g seen (hd_or b None) = Some (s', g', vs, true) /\ repr s' g' ids' d'.
Proof using keq_refl keq_sym keq_trans keq_hash.
  induction ks as [|k ks IH]; intros fuel s g pre b d seen d' vs R Z0 (ka & KA & LA) LE SP; cbn [each_spec] in SP.
  - pose proof (holds_length _ _ _ _ _ (r_holds _ _ _ _ _ _ _ _ R)) as HL. rewrite <- (map_length fst d), KA, !app_length in HL. cbn in HL. destruct b; [|cbn in HL; lia].
    injection SP as <- <-. exists s, g, (pre ++ []). cbn [hd_or]. destruct fuel; auto.
  - pose proof (holds_length _ _ _ _ _ (r_holds _ _ _ _ _ _ _ _ R)) as HL. rewrite <- (map_length fst d), KA, !app_length in HL. cbn in HL. destruct b as [|i b]; [cbn in HL; lia|].
    destruct fuel as [|fuel]; [cbn in LE; lia|]. cbn [hd_or each].
    destruct (holds_split _ _ _ _ _ _ _ (r_holds _ _ _ _ _ _ _ _ R)) as (d1 & d2 & nd & ED & N & H1 & H2). rewrite N. cbn zeta.
    pose proof (holds_length _ _ _ _ _ H1) as L1.
    assert (EK : map fst d1 = ka /\ nkey nd = k /\ map fst d2 = ks).
    { rewrite ED, map_app in KA. apply app_inj_len in KA; [|rewrite map_length; lia]. destruct KA as [A B]. cbn in B. injection B as B1 B2. auto. }
    destruct EK as (E1 & NK & E2).
    assert (DG : dget d k = Some (nval nd)).
    { rewrite ED. eapply dget_split; [| |rewrite <- ED; apply R|apply in_or_app; right; left; reflexivity|rewrite NK; apply keq_refl]; assumption. }
    rewrite DG in SP. destruct (acts_spec K V keq k d (f ((k, nval nd) :: seen))) as [d3|] eqn:A; [|discriminate]. rewrite NK.
    assert (C : current s g i b k d ks).
    { destruct (seg_at _ _ _ _ _ _ (l_seg _ _ _ _ _ _ (r_links _ _ _ _ _ _ _ _ R))) as (n3 & N3 & _ & X3). rewrite N in N3. injection N3 as <-.
      exists (pre ++ [i]), nd. rewrite <- app_assoc. cbn [app]. split; [exact R|]. split; [eapply ids_table; [exact R|]; now destruct pre|]. split; [exact Z0|]. split; [exact N|]. split; [exact X3|].
      split; [|left; eauto]. exists (ka ++ [k]). rewrite <- app_assoc, !app_length. cbn. split; [exact KA|lia]. }
    destruct (current_acts _ _ _ _ _ _ _ _ _ C A) as (s2 & g2 & E3 & pre2 & nd2 & R2 & T2 & Z2 & N2 & X2 & KA2 & _). rewrite E3, N2, X2.
    eapply IH; eauto. cbn in LE. lia.
Qed.

(* ---------- new keys for which there is room ---------- *)
Lemma hput_room s g ids d k v : repr s g ids d -> htbl g <> [] -> (3 * Z.of_nat (length (htbl g)) <? 4 * (Z.of_nat (length d) + 1))%Z = false \/ dget d k <> None ->
  exists s' g', hput K V keq khash s g k v = Some (s', g', dget d k) /\ length (htbl g') = length (htbl g) /\ hfrozen g' = hfrozen g /\
    exists ids', repr s' g' ids' (dput d k v) /\ effect s ids s' ids' /\ ((ids' = ids /\ dget d k <> None) \/ (ids' = ids ++ [length s] /\ dget d k = None)).
Proof using keq_refl keq_sym keq_trans keq_hash.
  intros H0 Hne Room. unfold hput. destruct (htbl g) as [|t0 tr] eqn:ET; [contradiction|]. rewrite <- ET in *. clear t0 tr ET.
  destruct (l_tbl _ _ _ _ _ _ (r_links _ _ _ _ _ _ _ _ H0)) as [[E' _]|[P _]]; [contradiction|].
  rewrite (nth_error_hidx _ _ _ _ P).
  destruct (repr_find _ _ keq khash keq_sym keq_trans keq_hash s g ids d k H0 Hne) as (r & -> & Hr).
  destruct r as [i|].
  - destruct Hr as (Hi & nd & Hn & Hk & Hg). rewrite Hn. rewrite Hg.
    destruct (set_val_repr _ _ keq khash keq_sym keq_trans s g ids d i nd k v H0 Hi Hn Hk) as [R E].
    eexists. eexists. split; [reflexivity|]. split; [reflexivity|]. split; [reflexivity|]. exists ids. split; [exact R|]. split; [exact E|]. left. split; [reflexivity|discriminate].
  - rewrite Hr in *. destruct Room as [Room|]; [|congruence]. unfold over_load, tlen. rewrite (r_len _ _ _ _ _ _ _ _ H0), Room.
    destruct (append_node_ok _ _ khash s g ids d k v (r_links _ _ _ _ _ _ _ _ H0) (r_holds _ _ _ _ _ _ _ _ H0) Hne)
      as (s2 & g2 & -> & L2 & Hh2 & E2 & Hl2 & Hf2 & Ht2).
    eexists. eexists. split; [reflexivity|]. cbn. split; [exact Ht2|]. split; [exact Hf2|]. exists (ids ++ [length s]).
    rewrite (dput_new _ _ _ _ _ _ Hr). split; [constructor|].
    + eapply links_same; [| | |exact L2]; reflexivity.
    + exact Hh2.
    + cbn. rewrite Hl2, (r_len _ _ _ _ _ _ _ _ H0), app_length. cbn. lia.
    + eapply distinct_snoc; eauto. apply H0.
    + split; [exact E2|]. right. auto.
Qed.
Lemma unlink_tbl s g hk p i s' g' : unlink (K := K) (V := V) s g hk p i = Some (s', g') -> length (htbl g') = length (htbl g).
Proof.
  unfold unlink. destruct (nth_error s i) as [nd|]; [|discriminate].
  set (x := match p with None => _ | Some _ => _ end).
  assert (A : forall s1 t1, x = Some (s1, t1) -> length t1 = length (htbl g)).
  { intros s1 t1. unfold x. destruct p; [|intros X; injection X as <- <-; apply upd_length]. destruct (mutate s _ _); [|discriminate]. intros X. injection X as <- <-. reflexivity. }
  destruct x as [[s1 t1]|]; [|discriminate]. specialize (A s1 t1 eq_refl).
  set (y := match nprev nd with None => _ | Some _ => _ end). destruct y as [[s2 f2]|]; [|discriminate].
  destruct (nnext nd); [destruct (mutate s2 _ _) as [s0|]; [|discriminate]|]; intros H; injection H as <- <-; exact A.
Qed.
Lemma hremove_tbl s g k s' g' r : hremove K V keq khash s g k = Some (s', g', r) -> length (htbl g') = length (htbl g).
Proof.
  unfold hremove. destruct (nth_error _ _) as [e|]; [|discriminate].
  generalize (fuel_of s) as n, (hidx K khash (htbl g) k) as hk, (@None nat) as p, e as oe. induction n as [|n IH]; intros hk p oe; cbn [remove_loop]; destruct oe as [i|]; try discriminate;
    try (intros H; injection H as <- <- _; reflexivity).
  destruct (nth_error s i) as [nd|]; [|discriminate]. destruct (keq k (nkey nd)); [|apply IH].
  destruct (unlink s g hk p i) as [[s1 g1]|] eqn:U; [|discriminate]. intros H. injection H as <- <- _. eapply unlink_tbl; eauto.
Qed.

Definition standing size s g i b k d r (gone : bool) : Prop := exists pre nd, repr s g (pre ++ b) d /\ htbl g <> [] /\ length (htbl g) = size /\ hfrozen g = false /\ nth_error s i = Some nd /\ nnext nd = hd_or b None /\
  (exists ka, map fst d = ka ++ r /\ length ka = length pre) /\ (if gone then ~ In i (pre ++ b) else exists a, pre = a ++ [i] /\ nkey nd = k).
Lemma len_ne {A} (l l' : list A) : length l' = length l -> l <> [] -> l' <> [].
Proof. destruct l, l'; try discriminate; congruence. Qed.
Lemma pending_length s g pre b d (ka r : list K) : repr s g (pre ++ b) d -> map fst d = ka ++ r -> length ka = length pre -> length b = length r.
Proof. intros R KA LA. pose proof (holds_length _ _ _ _ _ (r_holds _ _ _ _ _ _ _ _ R)) as HL. rewrite <- (map_length fst d), KA, !app_length in HL. lia. Qed.
Lemma standing_act size s g i b k d r gone a d' r' gone' : standing size s g i b k d r gone -> act_room K V keq (Z.of_nat size) k (d, r, gone) a = Some (d', r', gone') ->
  exists s' g' b', do_act K V keq khash s g a = Some (s', g') /\ standing size s' g' i b' k d' r' gone'.
Proof using keq_refl keq_sym keq_trans keq_hash.
  intros (pre & nd & R & T & SZ & Z0 & N & X & KA & C) A. destruct a as [k' v|k']; cbn [act_room] in A; unfold do_act; rewrite Z0.
  - assert (Room : (3 * Z.of_nat (length (htbl g)) <? 4 * (Z.of_nat (length d) + 1))%Z = false \/ dget d k' <> None).
    { destruct (dget d k'); [right; discriminate|]. left. rewrite SZ. now destruct (_ <? _)%Z. }
    destruct (hput_room s g _ d k' v R T Room) as (s' & g' & E & TL & FZ & ids' & R' & EF & CC). rewrite E. exists s', g'.
    destruct CC as [[-> G]|[-> G]].
    + destruct (dget d k') as [v0|] eqn:DG; [|congruence]. injection A as <- <- <-. exists b. split; [reflexivity|].
      assert (DK : map fst (dput d k' v) = map fst d) by (apply dput_keys; congruence). destruct gone.
      * exists pre, nd. split; [exact R'|]. split; [eapply len_ne; eauto|]. split; [congruence|]. split; [congruence|].
        split; [rewrite (e_same _ _ _ _ _ _ EF); [exact N|eapply nth_error_Some_lt; eauto|exact C]|]. split; [exact X|]. split; [rewrite DK; exact KA|exact C].
      * destruct C as (a & -> & NK). rewrite <- app_assoc in R, R'. cbn [app] in R, R'. destruct (keysof_at s _ _ _ _ (holds_keys _ _ _ (r_holds _ _ _ _ _ _ _ _ R))) as (n1 & N1 & K1).
        destruct (keysof_at s' _ _ _ _ (holds_keys _ _ _ (r_holds _ _ _ _ _ _ _ _ R'))) as (n2 & N2 & K2). rewrite DK, K1 in K2. injection K2 as K2. rewrite N in N1. injection N1 as <-.
        destruct (seg_at _ _ _ _ _ _ (l_seg _ _ _ _ _ _ (r_links _ _ _ _ _ _ _ _ R'))) as (n3 & N3 & _ & X3). rewrite N2 in N3. injection N3 as <-.
        exists (a ++ [i]), n2. rewrite <- app_assoc. cbn [app]. split; [exact R'|]. split; [eapply len_ne; eauto|]. split; [congruence|]. split; [congruence|]. split; [exact N2|]. split; [exact X3|].
        split; [rewrite DK; exact KA|exists a; split; [reflexivity|congruence]].
    + rewrite G in A. destruct (_ <? _)%Z; [discriminate|]. cbn [orb] in A. destruct (gone && _) eqn:GP; [discriminate|]. injection A as <- <- <-. exists (b ++ [length s]). split; [reflexivity|].
      rewrite (dput_new _ _ _ _ _ _ G) in R'. destruct KA as (ka & KA & LA).
      assert (KA' : exists ka', map fst (d ++ [(k', v)]) = ka' ++ r ++ [k'] /\ length ka' = length pre). { exists ka. rewrite map_app, KA, <- app_assoc. auto. }
      assert (TN : htbl g' <> []) by (eapply len_ne; eauto). rewrite <- app_assoc in R'. destruct gone.
      * exists pre, nd. split; [exact R'|]. split; [exact TN|]. split; [congruence|]. split; [congruence|]. pose proof (nth_error_Some_lt _ _ _ N) as LT.
        split; [rewrite (e_same _ _ _ _ _ _ EF); [exact N|exact LT|exact C]|]. split.
        { pose proof (pending_length _ _ _ _ _ _ _ R KA LA) as PL. destruct r; [discriminate|]. destruct b; [discriminate|]. exact X. }
        split; [exact KA'|]. rewrite app_assoc. intros Y. apply in_app_or in Y as [Y|[Y|[]]]; [exact (C Y)|lia].
      * destruct C as (a & -> & NK). rewrite <- app_assoc in R. rewrite <- app_assoc in R'. cbn [app] in R, R'.
        destruct (keysof_at s _ _ _ _ (holds_keys _ _ _ (r_holds _ _ _ _ _ _ _ _ R))) as (n1 & N1 & K1).
        destruct (keysof_at s' _ _ _ _ (holds_keys _ _ _ (r_holds _ _ _ _ _ _ _ _ R'))) as (n2 & N2 & K2). rewrite N in N1. injection N1 as <-.
        rewrite map_app, nth_error_app1, K1 in K2 by (eapply nth_error_Some_lt; eauto). injection K2 as K2.
        destruct (seg_at _ _ _ _ _ _ (l_seg _ _ _ _ _ _ (r_links _ _ _ _ _ _ _ _ R'))) as (n3 & N3 & _ & X3). rewrite N2 in N3. injection N3 as <-.
        exists (a ++ [i]), n2. rewrite <- app_assoc. cbn [app]. split; [exact R'|]. split; [exact TN|]. split; [congruence|]. split; [congruence|]. split; [exact N2|]. split; [exact X3|].
        split; [exact KA'|exists a; split; [reflexivity|congruence]].
  - destruct (keq k' k) eqn:Q; [|discriminate]. destruct gone.
    + destruct (dget d k') eqn:DG; [discriminate|]. injection A as <- <- <-. rewrite (hremove_absent s g _ d k' R T DG). exists s, g, b. split; [reflexivity|]. exists pre, nd. auto 12.
    + injection A as <- <- <-. destruct C as (a & -> & NK). rewrite <- app_assoc in R. cbn [app] in R. rewrite <- NK in Q.
      destruct (hremove_current s g a i b d nd k' R T N Q) as (s' & g' & d1 & d2 & E & ED & L & R' & DR & EF & Z1 & T' & nd' & N' & X'). pose proof (hremove_tbl _ _ _ _ _ _ E) as TL. rewrite E, DR.
      exists s', g', b. split; [reflexivity|]. exists a, nd'. split; [exact R'|]. split; [exact T'|]. split; [congruence|]. split; [congruence|]. split; [exact N'|]. split; [congruence|]. split.
      * destruct KA as (ka & E1 & L1). exists (map fst d1). rewrite map_length. split; [|exact L]. rewrite map_app. f_equal. rewrite ED, map_app in E1. cbn [map fst] in E1.
        change (nkey nd :: map fst d2) with ([nkey nd] ++ map fst d2) in E1. rewrite app_assoc in E1. apply app_inj_len in E1; [apply E1|]. rewrite !app_length in *. rewrite map_length. cbn in *. lia.
      * apply NoDup_remove_2, (l_nodup _ _ _ _ _ _ (r_links _ _ _ _ _ _ _ _ R)).
Qed.
Lemma standing_acts size i k l : forall s g b d r gone d' r' gone', standing size s g i b k d r gone -> acts_room K V keq (Z.of_nat size) k (d, r, gone) l = Some (d', r', gone') ->
  exists s' g' b', do_acts K V keq khash s g l = Some (s', g') /\ standing size s' g' i b' k d' r' gone'.
Proof using keq_refl keq_sym keq_trans keq_hash.
  induction l as [|a l IH]; intros s g b d r gone d' r' gone' C A; cbn [acts_room] in A; [injection A as <- <- <-; cbn; eauto|].
  destruct (act_room K V keq _ k (d, r, gone) a) as [[[d1 r1] g1]|] eqn:A1; [|discriminate]. destruct (standing_act _ _ _ _ _ _ _ _ _ _ _ _ _ C A1) as (s1 & h1 & b1 & E1 & C1). cbn [do_acts]. rewrite E1. eauto.
Qed.
Lemma each_roomy fuel : forall size ks s g pre b d seen d' vs fin, repr s g (pre ++ b) d -> length (htbl g) = size -> hfrozen g = false -> (exists ka, map fst d = ka ++ ks /\ length ka = length pre) ->
  each_room K V keq (Z.of_nat size) fuel f ks d seen = Some (d', vs, fin) ->
  exists s' g' ids', each K V keq khash fuel f s g seen (hd_or b None) = Some (s', g', vs, fin) /\ repr s' g' ids' d'.
Proof using keq_refl keq_sym keq_trans keq_hash.
  induction fuel as [|fuel IH]; intros size ks s g pre b d seen d' vs fin R SZ Z0 (ka & KA & LA) SP; pose proof (pending_length _ _ _ _ _ _ _ R KA LA) as PL; destruct ks as [|k ks], b as [|i b]; try discriminate;
    cbn [each_room hd_or each] in *; try (injection SP as <- <- <-; eauto; fail).
  destruct (holds_split _ _ _ _ _ _ _ (r_holds _ _ _ _ _ _ _ _ R)) as (d1 & d2 & nd & ED & N & H1 & H2). rewrite N. cbn zeta.
  pose proof (holds_length _ _ _ _ _ H1) as L1.
  assert (EK : map fst d1 = ka /\ nkey nd = k /\ map fst d2 = ks).
  { rewrite ED, map_app in KA. apply app_inj_len in KA; [|rewrite map_length; lia]. destruct KA as [A B]. cbn in B. injection B as B1 B2. auto. }
  destruct EK as (E1 & NK & E2).
  assert (DG : dget d k = Some (nval nd)).
  { rewrite ED. eapply dget_split; [| |rewrite <- ED; apply R|apply in_or_app; right; left; reflexivity|rewrite NK; apply keq_refl]; assumption. }
  rewrite DG in SP. destruct (acts_room K V keq _ k (d, ks, false) (f ((k, nval nd) :: seen))) as [[[d3 r3] g3]|] eqn:A; [|discriminate]. rewrite NK.
  assert (C : standing size s g i b k d ks false).
  { destruct (seg_at _ _ _ _ _ _ (l_seg _ _ _ _ _ _ (r_links _ _ _ _ _ _ _ _ R))) as (n3 & N3 & _ & X3). rewrite N in N3. injection N3 as <-.
    exists (pre ++ [i]), nd. rewrite <- app_assoc. cbn [app]. split; [exact R|]. split; [eapply ids_table; [exact R|]; now destruct pre|]. split; [exact SZ|]. split; [exact Z0|]. split; [exact N|]. split; [exact X3|].
    split; [|eauto]. exists (ka ++ [k]). rewrite <- app_assoc, !app_length. cbn. split; [exact KA|lia]. }
  destruct (standing_acts _ _ _ _ _ _ _ _ _ _ _ _ _ C A) as (s2 & h2 & b2 & E3 & pre2 & nd2 & R2 & T2 & S2 & Z2 & N2 & X2 & KA2 & _). rewrite E3, N2, X2.
  eapply IH; eauto.
Qed.
End Callback.
End Proofs.

(* ---------- maps that operations have made ---------- *)
Section Reach.
Variables (K V : Type) (keq : K -> K -> bool) (khash : K -> Z) (veq : V -> V -> bool) (vnil : V -> bool) (vfreeze vthaw : V -> V).
Variable f : list (K * V) -> list (act K V).
Notation step := (step K V keq khash veq vnil vfreeze vthaw).
Notation run := (run K V keq khash veq vnil vfreeze vthaw).
Hypothesis Law : lawful K keq khash.

Lemma each_spec_keys ks : forall d seen d' vs, each_spec K V keq f ks d seen = Some (d', vs) -> map fst vs = map fst (rev seen) ++ ks.
Proof.
  induction ks as [|k ks IH]; intros d seen d' vs H; cbn [each_spec] in H; [injection H as <- <-; now rewrite app_nil_r|].
  destruct (dget K V keq d k) as [v|]; [|discriminate]. destruct (acts_spec K V keq k d _) as [d1|]; [|discriminate]. apply IH in H. rewrite H. cbn [rev]. rewrite map_app, <- app_assoc. reflexivity.
Qed.
Lemma reached os m g d : (forall o, In o os -> op_ok K V keq vnil o) -> let w := fst (run init os) in nth_error (maps w) m = Some g -> snd (step w (OpEntries m)) = REntries d ->
  exists ids, repr K V keq khash (nodes w) g ids d.
Proof using Law.
  intros Hok w Hg HE. destruct (reach K V keq khash veq vnil vfreeze vthaw Law os Hok) as (cs & HR). fold w in HR.
  assert (Hm : (m < length cs)%nat). { destruct HR as (A & _). rewrite <- (map_length (cg K V) cs), <- A. eapply nth_error_Some_lt; eauto. }
  destruct (nth_error cs m) as [c|] eqn:Ec; [|apply nth_error_None in Ec; lia]. destruct (read_any _ _ _ _ _ _ _ _ _ HR Ec) as [Hg' Hc]. rewrite Hg in Hg'. injection Hg' as ->.
  pose proof (k_repr _ _ _ _ _ _ Hc) as R. cbn [HMap.step] in HE. unfold with_map in HE. rewrite Hg, (hentries_ok _ _ _ _ _ _ _ _ R) in HE. cbn [snd] in HE. injection HE as <-. eauto.
Qed.
Lemma each_reached_same os m g d d' vs fuel : (forall o, In o os -> op_ok K V keq vnil o) -> let w := fst (run init os) in
  nth_error (maps w) m = Some g -> hfrozen g = false -> snd (step w (OpEntries m)) = REntries d -> each_spec K V keq f (map fst d) d [] = Some (d', vs) -> (length d <= fuel)%nat ->
  map fst vs = map fst d /\
  exists s' g', each_entry K V keq khash fuel f (nodes w) g = Some (s', g', vs, true) /\ hentries s' g' = Some d' /\ forall k, hget K V keq khash s' g' k = Some (dget K V keq d' k).
Proof using Law.
  intros Hok w Hg Z0 HE SP LE. destruct (reached os m g d Hok Hg HE) as (ids & R). split; [exact (each_spec_keys _ _ _ _ _ SP)|].
  destruct (each_same K V keq khash (law_refl _ _ _ Law) (law_sym _ _ _ Law) (law_trans _ _ _ Law) (law_hash _ _ _ Law) f (map fst d) fuel (nodes w) g [] ids d [] d' vs R Z0) as (s' & g' & ids' & E & R').
  { exists []. auto. } { now rewrite map_length. } { exact SP. }
  exists s', g'. unfold each_entry. rewrite (l_first _ _ _ _ _ _ (r_links _ _ _ _ _ _ _ _ R)). split; [exact E|]. split; [apply (hentries_ok _ _ _ _ _ _ _ _ R')|].
  intros k. apply (hget_ok _ _ _ _ (law_sym _ _ _ Law) (law_trans _ _ _ Law) (law_hash _ _ _ Law) _ _ _ _ k R').
Qed.
Lemma each_reached_room os m g d d' vs fin fuel : (forall o, In o os -> op_ok K V keq vnil o) -> let w := fst (run init os) in
  nth_error (maps w) m = Some g -> hfrozen g = false -> snd (step w (OpEntries m)) = REntries d ->
  each_room K V keq (Z.of_nat (length (htbl g))) fuel f (map fst d) d [] = Some (d', vs, fin) ->
  exists s' g', each_entry K V keq khash fuel f (nodes w) g = Some (s', g', vs, fin) /\ hentries s' g' = Some d' /\ forall k, hget K V keq khash s' g' k = Some (dget K V keq d' k).
Proof using Law.
  intros Hok w Hg Z0 HE SP. destruct (reached os m g d Hok Hg HE) as (ids & R).
  destruct (each_roomy K V keq khash (law_refl _ _ _ Law) (law_sym _ _ _ Law) (law_trans _ _ _ Law) (law_hash _ _ _ Law) f fuel _ (map fst d) (nodes w) g [] ids d [] d' vs fin R eq_refl Z0) as (s' & g' & ids' & E & R').
  { exists []. auto. } { exact SP. }
  exists s', g'. unfold each_entry. rewrite (l_first _ _ _ _ _ _ (r_links _ _ _ _ _ _ _ _ R)). split; [exact E|]. split; [apply (hentries_ok _ _ _ _ _ _ _ _ R')|].
  intros k. apply (hget_ok _ _ _ _ (law_sym _ _ _ Law) (law_trans _ _ _ Law) (law_hash _ _ _ Law) _ _ _ _ k R').
Qed.
Lemma each_reached_all os m g d fuel : (forall o, In o os -> op_ok K V keq vnil o) -> let w := fst (run init os) in
  nth_error (maps w) m = Some g -> hfrozen g = false -> snd (step w (OpEntries m)) = REntries d -> may_remove_current K V keq f -> (length d <= fuel)%nat ->
  exists s' g' vs fin extra, each_entry K V keq khash fuel f (nodes w) g = Some (s', g', vs, fin) /\ map fst vs = map fst d ++ extra.
Proof using Law.
  intros Hok w Hg Z0 HE F LE. destruct (reached os m g d Hok Hg HE) as (ids & R).
  destruct (each_all K V keq khash (law_refl _ _ _ Law) (law_sym _ _ _ Law) (law_trans _ _ _ Law) (law_hash _ _ _ Law) f F fuel (map fst d) (nodes w) g ids d ids [] [] R) as (s' & g' & vs & fin & E & extra & X).
  { intros N. eapply ids_table; eauto. } { exact Z0. }
  { rewrite app_nil_r. apply (follow_attached K V keq khash (nodes w) g [] ids d (map fst d) R); [apply holds_keys, R|]. exists []. auto. } { now rewrite map_length. }
  exists s', g', vs, fin, extra. unfold each_entry. rewrite (l_first _ _ _ _ _ _ (r_links _ _ _ _ _ _ _ _ R)). auto.
Qed.
End Reach.

(* ---------- an iteration without end ---------- *)
(* a callback of integer keys that replaces the entry that it is given by a new one, ten further on *)
Definition renamer (seen : list (Z * Z)) : list (act Z Z) := match seen with (k, v) :: _ => [APut Z Z (k + 10) v; ARemove Z Z k] | _ => [] end.
Lemma renamer_goes_on fuel : forall a b va vb seen, b - a = 3 \/ b - a = 7 ->
  exists d' vs, each_room Z Z Z.eqb 8 fuel renamer [a; b] [(a, va); (b, vb)] seen = Some (d', vs, false) /\ length vs = (length seen + fuel)%nat /\ length d' = 2%nat.
Proof.
  induction fuel as [|fuel IH]; intros a b va vb seen D; cbn [each_room].
  - exists [(a, va); (b, vb)], (rev seen). rewrite rev_length, Nat.add_0_r. auto.
  - cbn [dget]. rewrite Z.eqb_refl. cbn [renamer acts_room act_room dget].
    rewrite (proj2 (Z.eqb_neq (a + 10) a)), (proj2 (Z.eqb_neq (a + 10) b)) by lia.
    replace ((3 * 8 <? 4 * (Z.of_nat (length [(a, va); (b, vb)]) + 1)) || (false && false)) with false by reflexivity. cbn [app act_room]. rewrite Z.eqb_refl. cbn [dremove]. rewrite Z.eqb_refl.
    destruct (IH b (a + 10) vb va ((a, va) :: seen) ltac:(lia)) as (d' & vs & E & L1 & L2). exists d', vs. split; [exact E|]. split; [|exact L2]. rewrite L1. cbn [length]. lia.
Qed.
