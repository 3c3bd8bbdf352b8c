(* Representation invariant of HMap and the correctness of each operation on one map. *)
From Coq Require Import ZArith List Bool Lia.
From Verif Require Import Int64 HMap HMapSpec HMapBase.
Import ListNotations.
Open Scope Z_scope.

Ltac splits := repeat match goal with |- _ /\ _ => split end.

Lemma app_inj_len {A} (a b c d : list A) : length a = length c -> a ++ b = c ++ d -> a = c /\ b = d.
Proof.
  revert c. induction a as [|x a IH]; intros [|y c]; cbn; try discriminate; [auto|].
  intros Hl He. inversion He; subst. destruct (IH c) as [-> ->]; [lia|assumption|auto].
Qed.

Lemma NoDup_app_l {A} (a b : list A) : NoDup (a ++ b) -> NoDup a.
Proof.
  induction a as [|x a IH]; cbn; [constructor|]. intros H. inversion H; subst.
  constructor; [|auto]. intros Hi. apply H2. apply in_app_iff. auto.
Qed.

Section Inv.
Variables (K V : Type).
Variable keq : K -> K -> bool.
Variable khash : K -> Z.
Hypothesis keq_refl : forall k, keq k k = true.
Hypothesis keq_sym : forall a b, keq a b = true -> keq b a = true.
Hypothesis keq_trans : forall a b c, keq a b = true -> keq b c = true -> keq a c = true.
Hypothesis keq_hash : forall a b, keq a b = true -> khash a = khash b.

Notation node := (node K V).
Notation hidx := (hidx K khash).
Notation dget := (dget K V keq).
Notation dput := (dput K V keq).
Notation dremove := (dremove K V keq).
Notation distinct := (distinct K V keq).

Implicit Types (s : list node) (g : hmap) (d : list (K * V)) (ids : list nat).

Definition hd_or (l : list nat) (n : option nat) : option nat :=
  match l with [] => n | x :: _ => Some x end.
Fixpoint last_or (l : list nat) (p : option nat) : option nat :=
  match l with [] => p | x :: r => last_or r (Some x) end.

(* doubly linked segment: [p] before it, [n] after it *)
Fixpoint seg (s : list node) (p : option nat) (ids : list nat) (n : option nat) : Prop :=
  match ids with
  | [] => True
  | i :: r => exists nd, nth_error s i = Some nd /\ nprev nd = p /\ nnext nd = hd_or r n
                         /\ seg s (Some i) r n
  end.

Fixpoint schain (s : list node) (e : option nat) (c : list nat) : Prop :=
  match c with
  | [] => e = None
  | i :: r => e = Some i /\ exists nd, nth_error s i = Some nd /\ schain s (nhash nd) r
  end.

Definition bucket_ok (s : list node) (tbl : list (option nat)) (ids : list nat) (b : nat) (c : list nat) : Prop :=
  schain s (nth b tbl None) c /\ NoDup c /\
  forall i, In i c <-> In i ids /\ exists nd, nth_error s i = Some nd /\ hidx tbl (nkey nd) = b.

Definition buckets (s : list node) (tbl : list (option nat)) (ids : list nat) : Prop :=
  forall b, (b < length tbl)%nat -> exists c, bucket_ok s tbl ids b c.

Definition pow2 (tbl : list (option nat)) : Prop := exists k, 0 <= k /\ tlen tbl = 2 ^ k.

Definition holds (s : list node) (ids : list nat) (d : list (K * V)) : Prop :=
  Forall2 (fun i kv => exists nd, nth_error s i = Some nd /\ nkey nd = fst kv /\ nval nd = snd kv) ids d.

(* everything except the len field and the distinctness of keys *)
Record links (s : list node) (g : hmap) (ids : list nat) : Prop := {
  l_seg : seg s None ids None;
  l_first : hfirst g = hd_or ids None;
  l_last : hlast g = last_or ids None;
  l_nodup : NoDup ids;
  l_tbl : (htbl g = [] /\ ids = []) \/ (pow2 (htbl g) /\ buckets s (htbl g) ids) }.

Record repr (s : list node) (g : hmap) (ids : list nat) (d : list (K * V)) : Prop := {
  r_links : links s g ids;
  r_holds : holds s ids d;
  r_len : hlen g = Z.of_nat (length d);
  r_distinct : distinct d }.

(* ---------- elementary facts ---------- *)

Lemma hd_or_app l1 l2 n : hd_or (l1 ++ l2) n = hd_or l1 (hd_or l2 n).
Proof. destruct l1; reflexivity. Qed.

Lemma last_or_app l1 l2 p : last_or (l1 ++ l2) p = last_or l2 (last_or l1 p).
Proof. revert p. induction l1 as [|x r IH]; intros p; cbn; auto. Qed.

Lemma seg_app s p l1 l2 n :
  seg s p (l1 ++ l2) n <-> seg s p l1 (hd_or l2 n) /\ seg s (last_or l1 p) l2 n.
Proof.
  revert p. induction l1 as [|i r IH]; intros p; cbn.
  - tauto.
  - split.
    + intros (nd & H1 & H2 & H3 & H4). rewrite hd_or_app in H3. apply IH in H4.
      destruct H4. split; [|assumption]. exists nd. auto.
    + intros ((nd & H1 & H2 & H3 & H4) & H5). exists nd. rewrite hd_or_app.
      repeat split; auto. apply IH. auto.
Qed.

Lemma seg_in s p ids n i : seg s p ids n -> In i ids -> exists nd, nth_error s i = Some nd.
Proof.
  revert p. induction ids as [|j r IH]; intros p; cbn; [tauto|].
  intros (nd & H1 & _ & _ & H4) [<-|H]; [eauto|]. eapply IH; eauto.
Qed.

Lemma seg_lt s p ids n i : seg s p ids n -> In i ids -> (i < length s)%nat.
Proof. intros H Hi. destruct (seg_in _ _ _ _ _ H Hi) as [nd Hn]. eapply nth_error_Some_lt; eauto. Qed.

(* change of a store that keeps the order links of ids *)
Lemma seg_ext s s' p ids n :
  (forall i nd, In i ids -> nth_error s i = Some nd ->
     exists nd', nth_error s' i = Some nd' /\ nnext nd' = nnext nd /\ nprev nd' = nprev nd) ->
  seg s p ids n -> seg s' p ids n.
Proof.
  revert p. induction ids as [|i r IH]; intros p Hx; cbn; [tauto|].
  intros (nd & H1 & H2 & H3 & H4).
  destruct (Hx i nd (or_introl eq_refl) H1) as (nd' & G1 & G2 & G3).
  exists nd'. split; [exact G1|]. split; [congruence|]. split; [congruence|].
  apply IH; [|exact H4]. intros j ndj Hj. apply Hx. right. exact Hj.
Qed.

Lemma schain_ext s s' e c :
  (forall i nd, In i c -> nth_error s i = Some nd ->
     exists nd', nth_error s' i = Some nd' /\ nhash nd' = nhash nd) ->
  schain s e c -> schain s' e c.
Proof.
  revert e. induction c as [|i r IH]; intros e Hx; cbn; [tauto|].
  intros (He & nd & H1 & H2). split; [exact He|].
  destruct (Hx i nd (or_introl eq_refl) H1) as (nd' & G1 & G2).
  exists nd'. split; [exact G1|]. rewrite G2. apply IH; [|exact H2].
  intros j ndj Hj. apply Hx. right. exact Hj.
Qed.

Lemma schain_in s e c i : schain s e c -> In i c -> exists nd, nth_error s i = Some nd.
Proof.
  revert e. induction c as [|j r IH]; intros e; cbn; [tauto|].
  intros (_ & nd & H1 & H2) [<-|H]; [eauto|]. eapply IH; eauto.
Qed.

Lemma buckets_ext s s' tbl ids :
  (forall i, In i ids -> exists nd, nth_error s i = Some nd) ->
  (forall i nd, In i ids -> nth_error s i = Some nd ->
     exists nd', nth_error s' i = Some nd' /\ nhash nd' = nhash nd /\ nkey nd' = nkey nd) ->
  buckets s tbl ids -> buckets s' tbl ids.
Proof.
  intros Hal Hx H b Hb. destruct (H b Hb) as (c & H1 & H2 & H3). exists c.
  split; [|split; [exact H2|]].
  - apply (schain_ext s); [|exact H1]. intros i nd Hi Hn. apply H3 in Hi. destruct Hi as [Hi _].
    destruct (Hx i nd Hi Hn) as (nd' & G1 & G2 & G3). eauto.
  - intros i. split.
    + intros Hi. apply H3 in Hi. destruct Hi as (Hi & nd & Hn & Hk). split; [exact Hi|].
      destruct (Hx i nd Hi Hn) as (nd' & G1 & G2 & G3). exists nd'. split; [exact G1|]. congruence.
    + intros (Hi & nd' & Hn' & Hk). apply H3. split; [exact Hi|].
      destruct (Hal i Hi) as [nd E].
      exists nd. split; [exact E|]. destruct (Hx i nd Hi E) as (nd2 & G1 & G2 & G3).
      rewrite Hn' in G1. inversion G1; subst. congruence.
Qed.

Lemma holds_ext s s' ids d :
  (forall i nd, In i ids -> nth_error s i = Some nd ->
     exists nd', nth_error s' i = Some nd' /\ nkey nd' = nkey nd /\ nval nd' = nval nd) ->
  holds s ids d -> holds s' ids d.
Proof.
  intros Hx H. induction H as [|i kv r d' (nd & H1 & H2 & H3) H4 IH]; constructor.
  - destruct (Hx i nd (or_introl eq_refl) H1) as (nd' & G1 & G2 & G3).
    exists nd'. repeat split; congruence.
  - apply IH. intros j ndj Hj. apply Hx. right. exact Hj.
Qed.

Lemma links_alloc s g ids i : links s g ids -> In i ids -> exists nd, nth_error s i = Some nd.
Proof. intros H. apply (seg_in _ _ _ _ _ (l_seg _ _ _ H)). Qed.

Lemma links_lt s g ids i : links s g ids -> In i ids -> (i < length s)%nat.
Proof. intros H Hi. eapply seg_lt; [apply (l_seg _ _ _ H)|exact Hi]. Qed.

(* a store that agrees on ids *)
Definition agree (s s' : list node) (ids : list nat) : Prop :=
  forall i, In i ids -> nth_error s' i = nth_error s i.

Lemma links_frame s s' g ids : agree s s' ids -> links s g ids -> links s' g ids.
Proof.
  intros Ha H. constructor; try apply H.
  - apply (seg_ext s); [|apply H]. intros i nd Hi Hn. exists nd. rewrite Ha by exact Hi. auto.
  - destruct (l_tbl _ _ _ H) as [L|[P B]]; [left; exact L|right; split; [exact P|]].
    apply (buckets_ext s); [| |exact B].
    + intros i Hi. eapply links_alloc; eauto.
    + intros i nd Hi Hn. exists nd. rewrite Ha by exact Hi. auto.
Qed.

Lemma holds_frame s s' ids d : agree s s' ids -> holds s ids d -> holds s' ids d.
Proof. intros Ha. apply holds_ext. intros i nd Hi Hn. exists nd. rewrite Ha by exact Hi. auto. Qed.

Lemma repr_frame s s' g ids d : agree s s' ids -> repr s g ids d -> repr s' g ids d.
Proof.
  intros Ha H. constructor; try apply H.
  - eapply links_frame; [exact Ha|apply H].
  - eapply holds_frame; [exact Ha|apply H].
Qed.

(* effect of an operation on a store: nodes outside ids are untouched, ids' are old ids or new *)
Record effect (s : list node) (ids : list nat) (s' : list node) (ids' : list nat) : Prop := {
  e_len : (length s <= length s')%nat;
  e_same : forall i, (i < length s)%nat -> ~ In i ids -> nth_error s' i = nth_error s i;
  e_new : forall i, In i ids' -> In i ids \/ (length s <= i)%nat }.

Lemma effect_refl s ids : effect s ids s ids.
Proof. constructor; auto. Qed.

Lemma effect_trans s1 i1 s2 i2 s3 i3 : effect s1 i1 s2 i2 -> effect s2 i2 s3 i3 -> effect s1 i1 s3 i3.
Proof.
  intros A B. constructor.
  - pose proof (e_len _ _ _ _ A). pose proof (e_len _ _ _ _ B). lia.
  - intros i Hi Hn. pose proof (e_len _ _ _ _ A).
    rewrite (e_same _ _ _ _ B); [apply (e_same _ _ _ _ A); assumption|lia|].
    intros Hi2. destruct (e_new _ _ _ _ A i Hi2); [contradiction|lia].
  - intros i Hi. destruct (e_new _ _ _ _ B i Hi) as [H|H].
    + apply (e_new _ _ _ _ A). exact H.
    + right. pose proof (e_len _ _ _ _ A). lia.
Qed.

(* ---------- dictionary facts ---------- *)

Lemma holds_in s ids d i : holds s ids d -> In i ids ->
  exists nd, nth_error s i = Some nd /\ In (nkey nd, nval nd) d.
Proof.
  intros H. induction H as [|j kv r d' (nd & H1 & H2 & H3) H4 IH]; cbn; [tauto|].
  intros [<-|Hi].
  - exists nd. split; [exact H1|]. left. rewrite H2, H3. destruct kv; reflexivity.
  - destruct (IH Hi) as (nd' & A & B). eauto.
Qed.

Lemma holds_length s ids d : holds s ids d -> length ids = length d.
Proof. induction 1; cbn; congruence. Qed.

Lemma dget_none d k : dget d k = None <-> forall k' v, In (k', v) d -> keq k k' = false.
Proof.
  induction d as [|[k' v] r IH]; cbn.
  - split; [intros _ k' v []|reflexivity].
  - destruct (keq k k') eqn:E.
    + split; [discriminate|]. intros H. rewrite (H k' v (or_introl eq_refl)) in E. discriminate.
    + rewrite IH. split.
      * intros H a b [Hab|Hab]; [congruence|]. eapply H; eauto.
      * intros H a b Hab. apply (H a b). right. exact Hab.
Qed.

Lemma keq_sym_false a b : keq a b = false -> keq b a = false.
Proof. intros H. destruct (keq b a) eqn:E; [|reflexivity]. apply keq_sym in E. congruence. Qed.

Lemma keq_trans_false a b c : keq a b = true -> keq a c = false -> keq b c = false.
Proof.
  intros H1 H2. destruct (keq b c) eqn:E; [|reflexivity].
  rewrite (keq_trans _ _ _ H1 E) in H2. discriminate.
Qed.

Lemma dget_split d k k' v :
  distinct d -> In (k', v) d -> keq k k' = true ->
  dget d k = Some v /\ exists d1 d2, d = d1 ++ (k', v) :: d2 /\
    (forall a b, In (a, b) d1 -> keq k a = false).
Proof.
  induction d as [|[k1 v1] r IH]; cbn; [tauto|].
  intros [Hd Hr] [Hin|Hin] Hk.
  - inversion Hin; subst. rewrite Hk. split; [reflexivity|]. exists [], r. split; [reflexivity|].
    intros a b [].
  - destruct (keq k k1) eqn:E.
    + exfalso. pose proof (Hd _ _ Hin) as F.
      apply keq_sym in E. rewrite (keq_trans _ _ _ E Hk) in F. discriminate.
    + destruct (IH Hr Hin Hk) as (G & d1 & d2 & -> & Hf). split; [exact G|].
      exists ((k1, v1) :: d1), d2. split; [reflexivity|]. intros a b [Hab|Hab]; [congruence|eauto].
Qed.

Lemma dput_new d k v : dget d k = None -> dput d k v = d ++ [(k, v)].
Proof.
  induction d as [|[k' v'] r IH]; cbn; [reflexivity|].
  destruct (keq k k'); [discriminate|]. intros H. rewrite IH by exact H. reflexivity.
Qed.

Lemma dput_split d1 d2 k k' v v' :
  (forall a b, In (a, b) d1 -> keq k a = false) -> keq k k' = true ->
  dput (d1 ++ (k', v') :: d2) k v = d1 ++ (k', v) :: d2.
Proof.
  induction d1 as [|[a b] r IH]; cbn; intros H Hk.
  - rewrite Hk. reflexivity.
  - rewrite (H a b (or_introl eq_refl)). rewrite IH; auto. intros x y Hxy. eapply H; eauto.
Qed.

Lemma dremove_split d1 d2 k k' v' :
  (forall a b, In (a, b) d1 -> keq k a = false) -> keq k k' = true ->
  dremove (d1 ++ (k', v') :: d2) k = d1 ++ d2.
Proof.
  induction d1 as [|[a b] r IH]; cbn; intros H Hk.
  - rewrite Hk. reflexivity.
  - rewrite (H a b (or_introl eq_refl)). rewrite IH; auto. intros x y Hxy. eapply H; eauto.
Qed.

Lemma dremove_none d k : dget d k = None -> dremove d k = d.
Proof.
  induction d as [|[k' v'] r IH]; cbn; [reflexivity|].
  destruct (keq k k'); [discriminate|]. intros H. rewrite IH by exact H. reflexivity.
Qed.

Lemma distinct_app d1 d2 : distinct (d1 ++ d2) <->
  distinct d1 /\ distinct d2 /\
  (forall k v k' v', In (k, v) d1 -> In (k', v') d2 -> keq k k' = false).
Proof.
  induction d1 as [|[k v] r IH]; cbn.
  - split.
    + intros H. repeat split; auto. intros ? ? ? ? [].
    + tauto.
  - rewrite IH. split.
    + intros (H1 & H2 & H3 & H4). repeat split; auto.
      * intros a b Hab. eapply H1. apply in_app_iff. left. exact Hab.
      * intros a b c d [Hab|Hab] Hcd; [inversion Hab; subst; eapply H1; apply in_app_iff; eauto|eauto].
    + intros ((H1 & H2) & H3 & H4). repeat split; auto.
      * intros a b Hab. apply in_app_iff in Hab. destruct Hab as [Hab|Hab]; [eauto|].
        eapply H4; [left; reflexivity|exact Hab].
      * intros a b c d Hab Hcd. eapply H4; [right; exact Hab|exact Hcd].
Qed.

Lemma distinct_snoc d k v : distinct d -> dget d k = None -> distinct (d ++ [(k, v)]).
Proof.
  intros H Hn. apply distinct_app. split; [exact H|]. split.
  - cbn. split; [intros ? ? []|exact I].
  - intros a b c e Hab [Hc|[]]. inversion Hc; subst.
    apply keq_sym_false. rewrite dget_none in Hn. eapply Hn; eauto.
Qed.

Lemma distinct_replace d1 d2 k v v' : distinct (d1 ++ (k, v) :: d2) -> distinct (d1 ++ (k, v') :: d2).
Proof.
  rewrite !distinct_app. cbn. intros (H1 & (H2 & H3) & H4). repeat split; auto.
  intros a b c d Hab [Hc|Hc].
  - inversion Hc; subst. eapply H4; [exact Hab|left; reflexivity].
  - eapply H4; [exact Hab|right; exact Hc].
Qed.

Lemma distinct_drop d1 d2 x : distinct (d1 ++ x :: d2) -> distinct (d1 ++ d2).
Proof.
  destruct x as [k v]. rewrite !distinct_app. cbn. intros (H1 & (H2 & H3) & H4). repeat split; auto.
  intros a b c d Hab Hc. eapply H4; [exact Hab|right; exact Hc].
Qed.

(* ---------- lookup ---------- *)

Lemma hidx_lt tbl k : pow2 tbl -> (hidx tbl k < length tbl)%nat.
Proof.
  intros (n & Hn & E). unfold HMap.hidx. rewrite E.
  pose proof (bucket_range n (khash k) Hn). unfold tlen in E.
  apply Nat2Z.inj_lt. rewrite Z2Nat.id by lia. lia.
Qed.

Lemma nth_error_hidx tbl k : pow2 tbl ->
  nth_error tbl (hidx tbl k) = Some (nth (hidx tbl k) tbl None).
Proof. intros H. apply nth_error_nth'. apply hidx_lt. exact H. Qed.

Lemma find_chain_spec fuel s k e c :
  schain s e c -> (length c < fuel)%nat ->
  exists r, find_chain K V keq fuel s k e = Some r /\
    match r with
    | Some i => In i c /\ exists nd, nth_error s i = Some nd /\ keq k (nkey nd) = true
    | None => forall i nd, In i c -> nth_error s i = Some nd -> keq k (nkey nd) = false
    end.
Proof.
  revert e fuel. induction c as [|i r IH]; cbn [schain length]; intros e fuel H Hf.
  - subst e. exists None. destruct fuel; (split; [reflexivity|]); intros i nd [].
  - destruct H as (-> & nd & Hn & Hc). destruct fuel as [|fuel]; [lia|].
    cbn [find_chain]. rewrite Hn. destruct (keq k (nkey nd)) eqn:E.
    + exists (Some i). split; [reflexivity|]. split; [left; reflexivity|eauto].
    + destruct (IH (nhash nd) fuel Hc ltac:(lia)) as (x & Hx & Hr). exists x. split; [exact Hx|].
      destruct x as [j|].
      * destruct Hr as (Hj & ndj & A & B). split; [right; exact Hj|eauto].
      * intros j ndj [<-|Hj] Hnj; [congruence|]. eapply Hr; eauto.
Qed.

Lemma chain_fuel s c : NoDup c -> (forall i, In i c -> exists nd, nth_error s i = Some nd) ->
  (length c < fuel_of s)%nat.
Proof.
  intros Hn Hc. unfold fuel_of. apply Nat.lt_succ_r. apply NoDup_bounded_length; [exact Hn|].
  intros i Hi. destruct (Hc i Hi) as [nd E]. eapply nth_error_Some_lt; eauto.
Qed.

(* lookup through the table of a map *)
Lemma table_find s g ids k :
  links s g ids -> htbl g <> [] ->
  exists r, find_chain K V keq (fuel_of s) s k (nth (hidx (htbl g) k) (htbl g) None) = Some r /\
    match r with
    | Some i => In i ids /\ exists nd, nth_error s i = Some nd /\ keq k (nkey nd) = true
    | None => forall i nd, In i ids -> nth_error s i = Some nd -> keq k (nkey nd) = false
    end.
Proof.
  intros H Hne. destruct (l_tbl _ _ _ H) as [[E _]|[P B]]; [contradiction|].
  destruct (B _ (hidx_lt (htbl g) k P)) as (c & Hc & Hnd & Hin).
  destruct (find_chain_spec (fuel_of s) s k _ c Hc) as (r & Hr & Hs).
  { apply chain_fuel; [exact Hnd|]. intros i Hi. eapply schain_in; eauto. }
  exists r. split; [exact Hr|]. destruct r as [i|].
  - destruct Hs as (Hi & nd & A & E). split; [apply Hin; exact Hi|eauto].
  - intros i nd Hi Hnn. destruct (keq k (nkey nd)) eqn:E; [|reflexivity].
    assert (Hic : In i c).
    { apply Hin. split; [exact Hi|]. exists nd. split; [exact Hnn|].
      unfold HMap.hidx. rewrite (keq_hash _ _ E). reflexivity. }
    rewrite (Hs i nd Hic Hnn) in E. discriminate.
Qed.

Lemma repr_ids_nil s g ids d : repr s g ids d -> htbl g = [] -> ids = [] /\ d = [].
Proof.
  intros H E. destruct (l_tbl _ _ _ (r_links _ _ _ _ H)) as [[_ ->]|[(k & Hk & P) _]].
  - split; [reflexivity|]. pose proof (r_holds _ _ _ _ H) as F. inversion F. reflexivity.
  - rewrite E in P. unfold tlen in P. cbn in P.
    pose proof (Z.pow_pos_nonneg 2 k ltac:(lia) Hk). lia.
Qed.

Lemma repr_find s g ids d k :
  repr s g ids d -> htbl g <> [] ->
  exists r, find_chain K V keq (fuel_of s) s k (nth (hidx (htbl g) k) (htbl g) None) = Some r /\
    match r with
    | Some i => In i ids /\ exists nd, nth_error s i = Some nd /\ keq k (nkey nd) = true /\
                dget d k = Some (nval nd)
    | None => dget d k = None
    end.
Proof.
  intros H Hne. destruct (table_find s g ids k (r_links _ _ _ _ H) Hne) as (r & Hr & Hs).
  exists r. split; [exact Hr|]. destruct r as [i|].
  - destruct Hs as (Hi & nd & A & E). split; [exact Hi|]. exists nd. split; [exact A|]. split; [exact E|].
    destruct (holds_in _ _ _ _ (r_holds _ _ _ _ H) Hi) as (nd' & A' & Hin).
    rewrite A in A'. inversion A'; subst nd'.
    apply (dget_split d k (nkey nd) (nval nd) (r_distinct _ _ _ _ H) Hin E).
  - apply dget_none. intros k' v Hin.
    pose proof (r_holds _ _ _ _ H) as F.
    assert (exists i nd, In i ids /\ nth_error s i = Some nd /\ nkey nd = k') as (i & nd & Hi & A & <-).
    { clear -F Hin. induction F as [|j kv l d' (nd & H1 & H2 & H3) _ IH]; cbn in Hin; [tauto|].
      destruct Hin as [->|Hin].
      - exists j, nd. cbn in H2. split; [left; reflexivity|]. auto.
      - destruct (IH Hin) as (i & nd' & Hi & A & B). exists i, nd'. split; [right; exact Hi|auto]. }
    eapply Hs; eauto.
Qed.

Lemma hget_ok s g ids d k : repr s g ids d -> hget K V keq khash s g k = Some (dget d k).
Proof.
  intros H. unfold hget. destruct (htbl g) as [|t0 tr] eqn:E.
  - destruct (repr_ids_nil _ _ _ _ H E) as [-> ->]. reflexivity.
  - rewrite <- E. assert (Hne : htbl g <> []) by congruence.
    destruct (l_tbl _ _ _ (r_links _ _ _ _ H)) as [[E' _]|[P _]]; [contradiction|].
    rewrite (nth_error_hidx _ _ P).
    destruct (repr_find s g ids d k H Hne) as (r & -> & Hr).
    destruct r as [i|].
    + destruct Hr as (_ & nd & -> & _ & ->). reflexivity.
    + rewrite Hr. reflexivity.
Qed.

(* ---------- walking ---------- *)

Lemma walk_ok fuel s p ids d :
  seg s p ids None -> holds s ids d -> (length ids < fuel)%nat ->
  walk fuel s (hd_or ids None) = Some d.
Proof.
  revert fuel p d. induction ids as [|i r IH]; intros fuel p d Hs Hh Hf; inversion Hh; subst; cbn.
  - destruct fuel; reflexivity.
  - destruct fuel as [|fuel]; cbn [length] in Hf; [lia|]. cbn.
    destruct Hs as (nd & H1' & _ & Hnx & Hs). rewrite H1'.
    match goal with H : exists _, _ |- _ => destruct H as (nd' & A & B & C) end.
    rewrite H1' in A. inversion A; subst nd'. rewrite Hnx.
    match goal with H : Forall2 _ r ?dd |- _ => rewrite (IH fuel (Some i) dd Hs H ltac:(lia)) end.
    rewrite B, C. destruct y; reflexivity.
Qed.

Lemma ids_fuel s g ids : links s g ids -> (length ids < fuel_of s)%nat.
Proof. intros H. apply chain_fuel; [apply H|]. intros i. apply (links_alloc _ _ _ _ H). Qed.

Lemma hentries_ok s g ids d : repr s g ids d -> hentries s g = Some d.
Proof.
  intros H. unfold hentries. rewrite (l_first _ _ _ (r_links _ _ _ _ H)).
  eapply walk_ok; [apply (r_links _ _ _ _ H)|apply H|]. eapply ids_fuel. apply H.
Qed.

(* ---------- overwriting a value ---------- *)

Lemma set_val_links s g ids i nd v :
  links s g ids -> nth_error s i = Some nd -> links (upd s i (set_val nd v)) g ids.
Proof.
  intros H Hn. pose proof (nth_error_Some_lt _ _ _ Hn) as Hlt.
  assert (F : forall j ndj, nth_error s j = Some ndj ->
     exists nd', nth_error (upd s i (set_val nd v)) j = Some nd' /\ nnext nd' = nnext ndj /\
       nprev nd' = nprev ndj /\ nhash nd' = nhash ndj /\ nkey nd' = nkey ndj).
  { intros j ndj Hj. destruct (Nat.eq_dec i j) as [<-|Hne].
    - rewrite Hn in Hj. inversion Hj; subst. exists (set_val ndj v).
      rewrite nth_error_upd_eq by exact Hlt. cbn. auto.
    - exists ndj. rewrite nth_error_upd_neq by exact Hne. auto. }
  constructor; try apply H.
  - apply (seg_ext s); [|apply H]. intros j ndj _ Hj. destruct (F j ndj Hj) as (x & A & B & C & _). eauto.
  - destruct (l_tbl _ _ _ H) as [L|[P B]]; [left; exact L|right; split; [exact P|]].
    apply (buckets_ext s); [intros j Hj; eapply links_alloc; eauto| |exact B].
    intros j ndj _ Hj. destruct (F j ndj Hj) as (x & A & _ & _ & D & E). eauto.
Qed.

Lemma holds_app_inv s ids d1 d2 : holds s ids (d1 ++ d2) ->
  exists i1 i2, ids = i1 ++ i2 /\ holds s i1 d1 /\ holds s i2 d2.
Proof.
  intros H. apply Forall2_app_inv_r in H. destruct H as (a & b & H1 & H2 & E).
  exists a, b. auto.
Qed.

Lemma holds_app s i1 i2 d1 d2 : holds s i1 d1 -> holds s i2 d2 -> holds s (i1 ++ i2) (d1 ++ d2).
Proof. intros. apply Forall2_app; assumption. Qed.

Lemma dput_found d k x : dget d k = Some x ->
  exists d1 k' d2, d = d1 ++ (k', x) :: d2 /\ (forall a b, In (a, b) d1 -> keq k a = false) /\
    keq k k' = true.
Proof.
  induction d as [|[k1 v1] r IH]; cbn; [discriminate|].
  destruct (keq k k1) eqn:E.
  - intros Hx. inversion Hx; subst. exists [], k1, r. repeat split; auto. intros ? ? [].
  - intros Hx. destruct (IH Hx) as (d1 & k' & d2 & -> & A & B).
    exists ((k1, v1) :: d1), k', d2. repeat split; auto.
    intros a b [Hab|Hab]; [congruence|eauto].
Qed.

Lemma set_val_repr s g ids d i nd k v :
  repr s g ids d -> In i ids -> nth_error s i = Some nd -> keq k (nkey nd) = true ->
  repr (upd s i (set_val nd v)) g ids (dput d k v) /\
  effect s ids (upd s i (set_val nd v)) ids.
Proof.
  intros H Hi Hn Hk. pose proof (nth_error_Some_lt _ _ _ Hn) as Hlt.
  split.
  - destruct (holds_in _ _ _ _ (r_holds _ _ _ _ H) Hi) as (nd' & A & Hin).
    rewrite Hn in A. inversion A; subst nd'.
    pose proof (r_distinct _ _ _ _ H) as Hd.
    (* position of i in ids *)
    apply in_split in Hi. destruct Hi as (a & b & ->).
    pose proof (r_holds _ _ _ _ H) as Hh.
    apply Forall2_app_inv_l in Hh. destruct Hh as (d1 & d2' & Ha & Hb & Ed).
    inversion Hb as [|x y l l' (nd' & N1 & N2 & N3) Hb' E1 E2]; subst.
    rewrite Hn in N1. inversion N1; subst nd'. destruct y as [k' v']. cbn in N2, N3. subst k' v'.
    assert (Hf : forall p q, In (p, q) d1 -> keq k p = false).
    { intros p q Hpq. apply distinct_app in Hd. destruct Hd as (_ & _ & D).
      pose proof (D p q (nkey nd) (nval nd) Hpq (or_introl eq_refl)) as F.
      destruct (keq k p) eqn:E; [|reflexivity]. apply keq_sym in E.
      rewrite (keq_trans _ _ _ E Hk) in F. discriminate. }
    rewrite (dput_split _ _ _ _ v _ Hf Hk).
    constructor.
    + eapply set_val_links; [apply H|exact Hn].
    + pose proof (l_nodup _ _ _ (r_links _ _ _ _ H)) as Hnd.
      apply NoDup_remove in Hnd. destruct Hnd as [_ Hni].
      apply holds_app; [|constructor].
      * apply (holds_ext s); [|exact Ha]. intros j ndj Hj Hnj. exists ndj.
        rewrite nth_error_upd_neq; [auto|]. intros ->. apply Hni. apply in_app_iff. left. exact Hj.
      * exists (set_val nd v). rewrite nth_error_upd_eq by exact Hlt. cbn. auto.
      * apply (holds_ext s); [|exact Hb']. intros j ndj Hj Hnj. exists ndj.
        rewrite nth_error_upd_neq; [auto|]. intros ->. apply Hni. apply in_app_iff. right. exact Hj.
    + rewrite (r_len _ _ _ _ H). rewrite !app_length. cbn. lia.
    + eapply distinct_replace. exact Hd.
  - constructor.
    + rewrite upd_length. lia.
    + intros j Hj Hnj. apply nth_error_upd_neq. intros ->. contradiction.
    + auto.
Qed.

(* ---------- appending a node ---------- *)

Lemma last_or_snoc l x p : last_or (l ++ [x]) p = Some x.
Proof. rewrite last_or_app. reflexivity. Qed.

Lemma mutate_eq s i nd f : nth_error s i = Some nd -> mutate s (Some i) f = Some (@upd node s i (f nd)).
Proof. intros H. unfold mutate. rewrite H. reflexivity. Qed.

(* set the next pointer of the last node of a segment *)
Lemma seg_set_last s p l x nd n n' :
  seg s p (l ++ [x]) n -> NoDup (l ++ [x]) -> nth_error s x = Some nd ->
  seg (upd s x (set_next nd n')) p (l ++ [x]) n'.
Proof.
  intros H Hnd Hx. pose proof (nth_error_Some_lt _ _ _ Hx) as Hlt.
  apply seg_app in H. cbn in H. destruct H as (H1 & nd' & A & B & C & _).
  rewrite Hx in A. inversion A; subst nd'.
  apply NoDup_remove in Hnd. rewrite app_nil_r in Hnd. destruct Hnd as [_ Hni].
  apply seg_app. cbn. split.
  - apply (seg_ext s); [|exact H1]. intros i ndi Hi Hni'. exists ndi.
    rewrite nth_error_upd_neq; [auto|]. intros ->. contradiction.
  - exists (set_next nd n'). rewrite nth_error_upd_eq by exact Hlt. cbn. auto.
Qed.

(* the new node is added to bucket hk at its head *)
Lemma buckets_cons s tbl ids k v id :
  pow2 tbl -> buckets s tbl ids -> id = length s ->
  (forall i, In i ids -> exists nd, nth_error s i = Some nd) ->
  forall nd pv nx,
  nd = Node k v (nth (hidx tbl k) tbl None) nx pv ->
  buckets (s ++ [nd]) (upd tbl (hidx tbl k) (Some id)) (ids ++ [id]).
Proof.
  intros P B -> Hal nd pv nx Hnd b Hb. rewrite upd_length in Hb.
  destruct (B b Hb) as (c & Hc & Hcn & Hci).
  assert (Hnew : forall i, In i ids -> nth_error (s ++ [nd]) i = nth_error s i).
  { intros i Hi. destruct (Hal i Hi) as [x Hx]. apply nth_error_app1. eapply nth_error_Some_lt; eauto. }
  assert (Hidx : forall kk, hidx (upd tbl (hidx tbl k) (Some (length s))) kk = hidx tbl kk).
  { intros kk. unfold HMap.hidx, tlen. rewrite upd_length. reflexivity. }
  assert (Hlast : nth_error (s ++ [nd]) (length s) = Some nd).
  { rewrite nth_error_snoc, Nat.eqb_refl. reflexivity. }
  assert (Hchain : schain (s ++ [nd]) (nth b tbl None) c).
  { apply (schain_ext s); [|exact Hc]. intros i x Hi Hx. exists x. split; [|reflexivity].
    rewrite <- Hx. apply Hnew. apply Hci. exact Hi. }
  destruct (Nat.eq_dec (hidx tbl k) b) as [E|Hne].
  - exists (length s :: c). split; [|split].
    + cbn. split.
      * pose proof (nth_error_upd_eq tbl b (Some (length s)) Hb) as U.
        rewrite <- E in U at 1. rewrite E in U. rewrite E.
        apply (nth_error_nth _ _ None) in U. exact U.
      * exists nd. split; [exact Hlast|]. replace (nhash nd) with (nth b tbl None); [exact Hchain|].
        subst nd. cbn. rewrite E. reflexivity.
    + constructor; [|exact Hcn]. intros Hi. destruct (schain_in _ _ _ _ Hc Hi) as [x Hx].
      apply nth_error_Some_lt in Hx. lia.
    + intros i. split.
      * intros [<-|Hi].
        -- split; [apply in_app_iff; right; left; reflexivity|]. exists nd. split; [exact Hlast|].
           rewrite Hidx. subst nd. exact E.
        -- apply Hci in Hi. destruct Hi as (Hi & x & Hx & Ex).
           split; [apply in_app_iff; left; exact Hi|]. exists x. rewrite Hnew by exact Hi.
           split; [exact Hx|]. rewrite Hidx. exact Ex.
      * intros (Hi & x & Hx & Ex). apply in_app_iff in Hi. destruct Hi as [Hi|[<-|[]]]; [|left; reflexivity].
        right. apply Hci. split; [exact Hi|]. exists x. rewrite Hnew in Hx by exact Hi.
        split; [exact Hx|]. rewrite Hidx in Ex. exact Ex.
  - exists c. split; [|split; [exact Hcn|]].
    + replace (nth b (upd tbl (hidx tbl k) (Some (length s))) None) with (nth b tbl None); [exact Hchain|].
      pose proof (nth_error_upd_neq tbl (hidx tbl k) b (Some (length s)) Hne) as U.
      pose proof (nth_error_nth' tbl None Hb) as U2. rewrite U2 in U.
      apply (nth_error_nth _ _ None) in U. symmetry. exact U.
    + intros i. split.
      * intros Hi. apply Hci in Hi. destruct Hi as (Hi & x & Hx & Ex).
        split; [apply in_app_iff; left; exact Hi|]. exists x. rewrite Hnew by exact Hi.
        split; [exact Hx|]. rewrite Hidx. exact Ex.
      * intros (Hi & x & Hx & Ex). rewrite Hidx in Ex. apply in_app_iff in Hi.
        destruct Hi as [Hi|[<-|[]]].
        -- apply Hci. split; [exact Hi|]. rewrite Hnew in Hx by exact Hi. eauto.
        -- exfalso. rewrite Hlast in Hx. inversion Hx; subst x. subst nd. cbn in Ex. congruence.
Qed.

Lemma append_node_ok s g ids d k v :
  links s g ids -> holds s ids d -> htbl g <> [] ->
  exists s' g', append_node K V khash s g k v = Some (s', g') /\
    links s' g' (ids ++ [length s]) /\ holds s' (ids ++ [length s]) (d ++ [(k, v)]) /\
    effect s ids s' (ids ++ [length s]) /\
    hlen g' = hlen g /\ hfrozen g' = hfrozen g /\ length (htbl g') = length (htbl g).
Proof.
  intros H Hh Hne. destruct (l_tbl _ _ _ H) as [[E _]|[P B]]; [contradiction|].
  unfold append_node. rewrite (nth_error_hidx _ _ P).
  set (hk := hidx (htbl g) k). set (e := nth hk (htbl g) None).
  set (nd0 := Node k v e None (hlast g)).
  set (tbl := upd (htbl g) hk (Some (length s))).
  assert (Hall : forall i, In i ids -> exists nd, nth_error s i = Some nd) by (intros i Hi; eapply links_alloc; eauto).
  assert (HB : buckets (s ++ [nd0]) tbl (ids ++ [length s])).
  { eapply buckets_cons; eauto. reflexivity. }
  assert (HP : pow2 tbl).
  { destruct P as (n & Hn & En). exists n. split; [exact Hn|]. unfold tbl, tlen. rewrite upd_length. exact En. }
  assert (Hnew : forall i, In i ids -> nth_error (s ++ [nd0]) i = nth_error s i).
  { intros i Hi. destruct (Hall i Hi) as [x Hx]. apply nth_error_app1. eapply nth_error_Some_lt; eauto. }
  assert (Hlast : nth_error (s ++ [nd0]) (length s) = Some nd0).
  { rewrite nth_error_snoc, Nat.eqb_refl. reflexivity. }
  assert (Hnd : NoDup (ids ++ [length s])).
  { apply NoDup_snoc; [apply H|]. intros Hi. pose proof (links_lt _ _ _ _ H Hi). lia. }
  assert (Hholds : holds (s ++ [nd0]) (ids ++ [length s]) (d ++ [(k, v)])).
  { apply holds_app.
    - eapply holds_frame; [|exact Hh]. intros i Hi. apply Hnew. exact Hi.
    - constructor; [|constructor]. exists nd0. auto. }
  rewrite (l_first _ _ _ H). destruct ids as [|f r] eqn:Eids.
  - cbn [hd_or]. eexists. eexists. split; [reflexivity|]. cbn [app] in *.
    split; [constructor; cbn|].
    + exists nd0. split; [exact Hlast|]. subst nd0. cbn. rewrite (l_last _ _ _ H). cbn. auto.
    + reflexivity.
    + reflexivity.
    + exact Hnd.
    + right. split; [exact HP|exact HB].
    + split; [exact Hholds|]. split; [|cbn; split; [reflexivity|split; [reflexivity|apply upd_length]]].
      constructor.
      * rewrite app_length. cbn. lia.
      * intros i Hi _. apply nth_error_app1. exact Hi.
      * intros i [<-|[]]. right. lia.
  - cbn [hd_or]. rewrite <- Eids in *.
    destruct (exists_last (l := ids)) as (l & x & El); [rewrite Eids; discriminate|].
    assert (Elast : hlast g = Some x).
    { rewrite (l_last _ _ _ H), El. apply last_or_snoc. }
    destruct (Hall x) as [ndx Hx]; [rewrite El; apply in_app_iff; right; left; reflexivity|].
    assert (Hxl : (x < length s)%nat) by (eapply nth_error_Some_lt; eauto).
    assert (Hx' : nth_error (s ++ [nd0]) x = Some ndx) by (rewrite nth_error_app1 by exact Hxl; exact Hx).
    rewrite Elast. rewrite (mutate_eq _ _ _ _ Hx').
    set (s2 := upd (s ++ [nd0]) x (set_next ndx (Some (length s)))).
    assert (F : forall j ndj, nth_error (s ++ [nd0]) j = Some ndj ->
       exists nd', nth_error s2 j = Some nd' /\ nhash nd' = nhash ndj /\ nkey nd' = nkey ndj /\
         nval nd' = nval ndj /\ nprev nd' = nprev ndj).
    { intros j ndj Hj. unfold s2. destruct (Nat.eq_dec x j) as [<-|Hne'].
      - rewrite Hx' in Hj. inversion Hj; subst. exists (set_next ndj (Some (length s))).
        rewrite nth_error_upd_eq by (rewrite app_length; cbn; lia). cbn. auto.
      - exists ndj. rewrite nth_error_upd_neq by exact Hne'. auto. }
    eexists. eexists. split; [reflexivity|].
    split; [constructor; cbn [hfirst hlast htbl]|].
    + apply seg_app. cbn [seg hd_or]. split.
      * unfold s2. rewrite El in *. eapply seg_set_last; [|apply H|exact Hx'].
        eapply seg_ext; [|apply (l_seg _ _ _ H)]. intros i nd Hi Hn. exists nd.
        rewrite Hnew by exact Hi. auto.
      * destruct (F _ _ Hlast) as (nd' & A1 & A2 & A3 & A4 & A5). exists nd'. split; [exact A1|].
        assert (nnext nd' = None).
        { unfold s2 in A1. rewrite nth_error_upd_neq in A1 by lia. rewrite Hlast in A1.
          inversion A1; subst. reflexivity. }
        split; [|split; [assumption|exact I]]. rewrite A5. subst nd0. cbn. rewrite Elast.
        rewrite El. symmetry. apply last_or_snoc.
    + rewrite Eids. reflexivity.
    + rewrite last_or_snoc. reflexivity.
    + exact Hnd.
    + right. split; [exact HP|]. eapply buckets_ext; [| |exact HB].
      * intros i Hi. apply in_app_iff in Hi. destruct Hi as [Hi|[<-|[]]]; [|eauto].
        rewrite Hnew by exact Hi. auto.
      * intros i nd Hi Hn. destruct (F _ _ Hn) as (nd' & A1 & A2 & A3 & _). eauto.
    + split.
      * eapply holds_ext; [|exact Hholds]. intros i nd Hi Hn.
        destruct (F _ _ Hn) as (nd' & A1 & A2 & A3 & A4 & _). eauto.
      * split; [|cbn; split; [reflexivity|split; [reflexivity|apply upd_length]]].
        constructor.
        -- unfold s2. rewrite upd_length, app_length. cbn. lia.
        -- intros i Hi Hni. unfold s2. rewrite nth_error_upd_neq; [apply nth_error_app1; exact Hi|].
           intros <-. apply Hni. rewrite El. apply in_app_iff. right. left. reflexivity.
        -- intros i Hi. apply in_app_iff in Hi. destruct Hi as [Hi|[<-|[]]]; [left; exact Hi|right; lia].
Qed.

(* ---------- resize ---------- *)

Lemma last_or_none l : last_or l None = None -> l = [].
Proof.
  destruct l as [|x r]; [reflexivity|]. cbn. intros H. exfalso.
  revert x H. induction r as [|y r IH]; cbn; intros x H; [discriminate|eauto].
Qed.

Lemma effect_agree s ids s' ids' js :
  effect s ids s' ids' -> (forall i, In i js -> (i < length s)%nat) ->
  (forall i, In i js -> ~ In i ids) -> agree s s' js.
Proof. intros H Hl Hd i Hi. apply (e_same _ _ _ _ H); auto. Qed.

Definition norm_first (cf prev : option nat) : option nat :=
  match prev with None => None | Some _ => cf end.

Lemma resize_loop_ok js : forall fuel s p e nt cf prev ids' d' l fr,
  seg s p js None -> holds s js e ->
  links s (HMap nt l (norm_first cf prev) prev fr) ids' -> holds s ids' d' ->
  (forall i, In i js -> ~ In i ids') -> nt <> [] -> (length js < fuel)%nat ->
  exists s' nt' cf' pl ids2,
    resize_loop K V khash fuel s (hd_or js None) nt cf prev = Some (s', nt', cf', pl) /\
    links s' (HMap nt' l (norm_first cf' pl) pl fr) ids2 /\ holds s' ids2 (d' ++ e) /\
    effect s ids' s' ids2 /\ (pl = None -> cf' = cf) /\ length nt' = length nt.
Proof.
  induction js as [|i r IH]; intros fuel s p e nt cf prev ids' d' l fr Hs He HL Hd Hdis Hnt Hf.
  - inversion He; subst. exists s, nt, cf, prev, ids'. cbn. destruct fuel; rewrite app_nil_r;
      splits; auto using effect_refl.
  - cbn in Hs. destruct Hs as (nd & Hn & _ & Hnx & Hs).
    inversion He as [|x y ll ll' (nd' & N1 & N2 & N3) He' E1 E2]; subst.
    rewrite Hn in N1. inversion N1; subst nd'. destruct y as [k v]. cbn in N2, N3.
    destruct fuel as [|fuel]; cbn [length] in Hf; [lia|].
    cbn [hd_or resize_loop]. rewrite Hn.
    destruct (append_node_ok s _ ids' d' (nkey nd) (nval nd) HL Hd Hnt)
      as (s1 & g1 & A & L1 & H1 & E1 & Hl1 & Hf1 & Ht1).
    unfold append_node in A. cbn [htbl hfirst hlast hlen hfrozen] in A.
    destruct (nth_error nt (hidx nt (nkey nd))) as [eb|]; [|discriminate].
    assert (Hr : forall j, In j r -> (j < length s)%nat) by (intros j Hj; eapply seg_lt; eauto).
    assert (Hag : agree s s1 r).
    { eapply effect_agree; [exact E1|exact Hr|]. intros j Hj. apply Hdis. right. exact Hj. }
    assert (Hs' : seg s1 (Some i) r None).
    { eapply seg_ext; [|exact Hs]. intros j ndj Hj Hnj. exists ndj. rewrite Hag by exact Hj. auto. }
    assert (He1 : holds s1 r ll') by (eapply holds_frame; eauto).
    assert (Hdis1 : forall j, In j r -> ~ In j (ids' ++ [length s])).
    { intros j Hj Hin. apply in_app_iff in Hin. destruct Hin as [Hin|[<-|[]]].
      - eapply Hdis; [right; exact Hj|exact Hin].
      - apply Hr in Hj. lia. }
    rewrite N2, N3 in H1. replace (d' ++ (k, v) :: ll') with ((d' ++ [(k, v)]) ++ ll')
      by (rewrite <- app_assoc; reflexivity).
    rewrite Hnx.
    destruct prev as [pr|]; cbn [norm_first] in A.
    + pose proof (l_first _ _ _ HL) as Hfst. cbn in Hfst.
      pose proof (l_last _ _ _ HL) as Hlst. cbn in Hlst.
      destruct cf as [f|].
      2: { destruct ids'; cbn in Hfst, Hlst; discriminate. }
      destruct (mutate _ _ _) as [s2|] eqn:EM; [|discriminate].
      inversion A; subst s1 g1. cbn in Hl1, Hf1, Ht1.
      destruct (IH fuel s2 (Some i) ll' (upd nt (hidx nt (nkey nd)) (Some (length s)))
                  (Some f) (Some (length s)) (ids' ++ [length s]) (d' ++ [(k, v)]) l fr)
        as (s3 & nt3 & cf3 & pl3 & ids3 & R1 & R2 & R3 & R4 & R5 & R6); auto; try lia.
      { intros E. rewrite E in Ht1. destruct nt; [contradiction|discriminate]. }
      exists s3, nt3, cf3, pl3, ids3. split; [exact R1|]. split; [exact R2|]. split; [exact R3|].
      split; [eapply effect_trans; eauto|]. split; [exact R5|lia].
    + inversion A; subst s1 g1. cbn in Hl1, Hf1, Ht1.
      destruct (IH fuel (s ++ [Node (nkey nd) (nval nd) eb None None]) (Some i) ll'
                  (upd nt (hidx nt (nkey nd)) (Some (length s)))
                  (Some (length s)) (Some (length s)) (ids' ++ [length s]) (d' ++ [(k, v)]) l fr)
        as (s3 & nt3 & cf3 & pl3 & ids3 & R1 & R2 & R3 & R4 & R5 & R6); auto; try lia.
      { intros E. rewrite E in Ht1. destruct nt; [contradiction|discriminate]. }
      exists s3, nt3, cf3, pl3, ids3. split; [exact R1|]. split; [exact R2|]. split; [exact R3|].
      split; [eapply effect_trans; eauto|]. split; [|lia].
      intros E. subst pl3. exfalso. pose proof (l_last _ _ _ R2) as Hl. cbn in Hl.
      symmetry in Hl. apply last_or_none in Hl. subst ids3. apply holds_length in R3.
      rewrite !app_length in R3. cbn in R3. lia.
Qed.

Lemma nth_repeat_none n b : nth b (repeat (@None nat) n) None = None.
Proof. revert b. induction n as [|n IH]; intros [|b]; cbn; auto. Qed.

Lemma buckets_empty s n : buckets s (repeat None n) [].
Proof.
  intros b Hb. exists []. split; [cbn; apply nth_repeat_none|]. split; [constructor|].
  intros i. cbn. tauto.
Qed.

Lemma pow2_repeat c : pow2 (repeat None (Z.to_nat (tableSizeFor c))).
Proof.
  destruct (tableSizeFor_pow2 c) as (k & Hk & E). exists k. split; [lia|].
  unfold tlen. rewrite repeat_length, Z2Nat.id; [exact E|].
  pose proof (tableSizeFor_pos c). lia.
Qed.

Lemma pow2_nonempty tbl : pow2 tbl -> tbl <> [].
Proof.
  intros (k & Hk & E) ->. unfold tlen in E. cbn in E.
  pose proof (Z.pow_pos_nonneg 2 k ltac:(lia) Hk). lia.
Qed.

Lemma links_empty s c l fr : links s (HMap (repeat None (Z.to_nat (tableSizeFor c))) l None None fr) [].
Proof.
  constructor; cbn; auto; [constructor|]. right. split; [apply pow2_repeat|apply buckets_empty].
Qed.

Lemma links_same s g g' ids : htbl g' = htbl g -> hfirst g' = hfirst g -> hlast g' = hlast g ->
  links s g ids -> links s g' ids.
Proof.
  intros A B C H. constructor; [apply H|rewrite B; apply H|rewrite C; apply H|apply H|rewrite A; apply H].
Qed.

Lemma hresize_ok s g c capInc ids d :
  links s g ids -> holds s ids d -> hfirst c = hfirst g \/ hfirst c = None ->
  exists s' g' ids', hresize K V khash s g c capInc = Some (s', g') /\
    links s' g' ids' /\ holds s' ids' d /\ effect s [] s' ids' /\
    hlen g' = hlen c /\ hfrozen g' = hfrozen c /\ htbl g' <> [].
Proof.
  intros H Hh Hc. unfold hresize. set (cap := tlen (htbl g) + capInc).
  rewrite (l_first _ _ _ H).
  destruct (resize_loop_ok ids (fuel_of s) s None d (repeat None (Z.to_nat (tableSizeFor cap)))
              (hfirst c) None [] [] (hlen c) (hfrozen c))
    as (s3 & nt3 & cf3 & pl3 & ids3 & R1 & R2 & R3 & R4 & R5 & R6).
  - apply H.
  - exact Hh.
  - apply links_empty.
  - constructor.
  - intros i _ [].
  - apply pow2_nonempty, pow2_repeat.
  - eapply ids_fuel; eauto.
  - rewrite R1. eexists. eexists. exists ids3. split; [reflexivity|]. split.
    + eapply links_same; [| | |exact R2]; cbn; auto. destruct pl3; [reflexivity|].
      cbn. rewrite R5 by reflexivity. destruct Hc as [->| ->]; [|reflexivity].
      pose proof (l_last _ _ _ R2) as Hl. cbn in Hl. symmetry in Hl. apply last_or_none in Hl.
      subst ids3. cbn in R3. inversion R3; subst. inversion Hh; subst. apply (l_first _ _ _ H).
    + split; [exact R3|]. split; [exact R4|]. cbn. split; [reflexivity|]. split; [reflexivity|].
      intros E. subst nt3. rewrite repeat_length in R6. cbn in R6.
      pose proof (tableSizeFor_pos cap). lia.
Qed.

(* ---------- Put ---------- *)

Definition with_len (g : hmap) (l : Z) : hmap := HMap (htbl g) l (hfirst g) (hlast g) (hfrozen g).

Lemma dput_length d k v : length (dput d k v) = match dget d k with Some _ => length d | None => S (length d) end.
Proof.
  induction d as [|[k' v'] r IH]; cbn; [reflexivity|]. destruct (keq k k'); cbn; [reflexivity|].
  rewrite IH. destruct (dget r k); reflexivity.
Qed.

Lemma hput_ok s g ids d k v :
  repr s g ids d ->
  exists s' g' ids', hput K V keq khash s g k v = Some (s', g', dget d k) /\
    repr s' g' ids' (dput d k v) /\ effect s ids s' ids' /\
    hfrozen g' = hfrozen g /\ htbl g' <> [].
Proof.
  intros H. unfold hput.
  set (g0 := match htbl g with [] => _ | _ => g end).
  assert (H0 : repr s g0 ids d /\ htbl g0 <> [] /\ hfrozen g0 = hfrozen g).
  { unfold g0. destruct (htbl g) as [|t0 tr] eqn:E.
    - destruct (repr_ids_nil _ _ _ _ H E) as [-> ->].
      split; [|split; [apply pow2_nonempty, pow2_repeat|reflexivity]].
      constructor; try apply H.
      rewrite (l_first _ _ _ (r_links _ _ _ _ H)), (l_last _ _ _ (r_links _ _ _ _ H)).
      apply links_empty.
    - split; [exact H|]. split; [congruence|reflexivity]. }
  destruct H0 as (H0 & Hne & Hfr). clearbody g0.
  destruct (l_tbl _ _ _ (r_links _ _ _ _ H0)) as [[E' _]|[P _]]; [contradiction|].
  rewrite (nth_error_hidx _ _ P).
  destruct (repr_find s g0 ids d k H0 Hne) as (r & -> & Hr).
  destruct r as [i|].
  - destruct Hr as (Hi & nd & Hn & Hk & Hg). rewrite Hn. rewrite Hg.
    destruct (set_val_repr s g0 ids d i nd k v H0 Hi Hn Hk) as [R E].
    eexists. eexists. exists ids. split; [reflexivity|]. auto.
  - rewrite Hr.
    assert (HS : exists s1 g1 ids1, (if over_load (hlen g0 + 1) (tlen (htbl g0)) then hresize K V khash s g0 g0 1 else Some (s, g0)) = Some (s1, g1)
       /\ links s1 g1 ids1 /\ holds s1 ids1 d /\ effect s ids s1 ids1 /\ hlen g1 = hlen g0 /\
       hfrozen g1 = hfrozen g0 /\ htbl g1 <> []).
    { destruct (over_load _ _).
      - destruct (hresize_ok s g0 g0 1 ids d) as (s1 & g1 & ids1 & A & B & C & D & E & F & G);
          [apply H0|apply H0|left; reflexivity|].
        exists s1, g1, ids1. splits; auto. constructor; [apply D| |].
        + intros i Hi Hni. apply (e_same _ _ _ _ D); [exact Hi|intros []].
        + intros i Hi. right. destruct (e_new _ _ _ _ D i Hi) as [[]|]; assumption.
      - exists s, g0, ids. splits; auto; try apply H0. apply effect_refl. }
    destruct HS as (s1 & g1 & ids1 & -> & L1 & Hh1 & E1 & Hl1 & Hf1 & Hn1).
    destruct (append_node_ok s1 g1 ids1 d k v L1 Hh1 Hn1)
      as (s2 & g2 & -> & L2 & Hh2 & E2 & Hl2 & Hf2 & Ht2).
    eexists. eexists. eexists. split; [reflexivity|].
    rewrite (dput_new _ _ _ Hr). split; [constructor|].
    + eapply links_same; [| | |exact L2]; reflexivity.
    + exact Hh2.
    + cbn. rewrite Hl2, Hl1, (r_len _ _ _ _ H0), app_length. cbn. lia.
    + apply distinct_snoc; [apply H0|exact Hr].
    + split; [eapply effect_trans; eauto|]. cbn. split; [congruence|].
      intros E. rewrite E in Ht2. destruct (htbl g1); [contradiction|discriminate].
Qed.

(* ---------- PutAll ---------- *)

Lemma putall_one_ok s g ids d l k v :
  links s g ids -> holds s ids d -> distinct d -> htbl g <> [] -> l = Z.of_nat (length d) ->
  exists s' g' ids', putall_one K V keq khash s g l k v = Some (s', g', Z.of_nat (length (dput d k v))) /\
    links s' g' ids' /\ holds s' ids' (dput d k v) /\ distinct (dput d k v) /\
    effect s ids s' ids' /\ hfrozen g' = hfrozen g /\ htbl g' <> [] /\
    (dget d k <> None -> ids' = ids /\ g' = g).
Proof.
  intros L Hh Hd Hne ->. unfold putall_one.
  assert (R : repr s (with_len g (Z.of_nat (length d))) ids d).
  { constructor; auto. eapply links_same; [| | |exact L]; reflexivity. }
  destruct (l_tbl _ _ _ L) as [[E' _]|[P _]]; [contradiction|].
  rewrite (nth_error_hidx _ _ P).
  destruct (repr_find s _ ids d k R Hne) as (r & Hf & Hr). cbn [with_len htbl] in Hf. rewrite Hf.
  rewrite dput_length. destruct r as [i|].
  - destruct Hr as (Hi & nd & Hn & Hk & Hg). rewrite Hn. rewrite Hg.
    destruct (set_val_repr s _ ids d i nd k v R Hi Hn Hk) as [R' E].
    eexists. eexists. exists ids. split; [reflexivity|].
    split; [eapply links_same; [| | |apply R']; reflexivity|]. split; [apply R'|]. split; [apply R'|].
    split; [exact E|]. auto.
  - rewrite Hr.
    destruct (append_node_ok s g ids d k v L Hh Hne)
      as (s2 & g2 & -> & L2 & Hh2 & E2 & Hl2 & Hf2 & Ht2).
    eexists. eexists. eexists. rewrite (dput_new _ _ _ Hr). split; [repeat f_equal; lia|].
    split; [exact L2|]. split; [exact Hh2|]. split; [apply distinct_snoc; assumption|].
    split; [exact E2|]. split; [congruence|]. split; [|congruence].
    intros E. rewrite E in Ht2. destruct (htbl g); [contradiction|discriminate].
Qed.

Notation dputall := (dputall K V keq).

(* the argument is another map *)
Lemma putall_loop_ok js : forall fuel s g ids d l p e,
  links s g ids -> holds s ids d -> distinct d -> htbl g <> [] -> l = Z.of_nat (length d) ->
  seg s p js None -> holds s js e -> (forall i, In i js -> ~ In i ids) -> (length js < fuel)%nat ->
  exists s' g' ids', putall_loop K V keq khash fuel s g l (hd_or js None) =
      Some (s', g', Z.of_nat (length (dputall d e))) /\
    links s' g' ids' /\ holds s' ids' (dputall d e) /\ distinct (dputall d e) /\
    effect s ids s' ids' /\ hfrozen g' = hfrozen g /\ htbl g' <> [].
Proof.
  induction js as [|i r IH]; intros fuel s g ids d l p e L Hh Hd Hne Hl Hs He Hdis Hf.
  - inversion He; subst. exists s, g, ids. destruct fuel; cbn; splits; auto using effect_refl; apply L.
  - cbn in Hs. destruct Hs as (nd & Hn & _ & Hnx & Hs).
    inversion He as [|x y ll ll' (nd' & N1 & N2 & N3) He' E1 E2]; subst.
    rewrite Hn in N1. inversion N1; subst nd'. destruct y as [k v]. cbn in N2, N3. subst k v.
    destruct fuel as [|fuel]; cbn [length] in Hf; [lia|].
    cbn [hd_or putall_loop]. rewrite Hn.
    destruct (putall_one_ok s g ids d _ (nkey nd) (nval nd) L Hh Hd Hne eq_refl)
      as (s1 & g1 & ids1 & -> & L1 & Hh1 & Hd1 & E1 & Hf1 & Hn1 & _).
    assert (Hil : (i < length s)%nat) by (eapply nth_error_Some_lt; eauto).
    rewrite (e_same _ _ _ _ E1) by (auto; apply Hdis; left; reflexivity). rewrite Hn, Hnx.
    assert (Hr : forall j, In j r -> (j < length s)%nat) by (intros j Hj; eapply seg_lt; eauto).
    assert (Hag : agree s s1 r).
    { eapply effect_agree; [exact E1|exact Hr|]. intros j Hj. apply Hdis. right. exact Hj. }
    destruct (IH fuel s1 g1 ids1 (dput d (nkey nd) (nval nd)) _ (Some i) ll' L1 Hh1 Hd1 Hn1 eq_refl)
      as (s2 & g2 & ids2 & A & B & C & D & E & F & G).
    { eapply seg_ext; [|exact Hs]. intros j ndj Hj Hnj. exists ndj. rewrite Hag by exact Hj. auto. }
    { eapply holds_frame; eauto. }
    { intros j Hj Hin. destruct (e_new _ _ _ _ E1 j Hin) as [Hin'|Hge].
      - eapply Hdis; [right; exact Hj|exact Hin'].
      - apply Hr in Hj. lia. }
    { lia. }
    exists s2, g2, ids2. split; [exact A|]. split; [exact B|]. split; [exact C|]. split; [exact D|].
    split; [eapply effect_trans; eauto|]. split; [congruence|exact G].
Qed.

Lemma dput_same d k v : distinct d -> dget d k = Some v -> dput d k v = d.
Proof.
  intros Hd Hg. destruct (dput_found d k v Hg) as (d1 & k' & d2 & -> & A & B).
  apply dput_split; assumption.
Qed.

Lemma dget_in d k v : distinct d -> In (k, v) d -> dget d k = Some v.
Proof. intros Hd Hin. apply (dget_split d k k v Hd Hin). apply keq_refl. Qed.

Lemma dputall_sub e d : distinct d -> (forall k v, In (k, v) e -> In (k, v) d) -> dputall d e = d.
Proof.
  intros Hd. induction e as [|[k v] r IH]; intros Hs; [reflexivity|].
  unfold HMapSpec.dputall in *. cbn [fold_left fst snd]. rewrite dput_same; auto.
  - apply IH. intros a b Hab. apply Hs. right. exact Hab.
  - apply dget_in; [exact Hd|]. apply Hs. left. reflexivity.
Qed.

(* the argument is the receiver *)
Lemma putall_loop_self js : forall fuel pre s g d dp e,
  links s g (pre ++ js) -> holds s pre dp -> holds s js e -> d = dp ++ e -> distinct d -> htbl g <> [] ->
  (length js < fuel)%nat ->
  exists s', putall_loop K V keq khash fuel s g (Z.of_nat (length d)) (hd_or js None) =
      Some (s', g, Z.of_nat (length d)) /\
    links s' g (pre ++ js) /\ holds s' (pre ++ js) d /\ effect s (pre ++ js) s' (pre ++ js).
Proof.
  induction js as [|i r IH]; intros fuel pre s g d dp e L Hp He Ed Hd Hne Hf.
  - inversion He; subst. exists s. destruct fuel; cbn; splits; auto using effect_refl; try apply L;
      apply holds_app; auto; constructor.
  - pose proof (l_seg _ _ _ L) as Hs. apply seg_app in Hs. destruct Hs as (_ & Hs).
    cbn in Hs. destruct Hs as (nd & Hn & _ & Hnx & Hs).
    inversion He as [|x y ll ll' (nd' & N1 & N2 & N3) He' E1 E2]; subst ll x e.
    rewrite Hn in N1. inversion N1; subst nd'. destruct y as [k v]. cbn in N2, N3. subst k v.
    destruct fuel as [|fuel]; cbn [length] in Hf; [lia|].
    cbn [hd_or putall_loop]. rewrite Hn.
    assert (Hh : holds s (pre ++ i :: r) d) by (subst d; apply holds_app; assumption).
    assert (Hget : dget d (nkey nd) = Some (nval nd)).
    { apply dget_in; [exact Hd|]. rewrite Ed. apply in_app_iff. right. left. reflexivity. }
    destruct (putall_one_ok s g _ d _ (nkey nd) (nval nd) L Hh Hd Hne eq_refl)
      as (s1 & g1 & ids1 & -> & L1 & Hh1 & Hd1 & E1 & Hf1 & Hn1 & Hsame).
    destruct Hsame as [-> ->]; [congruence|].
    rewrite (dput_same _ _ _ Hd Hget) in *.
    replace (pre ++ i :: r) with ((pre ++ [i]) ++ r) in * by (rewrite <- app_assoc; reflexivity).
    rewrite Ed in Hh1. replace (dp ++ (nkey nd, nval nd) :: ll') with ((dp ++ [(nkey nd, nval nd)]) ++ ll')
      in * by (rewrite <- app_assoc; reflexivity).
    apply holds_app_inv in Hh1. destruct Hh1 as (i1 & i2 & Ei & Hi1 & Hi2).
    assert (i1 = pre ++ [i] /\ i2 = r) as [-> ->].
    { apply app_inj_len; [|symmetry; exact Ei]. rewrite (holds_length _ _ _ Hi1), !app_length.
      rewrite (holds_length _ _ _ Hp). reflexivity. }
    pose proof (l_seg _ _ _ L1) as Hs1. apply seg_app in Hs1. destruct Hs1 as (Hs1 & _).
    apply seg_app in Hs1. destruct Hs1 as (_ & Hs1). cbn in Hs1. destruct Hs1 as (nd1 & Hnd1 & _ & Hnx1 & _).
    rewrite Hnd1, Hnx1.
    destruct (IH fuel (pre ++ [i]) s1 g d _ _ L1 Hi1 Hi2 Ed Hd Hne ltac:(lia)) as (s2 & A & B & C & D).
    assert (Hhd : hd_or r None = hd_or r None) by reflexivity.
    exists s2. split; [exact A|]. split; [exact B|]. split; [exact C|]. eapply effect_trans; eauto.
Qed.

(* effect of an operation that leaves every existing node alone *)
Lemma effect_fresh s ids s' ids' : effect s [] s' ids' -> effect s ids s' ids'.
Proof.
  intros D. constructor; [apply D| |].
  - intros i Hi Hni. apply (e_same _ _ _ _ D); [exact Hi|intros []].
  - intros i Hi. right. destruct (e_new _ _ _ _ D i Hi) as [[]|]; assumption.
Qed.

Lemma repr_intro s g ids d : links s g ids -> holds s ids d -> distinct d -> hlen g = Z.of_nat (length d) ->
  repr s g ids d.
Proof. intros. constructor; assumption. Qed.

(* PutAll(a) where a is not the receiver *)
Lemma hputall_ok s g ids d ga js e :
  repr s g ids d -> repr s ga js e -> (forall i, In i js -> ~ In i ids) -> e <> [] ->
  exists s' g' ids', hputall K V keq khash s g (hlen ga) (fun _ => hfirst ga) = Some (s', g') /\
    repr s' g' ids' (dputall d e) /\ effect s ids s' ids' /\ hfrozen g' = hfrozen g /\ htbl g' <> [].
Proof.
  intros H Ha Hdis Hne. unfold hputall.
  assert (Hlt : (3 * hlen g <? 4 * (hlen g + hlen ga)) = true).
  { rewrite (r_len _ _ _ _ H), (r_len _ _ _ _ Ha). apply Z.ltb_lt.
    destruct e; [contradiction|]. cbn [length]. lia. }
  rewrite Hlt.
  destruct (hresize_ok s g g (hlen ga) ids d) as (s1 & g1 & ids1 & -> & B & C & D & E & F & G);
    [apply H|apply H|left; reflexivity|].
  assert (Hjl : forall j, In j js -> (j < length s)%nat) by (intros j; eapply links_lt; apply Ha).
  assert (Hag : agree s s1 js).
  { eapply effect_agree; [exact D|exact Hjl|]. intros j _ []. }
  rewrite (l_first _ _ _ (r_links _ _ _ _ Ha)).
  destruct (putall_loop_ok js (fuel_of s1) s1 g1 ids1 d (hlen g) None e)
    as (s2 & g2 & ids2 & A2 & B2 & C2 & D2 & E2 & F2 & G2); auto.
  - apply H.
  - apply (r_len _ _ _ _ H).
  - apply (links_frame s s1 ga js Hag). apply Ha.
  - eapply holds_frame; [exact Hag|apply Ha].
  - intros j Hj Hin. destruct (e_new _ _ _ _ D j Hin) as [[]|Hge]. apply Hjl in Hj. lia.
  - apply (ids_fuel s1 ga js). apply (links_frame s s1 ga js Hag). apply Ha.
  - rewrite A2. eexists. eexists. exists ids2. split; [reflexivity|]. split.
    + apply repr_intro; auto. eapply links_same; [| | |exact B2]; reflexivity.
    + split; [|cbn; split; [congruence|exact G2]].
      eapply effect_trans; [|exact E2]. apply effect_fresh. exact D.
Qed.

(* m.PutAll(m) *)
Lemma hputall_self s g ids d :
  repr s g ids d -> d <> [] ->
  exists s' g' ids', hputall K V keq khash s g (hlen g) hfirst = Some (s', g') /\
    repr s' g' ids' d /\ effect s ids s' ids' /\ hfrozen g' = hfrozen g /\ htbl g' <> [].
Proof.
  intros H Hne. unfold hputall.
  assert (Hlt : (3 * hlen g <? 4 * (hlen g + hlen g)) = true).
  { rewrite (r_len _ _ _ _ H). apply Z.ltb_lt. destruct d; [contradiction|]. cbn [length]. lia. }
  rewrite Hlt.
  destruct (hresize_ok s g g (hlen g) ids d) as (s1 & g1 & ids1 & -> & B & C & D & E & F & G);
    [apply H|apply H|left; reflexivity|].
  rewrite (l_first _ _ _ B). rewrite (r_len _ _ _ _ H).
  destruct (putall_loop_self ids1 (fuel_of s1) [] s1 g1 d [] d) as (s2 & A2 & B2 & C2 & D2); auto.
  - constructor.
  - apply H.
  - eapply ids_fuel; eauto.
  - rewrite A2. cbn [app] in *. eexists. eexists. exists ids1. split; [reflexivity|]. split.
    + apply repr_intro; auto. 1: eapply links_same; [| | |exact B2]; reflexivity. apply H.
    + split; [|cbn; split; [congruence|exact G]].
      eapply effect_trans; [|exact D2]. apply effect_fresh. exact D.
Qed.

(* ---------- Remove ---------- *)

Definition upd_if (p : option nat) (j : nat) (f : node -> node) (nd : node) : node :=
  match p with Some i => if Nat.eqb i j then f nd else nd | None => nd end.

Lemma mutate_char s p f :
  (forall i, p = Some i -> exists nd, nth_error s i = Some nd) -> p <> None ->
  exists s', mutate s p f = Some s' /\ length s' = length s /\
    forall j, nth_error s' j = option_map (upd_if p j f) (nth_error s j).
Proof.
  intros Ha Hp. destruct p as [i|]; [|contradiction]. destruct (Ha i eq_refl) as [nd Hn].
  rewrite (mutate_eq _ _ _ _ Hn). eexists. split; [reflexivity|]. split; [apply upd_length|].
  intros j. cbn [upd_if]. destruct (Nat.eqb_spec i j) as [<-|Hne].
  - rewrite Hn. cbn. rewrite Nat.eqb_refl. apply nth_error_upd_eq. eapply nth_error_Some_lt; eauto.
  - rewrite nth_error_upd_neq by exact Hne. destruct (nth_error s j); cbn; [|reflexivity].
    destruct (Nat.eqb_spec i j); [contradiction|reflexivity].
Qed.

Lemma last_or_in l p x : last_or l p = Some x -> In x l \/ p = Some x.
Proof.
  revert p. induction l as [|y r IH]; cbn; intros p H; [auto|].
  destruct (IH _ H) as [Hi|Hi]; [auto|]. left. left. congruence.
Qed.

(* only the last node of the segment gets a new successor *)
Lemma seg_change_last s s' n n' : forall a p q,
  seg s p a n -> NoDup a -> 
  (forall j nd, In j a -> nth_error s j = Some nd ->
     exists nd', nth_error s' j = Some nd' /\ nprev nd' = nprev nd /\
       (last_or a q = Some j -> nnext nd' = n') /\ (last_or a q <> Some j -> nnext nd' = nnext nd)) ->
  seg s' p a n'.
Proof.
  induction a as [|i r IH]; intros p q H Hnd Hx; [exact I|].
  cbn in H. destruct H as (nd & Hn & Hp & Hnx & Hs).
  destruct (Hx i nd (or_introl eq_refl) Hn) as (nd' & A & B & C & D). cbn [last_or] in *.
  cbn. exists nd'. split; [exact A|]. split; [congruence|].
  inversion Hnd; subst. split.
  - destruct r as [|y r]; [apply C; reflexivity|]. rewrite D; [exact Hnx|].
    cbn. intros E. destruct (last_or_in _ _ _ E) as [Hi|Hi].
    + apply H1. right. exact Hi.
    + inversion Hi; subst. apply H1. left. reflexivity.
  - apply (IH _ (Some i)); auto. intros j ndj Hj Hnj. apply Hx; [right; exact Hj|exact Hnj].
Qed.

Lemma schain_remove s s' h : forall c1 i c2 nd e0 q,
  schain s e0 (c1 ++ i :: c2) -> NoDup (c1 ++ i :: c2) -> nth_error s i = Some nd -> h = nhash nd ->
  (forall x, q = Some x -> ~ In x c2) ->
  (forall j ndj, In j (c1 ++ c2) -> nth_error s j = Some ndj ->
     exists nd', nth_error s' j = Some nd' /\
       (last_or c1 q = Some j -> nhash nd' = h) /\ (last_or c1 q <> Some j -> nhash nd' = nhash ndj)) ->
  schain s' (match c1 with [] => h | _ => e0 end) (c1 ++ c2).
Proof.
  induction c1 as [|x r IH]; intros i c2 nd e0 q H Hnd Hi Hh Hq Hx; cbn [app] in *.
  - cbn in H. destruct H as (_ & nd' & Hn' & Hc). rewrite Hi in Hn'. inversion Hn'; subst nd'.
    rewrite Hh. eapply schain_ext; [|exact Hc]. intros j ndj Hj Hnj.
    destruct (Hx j ndj Hj Hnj) as (nd' & A & B & C). exists nd'. split; [exact A|]. apply C.
    cbn. intros E. eapply Hq; eauto.
  - cbn in H. destruct H as (-> & ndx & Hnx & Hc). inversion Hnd as [|? ? Hni Hnd']; subst.
    destruct (Hx x ndx (or_introl eq_refl) Hnx) as (nd' & A & B & C). cbn [last_or] in *.
    cbn. split; [reflexivity|]. exists nd'. split; [exact A|].
    assert (IH' := IH i c2 nd (nhash ndx) (Some x) Hc Hnd' Hi eq_refl).
    destruct r as [|y r].
    + rewrite B by reflexivity. apply IH'.
      * intros z Hz Hin. inversion Hz; subst. apply Hni. cbn. right. exact Hin.
      * intros j ndj Hj Hnj. apply Hx; [right; exact Hj|exact Hnj].
    + rewrite C.
      * apply IH'.
        -- intros z Hz Hin. inversion Hz; subst. apply Hni. apply in_app_iff. right. right. exact Hin.
        -- intros j ndj Hj Hnj. apply Hx; [right; exact Hj|exact Hnj].
      * cbn. intros E. destruct (last_or_in _ _ _ E) as [Hin|Hin].
        -- apply Hni. apply in_app_iff. left. right. exact Hin.
        -- inversion Hin; subst. apply Hni. left. reflexivity.
Qed.

Lemma hidx_len t t' k : length t = length t' -> hidx t k = hidx t' k.
Proof. intros E. unfold HMap.hidx, tlen. rewrite E. reflexivity. Qed.

Definition keeps (s s' : list node) (ids : list nat) : Prop :=
  forall j nd, In j ids -> nth_error s j = Some nd ->
    exists nd', nth_error s' j = Some nd' /\ nkey nd' = nkey nd /\ nval nd' = nval nd.

Lemma unlink_ok s g a i b nd c1 c2 :
  links s g (a ++ i :: b) -> nth_error s i = Some nd -> htbl g <> [] ->
  let hk := hidx (htbl g) (nkey nd) in
  bucket_ok s (htbl g) (a ++ i :: b) hk (c1 ++ i :: c2) ->
  exists s' g', unlink s g hk (last_or c1 None) i = Some (s', g') /\
    links s' g' (a ++ b) /\ keeps s s' (a ++ b) /\ effect s (a ++ i :: b) s' (a ++ b) /\
    hlen g' = hlen g - 1 /\ hfrozen g' = hfrozen g /\ length (htbl g') = length (htbl g).
Proof.
  intros L Hn Hne hk (Hch & Hcn & Hci).
  assert (Hal : forall j, In j (a ++ i :: b) -> exists x, nth_error s j = Some x)
    by (intros j Hj; eapply links_alloc; eauto).
  destruct (l_tbl _ _ _ L) as [[E _]|[P B]]; [contradiction|].
  pose proof (l_nodup _ _ _ L) as Hnd.
  pose proof (NoDup_remove _ _ _ Hnd) as [Hnd' Hni].
  pose proof (NoDup_remove _ _ _ Hcn) as [Hcn' Hcni].
  pose proof (l_seg _ _ _ L) as Hs. apply seg_app in Hs. cbn [hd_or] in Hs. destruct Hs as (Hsa & Hsi).
  cbn in Hsi. destruct Hsi as (nd' & Hn' & Hpv & Hnx & Hsb). rewrite Hn in Hn'. inversion Hn'; subst nd'. clear Hn'.
  assert (Hp_al : forall j, last_or c1 None = Some j -> In j (a ++ b) /\ hidx (htbl g) (nkey nd) = hk /\ In j c1).
  { intros j Hj. destruct (last_or_in _ _ _ Hj) as [Hin|]; [|discriminate].
    assert (Hin2 : In j (a ++ i :: b)) by (apply Hci; apply in_app_iff; auto).
    split; [|auto]. apply in_app_iff in Hin2. apply in_app_iff. destruct Hin2 as [|[<-|]]; auto.
    exfalso. apply Hcni. apply in_app_iff. auto. }
  unfold unlink. rewrite Hn.
  (* the three assignments *)
  assert (S1 : exists s1 t1, (match last_or c1 None with
                | None => Some (s, upd (htbl g) hk (nhash nd))
                | Some _ => match mutate s (last_or c1 None) (fun n => set_hash n (nhash nd)) with
                            | None => None
                            | Some s1 => Some (s1, htbl g)
                            end
                end) = Some (s1, t1) /\ length s1 = length s /\
       (forall j, nth_error s1 j = option_map (upd_if (last_or c1 None) j (fun n => set_hash n (nhash nd))) (nth_error s j)) /\
       t1 = match c1 with [] => upd (htbl g) hk (nhash nd) | _ => htbl g end).
  { destruct (last_or c1 None) as [x|] eqn:El.
    - destruct (mutate_char s (Some x) (fun n => set_hash n (nhash nd))) as (s1 & M1 & M2 & M3); [|discriminate|].
      { intros j Hj. inversion Hj; subst. destruct (Hp_al j eq_refl) as (Hin & _). apply Hal.
        apply in_app_iff in Hin. apply in_app_iff. cbn. tauto. }
      rewrite M1. exists s1, (htbl g). splits; auto. destruct c1; [discriminate|reflexivity].
    - apply last_or_none in El. subst c1. exists s, (upd (htbl g) hk (nhash nd)). splits; auto.
      intros j. destruct (nth_error s j); reflexivity. }
  destruct S1 as (s1 & t1 & -> & Hl1 & C1 & Et1).
  assert (S2 : exists s2 f2, (match nprev nd with
                 | None => Some (s1, nnext nd)
                 | Some _ => match mutate s1 (nprev nd) (fun n => set_next n (nnext nd)) with
                             | None => None
                             | Some s2 => Some (s2, hfirst g)
                             end
                 end) = Some (s2, f2) /\ length s2 = length s1 /\
       (forall j, nth_error s2 j = option_map (upd_if (nprev nd) j (fun n => set_next n (nnext nd))) (nth_error s1 j)) /\
       f2 = hd_or (a ++ b) None).
  { rewrite Hpv. destruct (last_or a None) as [x|] eqn:El.
    - destruct (mutate_char s1 (Some x) (fun n => set_next n (nnext nd))) as (s2 & M1 & M2 & M3); [|discriminate|].
      { intros j Hj. inversion Hj; subst. destruct (last_or_in _ _ _ El) as [Hin|]; [|discriminate].
        destruct (Hal j) as [y Hy]; [apply in_app_iff; auto|]. rewrite C1, Hy. cbn. eauto. }
      rewrite M1. exists s2, (hfirst g). splits; auto. rewrite (l_first _ _ _ L).
      destruct a; [discriminate|reflexivity].
    - apply last_or_none in El. subst a. exists s1, (nnext nd). splits; auto.
      intros j. destruct (nth_error s1 j); reflexivity. }
  destruct S2 as (s2 & f2 & -> & Hl2 & C2 & Ef2).
  assert (S3 : exists s3 l3, (match nnext nd with
                   | None => Some (s2, nprev nd)
                   | Some _ => match mutate s2 (nnext nd) (fun n => set_prev n (nprev nd)) with
                               | None => None
                               | Some s3 => Some (s3, hlast g)
                               end
                   end) = Some (s3, l3) /\ length s3 = length s2 /\
       (forall j, nth_error s3 j = option_map (upd_if (nnext nd) j (fun n => set_prev n (nprev nd))) (nth_error s2 j)) /\
       l3 = last_or (a ++ b) None).
  { rewrite Hnx. destruct b as [|x b].
    - cbn [hd_or]. exists s2, (nprev nd). splits; auto.
      + intros j. destruct (nth_error s2 j); reflexivity.
      + rewrite app_nil_r. exact Hpv.
    - cbn [hd_or]. destruct (mutate_char s2 (Some x) (fun n => set_prev n (nprev nd))) as (s3 & M1 & M2 & M3); [|discriminate|].
      { intros j Hj. inversion Hj; subst.
        destruct (Hal j) as [y Hy]; [apply in_app_iff; right; right; left; reflexivity|].
        rewrite C2, C1, Hy. cbn. eauto. }
      rewrite M1. exists s3, (hlast g). splits; auto. rewrite (l_last _ _ _ L).
      rewrite !last_or_app. reflexivity. }
  destruct S3 as (s3 & l3 & -> & Hl3 & C3 & El3).
  eexists. eexists. split; [reflexivity|].
  (* what became of node j *)
  assert (CC : forall j ndj, nth_error s j = Some ndj -> exists nd',
     nth_error s3 j = Some nd' /\ nkey nd' = nkey ndj /\ nval nd' = nval ndj /\
     (last_or c1 None = Some j -> nhash nd' = nhash nd) /\ (last_or c1 None <> Some j -> nhash nd' = nhash ndj) /\
     (nprev nd = Some j -> nnext nd' = nnext nd) /\ (nprev nd <> Some j -> nnext nd' = nnext ndj) /\
     (nnext nd = Some j -> nprev nd' = nprev nd) /\ (nnext nd <> Some j -> nprev nd' = nprev ndj)).
  { intros j ndj Hj. rewrite C3, C2, C1, Hj. cbn. eexists. split; [reflexivity|].
    unfold upd_if.
    destruct (last_or c1 None) as [x|], (nprev nd) as [y|], (nnext nd) as [z|];
      repeat match goal with |- context[Nat.eqb ?x j] => destruct (Nat.eqb_spec x j) end;
      subst; cbn; splits; auto; intros; congruence. }
  assert (Hina : forall j, In j a -> In j (a ++ i :: b)) by (intros; apply in_app_iff; auto).
  assert (Hinb : forall j, In j b -> In j (a ++ i :: b)) by (intros; apply in_app_iff; cbn; auto).
  split; [constructor; cbn [htbl hfirst hlast]|splits].
  - apply seg_app. split.
    + rewrite <- Hnx. eapply (seg_change_last s); [exact Hsa| |].
      * apply NoDup_app_l in Hnd'. exact Hnd'.
      * intros j ndj Hj Hnj. destruct (CC j ndj Hnj) as (x & A1 & _ & _ & _ & _ & A2 & A3 & _ & A4).
        exists x. split; [exact A1|]. split.
        -- apply A4. rewrite Hnx. intros E. destruct b as [|y b]; [discriminate|].
           cbn in E. inversion E; subst. apply NoDup_remove_2 in Hnd'. apply Hnd'.
           apply in_app_iff. auto.
        -- rewrite <- Hpv. split; assumption.
    + rewrite <- Hpv. destruct b as [|y b]; [exact I|]. cbn in Hsb |- *.
      destruct Hsb as (ndy & Hy & _ & Hynx & Hsb).
      destruct (CC y ndy Hy) as (x & A1 & _ & _ & _ & _ & _ & A3 & A4 & _).
      exists x. split; [exact A1|]. split; [apply A4; exact Hnx|]. 
      assert (Hny : forall z, In z (y :: b) -> nprev nd <> Some z).
      { intros z Hz. rewrite Hpv. intros E. destruct (last_or_in _ _ _ E) as [Hin|]; [|discriminate].
        apply in_split in Hz. destruct Hz as (z1 & z2 & Ez). rewrite Ez in Hnd'.
        rewrite app_assoc in Hnd'. apply NoDup_remove_2 in Hnd'. apply Hnd'.
        rewrite !in_app_iff. auto. }
      split; [rewrite A3; [exact Hynx|apply Hny; left; reflexivity]|].
      eapply seg_ext; [|exact Hsb]. intros j ndj Hj Hnj.
      destruct (CC j ndj Hnj) as (x' & B1 & _ & _ & _ & _ & _ & B3 & _ & B5).
      exists x'. split; [exact B1|]. split; [apply B3; apply Hny; right; exact Hj|].
      apply B5. rewrite Hnx. cbn. intros E. inversion E; subst.
      apply NoDup_remove_2 in Hnd'. apply Hnd'. apply in_app_iff. auto.
  - exact Ef2.
  - exact El3.
  - exact Hnd'.
  - right. assert (Hlt1 : length t1 = length (htbl g)) by (subst t1; destruct c1; auto using upd_length).
    split; [destruct P as (n & Hn0 & En); exists n; split; [exact Hn0|]; unfold tlen in *; congruence|].
    intros b0 Hb0. rewrite Hlt1 in Hb0.
    destruct (Nat.eq_dec hk b0) as [<-|Hneb].
    + exists (c1 ++ c2). split; [|split; [exact Hcn'|]].
      * replace (nth hk t1 None) with (match c1 with [] => nhash nd | _ => nth hk (htbl g) None end).
        -- eapply schain_remove with (q := None); [exact Hch|exact Hcn|exact Hn|reflexivity|discriminate|].
           intros j ndj _ Hnj. destruct (CC j ndj Hnj) as (x & A1 & _ & _ & A2 & A3 & _). eauto.
        -- subst t1. destruct c1; [|reflexivity]. symmetry.
           apply nth_error_nth. apply nth_error_upd_eq. exact Hb0.
      * intros j. split.
        -- intros Hj. assert (Hj' : In j (c1 ++ i :: c2)) by (rewrite in_app_iff in *; cbn; tauto).
           apply Hci in Hj'. destruct Hj' as (Hj1 & x & Hx & Ex). split.
           ++ rewrite in_app_iff in *. destruct Hj1 as [|[<-|]]; auto. tauto.
           ++ destruct (CC j x Hx) as (x' & A1 & A2 & _). exists x'. split; [exact A1|].
              rewrite A2, (hidx_len _ _ _ Hlt1). exact Ex.
        -- intros (Hj & x' & Hx' & Ex'). destruct (Hal j) as [x Hx]; [rewrite in_app_iff in *; cbn; tauto|].
           destruct (CC j x Hx) as (x2 & A1 & A2 & _). rewrite Hx' in A1. inversion A1; subst x2.
           assert (Hj' : In j (c1 ++ i :: c2)).
           { apply Hci. split; [rewrite in_app_iff in *; cbn; tauto|]. exists x. split; [exact Hx|].
             rewrite A2, (hidx_len _ _ _ Hlt1) in Ex'. exact Ex'. }
           rewrite in_app_iff in *. destruct Hj' as [|[<-|]]; auto. tauto.
    + destruct (B b0 Hb0) as (c & Dch & Dn & Di). exists c. split; [|split; [exact Dn|]].
      * replace (nth b0 t1 None) with (nth b0 (htbl g) None).
        -- eapply schain_ext; [|exact Dch]. intros j ndj Hj Hnj.
           destruct (CC j ndj Hnj) as (x & A1 & _ & _ & _ & A3 & _). exists x. split; [exact A1|].
           apply A3. intros E. destruct (Hp_al j E) as (_ & _ & Hjc).
           assert (Hjc' : In j (c1 ++ i :: c2)) by (apply in_app_iff; auto).
           apply Hci in Hjc'. destruct Hjc' as (_ & x1 & X1 & X2).
           apply Di in Hj. destruct Hj as (_ & x3 & X3 & X4). congruence.
        -- subst t1. destruct c1; [|reflexivity].
           pose proof (nth_error_upd_neq (htbl g) hk b0 (nhash nd) Hneb) as U.
           pose proof (nth_error_nth' (htbl g) None Hb0) as U2. rewrite U2 in U.
           apply (nth_error_nth _ _ None) in U. symmetry. exact U.
      * intros j. split.
        -- intros Hj. apply Di in Hj. destruct Hj as (Hj1 & x & Hx & Ex). split.
           ++ rewrite in_app_iff in *. destruct Hj1 as [|[<-|]]; auto. exfalso.
              rewrite Hn in Hx. inversion Hx; subst x. exact (Hneb Ex).
           ++ destruct (CC j x Hx) as (x' & A1 & A2 & _). exists x'. split; [exact A1|].
              rewrite A2, (hidx_len _ _ _ Hlt1). exact Ex.
        -- intros (Hj & x' & Hx' & Ex'). destruct (Hal j) as [x Hx]; [rewrite in_app_iff in *; cbn; tauto|].
           destruct (CC j x Hx) as (x2 & A1 & A2 & _). rewrite Hx' in A1. inversion A1; subst x2.
           apply Di. split; [rewrite in_app_iff in *; cbn; tauto|]. exists x. split; [exact Hx|].
           rewrite A2, (hidx_len _ _ _ Hlt1) in Ex'. exact Ex'.
  - intros j ndj _ Hnj. destruct (CC j ndj Hnj) as (x & A1 & A2 & A3 & _). eauto.
  - constructor.
    + lia.
    + intros j Hj Hnin. rewrite C3, C2, C1. destruct (nth_error s j) as [ndj|]; [|reflexivity]. cbn. f_equal.
      assert (X1 : forall f x, upd_if (last_or c1 None) j f x = x).
      { intros f x. unfold upd_if. destruct (last_or c1 None) as [z|] eqn:E; [|reflexivity].
        destruct (Nat.eqb_spec z j) as [->|]; [|reflexivity]. destruct (Hp_al j eq_refl) as (Hz & _).
        exfalso. apply Hnin. rewrite in_app_iff in *. cbn. tauto. }
      assert (X2 : forall f x, upd_if (nprev nd) j f x = x).
      { intros f x. unfold upd_if. destruct (nprev nd) as [z|] eqn:E; [|reflexivity].
        destruct (Nat.eqb_spec z j) as [->|]; [|reflexivity]. symmetry in Hpv.
        destruct (last_or_in _ _ _ Hpv) as [Hz|]; [|discriminate]. exfalso. apply Hnin. auto. }
      assert (X3 : forall f x, upd_if (nnext nd) j f x = x).
      { intros f x. unfold upd_if. destruct (nnext nd) as [z|] eqn:E; [|reflexivity].
        destruct (Nat.eqb_spec z j) as [->|]; [|reflexivity].
        destruct b as [|y b]; [discriminate|]. cbn in Hnx. inversion Hnx; subst. exfalso. apply Hnin.
        apply Hinb. left. reflexivity. }
      rewrite X1, X2, X3. reflexivity.
    + intros j Hj. left. rewrite in_app_iff in *. cbn. tauto.
  - reflexivity.
  - reflexivity.
  - cbn. subst t1. destruct c1; auto using upd_length.
Qed.

Lemma remove_loop_find s g k hk : forall c2 c1 fuel e,
  schain s e c2 -> (length c2 < fuel)%nat ->
  (exists a i b nd, c2 = a ++ i :: b /\ nth_error s i = Some nd /\ keq k (nkey nd) = true /\
     remove_loop K V keq fuel s g k hk (last_or c1 None) e =
       match unlink s g hk (last_or (c1 ++ a) None) i with
       | None => None
       | Some (s', g') => Some (s', g', Some (nval nd))
       end) \/
  ((forall j nd, In j c2 -> nth_error s j = Some nd -> keq k (nkey nd) = false) /\
   remove_loop K V keq fuel s g k hk (last_or c1 None) e = Some (s, g, None)).
Proof.
  induction c2 as [|i r IH]; intros c1 fuel e H Hf.
  - cbn in H. subst e. right. split; [intros j nd []|]. destruct fuel; reflexivity.
  - cbn in H. destruct H as (-> & nd & Hn & Hc). destruct fuel as [|fuel]; cbn [length] in Hf; [lia|].
    cbn [remove_loop]. rewrite Hn. destruct (keq k (nkey nd)) eqn:E.
    + left. exists [], i, r, nd. rewrite app_nil_r. auto.
    + replace (Some i) with (last_or (c1 ++ [i]) None) by apply last_or_snoc.
      destruct (IH (c1 ++ [i]) fuel (nhash nd) Hc ltac:(lia)) as [(a & j & b & ndj & -> & A & B & C)|[A B]].
      * left. exists (i :: a), j, b, ndj. rewrite <- app_assoc in C. auto.
      * right. split; [|exact B]. intros j ndj [<-|Hj] Hnj; [congruence|eauto].
Qed.

Lemma holds_split s a i b d :
  holds s (a ++ i :: b) d -> exists d1 d2 nd, d = d1 ++ (nkey nd, nval nd) :: d2 /\
    nth_error s i = Some nd /\ holds s a d1 /\ holds s b d2.
Proof.
  intros H. apply Forall2_app_inv_l in H. destruct H as (d1 & d2' & Ha & Hb & ->).
  inversion Hb as [|x y l l' (nd & N1 & N2 & N3) Hb' E1 E2]; subst.
  exists d1, l', nd. destruct y as [k v]. cbn in N2, N3. subst. auto.
Qed.

Lemma hremove_ok s g ids d k :
  repr s g ids d -> htbl g <> [] ->
  exists s' g' ids', hremove K V keq khash s g k = Some (s', g', dget d k) /\
    repr s' g' ids' (dremove d k) /\ effect s ids s' ids' /\ hfrozen g' = hfrozen g /\ htbl g' <> [].
Proof.
  intros H Hne. unfold hremove. pose proof (r_links _ _ _ _ H) as L.
  destruct (l_tbl _ _ _ L) as [[E' _]|[P B]]; [contradiction|].
  rewrite (nth_error_hidx _ _ P).
  destruct (B _ (hidx_lt (htbl g) k P)) as (c & Hc & Hnd & Hin).
  destruct (remove_loop_find s g k (hidx (htbl g) k) c [] (fuel_of s) _ Hc) as [(a & i & b & nd & -> & Hn & Hk & Hr)|[Hno Hr]].
  { apply chain_fuel; [exact Hnd|]. intros i Hi. eapply schain_in; eauto. }
  - cbn [last_or app] in Hr. rewrite Hr.
    assert (Hi : In i ids) by (apply Hin; apply in_app_iff; right; left; reflexivity).
    apply in_split in Hi. destruct Hi as (ia & ib & ->).
    destruct (holds_split _ _ _ _ _ (r_holds _ _ _ _ H)) as (d1 & d2 & nd' & -> & Hn' & Hh1 & Hh2).
    rewrite Hn in Hn'. inversion Hn'; subst nd'.
    assert (Ehk : hidx (htbl g) k = hidx (htbl g) (nkey nd)).
    { unfold HMap.hidx. rewrite (keq_hash _ _ Hk). reflexivity. }
    rewrite Ehk in *.
    destruct (unlink_ok s g ia i ib nd a b L Hn Hne) as (s' & g' & -> & L' & Kp & Ef & Hl & Hfz & Ht).
    { split; [exact Hc|]. split; [exact Hnd|exact Hin]. }
    pose proof (r_distinct _ _ _ _ H) as Hd.
    assert (Hf : forall p q, In (p, q) d1 -> keq k p = false).
    { intros p q Hpq. apply distinct_app in Hd. destruct Hd as (_ & _ & D).
      pose proof (D p q (nkey nd) (nval nd) Hpq (or_introl eq_refl)) as F.
      destruct (keq k p) eqn:E; [|reflexivity]. apply keq_sym in E.
      rewrite (keq_trans _ _ _ E Hk) in F. discriminate. }
    assert (Hget : dget (d1 ++ (nkey nd, nval nd) :: d2) k = Some (nval nd)).
    { eapply dget_split; [exact Hd| |exact Hk]. apply in_app_iff. right. left. reflexivity. }
    rewrite Hget, (dremove_split _ _ _ _ _ Hf Hk).
    exists s', g', (ia ++ ib). split; [reflexivity|]. split.
    + apply repr_intro; [exact L'| | |].
      * eapply holds_ext; [|apply holds_app; eassumption]. intros j ndj Hj Hnj.
        destruct (Kp j ndj Hj Hnj) as (x & A & B1 & B2). eauto.
      * eapply distinct_drop; eauto.
      * rewrite Hl, (r_len _ _ _ _ H), !app_length. cbn. lia.
    + split; [exact Ef|]. split; [exact Hfz|]. intros E. rewrite E in Ht. destruct (htbl g); [contradiction|discriminate].
  - cbn [last_or] in Hr. rewrite Hr.
    assert (Hget : dget d k = None).
    { destruct (dget d k) as [v|] eqn:E; [|reflexivity]. exfalso.
      destruct (repr_find s g ids d k H Hne) as (r & _ & Hr').
      destruct r as [i|]; [|congruence]. destruct Hr' as (Hi & nd & Hn & Hk & _).
      assert (Hic : In i c).
      { apply Hin. split; [exact Hi|]. exists nd. split; [exact Hn|].
        unfold HMap.hidx. rewrite (keq_hash _ _ Hk). reflexivity. }
      rewrite (Hno i nd Hic Hn) in Hk. discriminate. }
    rewrite Hget, (dremove_none _ _ Hget). exists s, g, ids. splits; auto using effect_refl.
Qed.

Notation dremoveall := (dremoveall K V keq).

Lemma removeall_loop_ok ks : forall s g ids d,
  repr s g ids d -> htbl g <> [] ->
  exists s' g' ids', removeall_loop K V keq khash s g ks = Some (s', g') /\
    repr s' g' ids' (dremoveall d ks) /\ effect s ids s' ids' /\ hfrozen g' = hfrozen g /\ htbl g' <> [].
Proof.
  induction ks as [|k r IH]; intros s g ids d H Hne.
  - exists s, g, ids. cbn. splits; auto using effect_refl.
  - cbn [removeall_loop]. destruct (hremove_ok s g ids d k H Hne) as (s1 & g1 & ids1 & -> & R1 & E1 & F1 & N1).
    destruct (IH s1 g1 ids1 _ R1 N1) as (s2 & g2 & ids2 & -> & R2 & E2 & F2 & N2).
    exists s2, g2, ids2. split; [reflexivity|]. split; [exact R2|]. split; [eapply effect_trans; eauto|].
    split; [congruence|exact N2].
Qed.

Lemma dremoveall_nil ks : dremoveall [] ks = [].
Proof. induction ks as [|k r IH]; [reflexivity|exact IH]. Qed.

Lemma hremoveall_ok s g ids d ks :
  repr s g ids d -> htbl g <> [] ->
  exists s' g' ids', hremoveall K V keq khash s g ks = Some (s', g') /\
    repr s' g' ids' (dremoveall d ks) /\ effect s ids s' ids' /\ hfrozen g' = hfrozen g /\ htbl g' <> [].
Proof.
  intros H Hne. unfold hremoveall. destruct (_ || _) eqn:E.
  - exists s, g, ids. split; [reflexivity|]. split; [|auto using effect_refl].
    replace (dremoveall d ks) with d; [exact H|]. apply orb_true_iff in E. destruct E as [E|E]; apply Z.eqb_eq in E.
    + rewrite (r_len _ _ _ _ H) in E. destruct d; [|discriminate]. symmetry. apply dremoveall_nil.
    + destruct ks; [reflexivity|discriminate].
  - apply removeall_loop_ok; assumption.
Qed.

(* ---------- mapping the values of a fresh copy ---------- *)

Lemma mapvals_ok f js : forall fuel pre s g dp e,
  links s g (pre ++ js) -> holds s pre dp -> holds s js e -> (length js < fuel)%nat ->
  exists s', mapvals fuel s (hd_or js None) f = Some s' /\
    links s' g (pre ++ js) /\
    holds s' (pre ++ js) (dp ++ map (fun kv => (fst kv, f (fst kv) (snd kv))) e) /\
    effect s (pre ++ js) s' (pre ++ js).
Proof.
  induction js as [|i r IH]; intros fuel pre s g dp e L Hp He Hf.
  - inversion He; subst. exists s. destruct fuel; cbn; splits; auto using effect_refl, holds_app.
  - pose proof (l_seg _ _ _ L) as Hs. apply seg_app in Hs. destruct Hs as (_ & Hs).
    cbn in Hs. destruct Hs as (nd & Hn & _ & Hnx & Hs).
    inversion He as [|x y ll ll' (nd' & N1 & N2 & N3) He' E1 E2]; subst ll x e.
    rewrite Hn in N1. inversion N1; subst nd'. destruct y as [k v]. cbn in N2, N3. subst k v.
    destruct fuel as [|fuel]; cbn [length] in Hf; [lia|].
    cbn [hd_or mapvals]. rewrite Hn, Hnx.
    set (s1 := upd s i (set_val nd (f (nkey nd) (nval nd)))).
    assert (L1 : links s1 g (pre ++ i :: r)) by (apply set_val_links; assumption).
    pose proof (l_nodup _ _ _ L) as Hnd. pose proof (NoDup_remove_2 _ _ _ Hnd) as Hni.
    assert (Hlt : (i < length s)%nat) by (eapply nth_error_Some_lt; eauto).
    replace (pre ++ i :: r) with ((pre ++ [i]) ++ r) in * by (rewrite <- app_assoc; reflexivity).
    destruct (IH fuel (pre ++ [i]) s1 g (dp ++ [(nkey nd, f (nkey nd) (nval nd))]) ll' L1) as (s2 & A & B & C & D).
    + apply holds_app.
      * eapply holds_ext; [|exact Hp]. intros j ndj Hj Hnj. exists ndj. unfold s1.
        rewrite nth_error_upd_neq; [auto|]. intros <-. apply Hni. apply in_app_iff. auto.
      * constructor; [|constructor]. exists (set_val nd (f (nkey nd) (nval nd))).
        unfold s1. rewrite nth_error_upd_eq by exact Hlt. cbn. auto.
    + eapply holds_ext; [|exact He']. intros j ndj Hj Hnj. exists ndj. unfold s1.
      rewrite nth_error_upd_neq; [auto|]. intros <-. apply Hni. apply in_app_iff. auto.
    + lia.
    + exists s2. split; [exact A|]. split; [exact B|]. split.
      * rewrite <- (app_assoc dp) in C. exact C.
      * eapply effect_trans; [|exact D]. constructor.
        -- unfold s1. rewrite upd_length. lia.
        -- intros j Hj Hnin. unfold s1. apply nth_error_upd_neq. intros <-. apply Hnin.
           rewrite !in_app_iff. cbn. auto.
        -- auto.
Qed.

(* ---------- ToMap ---------- *)

Lemma tomap_loop_ok kvs : forall s g ids d,
  links s g ids -> holds s ids d -> htbl g <> [] ->
  exists s' g' ids', tomap_loop K V khash s g kvs = Some (s', g') /\
    links s' g' ids' /\ holds s' ids' (d ++ kvs) /\ effect s ids s' ids' /\
    hlen g' = hlen g /\ hfrozen g' = hfrozen g /\ htbl g' <> [].
Proof.
  induction kvs as [|[k v] r IH]; intros s g ids d L H Hne.
  - exists s, g, ids. cbn. rewrite app_nil_r. splits; auto using effect_refl.
  - cbn [tomap_loop]. destruct (append_node_ok s g ids d k v L H Hne)
      as (s1 & g1 & -> & L1 & H1 & E1 & Hl1 & Hf1 & Ht1).
    destruct (IH s1 g1 _ _ L1 H1) as (s2 & g2 & ids2 & -> & L2 & H2 & E2 & Hl2 & Hf2 & Ht2).
    { intros E. rewrite E in Ht1. destruct (htbl g); [contradiction|discriminate]. }
    exists s2, g2, ids2. split; [reflexivity|]. split; [exact L2|]. rewrite <- app_assoc in H2.
    split; [exact H2|]. split; [eapply effect_trans; eauto|]. split; [congruence|]. split; [congruence|exact Ht2].
Qed.

Lemma dputall_distinct e : forall d, distinct (d ++ e) -> dputall d e = d ++ e.
Proof.
  induction e as [|[k v] r IH]; intros d Hd; [symmetry; apply app_nil_r|].
  change (dputall d ((k, v) :: r)) with (dputall (dput d k v) r).
  rewrite dput_new.
  - rewrite IH; rewrite <- app_assoc; [reflexivity|exact Hd].
  - apply dget_none. intros k' v' Hin. apply distinct_app in Hd. destruct Hd as (_ & _ & D).
    apply keq_sym_false. eapply D; [exact Hin|left; reflexivity].
Qed.

Lemma htomap_ok s kvs fr :
  distinct kvs ->
  exists s' g' ids', htomap K V khash s kvs fr = Some (s', g') /\
    repr s' g' ids' (dputall [] kvs) /\ effect s [] s' ids' /\ hfrozen g' = fr /\ htbl g' <> [].
Proof.
  intros Hd. unfold htomap.
  destruct (tomap_loop_ok kvs s (HMap (repeat None (Z.to_nat (tableSizeFor (Z.of_nat (length kvs)))))
     (Z.of_nat (length kvs)) None None fr) [] []) as (s' & g' & ids' & A & B & C & D & E & F & G).
  - apply links_empty.
  - constructor.
  - apply pow2_nonempty, pow2_repeat.
  - exists s', g', ids'. split; [exact A|]. rewrite (dputall_distinct kvs []) by exact Hd.
    split; [apply repr_intro; auto|auto].
Qed.
End Inv.
