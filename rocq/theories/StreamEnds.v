(* Streaming comes to an end, and what has been collected is the same graph. *)
From Coq Require Import ZArith List Bool Lia Arith.
From Verif Require Import Int64 Data DataSpec DataProofs Graph GraphSpec Stream StreamSpec StreamProofs.
Import ListNotations.
Open Scope nat_scope.

Lemma filter_le {A} (f h : A -> bool) l : (forall x, f x = true -> h x = true) -> length (filter f l) <= length (filter h l).
Proof. intros H. induction l as [|x l IH]; cbn; [lia|]. destruct (f x) eqn:E; [rewrite (H x E); cbn; lia|destruct (h x); cbn; lia]. Qed.
Lemma filter_lt {A} (f h : A -> bool) l a : (forall x, f x = true -> h x = true) -> In a l -> h a = true -> f a = false ->
  length (filter f l) < length (filter h l).
Proof.
  intros H. induction l as [|x l IH]; [easy|]. intros [->|I1] Ha Fa; cbn.
  - rewrite Fa, Ha. cbn. pose proof (filter_le f h l H). lia.
  - specialize (IH I1 Ha Fa). destruct (f x) eqn:E; [rewrite (H x E); cbn; lia|destruct (h x); cbn; lia].
Qed.

Section Ends.
Variable W : codec.
Variable D : dialect.
Variable C : consumer.
Variable op : options.
Variable g : objects.
Variable ok : list value -> Prop.
Hypothesis g_plain : Forall (plain ok D C g) g.

Definition done (r : outcome (ev * stream)) : Prop := exists e s, r = Done (e, s).

Lemma plain_at p x : nth_error g p = Some x -> plain ok D C g x.
Proof. intros E. rewrite Forall_forall in g_plain. apply g_plain. eapply nth_error_In; eauto. Qed.

Lemma emit_list_done f l : (forall x, In x l -> forall s, done (f x s)) -> forall s, exists es s', emit_list f l s = Done (es, s').
Proof.
  induction l as [|x l IH]; intros F s; cbn; [eauto|]. destruct (F x (or_introl eq_refl) s) as (e & s1 & ->). cbn.
  destruct (IH (fun a Ia => F a (or_intror Ia)) s1) as (es & s2 & ->). cbn. eauto.
Qed.
Lemma emit_entries_done fk fv m : (forall e, In e m -> forall s, done (fk (fst e) s) /\ done (fv (snd e) s)) ->
  forall s, exists es s', emit_entries fk fv m s = Done (es, s').
Proof.
  induction m as [|[k v] l IH]; intros F s; cbn; [eauto|]. destruct (F _ (or_introl eq_refl) s) as [(e & s1 & E) _]. cbn in E. rewrite E. cbn.
  destruct (F _ (or_introl eq_refl) s1) as [_ (e2 & s2 & E2)]. cbn in E2. rewrite E2. cbn.
  destruct (IH (fun a Ia => F a (or_intror Ia)) s2) as (es & s3 & ->). cbn. eauto.
Qed.
Lemma process_done lv k doer s : (forall s, done (doer s)) -> done (process lv k doer s).
Proof. intros H. unfold process. destruct lv; auto; destruct (lookup k (seen s)); auto; eexists; eexists; reflexivity. Qed.
Lemma emit_string_done lv t s : done (emit_string C lv t s).
Proof. unfold emit_string. destruct (_ <=? _)%Z; [apply process_done; intros s'|]; eexists; eexists; reflexivity. Qed.

Lemma emit_simple n lv v s : simple v -> done (emit W D C op g (S n) lv (SVal v) s).
Proof. intros S. destruct v; try easy; cbn [emit]; try (eexists; eexists; reflexivity). apply emit_string_done. Qed.

Lemma map_cond m p : nth_error g p = Some (SMap m) -> (c_complex C || string_keys m = true) /\ ref_of D m = None.
Proof.
  intros E. destruct (plain_at _ _ E) as (_ & _ & Cx & Nr). split; [|now apply no_ref].
  destruct Cx as [-> |Tk]; [reflexivity|]. rewrite (text_keys _ Tk). apply orb_true_r.
Qed.

(* a finite value, on any level *)
Lemma emit_finite : forall x v, meaning g x v -> forall n lv s, vdepth v < n -> done (emit W D C op g n lv x s).
Proof.
  apply (meaning_ind' g (fun x v => forall n lv s, vdepth v < n -> done (emit W D C op g n lv x s))).
  - intros v S [|n] lv s L; [lia|]. now apply emit_simple.
  - intros p l vs E F [|n] lv s L; [lia|]. cbn [emit]. rewrite E. cbn [emit_node]. apply process_done. intros s'.
    destruct (emit_list_done (emit W D C op g n lv) l) with (s := bump s') as (es & s2 & ->); [|cbn; eexists; eexists; reflexivity].
    intros x Ix s1. assert (exists v, In v vs /\ forall n lv s, vdepth v < n -> done (emit W D C op g n lv x s)) as (v & Iv & H).
    { clear - F Ix. induction F as [|a b l vs [_ H] F IH]; [easy|]. destruct Ix as [->|Ix]; [exists b; split; [now left|assumption]|].
      destruct (IH Ix) as (v & ? & ?). exists v. split; [now right|assumption]. }
    apply H. cbn [vdepth] in L. apply (in_map vdepth), max_in in Iv. lia.
  - intros p m ws E F [|n] lv s L; [lia|]. cbn [emit]. rewrite E. cbn [emit_node]. destruct (map_cond m p E) as [-> ->]. apply process_done. intros s'.
    destruct (emit_entries_done (emit W D C op g n (key_level lv)) (emit W D C op g n lv) m) with (s := bump s') as (es & s2 & ->); [|cbn; eexists; eexists; reflexivity].
    intros e Ie s1. assert (exists w, In w ws /\ (forall n lv s, vdepth (fst w) < n -> done (emit W D C op g n lv (fst e) s)) /\ (forall n lv s, vdepth (snd w) < n -> done (emit W D C op g n lv (snd e) s))) as (w & Iw & H1 & H2).
    { clear - F Ie. induction F as [|a b l vs [[_ H] [_ H']] F IH]; [easy|]. destruct Ie as [->|Ix]; [exists b; split; [now left|split; assumption]|].
      destruct (IH Ix) as (v & ? & ?). exists v. split; [now right|assumption]. }
    cbn [vdepth] in L. apply (in_map (fun e => Nat.max (vdepth (fst e)) (vdepth (snd e)))), max_in in Iw. split; [apply H1|apply H2]; lia.
  - intros p x v E. now destruct (plain_at _ _ E).
  - intros p b E [|n] lv s L; [lia|]. cbn [emit]. rewrite E. cbn [emit_node]. apply process_done. intros s'.
    pose proof (plain_at _ _ E) as Pl. cbn in Pl. rewrite Pl. eexists; eexists; reflexivity.
  - intros p a b z E [|n] lv s L; [lia|]. cbn [emit]. rewrite E. cbn [emit_node]. apply process_done. intros s'.
    pose proof (plain_at _ _ E) as Pl. cbn in Pl. rewrite Pl. eexists; eexists; reflexivity.
Qed.

(* any value, if objects are sent only once *)
Definition unseen (s : stream) : nat := length (filter (fun p => match lookup (KPtr p) (seen s) with None => true | _ => false end) (seq 0 (length g))).
Lemma unseen_grows s s' : grows s s' -> unseen s' <= unseen s.
Proof.
  intros G. apply filter_le. intros p. destruct (lookup (KPtr p) (seen s')) eqn:E; [discriminate|]. intros _.
  destruct (lookup (KPtr p) (seen s)) eqn:E'; [|reflexivity]. apply G in E'. congruence.
Qed.
Definition ends (s : stream) (r : outcome (ev * stream)) : Prop := exists e s', r = Done (e, s') /\ unseen s' <= unseen s.

Lemma grows_refl s : grows s s. Proof. now intros k i E. Qed.
Lemma add_ends v s : ends s (add v s).
Proof. eexists; eexists. split; [reflexivity|]. apply unseen_grows. now intros k i E. Qed.
Lemma key_grows s k i : lookup k (seen s) = None -> grows s (mk_stream ((k, i) :: seen s) (next s)).
Proof. intros E k' i' E'. cbn. rewrite lookup_other; auto. congruence. Qed.

Lemma process_ends lv k doer s : lv <> NoDedup -> 
  (lookup k (seen s) = None -> ends (mk_stream ((k, next s) :: seen s) (next s)) (doer (mk_stream ((k, next s) :: seen s) (next s)))) -> ends s (process lv k doer s).
Proof.
  intros Nd H. unfold process. destruct lv; [easy| |]; (destruct (lookup k (seen s)) eqn:E; [eexists; eexists; split; [reflexivity|lia]|]);
    destruct (H eq_refl) as (e & s' & -> & L); eexists; eexists; (split; [reflexivity|]);
    pose proof (unseen_grows s _ (key_grows s k (next s) E)); lia.
Qed.
Lemma unseen_key s p : p < length g -> lookup (KPtr p) (seen s) = None -> unseen (mk_stream ((KPtr p, next s) :: seen s) (next s)) < unseen s.
Proof.
  intros L E. apply (filter_lt _ _ _ p).
  - intros q. cbn [seen]. destruct (key_eqb (KPtr q) (KPtr p)) eqn:K.
    + apply key_eqb_eq in K as [= ->]. now rewrite lookup_same.
    + rewrite lookup_other; auto. intros Z. apply key_eqb_eq in Z. congruence.
  - apply in_seq. lia.
  - now rewrite E.
  - cbn [seen]. now rewrite lookup_same.
Qed.

Lemma emit_list_ends f l : forall k s, unseen s <= k -> (forall x, In x l -> forall s, unseen s <= k -> ends s (f x s)) ->
  exists es s', emit_list f l s = Done (es, s') /\ unseen s' <= unseen s.
Proof.
  intros k. induction l as [|x l IH]; intros s Lk F; cbn; [eauto|].
  destruct (F x (or_introl eq_refl) s Lk) as (e & s1 & -> & L1). cbn.
  destruct (IH s1) as (es & s2 & -> & L2); [lia|intros a Ia; apply F; now right|]. cbn. eexists; eexists. split; [reflexivity|lia].
Qed.
Lemma emit_entries_ends fk fv m : forall k s, unseen s <= k -> (forall e, In e m -> forall s, unseen s <= k -> ends s (fk (fst e) s) /\ ends s (fv (snd e) s)) ->
  exists es s', emit_entries fk fv m s = Done (es, s') /\ unseen s' <= unseen s.
Proof.
  intros k. induction m as [|[a b] l IH]; intros s Lk F; cbn; [eauto|].
  destruct (F _ (or_introl eq_refl) s Lk) as [(e & s1 & E1 & L1) _]. cbn in E1. rewrite E1. cbn. assert (L1k : unseen s1 <= k) by lia.
  destruct (F _ (or_introl eq_refl) s1 L1k) as [_ (e2 & s2 & E2 & L2)]. cbn in E2. rewrite E2. cbn.
  destruct (IH s2) as (es & s3 & -> & L3); [lia|intros a' Ia; apply F; now right|]. cbn. eexists; eexists. split; [reflexivity|lia].
Qed.

Variable N : nat.
Hypothesis depth_ok : forall p m e k, nth_error g p = Some (SMap m) -> In e m -> meaning g (fst e) k -> vdepth k < N.

(* emission without deduplication leaves the map of values as it is *)
Lemma process_nodedup k doer s : process NoDedup k doer s = doer s. Proof. reflexivity. Qed.
Lemma nodedup_list f l : (forall x, In x l -> forall s e s', f x s = Done (e, s') -> seen s' = seen s) -> forall s es s', emit_list f l s = Done (es, s') -> seen s' = seen s.
Proof.
  induction l as [|x l IH]; intros F s es s' H; cbn in H; [now injection H as _ <-|]. undo H. undo H. injection H as _ <-.
  rewrite (IH (fun a Ia => F a (or_intror Ia)) _ _ _ E0). exact (F x (or_introl eq_refl) _ _ _ E).
Qed.
Lemma nodedup_entries fk fv m : (forall x s e s', fk x s = Done (e, s') -> seen s' = seen s) -> (forall x s e s', fv x s = Done (e, s') -> seen s' = seen s) ->
  forall s es s', emit_entries fk fv m s = Done (es, s') -> seen s' = seen s.
Proof.
  intros Fk Fv. induction m as [|[a b] l IH]; intros s es s' H; cbn in H; [now injection H as _ <-|]. undo H. undo H. undo H. injection H as _ <-.
  rewrite (IH _ _ _ E1), (Fv _ _ _ _ E0). exact (Fk _ _ _ _ E).
Qed.
Lemma nodedup_string t s e s' : emit_string C NoDedup t s = Done (e, s') -> seen s' = seen s.
Proof. unfold emit_string. destruct (_ <=? _)%Z; cbn; intros H; now injection H as _ <-. Qed.
Lemma nodedup_wrapped nm f : (forall s e s', f s = Done (e, s') -> seen s' = seen s) -> forall s e s', wrapped D nm f s = Done (e, s') -> seen s' = seen s.
Proof. intros F s e s' H. unfold wrapped in H. cbn in H. undo H. injection H as _ <-. now apply F in E. Qed.
Lemma nodedup_seen : forall n x s e s', emit W D C op g n NoDedup x s = Done (e, s') -> seen s' = seen s.
Proof.
  induction n as [|n IH]; intros x s e s' H; [discriminate|]. cbn [emit] in H. destruct x as [v|p].
  - destruct v; try discriminate; try (cbn in H; now injection H as _ <-). now apply nodedup_string in H.
  - destruct (nth_error g p) as [x|]; [|discriminate]. destruct x as [l|m|x|b|a b z|tx al]; cbn [emit_node] in H.
    + rewrite process_nodedup in H. undo H. injection H as _ <-. apply nodedup_list in E; [exact E|]. intros x _ s1 e1 s2. apply IH.
    + destruct (c_complex C || string_keys m).
      * destruct (ref_of D m); [now injection H as _ <-|]. rewrite process_nodedup in H. undo H. injection H as _ <-. apply nodedup_entries in E; [exact E| |]; intros x s1 e1 s2; apply IH.
      * destruct (o_rich op); [|discriminate]. rewrite process_nodedup in H. apply nodedup_wrapped in H; [exact H|]. intros s1 e1 s2 H1. undo H1. injection H1 as _ <-.
        apply nodedup_entries in E; [exact E| |]; intros x s3 e3 s4; apply IH.
    + rewrite process_nodedup in H. destruct (o_rich op); [|discriminate]. apply nodedup_wrapped in H; [exact H|]. intros s1 e1 s2. apply IH.
    + rewrite process_nodedup in H. destruct (c_binary C); [now injection H as _ <-|]. destruct (o_rich op); [|discriminate]. apply nodedup_wrapped in H; [exact H|]. intros s1 e1 s2. apply nodedup_string.
    + rewrite process_nodedup in H. destruct (c_time C); [now injection H as _ <-|]. destruct (o_rich op); [|discriminate]. apply nodedup_wrapped in H; [exact H|]. intros s1 e1 s2. apply nodedup_string.
    + rewrite process_nodedup in H. cbn in H. destruct (o_aliases op); [destruct al as [al|]|]; try (now injection H as _ <-).
      undo H. undo H. injection H as _ <-. apply nodedup_string in E, E0. cbn in E. congruence.
Qed.

Lemma emit_ends : forall n lv x s, lv <> NoDedup -> valid g x -> unseen s + N < n -> ends s (emit W D C op g n lv x s).
Proof.
  induction n as [|n IH]; intros lv x s Nd V L; [lia|]. cbn [emit]. destruct x as [v|p].
  - cbn in V. destruct v; try easy; try apply add_ends. unfold emit_string. destruct (_ <=? _)%Z; [|apply add_ends].
    apply process_ends; auto. intros _. apply add_ends.
  - cbn in V. destruct (lt_nth _ _ V) as (x & E). rewrite E. pose proof (plain_at _ _ E) as Pl. destruct x as [l|m|x|b|a b z|tx al]; cbn [plain emit_node] in *.
    + apply process_ends; auto. intros E1. pose proof (unseen_key s p V E1) as U. set (s1 := mk_stream _ _) in *.
      destruct (emit_list_ends (emit W D C op g n lv) l (unseen s1) (bump s1)) as (es & s2 & -> & L2); [unfold unseen, bump; cbn; lia| |cbn; eexists; eexists; split; [reflexivity|exact L2]].
      intros x Ix s2 L2. apply IH; auto; [|lia]. rewrite Forall_forall in Pl. now apply Pl.
    + destruct (map_cond m p E) as [-> ->]. apply process_ends; auto. intros E1. pose proof (unseen_key s p V E1) as U. set (s1 := mk_stream _ _) in *.
      destruct Pl as (Vl & (ks & Mk & _) & _). rewrite Forall_forall in Vl.
      destruct (emit_entries_ends (emit W D C op g n (key_level lv)) (emit W D C op g n lv) m (unseen s1) (bump s1)) as (es & s2 & -> & L2); [unfold unseen, bump; cbn; lia| |cbn; eexists; eexists; split; [reflexivity|exact L2]].
      intros e Ie s2 L2. split; [|apply IH; auto; [now apply Vl|lia]].
      destruct (key_level lv) eqn:Kl; [|apply IH; try easy; [now apply Vl|lia]|apply IH; try easy; [now apply Vl|lia]].
      assert (exists k, meaning g (fst e) k) as (k & M).
      { clear - Mk Ie. induction Mk; [easy|]. destruct Ie as [->|Ie]; eauto. }
      destruct (emit_finite _ _ M n NoDedup s2) as (ev & s3 & H); [pose proof (depth_ok _ _ _ _ E Ie M); lia|].
      exists ev, s3. split; [exact H|]. apply nodedup_seen in H. unfold unseen. rewrite H. lia.
    + easy.
    + apply process_ends; auto. intros _. rewrite Pl. apply add_ends.
    + apply process_ends; auto. intros _. rewrite Pl. apply add_ends.
    + easy.
Qed.
End Ends.

(* the keys of all maps have some greatest depth *)
Lemma depth_bound ok D C g : Forall (plain ok D C g) g -> exists N, forall p m e k, nth_error g p = Some (SMap m) -> In e m -> meaning g (fst e) k -> vdepth k < N.
Proof.
  intros Pl. assert (forall l, Forall (plain ok D C g) l -> exists N, forall m e k, In (SMap m) l -> In e m -> meaning g (fst e) k -> vdepth k < N) as H.
  { induction 1 as [|x l Px _ (N & H)]; [exists 0; easy|]. destruct x as [l'|m|x|b|a b z|tx al]; try (exists N; intros m e k [Z|I1]; [discriminate|eauto]).
    destruct Px as (_ & (ks & Mk & _) & _).
    exists (S (Nat.max N (fold_right Nat.max 0 (map vdepth ks)))). intros m' e k [[= <-]|I1] Ie M; [|pose proof (H _ _ _ I1 Ie M); lia].
    assert (In k ks) as Ik.
    { clear - Mk Ie M. induction Mk as [|a b m ks Ma Mk IH]; [easy|]. destruct Ie as [->|Ie]; [left; now apply (meaning_fun _ _ _ M)|right; auto]. }
    apply (in_map vdepth), max_in in Ik. lia. }
  destruct (H _ Pl) as (N & Hn). exists N. intros p m e k E. apply Hn. eapply nth_error_In; eauto.
Qed.

Section Whole.
Variable W : codec.
Variable D : dialect.
Variable C : consumer.
Variable op : options.
Variable g : objects.
Variable am : nat -> nat -> coll -> outcome coll.
Variable ok : list value -> Prop.
Hypothesis am_ok : forall n p c m, nth_error (heap c) p = Some (GMap m) -> ok (map fst m) -> am n p c = Done c.
Hypothesis g_plain : Forall (plain ok D C g) g.

Lemma start_nodedup lv : start_level C lv = NoDedup <-> lv = NoDedup.
Proof. destruct lv; cbn; try (split; discriminate); [tauto|]. destruct (c_complex C); split; discriminate. Qed.

Let s0 := mk_stream [] 0.
Let c0 := mk_coll [] [] [FTemp []].
Lemma start_inv : inv g [] [] s0 c0.
Proof.
  constructor; cbn; auto; try discriminate.
  - intros p q Z. unfold from in Z. destruct q; discriminate.
  - intros p q (i & Z & _). discriminate.
Qed.
Lemma start_ready x : ready g [] [] c0 x.
Proof. constructor; cbn; try easy. Qed.

Lemma collected n N lv x e s : (forall p m e k, nth_error g p = Some (SMap m) -> In e m -> meaning g (fst e) k -> vdepth k < N) ->
  valid g x -> emit W D C op g n (start_level C lv) x s0 = Done (e, s) ->
  exists c y src, collects N (am N) e = Done (heap c, y) /\ inv g [] src s c /\ rel g (from src) x y /\ (lv <> NoDedup -> rel g (first (seen s) (vals c)) x y).
Proof.
  intros Dp V H. destruct (emit_sent W D C op g N (am N) ok (am_ok N) g_plain Dp n (start_level C lv) x s0 e s V H [] [] c0 start_inv (start_ready x)) as (c & y & t & Ec & X & I1 & R & F & _).
  exists c, y, t. cbn [app] in *. split; [|split; [exact I1|split; [exact R|]]].
  - unfold collects. fold c0. rewrite Ec. cbn [bind]. destruct (x_content _ _ _ X) as (l & L1 & L2). cbn in L1. injection L1 as <-. cbn in L2.
    pose proof (x_stack _ _ _ X) as St. cbn in St. unfold content in L2. destruct (stack c) as [|[q|l] r]; try easy. subst r. injection L2 as ->. reflexivity.
  - intros Nd. apply F. now rewrite start_nodedup.
Qed.

Theorem finite_collected lv x v : meaning g x v -> valid g x ->
  exists n0, forall n m, n0 <= n -> n0 <= m -> exists e h y, emits W D C op g n lv x = Done e /\ collects m (am m) e = Done (h, y) /\ stands h y v.
Proof.
  intros M V. destruct (depth_bound _ _ _ _ g_plain) as (N0 & Dp). exists (S (Nat.max N0 (vdepth v))). intros n n' L L'.
  destruct (emit_finite W D C op g ok g_plain x v M n (start_level C lv) s0 ltac:(lia)) as (e & s & E).
  destruct (collected n n' lv x e s) as (c & y & src & Ec & I1 & R & _); auto.
  { intros p m e0 k E1 Ie Mk. specialize (Dp _ _ _ _ E1 Ie Mk). lia. }
  exists e, (heap c), y. split; [unfold emits; fold s0; now rewrite E|]. split; [exact Ec|]. eapply rel_stands; eauto.
Qed.

Theorem graph_collected lv x : lv <> NoDedup -> valid g x ->
  exists n0, forall n m, n0 <= n -> n0 <= m -> exists e h y, emits W D C op g n lv x = Done e /\ collects m (am m) e = Done (h, y) /\ same_graph g x h y.
Proof.
  intros Nd V. destruct (depth_bound _ _ _ _ g_plain) as (N0 & Dp). exists (S (unseen g s0 + N0)). intros n n' L L'.
  destruct (emit_ends W D C op g ok g_plain N0 Dp n (start_level C lv) x s0) as (e & s & E & _); auto; [now rewrite start_nodedup|].
  destruct (collected n n' lv x e s) as (c & y & src & Ec & I1 & R & F); auto.
  { intros p m e0 k E1 Ie Mk. specialize (Dp _ _ _ _ E1 Ie Mk). lia. }
  exists e, (heap c), y. split; [unfold emits; fold s0; now rewrite E|]. split; [exact Ec|]. specialize (F Nd).
  set (phi p := match lookup (KPtr p) (seen s) with Some i => match nth_error (vals c) i with Some (GRef q) => q | _ => 0 end | None => 0 end).
  assert (first_phi : forall p q, first (seen s) (vals c) p q -> q = phi p).
  { intros p q (i & E1 & E2). unfold phi. now rewrite E1, E2. }
  assert (done_first : forall p q, first (seen s) (vals c) p q -> complete g (first (seen s) (vals c)) (heap c) p q).
  { intros p q Fp. now destruct (i_first _ _ _ _ _ I1 p q Fp). }
  assert (cp : forall x y, rel g (first (seen s) (vals c)) x y -> copied g phi x y).
  { intros [w|p] [w'|q] Rl; cbn in *; try easy; [now destruct Rl as [<- _]| |].
    - destruct (nth_error g p) as [[l|m|z|b|a b z|tx al]|]; try easy; now rewrite Rl.
    - destruct (done_first p q Rl) as (nx & ny & E1 & E2 & K). rewrite E1. rewrite (first_phi p q Rl). destruct nx; try easy; destruct ny; easy. }
  assert (rc : forall p, reachable g x p -> exists y, rel g (first (seen s) (vals c)) (SRef p) y).
  { induction 1 as [p ->|p q nd Rp (y' & IH) En Iq]; [exists y; exact F|].
    destruct y' as [w|a]; cbn in IH; [rewrite En in IH; destruct nd; easy|].
    destruct (done_first _ _ IH) as (nx & ny & E1 & E2 & K). rewrite En in E1. injection E1 as <-.
    destruct nd as [l|m|z|b|a' b z|tx al], ny as [l'|z'|m']; try easy; cbn [corr below] in *.
    - clear - K Iq. induction K; [easy|]. destruct Iq as [->|Iq]; eauto.
    - clear - K Iq. induction K as [|a b m m' [_ Ka] K IH]; [easy|]. cbn in Iq. destruct Iq as [Z|Iq]; [rewrite Z in Ka; eauto|eauto]. }
  assert (rp : forall p nd, reachable g x p -> nth_error g p = Some nd -> compound nd -> first (seen s) (vals c) p (phi p)).
  { intros p nd Rp En Cn. destruct (rc p Rp) as (y' & Ry). destruct y' as [w|a]; cbn in Ry; [rewrite En in Ry; destruct nd; easy|].
    now rewrite <- (first_phi _ _ Ry). }
  exists phi. split; [now apply cp|]. split.
  - intros p nd Rp En. destruct nd as [l|m|z|b|a b z|tx al]; cbn [copied_node]; auto.
    + pose proof (rp _ _ Rp En I) as Fp. destruct (done_first _ _ Fp) as (nx & ny & E1 & E2 & K). rewrite En in E1. injection E1 as <-.
      destruct ny as [l'|z'|m']; try easy. exists l'. split; [assumption|]. eapply Forall2_mono; [|exact K]. exact cp.
    + pose proof (rp _ _ Rp En I) as Fp. destruct (done_first _ _ Fp) as (nx & ny & E1 & E2 & K). rewrite En in E1. injection E1 as <-.
      destruct ny as [l'|z'|m']; try easy. exists m'. split; [assumption|]. eapply Forall2_mono; [|exact K]. intros a b [Ma Ra]. split; auto.
    + rewrite Forall_forall in g_plain. now destruct (g_plain _ (nth_error_In _ _ En)).
  - intros p q np nq Rp Rq Ep Eq Cp Cq Z.
    pose proof (rp _ _ Rp Ep Cp) as (i & F1 & F2). pose proof (rp _ _ Rq Eq Cq) as (j & F3 & F4). rewrite <- Z in F4.
    destruct (i_seen _ _ _ _ _ I1 _ _ F1) as (y1 & Y1 & K1). destruct (i_seen _ _ _ _ _ I1 _ _ F3) as (y2 & Y2 & K2).
    rewrite F2 in Y1. injection Y1 as <-. rewrite F4 in Y2. injection Y2 as <-. cbn in K1, K2. unfold from in *. congruence.
Qed.
End Whole.
