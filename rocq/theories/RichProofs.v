(* Values that are encoded by the streamer are put together again by the decoder. *)
From Coq Require Import ZArith List Bool Lia Arith Permutation.
From Verif Require Import Int64 TextSpec Data DataSpec DataProofs Convert ConvertProofs Graph GraphSpec Stream StreamSpec StreamProofs StreamEnds.
Import ListNotations.
Open Scope nat_scope.

(* ---------- which objects have been seen ---------- *)

Section Seen.
Variable W : codec.
Variable D : dialect.
Variable C : consumer.
Variable op : options.
Variable g : objects.

(* a relation that holds between the states before and after, if [may] holds of what is sent *)
Variable T : stream -> stream -> Prop.
Variable may : stream -> sval -> Prop.
Hypothesis T_seen : forall s s', seen s' = seen s -> T s s'.
Hypothesis T_trans : forall s s1 s2, T s s1 -> T s1 s2 -> T s s2.
Hypothesis T_text : forall s t, lookup (KText t) (seen s) = None -> T s (mk_stream ((KText t, next s) :: seen s) (next s)).
Hypothesis may_next : forall s s' x, may s x -> T s s' -> may s' x.
Hypothesis may_open : forall s p, may s (SRef p) -> lookup (KPtr p) (seen s) = None -> p < length g ->
  T s (mk_stream ((KPtr p, next s) :: seen s) (next s)) /\
  forall n y, nth_error g p = Some n -> In y (parts n) -> may (mk_stream ((KPtr p, next s) :: seen s) (next s)) y.

Lemma T_bump s : T s (bump s). Proof. now apply T_seen. Qed.
Lemma T_add v s e s' : add v s = Done (e, s') -> T s s'.
Proof. intros H. injection H as _ <-. apply T_bump. Qed.
Lemma T_string lv t s e s' : emit_string C lv t s = Done (e, s') -> T s s'.
Proof.
  unfold emit_string. destruct (_ <=? _)%Z; [|apply T_add]. intros H. apply process_cases in H as [(i & _ & _ & _ & ->)|(sn & K & _ & H)]; [now apply T_seen|].
  apply T_add in H. eapply T_trans; [|exact H]. destruct K as [->|[-> K]]; [now apply T_seen|now apply T_text].
Qed.
Lemma T_wrapped nm f s e s' : wrapped D nm f s = Done (e, s') -> (forall s0 e' s1, T s s0 -> f s0 = Done (e', s1) -> T s0 s1) -> T s s'.
Proof.
  intros H F. unfold wrapped in H. cbn in H. undo H. injection H as _ <-. apply F in E; [|now apply T_seen]. eapply T_trans; [|exact E]. now apply T_seen.
Qed.
Lemma T_list f l : (forall x, In x l -> forall s e s', may s x -> f x s = Done (e, s') -> T s s') ->
  forall s es s', (forall x, In x l -> may s x) -> emit_list f l s = Done (es, s') -> T s s'.
Proof.
  induction l as [|x l IH]; intros F s es s' M H; cbn in H; [injection H as _ <-; now apply T_seen|]. undo H. undo H. injection H as _ <-.
  apply F in E; [|now left|apply M; now left]. apply (T_trans _ _ _ E). apply IH in E0; auto.
  - intros a Ia. apply F. now right.
  - intros a Ia. eapply may_next; [apply M; now right|exact E].
Qed.
Lemma T_entries fk fv m : (forall e, In e m -> forall s ev s', may s (fst e) -> fk (fst e) s = Done (ev, s') -> T s s') ->
  (forall e, In e m -> forall s ev s', may s (snd e) -> fv (snd e) s = Done (ev, s') -> T s s') ->
  forall s es s', (forall e, In e m -> may s (fst e) /\ may s (snd e)) -> emit_entries fk fv m s = Done (es, s') -> T s s'.
Proof.
  induction m as [|[k v] m IH]; intros Fk Fv s es s' M H; cbn in H; [injection H as _ <-; now apply T_seen|]. undo H. undo H. undo H. injection H as _ <-.
  destruct (M _ (or_introl eq_refl)) as [Mk Mv]. cbn in Mk, Mv.
  apply (Fk (k, v) (or_introl eq_refl)) in E; [|assumption]. pose proof (may_next _ _ _ Mv E) as Mv'.
  apply (Fv (k, v) (or_introl eq_refl)) in E0; [|assumption]. pose proof (T_trans _ _ _ E E0) as E2. apply (T_trans _ _ _ E2). apply IH in E1; auto.
  - intros a Ia. apply Fk. now right.
  - intros a Ia. apply Fv. now right.
  - intros a Ia. destruct (M a (or_intror Ia)). split; eapply may_next; eauto.
Qed.
Lemma T_process lv p doer s e s' : lv <> NoDedup -> p < length g -> may s (SRef p) -> process lv (KPtr p) doer s = Done (e, s') ->
  (forall s0, (forall n y, nth_error g p = Some n -> In y (parts n) -> may s0 y) -> doer s0 = Done (e, s') -> T s0 s') -> T s s'.
Proof.
  intros Nd L M H F. apply process_cases in H as [(i & _ & _ & _ & ->)|(sn & K & Nd' & H)]; [now apply T_seen|].
  destruct K as [->|[-> K]]; [elim Nd; now apply Nd'|]. destruct (may_open s p M K L) as [T1 M1]. apply (T_trans _ _ _ T1). now apply F.
Qed.

Lemma emit_seen : forall n lv x s e s', may s x -> emit W D C op g n lv x s = Done (e, s') -> T s s'.
Proof.
  induction n as [|n IH]; intros lv x s e s' M H; [discriminate|].
  assert (lv = NoDedup \/ lv <> NoDedup) as [->|Nd] by (destruct lv; auto; right; discriminate); [apply T_seen; now apply nodedup_seen in H|].
  cbn [emit] in H. destruct x as [v|p]; [destruct v; try discriminate; try (now apply T_add in H); now apply T_string in H|].
  destruct (nth_error g p) as [x|] eqn:Ep; [|discriminate]. pose proof (nth_lt _ _ _ Ep) as Lp.
  assert (entries : forall lk m s0 es s1, (forall e, In e m -> may s0 (fst e) /\ may s0 (snd e)) ->
    emit_entries (emit W D C op g n lk) (emit W D C op g n lv) m (bump s0) = Done (es, s1) -> T s0 s1).
  { intros lk m s0 es s1 Mm E. apply (T_trans _ _ _ (T_bump s0)). eapply T_entries; [| | |exact E].
    - intros a Ia s2 e2 s3. apply IH.
    - intros a Ia s2 e2 s3. apply IH.
    - intros a Ia. destruct (Mm a Ia). split; eapply may_next; eauto; apply T_bump. }
  assert (both : forall m s0, (forall nd y, nth_error g p = Some nd -> In y (parts nd) -> may s0 y) -> nth_error g p = Some (SMap m) ->
    forall e, In e m -> may s0 (fst e) /\ may s0 (snd e)).
  { intros m s0 Mn E a Ia. split; eapply Mn; eauto; cbn; apply in_or_app; [left|right]; now apply in_map. }
  destruct x as [l|m|x|b|a b z|tx al]; cbn [emit_node] in H.
  - eapply T_process; [exact Nd|exact Lp|exact M|exact H|]. clear H. intros s0 Mn H. undo H. injection H as _ <-. apply (T_trans _ _ _ (T_bump s0)).
    eapply T_list; [| |exact E]; [intros y Iy s2 e2 s3; apply IH|]. intros y Iy. eapply may_next; [eapply Mn; eauto|apply T_bump].
  - destruct (c_complex C || string_keys m).
    + destruct (ref_of D m); [injection H as _ <-; now apply T_seen|].
      eapply T_process; [exact Nd|exact Lp|exact M|exact H|]. clear H. intros s0 Mn H. undo H. injection H as _ <-. eapply entries; [|exact E]. now apply both.
    + destruct (o_rich op); [|discriminate].
      eapply T_process; [exact Nd|exact Lp|exact M|exact H|]. clear H. intros s0 Mn H. eapply T_wrapped; [exact H|]. clear H. intros s1 e1 s2 T1 H. undo H. injection H as _ <-.
      eapply entries; [|exact E]. intros a Ia. destruct (both m s0 Mn Ep a Ia). split; eapply may_next; eauto.
  - eapply T_process; [exact Nd|exact Lp|exact M|exact H|]. clear H. intros s0 Mn H. destruct (o_rich op); [|discriminate]. eapply T_wrapped; [exact H|]. clear H. intros s1 e1 s2 T1 H.
    eapply IH; [|exact H]. eapply may_next; [eapply Mn; eauto; now left|exact T1].
  - eapply T_process; [exact Nd|exact Lp|exact M|exact H|]. clear H. intros s0 _ H. destruct (c_binary C); [now apply T_add in H|]. destruct (o_rich op); [|discriminate].
    eapply T_wrapped; [exact H|]. clear H. intros s1 e1 s2 T1. apply T_string.
  - eapply T_process; [exact Nd|exact Lp|exact M|exact H|]. clear H. intros s0 _ H. destruct (c_time C); [now apply T_add in H|]. destruct (o_rich op); [|discriminate].
    eapply T_wrapped; [exact H|]. clear H. intros s1 e1 s2 T1. apply T_string.
  - eapply T_process; [exact Nd|exact Lp|exact M|exact H|]. clear H. intros s0 _ H. cbn in H. destruct (o_aliases op); [destruct al as [al|]|]; try (injection H as _ <-; now apply T_seen).
    undo H. undo H. injection H as _ <-. apply T_string in E, E0. eapply T_trans; [|exact E0]. eapply T_trans; [|exact E]. now apply T_seen.
Qed.
End Seen.

Lemma cons_grows s k : lookup k (seen s) = None -> grows s (mk_stream ((k, next s) :: seen s) (next s)).
Proof. intros E k' i E'. cbn. rewrite lookup_other; auto. congruence. Qed.
Lemma same_grows s s' : seen s' = seen s -> grows s s'. Proof. intros E k i. now rewrite E. Qed.

Section Rich.
Variable W : codec.
Variable D : dialect.
Variable C : consumer.
Variable op : options.
Variable g : objects.

Definition richb (p : nat) : bool := match nth_error g p with Some n => encoded C n | None => false end.
Definition refs (l : list sval) : list nat := encoded_refs C g l.
Lemma refs_in l p : In (SRef p) l -> richb p = true -> In p (refs l).
Proof.
  intros I1 R. unfold refs, encoded_refs. apply in_flat_map. exists (SRef p). split; [assumption|]. unfold richb in R.
  destruct (nth_error g p) as [n|]; [|discriminate]. rewrite R. now left.
Qed.
Lemma refs_app l l' : refs (l ++ l') = refs l ++ refs l'.
Proof. apply flat_map_app. Qed.
Lemma refs_perm l l' : Permutation l l' -> NoDup (refs l) -> NoDup (refs l').
Proof. intros P. apply Permutation_NoDup. now apply Permutation_flat_map. Qed.
Lemma NoDup_apart {A} (l l' : list A) x : NoDup (l ++ l') -> In x l -> ~ In x l'.
Proof. induction l as [|y l IH]; [easy|]. cbn. intros H. inversion H as [|? ? N1 N2]; subst. intros [->|I1]; [intros I2; apply N1, in_or_app; now right|now apply IH]. Qed.
Lemma NoDup_right {A} (l l' : list A) : NoDup (l ++ l') -> NoDup l'.
Proof. induction l as [|y l IH]; [easy|]. cbn. intros H. inversion H. auto. Qed.
Lemma NoDup_left {A} (l l' : list A) : NoDup (l ++ l') -> NoDup l.
Proof. induction l as [|y l IH]; [constructor|]. cbn. intros H. inversion H as [|? ? N1 N2]; subst. constructor; [|auto]. intros I1. apply N1, in_or_app. now left. Qed.

Definition once : Prop := NoDup (refs (flat_map parts g)).

(* the object at q refers to the one at p *)
Definition parent (p q : nat) : Prop := exists n, nth_error g q = Some n /\ In (SRef p) (parts n).
Lemma one_parent p q q' : once -> richb p = true -> parent p q -> parent p q' -> q = q'.
Proof.
  intros on R (n & E & I1) (n' & E' & I1'). unfold once in on. revert on q q' E E'. generalize g at 1 2 3. intros l.
  assert (far : forall l q n, nth_error l q = Some n -> In (SRef p) (parts n) -> In p (refs (flat_map parts l))).
  { intros l0 q n0 E I0. apply refs_in; [|assumption]. apply in_flat_map. exists n0. split; [eapply nth_error_In; eauto|assumption]. }
  induction l as [|x l IH]; intros O [|q] [|q'] E E'; cbn in *; try discriminate; auto.
  - injection E as ->. rewrite refs_app in O. elim (NoDup_apart _ _ p O); [now apply refs_in|eauto].
  - injection E' as ->. rewrite refs_app in O. elim (NoDup_apart _ _ p O); [now apply refs_in|eauto].
  - rewrite refs_app in O. f_equal. apply IH; auto. now apply NoDup_right in O.
Qed.
Lemma parts_once p n : once -> nth_error g p = Some n -> NoDup (refs (parts n)).
Proof.
  intros on E. apply nth_error_In in E. unfold once in on. revert on E. generalize g at 1 2. intros l.
  induction l as [|x l IH]; intros O I1; [easy|]. cbn in O. rewrite refs_app in O. destruct I1 as [->|I1]; [now apply NoDup_left in O|apply IH; auto; now apply NoDup_right in O].
Qed.

Definition fresh (s : stream) (p : nat) : Prop := lookup (KPtr p) (seen s) = None.
Definition parents_seen (s : stream) (p : nat) : Prop := forall q, parent p q -> ~ fresh s q.
(* an encoded object has been seen only if what refers to it has been seen *)
Definition orderly (s : stream) : Prop := forall p, richb p = true -> ~ fresh s p -> parents_seen s p.
Definition fine (s : stream) (x : sval) : Prop :=
  once /\ orderly s /\ forall p, x = SRef p -> richb p = true -> fresh s p /\ parents_seen s p.

Lemma not_fresh s p : ~ fresh s p <-> exists i, lookup (KPtr p) (seen s) = Some i.
Proof.
  unfold fresh. destruct (lookup (KPtr p) (seen s)) as [i|]; split.
  - intros _. eauto.
  - discriminate.
  - intros H. now elim H.
  - intros (i & Z). discriminate.
Qed.
Lemma grows_fresh s s' p : grows s s' -> ~ fresh s p -> ~ fresh s' p.
Proof. intros G. rewrite !not_fresh. intros (i & E). exists i. auto. Qed.
Lemma grows_parents s s' p : grows s s' -> parents_seen s p -> parents_seen s' p.
Proof. intros G P q Q. eapply grows_fresh; eauto. Qed.
Lemma grows_trans s s1 s2 : grows s s1 -> grows s1 s2 -> grows s s2.
Proof. intros A B k i E. auto. Qed.
Lemma cons_fresh s p q : fresh (mk_stream ((KPtr p, next s) :: seen s) (next s)) q <-> q <> p /\ fresh s q.
Proof.
  unfold fresh. cbn [seen]. rewrite lookup_cons. destruct (key_eqb (KPtr q) (KPtr p)) eqn:E.
  - apply key_eqb_eq in E as [= ->]. split; [discriminate|now intros [? _]].
  - split; [|tauto]. intros H. split; [|assumption]. intros ->. assert (key_eqb (KPtr p) (KPtr p) = true) by now apply key_eqb_eq. congruence.
Qed.
Lemma text_fresh s t q : fresh (mk_stream ((KText t, next s) :: seen s) (next s)) q <-> fresh s q.
Proof. unfold fresh. cbn [seen]. now rewrite lookup_other. Qed.

Lemma emit_grows n lv x s e s' : emit W D C op g n lv x s = Done (e, s') -> grows s s'.
Proof.
  apply (emit_seen W D C op g grows (fun _ _ => True)); auto.
  - apply same_grows.
  - apply grows_trans.
  - intros s0 t. apply cons_grows.
  - intros s0 p _ E _. split; auto. now apply cons_grows.
Qed.
Lemma emit_keeps p n lv x s e s' : emit W D C op g n lv x s = Done (e, s') -> x <> SRef p -> fresh s p -> parents_seen s p -> fresh s' p.
Proof.
  intros H Ne Fr Ps.
  assert (T : grows s s' /\ (fresh s p /\ parents_seen s p -> fresh s' p /\ parents_seen s' p)); [|tauto].
  revert H. apply (emit_seen W D C op g (fun s s' => grows s s' /\ (fresh s p /\ parents_seen s p -> fresh s' p /\ parents_seen s' p)) (fun s x => (fresh s p /\ parents_seen s p) /\ x <> SRef p)); auto.
  - intros s0 s1 E. split; [now apply same_grows|]. unfold parents_seen, fresh. now rewrite E.
  - intros s0 s1 s2 [G1 H1] [G2 H2]. split; [eapply grows_trans; eauto|auto].
  - intros s0 t E. pose proof (cons_grows s0 _ E) as G. split; [assumption|]. intros [F1 P1]. split; [now apply text_fresh|eapply grows_parents; eauto].
  - intros s0 s1 y [F1 N1] [G1 H1]. auto.
  - intros s0 q [[F1 P1] N1] E L. pose proof (cons_grows s0 _ E) as G. split.
    + split; [assumption|]. intros _. split; [apply cons_fresh; split; [congruence|assumption]|eapply grows_parents; eauto].
    + intros nd y En Iy. split; [split; [apply cons_fresh; split; [congruence|assumption]|eapply grows_parents; eauto]|].
      intros ->. apply (P1 q); [exists nd; auto|exact E].
Qed.
Lemma emit_orderly n lv x s e s' : emit W D C op g n lv x s = Done (e, s') -> fine s x -> orderly s'.
Proof.
  intros H [on F].
  assert (T : grows s s' /\ (orderly s -> orderly s')); [|now apply T, F].
  assert (M : orderly s /\ forall p, x = SRef p -> richb p = true -> parents_seen s p) by (split; [apply F|intros p -> R; now apply F]).
  revert M H. apply (emit_seen W D C op g (fun s s' => grows s s' /\ (orderly s -> orderly s')) (fun s x => orderly s /\ forall p, x = SRef p -> richb p = true -> parents_seen s p)).
  - intros s0 s1 E. split; [now apply same_grows|]. unfold orderly, parents_seen, fresh. now rewrite E.
  - intros s0 s1 s2 [G1 H1] [G2 H2]. split; [eapply grows_trans; eauto|auto].
  - intros s0 t E. pose proof (cons_grows s0 _ E) as G. split; [assumption|]. intros O p R N1. apply (grows_parents s0); [assumption|]. apply O; [assumption|].
    now rewrite text_fresh in N1.
  - intros s0 s1 y [O1 P1] [G1 H1]. split; [auto|]. intros p -> R. apply (grows_parents s0); auto.
  - intros s0 q [O1 P1] E L. pose proof (cons_grows s0 _ E) as G. split.
    + split; [assumption|]. intros _ p R N1. apply (grows_parents s0); [assumption|]. rewrite cons_fresh in N1.
      destruct (Nat.eq_dec p q) as [->|Ne]; [now apply P1|]. apply O1; [assumption|tauto].
    + intros nd y En Iy. split.
      * intros p R N1. apply (grows_parents s0); [assumption|]. rewrite cons_fresh in N1.
        destruct (Nat.eq_dec p q) as [->|Ne]; [now apply P1|]. apply O1; [assumption|tauto].
      * intros p -> R q' Q. assert (q' = q) as -> by (eapply one_parent; eauto; exists nd; auto). rewrite cons_fresh. tauto.
Qed.

Lemma fine_seen s s' x : seen s' = seen s -> fine s x -> fine s' x.
Proof. intros E. unfold fine, orderly, parents_seen, fresh. now rewrite E. Qed.
Lemma fine_next n lv y s e s' x : emit W D C op g n lv y s = Done (e, s') -> fine s y -> fine s x -> (forall p, x = SRef p -> richb p = true -> y <> SRef p) -> fine s' x.
Proof.
  intros H Fy Fx N. split; [apply Fx|]. split; [eapply emit_orderly; eauto|]. intros p -> R. destruct Fx as (_ & _ & Fx). destruct (Fx p eq_refl R) as [F1 P1].
  split; [eapply emit_keeps; eauto|]. eapply grows_parents; [eapply emit_grows; eauto|assumption].
Qed.
Lemma fine_open s p n y : fine s (SRef p) -> fresh s p -> nth_error g p = Some n -> In y (parts n) -> fine (mk_stream ((KPtr p, next s) :: seen s) (next s)) y.
Proof.
  intros (on & O & F) Fr E Iy. pose proof (cons_grows s _ Fr) as G. split; [assumption|]. split.
  - intros q R N1. apply (grows_parents s); [assumption|]. rewrite cons_fresh in N1.
    destruct (Nat.eq_dec q p) as [->|Ne]; [now apply F|]. apply O; [assumption|tauto].
  - intros q -> R. assert (parent q p) as Q by (exists n; auto).
    assert (q <> p) as Ne by (intros ->; destruct (F p eq_refl R) as [_ P]; exact (P p Q Fr)).
    split; [apply cons_fresh; split; [assumption|]|].
    + destruct (lookup (KPtr q) (seen s)) eqn:Eq; [|exact Eq]. exfalso. apply (O q R) in Q; [exact (Q Fr)|]. unfold fresh. congruence.
    + intros q' Q'. assert (q' = p) as -> by (eapply one_parent; eauto). rewrite cons_fresh. tauto.
Qed.

(* ---------- what corresponds to what ---------- *)

Variable N : nat.
Notation am := (decoding W D N).
Hypothesis D_proper : proper D.
Hypothesis op_rich : o_rich op = true.
Hypothesis g_enc : Forall (encodable W D C g) g.

Notation rel := (rel g).
Notation goes := (goes g).
(* as StreamProofs.corr, with sensitive values *)
Definition corr (R : nat -> nat -> Prop) (x : snode) (y : gnode) : Prop :=
  match x, y with
  | SArr l, GArr l' => Forall2 (rel R) l l'
  | SMap m, GMap m' => Forall2 (fun e e' => meaning g (fst e) (fst e') /\ rel R (snd e) (snd e')) m m'
  | SSens a, GSens b => rel R a b
  | _, _ => False
  end.
Definition complete (R : nat -> nat -> Prop) (h : graph) (p q : nat) : Prop :=
  exists x y, nth_error g p = Some x /\ nth_error h q = Some y /\ corr R x y.
(* which object a node was made of; none for the maps and arrays that encode others *)
Definition from (src : list (option nat)) (p q : nat) : Prop := nth_error src q = Some (Some p).
Definition key_rel (src : list (option nat)) (k : key) (y : gval) : Prop :=
  match k with KText t => y = GLeaf (VStr t) | KPtr p => richb p = false -> rel (from src) (SRef p) y end.

Lemma corr_mono (R R' : nat -> nat -> Prop) x y : (forall p q, R p q -> R' p q) -> corr R x y -> corr R' x y.
Proof.
  intros S. destruct x, y; cbn; auto; [| |now apply rel_mono]; apply Forall2_mono.
  - intros a b. now apply rel_mono.
  - intros a b [M H]. split; [assumption|]. now apply (rel_mono g R).
Qed.
Lemma complete_mono (R R' : nat -> nat -> Prop) h p q : (forall p q, R p q -> R' p q) -> complete R h p q -> complete R' h p q.
Proof. intros S (x & y & E1 & E2 & H). exists x, y. repeat split; auto. now apply (corr_mono R). Qed.
Lemma from_app src t p q : from src p q -> from (src ++ t) p q.
Proof. apply nth_app_some. Qed.
Lemma key_rel_app src t k y : key_rel src k y -> key_rel (src ++ t) k y.
Proof. destruct k as [p|t']; [|auto]. intros H R. eapply (rel_mono g (from src)); [|exact (H R)]. intros; now apply from_app. Qed.

Record inv (A : list nat) (src : list (option nat)) (s : stream) (c : coll) : Prop := {
  i_next : length (vals c) = next s;
  i_src : length src = length (heap c);
  i_seen : forall k i, lookup k (seen s) = Some i -> exists y, nth_error (vals c) i = Some y /\ key_rel src k y;
  i_done : forall p q, from src p q -> In q A \/ complete (from src) (heap c) p q }.

Lemma inv_heap A src s c h' st' : inv A src s c -> length h' = length (heap c) ->
  (forall q, ~ In q A -> nth_error h' q = nth_error (heap c) q) -> inv A src s (mk_coll h' (vals c) st').
Proof.
  intros [I1 I2 I3 I4] L H. constructor; cbn; auto; [congruence|].
  intros p q F. destruct (I4 p q F) as [?|(x & y & E1 & E2 & K)]; auto.
  destruct (in_dec Nat.eq_dec q A); auto. right. exists x, y. rewrite H; auto.
Qed.
Lemma inv_stack A src s c st' : inv A src s c -> inv A src s (mk_coll (heap c) (vals c) st').
Proof. intros I1. apply inv_heap; auto. Qed.
Lemma inv_push A src s c c' y : inv A src s c -> (forall q, top c = Some q -> In q A) -> extends c c' [y] ->
  vals c' = vals c -> length (heap c') = length (heap c) -> inv A src s c'.
Proof.
  intros I1 T X V L. destruct c' as [h' v' st']. cbn in *. subst. apply inv_heap; auto.
  intros q Q. destruct (Nat.lt_ge_cases q (length (heap c))) as [Lt|Ge].
  - apply (x_heap _ _ _ X); auto.
  - transitivity (@None gnode); [|symmetry]; apply nth_error_None; lia.
Qed.
Lemma inv_count A src s c y sn : inv A src s c ->
  (sn = seen s \/ exists k, sn = (k, next s) :: seen s /\ key_rel src k y) ->
  inv A src (bump (mk_stream sn (next s))) (mk_coll (heap c) (vals c ++ [y]) (stack c)).
Proof.
  intros [I1 I2 I3 I4] K. constructor; cbn; auto.
  - rewrite app_length. cbn. lia.
  - intros k i E. destruct K as [->|(k' & -> & R)].
    + destruct (I3 k i E) as (z & Z1 & Z2). exists z. split; [now apply nth_app_some|assumption].
    + rewrite lookup_cons in E. destruct (key_eqb k k') eqn:Q.
      * apply key_eqb_eq in Q as ->. injection E as <-. exists y. split; [|assumption]. rewrite <- I1. apply nth_app_last.
      * destruct (I3 k i E) as (z & Z1 & Z2). exists z. split; [now apply nth_app_some|assumption].
Qed.
Lemma from_last src o p q : from (src ++ [o]) p q -> from src p q \/ q = length src /\ o = Some p.
Proof.
  unfold from. intros F. destruct (Nat.lt_ge_cases q (length src)) as [L|L].
  - left. now rewrite nth_error_app1 in F.
  - right. assert (q = length src) as -> by (apply nth_lt in F; rewrite app_length in F; cbn in F; lia). rewrite nth_app_last in F. split; congruence.
Qed.
(* a new node, incomplete or not *)
Lemma inv_new A src s c x o : inv A src s c ->
  (forall p, o = Some p -> exists n, nth_error g p = Some n /\ corr (from src) n x) -> inv A (src ++ [o]) s (mk_coll (heap c ++ [x]) (vals c) (stack c)).
Proof.
  intros [I1 I2 I3 I4] K. constructor; cbn.
  - assumption.
  - rewrite !app_length. cbn. lia.
  - intros k i E. destruct (I3 k i E) as (y & Y & Kr). exists y. split; auto. now apply key_rel_app.
  - intros p q F. apply from_last in F as [F|[-> ->]].
    + destruct (I4 p q F) as [?|(a & b & E1 & E2 & Kr)]; auto. right.
      exists a, b. repeat split; auto; [now apply nth_app_some|]. eapply corr_mono; [|exact Kr]. intros. now apply from_app.
    + right. destruct (K p eq_refl) as (n & En & Kr). exists n, x. rewrite I2, nth_app_last. repeat split; auto. eapply corr_mono; [|exact Kr]. intros. now apply from_app.
Qed.
Lemma inv_open A src s c x o : inv A src s c -> inv (length (heap c) :: A) (src ++ [o]) s (mk_coll (heap c ++ [x]) (vals c) (stack c)).
Proof.
  intros [I1 I2 I3 I4]. constructor; cbn.
  - assumption.
  - rewrite !app_length. cbn. lia.
  - intros k i E. destruct (I3 k i E) as (y & Y & Kr). exists y. split; auto. now apply key_rel_app.
  - intros p q F. apply from_last in F as [F|[-> ->]]; [|left; left; auto].
    destruct (I4 p q F) as [?|(a & b & E1 & E2 & Kr)]; auto. right.
    exists a, b. repeat split; auto; [now apply nth_app_some|]. eapply corr_mono; [|exact Kr]. intros. now apply from_app.
Qed.
Lemma inv_close A src s c q node : inv (q :: A) src s c -> q < length (heap c) ->
  (forall p, from src p q -> exists x, nth_error g p = Some x /\ corr (from src) x node) ->
  inv A src s (mk_coll (set_node (heap c) q node) (vals c) (stack c)).
Proof.
  intros [I1 I2 I3 I4] L P. constructor; cbn; auto.
  - now rewrite set_node_length.
  - intros p q' F. destruct (Nat.eq_dec q q') as [->|Ne].
    + right. destruct (P p F) as (x & E & K). exists x, node. rewrite set_node_same by assumption. auto.
    + destruct (I4 p q' F) as [[?|?]|(a & b & E1 & E2 & Z)]; [congruence|auto|]. right. exists a, b. rewrite set_node_other by assumption. auto.
Qed.

(* ---------- finite values ---------- *)

(* nothing below x is incomplete *)
Definition apart (A : list nat) (src : list (option nat)) (x : sval) : Prop := forall p q, goes x (SRef p) -> from src p q -> ~ In q A.
Lemma apart_part A src p n y : nth_error g p = Some n -> In y (parts n) -> apart A src (SRef p) -> apart A src y.
Proof. intros E I1 H p' q G. apply H. eapply goes_step; eauto. Qed.

Lemma in_depth vs v : In v vs -> vdepth v <= fold_right Nat.max 0 (map vdepth vs).
Proof. intros I1. now apply (in_map vdepth), max_in in I1. Qed.
Lemma in_depths (ws : list (value * value)) w : In w ws -> vdepth (fst w) <= fold_right Nat.max 0 (map (fun e => Nat.max (vdepth (fst e)) (vdepth (snd e))) ws) /\
  vdepth (snd w) <= fold_right Nat.max 0 (map (fun e => Nat.max (vdepth (fst e)) (vdepth (snd e))) ws).
Proof. intros I1. apply (in_map (fun e => Nat.max (vdepth (fst e)) (vdepth (snd e)))), max_in in I1. lia. Qed.

(* a property of what corresponds to a finite value *)
Lemma related_ind A src s c (P : nat -> gval -> value -> Prop) : inv A src s c ->
  (forall n v, flat_value v -> P n (GLeaf v) v) ->
  (forall n q l vs p, from src p q -> nth_error (heap c) q = Some (GArr l) -> Forall2 (P n) l vs -> P (S n) (GRef q) (VArr vs)) ->
  (forall n q m ws p, from src p q -> nth_error (heap c) q = Some (GMap m) -> Forall2 (fun e w => fst e = fst w /\ P n (snd e) (snd w)) m ws -> P (S n) (GRef q) (VMap ws)) ->
  (forall n q y v p, from src p q -> nth_error (heap c) q = Some (GSens y) -> P n y v -> P (S n) (GRef q) (VSens v)) ->
  forall x v, meaning g x v -> forall y, rel (from src) x y -> apart A src x -> forall n, vdepth v <= n -> P n y v.
Proof.
  intros I1 H1 H2 H3 H4. apply (meaning_ind' g (fun x v => forall y, rel (from src) x y -> apart A src x -> forall n, vdepth v <= n -> P n y v)).
  - intros v S [w|q] R _ n L; try easy. destruct R as [-> _]. apply H1. now destruct w.
  - intros p l vs E F [w|q] R G n L; [cbn in R; now rewrite E in R|]. cbn [StreamProofs.rel] in R.
    destruct (i_done _ _ _ _ I1 p q R) as [Q|(x & y & E1 & E2 & K)]; [exfalso; exact (G p q (goes_refl _ _) R Q)|].
    rewrite E in E1. injection E1 as <-. destruct y as [l'|a|m']; try easy. cbn [corr] in K. cbn [vdepth] in L. destruct n as [|n]; [lia|].
    apply (H2 n q l' vs p R E2).
    assert (forall v, In v vs -> vdepth v <= n) as Lv by (intros v Iv; apply in_depth in Iv; lia).
    assert (forall a, In a l -> apart A src a) as Gl by (intros a Ia; eapply apart_part; eauto).
    clear E E2 L R G. revert l' K. induction F as [|a v l vs [_ Ha] F IH]; intros l' K; inversion K as [|? b ? l2 Kb K2]; subst; constructor.
    + apply Ha; auto. * apply Gl. now left. * apply Lv. now left.
    + apply IH; auto. * intros v' Iv. apply Lv. now right. * intros a' Ia. apply Gl. now right.
  - intros p m ws E F [w|q] R G n L; [cbn in R; now rewrite E in R|]. cbn [StreamProofs.rel] in R.
    destruct (i_done _ _ _ _ I1 p q R) as [Q|(x & y & E1 & E2 & K)]; [exfalso; exact (G p q (goes_refl _ _) R Q)|].
    rewrite E in E1. injection E1 as <-. destruct y as [l'|a|m']; try easy. cbn [corr] in K. cbn [vdepth] in L. destruct n as [|n]; [lia|].
    apply (H3 n q m' ws p R E2).
    assert (forall w, In w ws -> vdepth (snd w) <= n) as Lv by (intros v Iv; apply in_depths in Iv; lia).
    assert (forall a, In a m -> apart A src (snd a)) as Gl.
    { intros a Ia. eapply apart_part; eauto. cbn. apply in_or_app. right. now apply in_map. }
    clear E E2 L R G. revert m' K. induction F as [|a v l vs [[Mk _] [_ Ha]] F IH]; intros l' K; inversion K as [|? b ? l2 [Kb1 Kb] K2]; subst; constructor.
    + split; [exact (meaning_fun _ _ _ Mk _ Kb1)|]. apply Ha; auto. * apply Gl. now left. * apply Lv. now left.
    + apply IH; auto. * intros v' Iv. apply Lv. now right. * intros a' Ia. apply Gl. now right.
  - intros p x v E M H [w|q] R G n L; [cbn in R; now rewrite E in R|]. cbn [StreamProofs.rel] in R.
    destruct (i_done _ _ _ _ I1 p q R) as [Q|(x' & y & E1 & E2 & K)]; [exfalso; exact (G p q (goes_refl _ _) R Q)|].
    rewrite E in E1. injection E1 as <-. destruct y as [l'|a|m']; try easy. cbn [corr] in K. cbn [vdepth] in L. destruct n as [|n]; [lia|].
    apply (H4 n q a v p R E2). apply H; auto; [|lia]. eapply apart_part; eauto. now left.
  - intros p b E [w|q] R G n L; [cbn in R; rewrite E in R; subst; now apply H1|]. cbn [StreamProofs.rel] in R.
    destruct (i_done _ _ _ _ I1 p q R) as [Q|(x' & y & E1 & E2 & K)]; [exfalso; exact (G p q (goes_refl _ _) R Q)|].
    rewrite E in E1. injection E1 as <-. destruct y; easy.
  - intros p a b z E [w|q] R G n L; [cbn in R; rewrite E in R; subst; now apply H1|]. cbn [StreamProofs.rel] in R.
    destruct (i_done _ _ _ _ I1 p q R) as [Q|(x' & y & E1 & E2 & K)]; [exfalso; exact (G p q (goes_refl _ _) R Q)|].
    rewrite E in E1. injection E1 as <-. destruct y; easy.
Qed.

Lemma freeze_meaning A src s c x v y : inv A src s c -> meaning g x v -> rel (from src) x y -> apart A src x -> forall n, vdepth v < n -> freeze n (heap c) y = Done v.
Proof.
  intros I1 M R G n L. destruct n as [|n]; [lia|]. revert y R G n L. revert x v M.
  assert (H : forall x v, meaning g x v -> forall y, rel (from src) x y -> apart A src x -> forall n, vdepth v <= n -> freeze (S n) (heap c) y = Done v).
  { apply (related_ind A src s c (fun n y v => freeze (S n) (heap c) y = Done v) I1).
    - intros n v _. reflexivity.
    - intros n q l vs p _ E F. cbn [freeze]. rewrite E. now rewrite (done_list_all _ _ vs).
    - intros n q m ws p _ E F. cbn [freeze]. rewrite E. rewrite (done_list_all _ _ ws); [reflexivity|].
      eapply Forall2_mono; [|exact F]. intros a [k w] [E1 E2]. cbn in E1, E2 |- *. fold freeze in *. rewrite E2. cbn. now rewrite E1.
    - intros n q y v p _ E H. cbn [freeze]. rewrite E. change ((do v0 <- freeze (S n) (heap c) y; Done (VSens v0)) = Done (VSens v)). now rewrite H. }
  intros x v M y R G n L. apply (H x v M y R G n). lia.
Qed.

(* replaceInstance does not find a node that encodes others *)
Lemma replace_none A src s c x v y orig repl h' : inv A src s c -> meaning g x v -> rel (from src) x y -> apart A src x ->
  nth_error src orig = Some None -> (forall q, q < length (heap c) -> nth_error h' q = nth_error (heap c) q) ->
  forall n, vdepth v < n -> replace orig repl n y h' = Done (y, false, h').
Proof.
  intros I1 M R G Or Hh n L. destruct n as [|n]; [lia|]. revert x v M y R G n L.
  assert (ne : forall p q, from src p q -> Nat.eqb q orig = false).
  { intros p q F. apply Nat.eqb_neq. intros ->. unfold from in F. congruence. }
  assert (H : forall x v, meaning g x v -> forall y, rel (from src) x y -> apart A src x -> forall n, vdepth v <= n -> replace orig repl (S n) y h' = Done (y, false, h')).
  { apply (related_ind A src s c (fun n y v => replace orig repl (S n) y h' = Done (y, false, h')) I1).
    - intros n v _. reflexivity.
    - intros n q l vs p Fp E F. cbn [replace]. rewrite (ne _ _ Fp). rewrite Hh by (now apply nth_lt in E). rewrite E.
      change (replace_list _ l h') with (replace_list (replace orig repl (S n)) l h'). clear E. set (ff := replace orig repl (S n)) in *. clearbody ff.
      assert (replace_list ff l h' = Done (l, false, h')) as ->; [|reflexivity].
      induction F as [|a b l vs Ha F IH]; cbn; [reflexivity|]. rewrite Ha. cbn. now rewrite IH.
    - intros n q m ws p Fp E F. cbn [replace]. rewrite (ne _ _ Fp). rewrite Hh by (now apply nth_lt in E). rewrite E.
      change (replace_list _ (map snd m) h') with (replace_list (replace orig repl (S n)) (map snd m) h'). clear E. set (ff := replace orig repl (S n)) in *. clearbody ff.
      assert (replace_list ff (map snd m) h' = Done (map snd m, false, h')) as ->; [|reflexivity].
      induction F as [|a b l vs [_ Ha] F IH]; cbn; [reflexivity|]. rewrite Ha. cbn. now rewrite IH.
    - intros n q y v p Fp E H. cbn [replace]. rewrite (ne _ _ Fp). rewrite Hh by (now apply nth_lt in E). rewrite E.
      match goal with |- bind ?a _ = _ => change a with (replace orig repl (S n) y h') end. now rewrite H. }
  intros x v M y R G n L. apply (H x v M y R G n). lia.
Qed.

Lemma rel_stands src s c x v y : inv [] src s c -> meaning g x v -> rel (from src) x y -> stands (heap c) y v.
Proof.
  intros I1 M R. apply (related_ind [] src s c (fun _ y v => stands (heap c) y v) I1) with (x := x) (n := vdepth v); auto.
  - intros n w F. now constructor.
  - intros n q l vs p _ E F. eapply stands_arr; eauto.
  - intros n q m ws p _ E F. eapply stands_map; eauto.
  - intros n q z w p _ E F. eapply stands_sens; eauto.
  - intros p q _ _ [].
Qed.

(* ---------- the streamer and the decoder agree ---------- *)

Record base (A : list nat) (c : coll) : Prop := {
  r_content : content c <> None;
  r_top : forall q, top c = Some q -> In q A;
  r_lt : forall q, In q A -> q < length (heap c) }.
(* what is incomplete contains x *)
Definition above (A : list nat) (src : list (option nat)) (x : sval) : Prop := forall p q, In q A -> from src p q -> goes (SRef p) x.
Lemma base_top A c : base A c -> forall q, top c = Some q -> q < length (heap c).
Proof. intros R q T. apply (r_lt _ _ R), (r_top _ _ R _ T). Qed.
Lemma base_next A c c' ys : base A c -> extends c c' ys -> base A c'.
Proof.
  intros [R1 R2 R3] X. constructor.
  - destruct (x_content _ _ _ X) as (l & _ & ->). discriminate.
  - rewrite (extends_top _ _ _ X). assumption.
  - intros q Q. specialize (R3 q Q). pose proof (x_len _ _ _ X). lia.
Qed.
Lemma above_next A c src t x : base A c -> length src = length (heap c) -> above A src x -> above A (src ++ t) x.
Proof. intros R L H p q Q F. apply (H p q Q). unfold from in *. rewrite nth_error_app1 in F; auto. pose proof (r_lt _ _ R q Q). lia. Qed.

Definition sent (x : sval) (s : stream) (e : ev) (s' : stream) : Prop :=
  forall A src c, inv A src s c -> base A c -> above A src x ->
  exists c' y t, collect N am e c = Done c' /\ extends c c' [y] /\ inv A (src ++ t) s' c' /\ rel (from (src ++ t)) x y.

Lemma add_sent A src c s y sn : inv A src s c -> base A c ->
  (sn = seen s \/ exists k, sn = (k, next s) :: seen s /\ key_rel src k y) ->
  exists c', add_value y c = Done c' /\ extends c c' [y] /\ inv A src (bump (mk_stream sn (next s))) c' /\ length (heap c') = length (heap c).
Proof.
  intros I1 R K. destruct (push_extends c y (r_content _ _ R)) as (c1 & P & X & V & L & _); [exact (base_top _ _ R)|].
  unfold add_value. rewrite P. cbn [bind]. eexists. split; [reflexivity|].
  assert (I2 : inv A src s c1) by (eapply inv_push; eauto; apply R).
  split; [|split; [|assumption]].
  - destruct X as [X1 X2 X3 X4 _]. constructor; auto. exists [y]. cbn. now rewrite V.
  - now apply inv_count.
Qed.
(* a string, wherever it comes from *)
Lemma text_sent lv t s e s' : emit_string C lv t s = Done (e, s') -> forall A src c, inv A src s c -> base A c ->
  exists c', collect N am e c = Done c' /\ extends c c' [GLeaf (VStr t)] /\ inv A src s' c'.
Proof.
  intros H A src c I1 R.
  assert (added : forall sn, (sn = seen s \/ sn = (KText t, next s) :: seen s) ->
    exists c', collect N am (EAdd (VStr t)) c = Done c' /\ extends c c' [GLeaf (VStr t)] /\ inv A src (bump (mk_stream sn (next s))) c').
  { intros sn K. destruct (add_sent A src c s (GLeaf (VStr t)) sn I1 R) as (c' & E & X & I2 & _); [|exists c'; auto].
    destruct K as [->| ->]; auto. right. exists (KText t). split; [reflexivity|reflexivity]. }
  unfold emit_string in H. destruct (_ <=? _)%Z.
  - apply process_cases in H as [(i & Nd & L & -> & ->)|(sn & K & Nd & H)].
    + destruct (i_seen _ _ _ _ I1 _ _ L) as (y & Y & K). cbn in K. subst y.
      destruct (push_extends c (GLeaf (VStr t)) (r_content _ _ R)) as (c1 & P & X & V & Lh & _); [exact (base_top _ _ R)|].
      exists c1. cbn [collect]. unfold add_ref. destruct (Z.ltb_spec (Z.of_nat i) 0); [lia|]. rewrite Nat2Z.id, Y. split; [assumption|]. split; [assumption|].
      eapply inv_push; eauto. apply R.
    + unfold add in H. injection H as <- <-. apply added. destruct K as [->|[-> _]]; auto.
  - unfold add in H. injection H as <- <-. destruct s as [sn nx]. apply (added sn). now left.
Qed.
Lemma add_leaf_sent v s : simple v -> sent (SVal v) s (EAdd v) (bump s).
Proof.
  intros S A src c I1 R _. destruct (add_sent A src c s (GLeaf v) (seen s) I1 R) as (c' & E & X & I2 & _); [now left|].
  exists c', (GLeaf v), []. rewrite app_nil_r. split; [assumption|]. split; [assumption|]. split; [|now split]. now destruct s.
Qed.
Lemma ref_sent p s i : lookup (KPtr p) (seen s) = Some i -> richb p = false -> sent (SRef p) s (ERef (Z.of_nat i)) s.
Proof.
  intros E Nr A src c I1 R _. destruct (i_seen _ _ _ _ I1 _ _ E) as (y & Y & K). specialize (K Nr).
  destruct (push_extends c y (r_content _ _ R)) as (c1 & P & X & V & Lh & _); [exact (base_top _ _ R)|].
  exists c1, y, []. rewrite app_nil_r. cbn [collect]. unfold add_ref. destruct (Z.ltb_spec (Z.of_nat i) 0); [lia|]. rewrite Nat2Z.id, Y. split; [assumption|]. split; [assumption|].
  split; [|exact K]. eapply inv_push; eauto. apply R.
Qed.

(* on a level with deduplication, what is encoded has not been seen *)
Definition fresh_at (lv : level) (s : stream) (x : sval) : Prop := lv <> NoDedup -> fine s x.

Lemma fresh_next n lv y s e s' x : emit W D C op g n lv y s = Done (e, s') -> fresh_at lv s y -> forall lv', fresh_at lv' s x -> (lv' <> NoDedup -> forall p, x = SRef p -> richb p = true -> y <> SRef p) -> fresh_at lv' s' x.
Proof.
  intros H Fy lv' Fx N1 Nd. assert (lv = NoDedup \/ lv <> NoDedup) as [->|Nl] by (destruct lv; auto; right; discriminate).
  - apply nodedup_seen in H. eapply fine_seen; eauto.
  - eapply fine_next; [exact H|now apply Fy|now apply Fx|now apply N1].
Qed.

Lemma refs_head x l p : NoDup (refs (x :: l)) -> In (SRef p) l -> richb p = true -> x <> SRef p.
Proof.
  intros O I1 R ->. change (SRef p :: l) with ([SRef p] ++ l) in O. rewrite refs_app in O. apply (NoDup_apart _ _ p O).
  - apply refs_in; [now left|assumption].
  - now apply refs_in.
Qed.
Lemma refs_tail x l : NoDup (refs (x :: l)) -> NoDup (refs l).
Proof. intros O. change (x :: l) with ([x] ++ l) in O. rewrite refs_app in O. now apply NoDup_right in O. Qed.

Lemma list_sent n lv l : (forall x, In x l -> forall s e s', fresh_at lv s x -> emit W D C op g n lv x s = Done (e, s') -> sent x s e s') -> (lv <> NoDedup -> NoDup (refs l)) ->
  forall s es s', emit_list (emit W D C op g n lv) l s = Done (es, s') -> (forall x, In x l -> fresh_at lv s x) ->
  forall A src c, inv A src s c -> base A c -> (forall x, In x l -> above A src x) ->
  exists c' ys t, collect_all N am es c = Done c' /\ extends c c' ys /\ inv A (src ++ t) s' c' /\ Forall2 (rel (from (src ++ t))) l ys.
Proof.
  induction l as [|x l IH]; intros F O s es s' E Fr A src c I1 R Ab; cbn in E.
  - injection E as <- <-. exists c, [], []. rewrite app_nil_r. cbn. split; [reflexivity|]. split; [apply extends_refl, R|].
    split; [assumption|constructor].
  - undo E. undo E. injection E as <- <-. pose proof (Fr x (or_introl eq_refl)) as Fx.
    destruct (F x (or_introl eq_refl) _ _ _ Fx E0 A src c I1 R (Ab x (or_introl eq_refl))) as (c1 & y & t & C1 & X1 & I2 & R1).
    pose proof (base_next _ _ _ _ R X1) as R'.
    destruct (IH (fun a Ia => F a (or_intror Ia)) (fun Nl => refs_tail _ _ (O Nl)) _ _ _ E1) with (A := A) (src := src ++ t) (c := c1) as (c2 & ys & t' & C2 & X2 & I3 & R2); auto.
    + intros a Ia. eapply fresh_next; [exact E0|exact Fx|apply Fr; now right|]. intros Nl p -> Rp. apply (refs_head _ l); auto.
    + intros a Ia. eapply above_next; [exact R|apply I1|]. apply Ab. now right.
    + exists c2, (y :: ys), (t ++ t'). rewrite app_assoc. cbn [collect_all]. rewrite C1. cbn [bind].
      split; [assumption|]. split; [exact (extends_trans _ _ _ _ _ X1 X2)|]. split; [assumption|].
      constructor; auto. eapply rel_mono; [|exact R1]. intros; now apply from_app.
Qed.

Definition entry_parts (m : list (sval * sval)) : list sval := flat_map (fun e => [fst e; snd e]) m.
Lemma entry_perm m : Permutation (map fst m ++ map snd m) (entry_parts m).
Proof.
  induction m as [|[k v] m IH]; cbn; [constructor|]. constructor. apply Permutation_sym. eapply Permutation_trans; [apply Permutation_cons; [reflexivity|apply Permutation_sym, IH]|]. apply Permutation_middle.
Qed.
Lemma entry_in e m : In e m -> In (fst e) (entry_parts m) /\ In (snd e) (entry_parts m).
Proof. intros I1. split; apply in_flat_map; exists e; split; auto; cbn; auto. Qed.

Lemma entries_sent n lk lv m : (lv = NoDedup -> lk = NoDedup) ->
  (forall e, In e m -> forall s ev s', fresh_at lk s (fst e) -> emit W D C op g n lk (fst e) s = Done (ev, s') -> sent (fst e) s ev s') ->
  (forall e, In e m -> forall s ev s', fresh_at lv s (snd e) -> emit W D C op g n lv (snd e) s = Done (ev, s') -> sent (snd e) s ev s') ->
  (lv <> NoDedup -> NoDup (refs (entry_parts m))) ->
  forall s es s', emit_entries (emit W D C op g n lk) (emit W D C op g n lv) m s = Done (es, s') -> (forall e, In e m -> fresh_at lv s (fst e) /\ fresh_at lv s (snd e)) ->
  forall A src c, inv A src s c -> base A c -> (forall e, In e m -> above A src (fst e) /\ above A src (snd e)) ->
  exists c' ys t, collect_all N am es c = Done c' /\ extends c c' (interleave ys) /\ inv A (src ++ t) s' c' /\
    Forall2 (fun e y => rel (from (src ++ t)) (fst e) (fst y) /\ rel (from (src ++ t)) (snd e) (snd y)) m ys.
Proof.
  intros Lk. induction m as [|[k v] m IH]; intros Fk Fv O s es s' E Fr A src c I1 R Ab; cbn in E.
  - injection E as <- <-. exists c, [], []. rewrite app_nil_r. cbn. split; [reflexivity|]. split; [apply extends_refl, R|].
    split; [assumption|constructor].
  - undo E. undo E. undo E. injection E as <- <-. change (lv <> NoDedup -> NoDup (refs (k :: v :: entry_parts m))) in O.
    destruct (Fr _ (or_introl eq_refl)) as [Frk Frv]. destruct (Ab _ (or_introl eq_refl)) as [Abk Abv]. cbn in Frk, Frv, Abk, Abv.
    assert (Frk' : fresh_at lk s k) by (intros Nk; apply Frk; intros Z; apply Nk; auto).
    destruct (Fk _ (or_introl eq_refl) _ _ _ Frk' E0 A src c I1 R Abk) as (c1 & y & t & C1 & X1 & I2 & R1).
    pose proof (base_next _ _ _ _ R X1) as B1. pose proof (above_next _ _ _ t _ R (i_src _ _ _ _ I1) Abv) as Abv'.
    assert (Frv' : fresh_at lv s0 v).
    { eapply fresh_next; [exact E0|exact Frk'|exact Frv|]. intros Nl p -> Rp. apply (refs_head _ (SRef p :: entry_parts m)); auto. now left. }
    destruct (Fv _ (or_introl eq_refl) _ _ _ Frv' E1 A (src ++ t) c1 I2 B1 Abv') as (c2 & z & t2 & C2 & X2 & I3 & R2).
    pose proof (base_next _ _ _ _ B1 X2) as B2.
    assert (X12 : extends c c2 ([y] ++ [z])) by exact (extends_trans _ _ _ _ _ X1 X2).
    destruct (IH (fun a Ia => Fk a (or_intror Ia)) (fun a Ia => Fv a (or_intror Ia)) (fun Nl => refs_tail _ _ (refs_tail _ _ (O Nl))) _ _ _ E2) with (A := A) (src := (src ++ t) ++ t2) (c := c2) as (c3 & ys & t3 & C3 & X3 & I4 & R3); auto.
    + intros a Ia. destruct (entry_in a m Ia) as [Ik Iv]. destruct (Fr a (or_intror Ia)) as [F1 F2].
      split; (eapply fresh_next; [exact E1|exact Frv'| |]; [eapply fresh_next; [exact E0|exact Frk'|assumption|]|]; intros Nl p Z Rp).
      * rewrite Z in Ik. apply (refs_head _ (v :: entry_parts m)); auto. now right.
      * rewrite Z in Ik. apply (refs_head _ (entry_parts m)); auto. exact (refs_tail _ _ (O Nl)).
      * rewrite Z in Iv. apply (refs_head _ (v :: entry_parts m)); auto. now right.
      * rewrite Z in Iv. apply (refs_head _ (entry_parts m)); auto. exact (refs_tail _ _ (O Nl)).
    + intros a Ia. destruct (Ab a (or_intror Ia)) as [A1 A2]. rewrite <- app_assoc. split; (eapply above_next; [exact R|apply I1|assumption]).
    + exists c3, ((y, z) :: ys), (t ++ t2 ++ t3). rewrite !app_assoc. cbn [collect_all interleave]. rewrite C1. cbn [bind]. rewrite C2. cbn [bind].
      split; [assumption|]. split; [exact (extends_trans _ _ _ _ _ X12 X3)|]. split; [assumption|].
      constructor; auto. cbn. split; [eapply rel_mono; [|exact R1]; intros; now do 2 apply from_app|eapply rel_mono; [|exact R2]; intros; now apply from_app].
Qed.

(* a new array or map *)
Lemma opened A src c s o x0 sn : inv A src s c -> base A c ->
  (sn = seen s \/ exists k, sn = (k, next s) :: seen s /\ key_rel (src ++ [o]) k (GRef (length (heap c)))) ->
  exists c1, add_value (GRef (length (heap c))) (mk_coll (heap c ++ [x0]) (vals c) (stack c)) = Done c1 /\ extends c c1 [GRef (length (heap c))] /\
    inv (length (heap c) :: A) (src ++ [o]) (bump (mk_stream sn (next s))) c1 /\ length (heap c1) = S (length (heap c)) /\
    nth_error (heap c1) (length (heap c)) = Some x0.
Proof.
  intros I1 R K. set (c0 := mk_coll (heap c ++ [x0]) (vals c) (stack c)).
  assert (Ct : content c0 = content c).
  { unfold content, c0. cbn. destruct (stack c) as [|[q|l] r] eqn:S; auto.
    rewrite nth_error_app1; auto. apply (base_top _ _ R). unfold top. now rewrite S. }
  destruct (add_sent (length (heap c) :: A) (src ++ [o]) c0 s (GRef (length (heap c))) sn) as (c1 & E & X & I2 & L).
  - now apply inv_open.
  - constructor.
    + rewrite Ct. apply R.
    + intros q T. right. now apply (r_top _ _ R).
    + intros q [<-|Q]; cbn; rewrite app_length; cbn; [lia|]. pose proof (r_lt _ _ R q Q). lia.
  - exact K.
  - exists c1. split; [exact E|]. cbn in L. rewrite app_length in L. cbn in L.
    assert (nth_error (heap c1) (length (heap c)) = Some x0) as E0.
    { rewrite (x_heap _ _ _ X); cbn; [apply nth_app_last|rewrite app_length; cbn; lia|].
      intros T. apply (base_top _ _ R) in T. lia. }
    split; [|split; [exact I2|split; [lia|exact E0]]].
    destruct X as [(l & X1 & X1') X2 X3 X4 X5]. constructor; auto.
    + exists l. rewrite <- Ct. auto.
    + lia.
    + intros q Q T. rewrite X4; cbn; auto; [|rewrite app_length; cbn; lia]. now rewrite nth_error_app1.
Qed.
Lemma inner_base A c c1 x0 fr : base A c -> extends c c1 [GRef (length (heap c))] -> length (heap c1) = S (length (heap c)) ->
  nth_error (heap c1) (length (heap c)) = Some x0 -> fr = FArr (length (heap c)) /\ x0 = GArr [] \/ fr = FTemp [] ->
  base (length (heap c) :: A) (mk_coll (heap c1) (vals c1) (fr :: stack c1)).
Proof.
  intros R X L E Fr. constructor; cbn.
  - unfold content. cbn. destruct Fr as [[-> ->]| ->]; [rewrite E|]; discriminate.
  - intros q T. unfold top in T. cbn in T. destruct Fr as [[-> _]| ->]; [|discriminate]. injection T as <-. now left.
  - intros q [<-|Q]; [lia|]. pose proof (r_lt _ _ R q Q). lia.
Qed.
Lemma inner_above A c src p n y s o : inv A src s c -> base A c -> above A src (SRef p) -> nth_error g p = Some n -> In y (parts n) -> (o = Some p \/ o = None) ->
  above (length (heap c) :: A) (src ++ [o]) y.
Proof.
  intros I1 R Ab E Iy Ho p' q Q F. assert (Gy : goes (SRef p) y) by (eapply goes_step; eauto; constructor).
  apply from_last in F as [F|[-> ->]].
  - destruct Q as [<-|Q]; [apply nth_lt in F; rewrite (i_src _ _ _ _ I1) in F; lia|].
    apply (goes_trans _ _ (SRef p)); [|assumption]. now apply (Ab p' q Q).
  - destruct Ho as [[= ->]|]; [assumption|discriminate].
Qed.
(* an array that has been filled *)
Lemma array_filled q0 c1 c2 ys : nth_error (heap c1) q0 = Some (GArr []) ->
  extends (mk_coll (heap c1) (vals c1) (FArr q0 :: stack c1)) c2 ys -> nth_error (heap c2) q0 = Some (GArr ys).
Proof.
  intros E1 X2. destruct (x_content _ _ _ X2) as (l' & Cl & Cl'). unfold content in Cl. cbn in Cl. rewrite E1 in Cl. injection Cl as <-.
  unfold content in Cl'. pose proof (x_stack _ _ _ X2) as St. cbn in St. destruct (stack c2) as [|[q|l2] r]; try easy. destruct St as [<- _].
  destruct (nth_error (heap c2) q0) as [[l2|?|?]|]; try discriminate. cbn in Cl'. congruence.
Qed.
Lemma temp_filled c1 c2 ys : extends (mk_coll (heap c1) (vals c1) (FTemp [] :: stack c1)) c2 ys -> exists r, stack c2 = FTemp ys :: r.
Proof.
  intros X2. destruct (x_content _ _ _ X2) as (l' & Cl & Cl'). unfold content in Cl. cbn in Cl. injection Cl as <-.
  unfold content in Cl'. pose proof (x_stack _ _ _ X2) as St. cbn in St. destruct (stack c2) as [|[q|l2] r]; try easy. cbn in Cl'. injection Cl' as ->. now exists r.
Qed.
Lemma from_here src o t q0 p : q0 = length src -> from ((src ++ [o]) ++ t) p q0 -> o = Some p.
Proof. intros -> F. unfold from in F. rewrite nth_error_app1 in F by (rewrite app_length; cbn; lia). rewrite nth_app_last in F. congruence. Qed.
Lemma here_from src p t q0 : q0 = length src -> from ((src ++ [Some p]) ++ t) p q0.
Proof. intros ->. apply from_app. unfold from. apply nth_app_last. Qed.

Lemma array_sent n lv p l s e s' : nth_error g p = Some (SArr l) ->
  (forall x, In x l -> forall s e s', fresh_at lv s x -> emit W D C op g n lv x s = Done (e, s') -> sent x s e s') -> fresh_at lv s (SRef p) ->
  process lv (KPtr p) (fun s => do (es, s) <- emit_list (emit W D C op g n lv) l (bump s); Done (EArr es, s)) s = Done (e, s') -> sent (SRef p) s e s'.
Proof.
  intros Ep F Fr H. assert (Nr : richb p = false) by (unfold richb; now rewrite Ep).
  apply process_cases in H as [(i & Nd & L & -> & ->)|(sn & K & Nd & H)]; [now apply ref_sent|].
  undo H. injection H as <- <-. intros A src c I1 R Ab.
  destruct (opened A src c s (Some p) (GArr []) sn I1 R) as (c1 & A1 & X1 & I2 & L1 & E1).
  { destruct K as [->|[-> K]]; auto. right. exists (KPtr p). split; [reflexivity|]. intros _. cbn. unfold from. rewrite <- (i_src _ _ _ _ I1). apply nth_app_last. }
  set (q0 := length (heap c)) in *. set (c1' := mk_coll (heap c1) (vals c1) (FArr q0 :: stack c1)).
  destruct (list_sent n lv l F (fun Nl => parts_once _ _ (proj1 (Fr Nl)) Ep) _ _ _ E) with (A := q0 :: A) (src := src ++ [Some p]) (c := c1') as (c2 & ys & t & C2 & X2 & I3 & R2).
  - intros x Ix Nd'. apply fine_seen with (s := mk_stream sn (next s)); [reflexivity|]. destruct K as [->|[-> K]]; [elim Nd'; now apply Nd|].
    eapply fine_open; eauto.
  - now apply inv_stack.
  - eapply inner_base; eauto.
  - intros x Ix. eapply inner_above; eauto.
  - rewrite collect_arr. fold q0. rewrite A1. cbn [bind]. fold c1'. rewrite C2. cbn [bind].
    pose proof (array_filled _ _ _ _ E1 X2) as E2.
    pose proof (popped c c1 c2 (FArr q0) ys (GArr ys) X1 L1 (or_introl eq_refl) (base_top _ _ R) X2) as Pp. fold q0 in Pp.
    rewrite (set_node_id _ _ _ E2) in Pp.
    exists (pop c2), (GRef q0), ([Some p] ++ t). rewrite app_assoc. split; [reflexivity|]. split; [destruct c2; exact Pp|].
    split; [|apply here_from; now rewrite (i_src _ _ _ _ I1)].
    unfold pop. apply inv_stack with (c := c2). pose proof (inv_close A _ _ c2 q0 (GArr ys) I3) as Cl.
    rewrite (set_node_id _ _ _ E2) in Cl. destruct c2 as [h2 v2 st2]. cbn in *. apply Cl.
    + now apply nth_lt in E2.
    + intros p' Z. apply from_here in Z; [|now rewrite (i_src _ _ _ _ I1)]. injection Z as <-. exists (SArr l). auto.
Qed.

(* the keys of a map are frozen when nothing of it is incomplete *)
Lemma keys_frozen A src s c m ks ys : inv A src s c -> (forall e, In e m -> apart A src (fst e)) ->
  Forall2 (fun e k => meaning g (fst e) k) m ks -> Forall (fun k => vdepth k < N) ks ->
  Forall2 (fun e y => rel (from src) (fst e) (fst y) /\ rel (from src) (snd e) (snd y)) m ys ->
  Forall2 (fun y k => freeze N (heap c) (fst y) = Done k) ys ks.
Proof.
  intros I1 Ap Mk Dk R2. revert ks Mk Dk. induction R2 as [|e y m ys [Ra _] R2 IH]; intros ks Mk Dk; inversion Mk as [|? k ? ks' M1 M2]; subst; constructor.
  - eapply freeze_meaning; eauto; [apply Ap; now left|]. now apply Forall_inv in Dk.
  - apply IH; auto; [intros a Ia; apply Ap; now right|]. now apply Forall_inv_tail in Dk.
Qed.
Lemma combined (R : nat -> nat -> Prop) m ks ys : Forall2 (fun e k => meaning g (fst e) k) m ks -> Forall2 (fun e y => rel R (fst e) (fst y) /\ rel R (snd e) (snd y)) m ys ->
  corr R (SMap m) (GMap (combine ks (map snd ys))).
Proof.
  cbn [corr]. intros Mk Ry. revert ks Mk. induction Ry as [|e0 y m ys [_ Ra] Ry IH]; intros ks Mk; inversion Mk; subst; cbn; constructor; auto.
Qed.
Lemma combined_keys {A} (ks : list value) (ys : list A) : length ks = length ys -> map fst (combine ks ys) = ks.
Proof. revert ys. induction ks as [|k ks IH]; intros [|y l] L; cbn in *; try discriminate; auto. f_equal. apply IH. lia. Qed.

(* what is below a finite object does not contain what is incomplete *)
Lemma below_apart A src p v n y : meaning g (SRef p) v -> nth_error g p = Some n -> In y (parts n) -> above A src (SRef p) -> apart A src y.
Proof.
  intros M E Iy Ab p' q G F Q. apply (meaning_acyclic g _ _ M p (goes_refl _ _)). exists n, y. split; [assumption|]. split; [assumption|].
  apply (goes_trans _ _ _ _ G). now apply (Ab p' q Q).
Qed.

Lemma map_depth p m ws ks : nth_error g p = Some (SMap m) -> meaning g (SRef p) (VMap ws) -> Forall2 (fun e k => meaning g (fst e) k) m ks -> Forall (fun k => vdepth k < vdepth (VMap ws)) ks.
Proof.
  intros E M Mk. inversion M as [|p' l' vs' E'|p' m' ws' E' F'|p' x' v' E'|p' b' E'|p' a' b' z' E']; subst; try congruence. rewrite E in E'. injection E' as <-.
  cbn [vdepth]. assert (forall w, In w ws -> vdepth (fst w) < S (fold_right Nat.max 0 (map (fun e => Nat.max (vdepth (fst e)) (vdepth (snd e))) ws))) as H by (intros w Iw; apply in_depths in Iw; lia).
  clear M E. revert H. generalize (S (fold_right Nat.max 0 (map (fun e : value * value => Nat.max (vdepth (fst e)) (vdepth (snd e))) ws))). intros b H. revert ws F' H.
  induction Mk as [|e k m ks Me Mk IH]; intros ws F' H; inversion F' as [|? w ? ws' [Mw _] F2]; subst; constructor.
  - rewrite (meaning_fun _ _ _ Mw _ Me). apply H. now left.
  - eapply IH; eauto. intros w' Iw. apply H. now right.
Qed.

Lemma encodable_at p n : nth_error g p = Some n -> encodable W D C g n.
Proof. intros E. rewrite Forall_forall in g_enc. apply g_enc. eapply nth_error_In; eauto. Qed.

Lemma no_type_key m : ~ In (VStr (d_type D)) (map fst m) -> get_text (d_type D) (m : list (value * gval)) = None.
Proof.
  intros N1. unfold get_text, get_with. induction m as [|[a b] m IH]; [reflexivity|]. cbn [find fst].
  destruct (veq (VStr (d_type D)) a) eqn:E; [|apply IH; cbn in N1; tauto].
  destruct a; try discriminate. cbn in E. apply bytes_eqb_eq in E. subst. cbn in N1. tauto.
Qed.
Lemma map_sent n lv p m v s e s' : nth_error g p = Some (SMap m) -> richb p = false -> meaning g (SRef p) v -> S (vdepth v) < N ->
  (forall e, In e m -> forall s ev s', fresh_at (key_level lv) s (fst e) -> emit W D C op g n (key_level lv) (fst e) s = Done (ev, s') -> sent (fst e) s ev s') ->
  (forall e, In e m -> forall s ev s', fresh_at lv s (snd e) -> emit W D C op g n lv (snd e) s = Done (ev, s') -> sent (snd e) s ev s') -> fresh_at lv s (SRef p) ->
  process lv (KPtr p) (fun s => do (es, s) <- emit_entries (emit W D C op g n (key_level lv)) (emit W D C op g n lv) m (bump s); Done (EMap es, s)) s = Done (e, s') -> sent (SRef p) s e s'.
Proof.
  intros Ep Nr M Dv Fk Fv Fr H.
  apply process_cases in H as [(i & Nd & L & -> & ->)|(sn & K & Nd & H)]; [now apply ref_sent|].
  undo H. injection H as <- <-. intros A src c I1 R Ab.
  destruct (opened A src c s (Some p) (GMap []) sn I1 R) as (c1 & A1 & X1 & I2 & L1 & E1).
  { destruct K as [->|[-> K]]; auto. right. exists (KPtr p). split; [reflexivity|]. intros _. cbn. unfold from. rewrite <- (i_src _ _ _ _ I1). apply nth_app_last. }
  set (q0 := length (heap c)) in *. set (c1' := mk_coll (heap c1) (vals c1) (FTemp [] :: stack c1)).
  assert (Ip : forall a, In a m -> In (fst a) (parts (SMap m)) /\ In (snd a) (parts (SMap m))).
  { intros a Ia. cbn. split; apply in_or_app; [left|right]; now apply in_map. }
  destruct (entries_sent n (key_level lv) lv m) with (s := bump (mk_stream sn (next s))) (es := l) (s' := s0) (A := q0 :: A) (src := src ++ [Some p]) (c := c1') as (c2 & ys & t & C2 & X2 & I3 & R2); auto.
  - now intros ->.
  - intros Nl. eapply refs_perm; [apply entry_perm|]. exact (parts_once _ _ (proj1 (Fr Nl)) Ep).
  - intros a Ia. destruct (Ip a Ia). split; (intros Nd'; apply fine_seen with (s := mk_stream sn (next s)); [reflexivity|]; destruct K as [->|[-> K]]; [elim Nd'; now apply Nd|]; eapply fine_open; eauto).
  - now apply inv_stack.
  - eapply inner_base; eauto.
  - intros a Ia. destruct (Ip a Ia). split; eapply inner_above; eauto.
  - rewrite collect_map. fold q0. rewrite A1. cbn [bind]. fold c1'. rewrite C2. cbn [bind].
    destruct (temp_filled _ _ _ X2) as (r & St). rewrite St, pairs_interleave.
    destruct (encodable_at _ _ Ep) as ((ks & Mk & Di & Ok) & _).
    assert (Lq : q0 = length src) by (unfold q0; now rewrite (i_src _ _ _ _ I1)).
    pose proof (map_key_depth := Mk).
    assert (exists ws, v = VMap ws) as (ws & ->).
    { inversion M; subst; try congruence. eauto. }
    assert (Fz : Forall2 (fun y k => freeze N (heap c2) (fst y) = Done k) ys ks).
    { apply (keys_frozen (q0 :: A) _ _ c2 m ks ys I3); auto.
      - intros a Ia. apply (below_apart _ _ p _ _ _ M Ep); [now apply Ip|]. intros p' q [<-|Q] Z.
        + apply from_here in Z; [|assumption]. injection Z as <-. constructor.
        + apply (Ab p' q Q). unfold from in *. pose proof (r_lt _ _ R q Q). rewrite <- app_assoc, nth_error_app1 in Z; [assumption|]. rewrite (i_src _ _ _ _ I1). lia.
      - eapply Forall_impl; [|exact (map_depth _ _ _ _ Ep M Mk)]. intros k Hk. cbn beta in Hk. lia. }
    rewrite (put_all_new _ _ _ _ Fz Di [] ltac:(easy)). cbn [bind app]. set (m' := combine ks (map snd ys)).
    assert (Lk' : length ks = length (map snd ys)).
    { rewrite map_length. symmetry. clear - Fz. induction Fz; cbn; auto. }
    assert (Q2 : q0 < length (heap c2)) by (pose proof (x_len _ _ _ X2) as Lx; cbn in Lx; lia).
    assert (decoding W D N q0 (pop (mk_coll (set_node (heap c2) q0 (GMap m')) (vals c2) (stack c2))) = Done (pop (mk_coll (set_node (heap c2) q0 (GMap m')) (vals c2) (stack c2)))) as Dc.
    { unfold decoding. cbn [pop heap]. rewrite set_node_same by assumption. rewrite no_type_key; [reflexivity|]. unfold m'. rewrite combined_keys by assumption. apply Ok.
      unfold richb in Nr. now rewrite Ep in Nr. }
    rewrite St in Dc. rewrite Dc. rewrite <- St.
    exists (pop (mk_coll (set_node (heap c2) q0 (GMap m')) (vals c2) (stack c2))), (GRef q0), ([Some p] ++ t). rewrite app_assoc. split; [reflexivity|].
    split; [exact (popped c c1 c2 (FTemp []) _ (GMap m') X1 L1 (or_intror eq_refl) (base_top _ _ R) X2)|].
    split; [|now apply here_from].
    unfold pop. cbn [heap vals stack]. apply inv_stack with (c := mk_coll (set_node (heap c2) q0 (GMap m')) (vals c2) (stack c2)).
    apply (inv_close A _ _ c2 q0 (GMap m') I3); auto.
    intros p' Z. apply from_here in Z; [|assumption]. injection Z as <-. exists (SMap m). split; [assumption|]. now apply combined.
Qed.

(* ---------- objects that are encoded ---------- *)

Lemma bytes_same t : bytes_eqb t t = true.
Proof. now apply bytes_eqb_eq. Qed.
Lemma bytes_differ t u : t <> u -> bytes_eqb t u = false.
Proof. intros N1. destruct (bytes_eqb t u) eqn:E; [|reflexivity]. now apply bytes_eqb_eq in E. Qed.
Lemma get_value (a b : gval) : get_text (d_value D) [(VStr (d_type D), a); (VStr (d_value D), b)] = Some b.
Proof.
  unfold get_text, get_with. cbn [find fst veq]. rewrite (bytes_differ (d_value D)) by (intros Z; symmetry in Z; now apply D_proper). now rewrite bytes_same.
Qed.
Lemma get_type (a b : gval) : get_text (d_type D) [(VStr (d_type D), a); (VStr (d_value D), b)] = Some a.
Proof. unfold get_text, get_with. cbn [find fst veq]. now rewrite bytes_same. Qed.

Lemma collect_one e c : collect_all N am [e] c = collect N am e c.
Proof. cbn [collect_all]. destruct (collect N am e c); reflexivity. Qed.
Lemma collect_app l l' c : collect_all N am (l ++ l') c = bind (collect_all N am l c) (collect_all N am l').
Proof. revert c. induction l as [|e l IH]; intros c; cbn [collect_all app bind]; [reflexivity|]. destruct (collect N am e c); cbn [bind]; auto. Qed.

Lemma words_sent ts : forall A src s c, inv A src s c -> base A c ->
  exists c', collect_all N am (map (fun t => EAdd (VStr t)) ts) c = Done c' /\ extends c c' (map (fun t => GLeaf (VStr t)) ts) /\
    inv A src (fold_left (fun s _ => bump s) ts s) c'.
Proof.
  induction ts as [|t ts IH]; intros A src s c I1 R.
  - exists c. cbn. split; [reflexivity|]. split; [apply extends_refl, R|assumption].
  - destruct (add_sent A src c s (GLeaf (VStr t)) (seen s) I1 R) as (c1 & E & X & I2 & _); [now left|].
    assert (inv A src (bump s) c1) as I3 by now destruct s.
    destruct (IH A src (bump s) c1 I3 (base_next _ _ _ _ R X)) as (c2 & E2 & X2 & I4).
    exists c2. cbn [map collect_all collect]. rewrite E. cbn [bind]. split; [assumption|]. split; [exact (extends_trans _ _ _ _ _ X X2)|]. exact I4.
Qed.

(* a map that encodes an object, before it is decoded *)
Lemma wrapped_sent p nm inner s sn e s' A src c (Q : stream -> list (option nat) -> graph -> gval -> Prop) : N <> 0 -> richb p = true ->
  wrapped D nm inner (mk_stream sn (next s)) = Done (e, s') -> (sn = seen s \/ sn = (KPtr p, next s) :: seen s /\ lookup (KPtr p) (seen s) = None) ->
  inv A src s c -> base A c ->
  (forall s1 e4 s4 c1, seen s1 = sn -> inner s1 = Done (e4, s4) -> inv (length (heap c) :: A) (src ++ [None]) s1 c1 -> base (length (heap c) :: A) c1 ->
     exists c4 y t, collect N am e4 c1 = Done c4 /\ extends c1 c4 [y] /\ inv (length (heap c) :: A) ((src ++ [None]) ++ t) s4 c4 /\ Q s4 ((src ++ [None]) ++ t) (heap c4) y) ->
  exists c5 h4 y t, let m := [(VStr (d_type D), GLeaf (VStr nm)); (VStr (d_value D), y)] in
    collect N am e c = (do (z, h) <- decode W D N nm (length (heap c)) m (heap c5); replace_last z (mk_coll h (vals c5) (stack c5))) /\
    extends c c5 [GRef (length (heap c))] /\ inv A (src ++ t) s' c5 /\ nth_error (src ++ t) (length (heap c)) = Some None /\
    (forall q, q <> length (heap c) -> nth_error (heap c5) q = nth_error h4 q) /\ Q s' (src ++ t) h4 y.
Proof.
  intros Dz Rp H K I1 R In. unfold wrapped, add in H. cbn [bind] in H. undo H. injection H as <- <-.
  destruct (opened A src c s None (GMap []) sn I1 R) as (c1 & A1 & X1 & I2 & L1 & E1).
  { destruct K as [->|[-> K]]; auto. right. exists (KPtr p). split; [reflexivity|]. intros Z. congruence. }
  set (q0 := length (heap c)) in *. set (c1' := mk_coll (heap c1) (vals c1) (FTemp [] :: stack c1)).
  assert (B1 : base (q0 :: A) c1') by (eapply inner_base; eauto).
  destruct (words_sent [d_type D; nm; d_value D] (q0 :: A) (src ++ [None]) (bump (mk_stream sn (next s))) c1') as (c3 & C3 & X3 & I3); [now apply inv_stack|assumption|].
  cbn [fold_left map] in C3, X3, I3.
  destruct (In (bump (bump (bump (bump (mk_stream sn (next s)))))) _ _ c3 eq_refl E I3 (base_next _ _ _ _ B1 X3)) as (c4 & y & t & C4 & X4 & I4 & HQ).
  pose proof (extends_trans _ _ _ _ _ X3 X4) as X34. cbn [app] in X34.
  destruct (temp_filled _ _ _ X34) as (r & St).
  assert (Q4 : q0 < length (heap c4)) by (pose proof (x_len _ _ _ X34) as Lx; cbn in Lx; lia).
  assert (Lq : q0 = length src) by (unfold q0; now rewrite (i_src _ _ _ _ I1)).
  set (m := [(VStr (d_type D), GLeaf (VStr nm)); (VStr (d_value D), y)]).
  assert (Pt : put_all N (heap c4) (pairs [GLeaf (VStr (d_type D)); GLeaf (VStr nm); GLeaf (VStr (d_value D)); y]) [] = Done m).
  { clear - D_proper Dz. destruct N as [|n]; [easy|]. cbn. rewrite (bytes_differ (d_value D)); [reflexivity|]. intros Z. symmetry in Z. now apply D_proper. }
  set (c5 := pop (mk_coll (set_node (heap c4) q0 (GMap m)) (vals c4) (stack c4))).
  exists c5, (heap c4), y, ([None] ++ t). rewrite app_assoc. cbn zeta. fold m. split; [|split; [|split; [|split; [|split]]]].
  - rewrite collect_map. fold q0. rewrite A1. cbn [bind]. fold c1'.
    change (collect_all N am [EAdd (VStr (d_type D)); EAdd (VStr nm); EAdd (VStr (d_value D)); e0] c1') with
      (collect_all N am ([EAdd (VStr (d_type D)); EAdd (VStr nm); EAdd (VStr (d_value D))] ++ [e0]) c1').
    rewrite collect_app, C3. cbn [bind]. rewrite collect_one, C4. cbn [bind]. rewrite St, Pt. cbn [bind]. rewrite <- St. fold c5.
    unfold decoding. unfold c5 at 1. cbn [pop heap]. rewrite set_node_same by assumption. unfold m at 1. now rewrite get_type.
  - exact (popped c c1 c4 (FTemp []) _ (GMap m) X1 L1 (or_intror eq_refl) (base_top _ _ R) X34).
  - unfold c5, pop. cbn [heap vals stack]. apply inv_stack with (c := mk_coll (set_node (heap c4) q0 (GMap m)) (vals c4) (stack c4)).
    apply (inv_close A _ _ c4 q0 (GMap m) I4); auto. intros p' Z. apply from_here in Z; [discriminate|assumption].
  - rewrite nth_error_app1 by (rewrite app_length; cbn; lia). rewrite Lq. apply nth_app_last.
  - intros q Nq. unfold c5. cbn [pop heap]. now rewrite set_node_other by congruence.
  - exact HQ.
Qed.

(* ReplaceLast puts a value in the place of the last *)
Lemma replaced c c5 z y h : extends c c5 [z] -> (forall q, top c = Some q -> q < length (heap c)) -> length (heap c5) <= length h ->
  (forall q, q < length (heap c5) -> nth_error h q = nth_error (heap c5) q) ->
  exists c6, replace_last y (mk_coll h (vals c5) (stack c5)) = Done c6 /\ extends c c6 [y] /\ vals c6 = vals c5 /\ length (heap c6) = length h /\
    (forall q, top c <> Some q -> nth_error (heap c6) q = nth_error h q).
Proof.
  intros X T Lh Hh. pose proof (extends_top _ _ _ X) as Tp. destruct X as [(l & Cl & Cl') St Le Hp (vs & V)]. unfold replace_last. cbn [stack heap vals].
  unfold content in Cl'. destruct (stack c5) as [|[q|l2] r] eqn:S5; try easy.
  - assert (Tq : top c = Some q) by (rewrite <- Tp; unfold top; now rewrite S5). pose proof (T q Tq) as Lq.
    destruct (nth_error (heap c5) q) as [[l2|?|?]|] eqn:E5; try discriminate. injection Cl' as ->.
    rewrite Hh by lia. rewrite E5. eexists. split; [reflexivity|]. rewrite removelast_last. cbn [vals heap stack].
    split; [|split; [reflexivity|split; [apply set_node_length|]]].
    + constructor; cbn [vals heap stack].
      * exists l. split; [assumption|]. unfold content. cbn [stack heap]. rewrite set_node_same by lia. reflexivity.
      * assumption.
      * rewrite set_node_length. lia.
      * intros q' Q' T'. rewrite set_node_other by congruence. rewrite Hh by lia. now apply Hp.
      * now exists vs.
    + intros q' T'. now rewrite set_node_other by congruence.
  - injection Cl' as ->. eexists. split; [reflexivity|]. rewrite removelast_last. cbn [vals heap stack].
    split; [|split; [reflexivity|split; [reflexivity|auto]]]. constructor; cbn [vals heap stack].
    + exists l. split; [assumption|]. reflexivity.
    + unfold same_stack in *. destruct (stack c) as [|[a|a] b]; easy.
    + lia.
    + intros q' Q' T'. rewrite Hh by lia. now apply Hp.
    + now exists vs.
Qed.
(* the decoded value takes the place of the map *)
Lemma decoded_sent A src src' c c5 z y h s : base A c -> extends c c5 [z] -> length (heap c5) <= length h ->
  (forall q, q < length (heap c5) -> nth_error h q = nth_error (heap c5) q) -> inv A src' s (mk_coll h (vals c5) (stack c5)) -> (exists t, src' = src ++ t) ->
  exists c6 t, replace_last y (mk_coll h (vals c5) (stack c5)) = Done c6 /\ extends c c6 [y] /\ inv A (src ++ t) s c6 /\ src' = src ++ t.
Proof.
  intros R X Lh Hh I1 (t & ->). destruct (replaced c c5 z y h X (base_top _ _ R) Lh Hh) as (c6 & E & X6 & V & L & H6).
  exists c6, t. split; [assumption|]. split; [assumption|]. split; [|reflexivity].
  destruct c6 as [h6 v6 s6]. cbn in V, L, H6. subst v6. change (vals c5) with (vals (mk_coll h (vals c5) (stack c5))). apply inv_heap; auto.
  intros q Q. apply H6. intros Tq. apply Q. exact (r_top _ _ R q Tq).
Qed.

Lemma rich_cases lv p doer s e s' : richb p = true -> fresh_at lv s (SRef p) -> process lv (KPtr p) doer s = Done (e, s') ->
  exists sn, (sn = seen s \/ sn = (KPtr p, next s) :: seen s /\ lookup (KPtr p) (seen s) = None) /\ (lv = NoDedup <-> sn = seen s) /\ doer (mk_stream sn (next s)) = Done (e, s').
Proof.
  intros Rp Fr H. apply process_cases in H as [(i & Nd & L & _)|H]; [|assumption].
  destruct (Fr Nd) as (_ & _ & F). destruct (F p eq_refl Rp) as [F1 _]. unfold fresh in F1. congruence.
Qed.
Lemma child_fresh lv s p n y sn s1 : fresh_at lv s (SRef p) -> (sn = seen s \/ sn = (KPtr p, next s) :: seen s /\ lookup (KPtr p) (seen s) = None) -> (lv = NoDedup <-> sn = seen s) ->
  nth_error g p = Some n -> In y (parts n) -> seen s1 = sn -> fresh_at lv s1 y.
Proof.
  intros Fr K Nd E Iy S1 Nl. apply fine_seen with (s := mk_stream sn (next s)); [assumption|]. destruct K as [->|[-> K]]; [elim Nl; now apply Nd|].
  eapply fine_open; eauto.
Qed.

Lemma name_cases : bytes_eqb (d_sensitive D) (d_map D) = false /\ bytes_eqb (d_binary D) (d_map D) = false /\ bytes_eqb (d_time D) (d_map D) = false /\
  bytes_eqb (d_binary D) (d_sensitive D) = false /\ bytes_eqb (d_time D) (d_sensitive D) = false /\ bytes_eqb (d_time D) (d_binary D) = false.
Proof.
  destruct D_proper as [_ H]. inversion H as [|? ? H1 H']; subst. inversion H' as [|? ? H2 H'']; subst. inversion H'' as [|? ? H3 _]; subst. cbn in *.
  repeat split; apply bytes_differ; intros Z; rewrite Z in *; tauto.
Qed.

(* binaries and times that are encoded as strings *)
Lemma text_node_sent lv p nm t w s e s' : N <> 0 -> richb p = true -> fresh_at lv s (SRef p) ->
  process lv (KPtr p) (wrapped D nm (emit_string C lv t)) s = Done (e, s') ->
  (forall q m h, m = [(VStr (d_type D), GLeaf (VStr nm)); (VStr (d_value D), GLeaf (VStr t))] -> decode W D N nm q m h = Done (GLeaf w, h)) ->
  match nth_error g p with Some (SBin b) => w = VBin b | Some (STime a b z) => w = VTime a b z | _ => False end -> sent (SRef p) s e s'.
Proof.
  intros Dz Rp Fr H De Lf A src c I1 R Ab. destruct (rich_cases _ _ _ _ _ _ Rp Fr H) as (sn & K & Nd & Hw).
  destruct (wrapped_sent p nm _ s sn e s' A src c (fun _ _ _ y => y = GLeaf (VStr t)) Dz Rp Hw K I1 R) as (c5 & h4 & y & tt & Ec & X & I2 & _ & _ & ->).
  { intros s1 e4 s4 c1 _ H4 I4 B4. destruct (text_sent _ _ _ _ _ H4 _ _ _ I4 B4) as (c4 & C4 & X4 & I5). exists c4, (GLeaf (VStr t)), []. rewrite app_nil_r. auto. }
  cbn zeta in Ec. rewrite De in Ec by reflexivity. cbn [bind] in Ec.
  destruct (decoded_sent A src (src ++ tt) c c5 (GRef (length (heap c))) (GLeaf w) (heap c5) s' R X) as (c6 & t' & E6 & X6 & I6 & Et); [reflexivity|auto|now destruct c5|now exists tt|].
  exists c6, (GLeaf w), t'. rewrite Ec. split; [assumption|]. split; [assumption|]. split; [assumption|]. exact Lf.
Qed.

Lemma sens_sent n lv p x s e s' : N <> 0 -> nth_error g p = Some (SSens x) -> fresh_at lv s (SRef p) ->
  (forall s e s', fresh_at lv s x -> emit W D C op g n lv x s = Done (e, s') -> sent x s e s') ->
  process lv (KPtr p) (wrapped D (d_sensitive D) (emit W D C op g n lv x)) s = Done (e, s') -> sent (SRef p) s e s'.
Proof.
  intros Dz E Fr F H A src c I1 R Ab. assert (Rp : richb p = true) by (unfold richb; now rewrite E).
  destruct (rich_cases _ _ _ _ _ _ Rp Fr H) as (sn & K & Nd & Hw). assert (Ix : In x (parts (SSens x))) by now left.
  destruct (wrapped_sent p (d_sensitive D) _ s sn e s' A src c (fun _ sr _ y => rel (from sr) x y) Dz Rp Hw K I1 R) as (c5 & h4 & y & tt & Ec & X & I2 & _ & _ & Rx).
  { intros s1 e4 s4 c1 S1 H4 I4 B4. apply (F _ _ _ (child_fresh _ _ _ _ _ _ _ Fr K Nd E Ix S1) H4); auto.
    eapply inner_above; eauto. }
  assert (De : forall q m h, m = [(VStr (d_type D), GLeaf (VStr (d_sensitive D))); (VStr (d_value D), y)] -> decode W D N (d_sensitive D) q m h = Done (GRef (length h), h ++ [GSens y])).
  { intros q m h ->. unfold decode. cbn [length Nat.eqb]. rewrite get_value. destruct name_cases as (-> & _). now rewrite bytes_same. }
  cbn zeta in Ec. rewrite De in Ec by reflexivity. cbn [bind] in Ec.
  destruct (decoded_sent A src ((src ++ tt) ++ [Some p]) c c5 (GRef (length (heap c))) (GRef (length (heap c5))) (heap c5 ++ [GSens y]) s' R X) as (c6 & t' & E6 & X6 & I6 & Et).
  - rewrite app_length. lia.
  - intros q Q. now rewrite nth_error_app1.
  - apply inv_new; [assumption|]. intros p' [= <-]. exists (SSens x). auto.
  - exists (tt ++ [Some p]). now rewrite app_assoc.
  - exists c6, (GRef (length (heap c5))), t'. rewrite Ec. split; [assumption|]. split; [assumption|]. split; [assumption|].
    rewrite <- Et. cbn. unfold from. rewrite <- (i_src _ _ _ _ I2). apply nth_app_last.
Qed.

Lemma to_map_frozen h ys ks : Forall2 (fun y k => freeze N h (fst y) = Done k) ys ks -> to_map N h (interleave ys) = Done (combine ks (map snd ys)).
Proof.
  intros F. unfold to_map. rewrite pairs_interleave. apply done_list_all. induction F as [|[a b] k ys ks E F IH]; cbn; constructor; auto. cbn in E |- *. now rewrite E.
Qed.
Lemma combined_values {A B} (ks : list A) (ys : list B) : length ks = length ys -> map snd (combine ks ys) = ys.
Proof. revert ys. induction ks as [|k ks IH]; intros [|y l] L; cbn in *; try discriminate; auto. f_equal. apply IH. lia. Qed.
Lemma values_kept A src s c m ys orig repl h' n : inv A src s c -> (forall e, In e m -> apart A src (snd e) /\ exists v, meaning g (snd e) v /\ vdepth v < n) ->
  Forall2 (fun e y => rel (from src) (fst e) (fst y) /\ rel (from src) (snd e) (snd y)) m ys ->
  nth_error src orig = Some None -> (forall q, q < length (heap c) -> nth_error h' q = nth_error (heap c) q) ->
  replace_list (replace orig repl n) (map snd ys) h' = Done (map snd ys, false, h').
Proof.
  intros I1 P Ry O Hh. induction Ry as [|e y m ys [_ Ra] Ry IH]; cbn [map replace_list]; [reflexivity|].
  destruct (P e (or_introl eq_refl)) as (Ap & v & M & Dv).
  rewrite (replace_none A src s c (snd e) v (snd y) orig repl h' I1 M Ra Ap O Hh n Dv). cbn [bind]. rewrite IH; [reflexivity|].
  intros a Ia. apply P. now right.
Qed.
Lemma value_depth p m ws : nth_error g p = Some (SMap m) -> meaning g (SRef p) (VMap ws) -> forall e, In e m -> exists v, meaning g (snd e) v /\ vdepth v < vdepth (VMap ws).
Proof.
  intros E M e Ie. inversion M as [|p' l' vs' E'|p' m' ws' E' F'|p' x' v' E'|p' b' E'|p' a' b' z' E']; subst; try congruence. rewrite E in E'. injection E' as <-.
  destruct (In_nth_error _ _ Ie) as (i & Ei). clear - F' Ei.
  assert (exists w, In w ws /\ meaning g (snd e) (snd w)) as (w & Iw & Mw).
  { revert i Ei. induction F' as [|a w m ws [_ Mw] F IH]; intros [|i] Ei; cbn in Ei; try discriminate.
    - injection Ei as <-. exists w. split; [now left|assumption].
    - destruct (IH _ Ei) as (w' & I1 & M1). exists w'. split; [now right|assumption]. }
  exists (snd w). split; [assumption|]. cbn [vdepth]. apply in_depths in Iw. lia.
Qed.

Lemma complex_sent n lv p m v s e s' : nth_error g p = Some (SMap m) -> richb p = true -> meaning g (SRef p) v -> S (vdepth v) < N ->
  (forall e, In e m -> forall s ev s', fresh_at NoDedup s (fst e) -> emit W D C op g n NoDedup (fst e) s = Done (ev, s') -> sent (fst e) s ev s') ->
  (forall e, In e m -> forall s ev s', fresh_at lv s (snd e) -> emit W D C op g n lv (snd e) s = Done (ev, s') -> sent (snd e) s ev s') -> fresh_at lv s (SRef p) ->
  process lv (KPtr p) (wrapped D (d_map D) (fun s => do (es, s) <- emit_entries (emit W D C op g n NoDedup) (emit W D C op g n lv) m (bump s); Done (EArr es, s))) s = Done (e, s') -> sent (SRef p) s e s'.
Proof.
  intros E Rp M Dv Fk Fv Fr H A src c I1 R Ab.
  destruct (rich_cases _ _ _ _ _ _ Rp Fr H) as (sn & K & Nd & Hw).
  assert (Ip : forall a, In a m -> In (fst a) (parts (SMap m)) /\ In (snd a) (parts (SMap m))).
  { intros a Ia. cbn. split; apply in_or_app; [left|right]; now apply in_map. }
  assert (Dz : N <> 0) by lia. set (q0 := length (heap c)).
  destruct (wrapped_sent p (d_map D) _ s sn e s' A src c (fun _ sr h y => exists q1 ys, y = GRef q1 /\ q0 <> q1 /\ nth_error h q1 = Some (GArr (interleave ys)) /\
      Forall2 (fun e y => rel (from sr) (fst e) (fst y) /\ rel (from sr) (snd e) (snd y)) m ys) Dz Rp Hw K I1 R) as (c5 & h4 & y & tt & Ec & X & I2 & Or & Hh & q1 & ys & -> & Nq & Eq & Ry).
  { intros s1 e4 s4 c1 S1 H4 I4 B4. undo H4. injection H4 as <- <-. fold q0 in I4, B4 |- *.
    destruct (opened (q0 :: A) (src ++ [None]) c1 s1 None (GArr []) (seen s1) I4 B4) as (c2 & A2 & X2 & I5 & L2 & E2); [now left|].
    set (q1 := length (heap c1)) in *. set (c2' := mk_coll (heap c2) (vals c2) (FArr q1 :: stack c2)).
    destruct (entries_sent n NoDedup lv m) with (s := bump s1) (es := l) (s' := s0) (A := q1 :: q0 :: A) (src := (src ++ [None]) ++ [None]) (c := c2') as (c3 & ys & t & C3 & X3 & I6 & R6); auto.
    - intros Nl. eapply refs_perm; [apply entry_perm|]. exact (parts_once _ _ (proj1 (Fr Nl)) E).
    - intros a Ia. destruct (Ip a Ia). split; eapply child_fresh; eauto.
    - apply inv_stack. now destruct s1.
    - eapply inner_base; eauto.
    - intros a Ia. destruct (Ip a Ia). split; (eapply inner_above with (p := p); eauto; intros p' q Q F; apply from_last in F as [F|[_ Z]]; [|discriminate];
        destruct Q as [<-|Q]; [apply nth_lt in F; rewrite (i_src _ _ _ _ I1) in F; unfold q0 in F; lia|now apply (Ab p' q Q)]).
    - pose proof (array_filled _ _ _ _ E2 X3) as E3.
      pose proof (popped c1 c2 c3 (FArr q1) _ (GArr (interleave ys)) X2 L2 (or_introl eq_refl) (base_top _ _ B4) X3) as Pp. fold q1 in Pp.
      rewrite (set_node_id _ _ _ E3) in Pp.
      exists (pop c3), (GRef q1), ([None] ++ t). rewrite collect_arr. fold q1. rewrite A2. cbn [bind]. fold c2'. rewrite C3. cbn [bind]. rewrite (app_assoc (src ++ [None])).
      split; [reflexivity|]. split; [destruct c3; exact Pp|]. split.
      + unfold pop. apply inv_stack with (c := c3). pose proof (inv_close (q0 :: A) _ _ c3 q1 (GArr (interleave ys)) I6) as Cl.
        rewrite (set_node_id _ _ _ E3) in Cl. destruct c3 as [h3 v3 st3]. cbn in *. apply Cl.
        * now apply nth_lt in E3.
        * intros p' Z. apply from_here in Z; [discriminate|]. unfold q1. symmetry. apply (i_src _ _ _ _ I4).
      + exists q1, ys. split; [reflexivity|]. split; [|split; [exact E3|exact R6]].
        pose proof (r_lt _ _ B4 q0 (or_introl eq_refl)). fold q1 in H0. lia. }
  fold q0 in Ec, X, Or, Hh. destruct (encodable_at _ _ E) as ((ks & Mk & _ & _) & _).
  assert (exists ws, v = VMap ws) as (ws & ->) by (inversion M; subst; try congruence; eauto).
  assert (Ab' : above A (src ++ tt) (SRef p)) by (eapply above_next; [exact R|apply I1|assumption]).
  assert (Ap : forall y, In y (parts (SMap m)) -> apart A (src ++ tt) y) by (intros y Iy; eapply below_apart; eauto).
  assert (Fz : Forall2 (fun y k => freeze N (heap c5) (fst y) = Done k) ys ks).
  { apply (keys_frozen A _ _ c5 m ks ys I2); auto.
    - intros a Ia. apply Ap. now apply Ip.
    - eapply Forall_impl; [|exact (map_depth _ _ _ _ E M Mk)]. intros k Hk. cbn beta in Hk. lia. }
  assert (Lk : length ks = length (map snd ys)).
  { rewrite map_length. symmetry. clear - Fz. induction Fz; cbn; auto. }
  set (h := heap c5) in *. set (nm := combine ks (map snd ys)).
  assert (Lq : q0 < length h) by (pose proof (i_src _ _ _ _ I2); apply nth_lt in Or; unfold h; lia).
  assert (De : decode W D N (d_map D) q0 [(VStr (d_type D), GLeaf (VStr (d_map D))); (VStr (d_value D), GRef q1)] h = Done (GRef (length h), h ++ [GMap nm])).
  { unfold decode. cbn [length Nat.eqb]. rewrite get_value, bytes_same. rewrite Hh by congruence. rewrite Eq. rewrite (to_map_frozen _ _ _ Fz). cbn [bind]. fold nm.
    destruct N as [|N'] eqn:EN; [lia|]. cbn [replace]. destruct (Nat.eqb_spec (length h) q0); [lia|]. rewrite nth_app_last. unfold nm at 1. rewrite combined_values by assumption.
    rewrite (values_kept A (src ++ tt) s' c5 m ys q0 (length h) (h ++ [GMap nm]) N' I2); auto.
    - intros a Ia. split; [apply Ap; now apply Ip|]. destruct (value_depth _ _ _ E M a Ia) as (v & Mv & Dd). exists v. split; [assumption|]. lia.
    - intros q Q. now rewrite nth_error_app1. }
  cbn zeta in Ec. rewrite De in Ec. cbn [bind] in Ec.
  destruct (decoded_sent A src ((src ++ tt) ++ [Some p]) c c5 (GRef q0) (GRef (length h)) (h ++ [GMap nm]) s' R X) as (c6 & t' & E6 & X6 & I6 & Et).
  - rewrite app_length. unfold h. lia.
  - intros q Q. now rewrite nth_error_app1.
  - apply inv_new; [assumption|]. intros p' [= <-]. exists (SMap m). split; [assumption|]. now apply combined.
  - exists (tt ++ [Some p]). now rewrite app_assoc.
  - exists c6, (GRef (length h)), t'. rewrite Ec. split; [assumption|]. split; [assumption|]. split; [assumption|].
    rewrite <- Et. cbn. unfold from, h. rewrite <- (i_src _ _ _ _ I2). apply nth_app_last.
Qed.

(* ---------- everything ---------- *)

Lemma leaf_node_sent lv p s e s' w : richb p = false -> process lv (KPtr p) (add w) s = Done (e, s') ->
  match nth_error g p with Some (SBin b) => w = VBin b | Some (STime a b z) => w = VTime a b z | _ => False end -> sent (SRef p) s e s'.
Proof.
  intros Nr H Lf. apply process_cases in H as [(i & Nd & L & -> & ->)|(sn & K & Nd & H)]; [now apply ref_sent|].
  unfold add in H. injection H as <- <-. intros A src c I1 R _.
  destruct (add_sent A src c s (GLeaf w) sn I1 R) as (c' & E & X & I2 & L).
  - destruct K as [->|[-> K]]; auto. right. exists (KPtr p). split; [reflexivity|]. intros _. exact Lf.
  - exists c', (GLeaf w), []. rewrite app_nil_r. auto.
Qed.
Lemma arr_parts p l vs : nth_error g p = Some (SArr l) -> meaning g (SRef p) (VArr vs) -> forall x, In x l -> exists v, meaning g x v /\ vdepth v < vdepth (VArr vs).
Proof.
  intros E M x Ix. inversion M as [|p' l' vs' E' F'|p' m' ws' E' F'|p' x' v' E'|p' b' E'|p' a' b' z' E']; subst; try congruence. rewrite E in E'. injection E' as <-.
  assert (exists v, In v vs /\ meaning g x v) as (v & Iv & Mv).
  { clear - F' Ix. induction F' as [|a b l vs H F IH]; [easy|]. destruct Ix as [->|Ix]; [exists b; split; [now left|assumption]|].
    destruct (IH Ix) as (v & ? & ?). exists v. split; [now right|assumption]. }
  exists v. split; [assumption|]. cbn [vdepth]. apply in_depth in Iv. lia.
Qed.
Lemma key_depth p m ws : nth_error g p = Some (SMap m) -> meaning g (SRef p) (VMap ws) -> forall e, In e m -> exists v, meaning g (fst e) v /\ vdepth v < vdepth (VMap ws).
Proof.
  intros E M e Ie. inversion M as [|p' l' vs' E'|p' m' ws' E' F'|p' x' v' E'|p' b' E'|p' a' b' z' E']; subst; try congruence. rewrite E in E'. injection E' as <-.
  assert (exists w, In w ws /\ meaning g (fst e) (fst w)) as (w & Iw & Mw).
  { clear - F' Ie. induction F' as [|a b l vs [H _] F IH]; [easy|]. destruct Ie as [->|Ix]; [exists b; split; [now left|assumption]|].
    destruct (IH Ix) as (v & ? & ?). exists v. split; [now right|assumption]. }
  exists (fst w). split; [assumption|]. cbn [vdepth]. apply in_depths in Iw. lia.
Qed.
Lemma not_complex m p : nth_error g p = Some (SMap m) -> c_complex C || string_keys m = negb (richb p).
Proof. intros E. unfold richb. rewrite E. cbn [encoded]. now rewrite negb_involutive. Qed.
Lemma map_no_ref m p : nth_error g p = Some (SMap m) -> ref_of D m = None.
Proof. intros E. apply no_ref. apply (encodable_at _ _ E). Qed.

Theorem emit_rich : forall n lv x s e s', emit W D C op g n lv x s = Done (e, s') -> fresh_at lv s x -> forall v, meaning g x v -> S (vdepth v) < N -> sent x s e s'.
Proof.
  induction n as [|n IH]; intros lv x s e s' H Fr v M Dv; [discriminate|]. cbn [emit] in H. destruct x as [w|p].
  - inversion M as [w' S| | | | |]; subst.
    destruct v as [|bb|ii|ff|tx|bb|? ? ?|rr|vv|ll|mm]; try easy; try (unfold add in H; injection H as <- <-; now apply add_leaf_sent).
    intros A src c I1 R _. destruct (text_sent _ _ _ _ _ H A src c I1 R) as (c' & E & X & I2). exists c', (GLeaf (VStr tx)), []. rewrite app_nil_r. split; [assumption|]. split; [assumption|]. split; [assumption|]. now split.
  - destruct (nth_error g p) as [x|] eqn:Ep; [|discriminate]. pose proof (encodable_at _ _ Ep) as Pl.
    assert (Dz : N <> 0) by lia.
    destruct x as [l|m|x|b|a b z|tx al]; cbn [emit_node] in H.
    + assert (exists vs, v = VArr vs) as (vs & ->) by (inversion M; subst; try congruence; eauto).
      apply (array_sent n lv p l s e s' Ep); auto. intros x Ix s1 e1 s2 F1 H1. destruct (arr_parts _ _ _ Ep M x Ix) as (v & Mv & L). eapply IH; eauto. lia.
    + assert (exists ws, v = VMap ws) as (ws & ->) by (inversion M; subst; try congruence; eauto).
      rewrite (not_complex _ _ Ep), (map_no_ref _ _ Ep), op_rich in H. destruct (richb p) eqn:Rp; cbn [negb] in H.
      * apply (complex_sent n lv p m _ s e s' Ep Rp M Dv); auto; intros a Ia s1 e1 s2 F1 H1;
          [destruct (key_depth _ _ _ Ep M a Ia) as (v & Mv & L)|destruct (value_depth _ _ _ Ep M a Ia) as (v & Mv & L)]; eapply IH; eauto; lia.
      * apply (map_sent n lv p m _ s e s' Ep Rp M Dv); auto; intros a Ia s1 e1 s2 F1 H1;
          [destruct (key_depth _ _ _ Ep M a Ia) as (v & Mv & L)|destruct (value_depth _ _ _ Ep M a Ia) as (v & Mv & L)]; eapply IH; eauto; lia.
    + rewrite op_rich in H. inversion M as [| | |p' x' v' E' Mx| |]; subst; try congruence. rewrite Ep in E'. injection E' as <-.
      apply (sens_sent n lv p x s e s' Dz Ep Fr); auto. intros s1 e1 s2 F1 H1. eapply IH; eauto. cbn [vdepth] in Dv. lia.
    + rewrite op_rich in H. destruct (c_binary C) eqn:Cb.
      * apply (leaf_node_sent lv p s e s' (VBin b)); [unfold richb; rewrite Ep; cbn; now rewrite Cb|exact H|now rewrite Ep].
      * apply (text_node_sent lv p (d_binary D) (encode_binary b) (VBin b) s e s' Dz); auto; [unfold richb; rewrite Ep; cbn; now rewrite Cb| |now rewrite Ep].
        intros q m h ->. unfold decode. cbn [length Nat.eqb]. rewrite get_value. destruct name_cases as (_ & -> & _ & -> & _). rewrite bytes_same.
        cbn in Pl. rewrite Cb in Pl. now rewrite (proj1 (binary_round_trip _ _ (Pl eq_refl))).
    + rewrite op_rich in H. destruct (c_time C) eqn:Ct.
      * apply (leaf_node_sent lv p s e s' (VTime a b z)); [unfold richb; rewrite Ep; cbn; now rewrite Ct|exact H|now rewrite Ep].
      * apply (text_node_sent lv p (d_time D) (w_format W a b z) (VTime a b z) s e s' Dz); auto; [unfold richb; rewrite Ep; cbn; now rewrite Ct| |now rewrite Ep].
        intros q m h ->. unfold decode. cbn [length Nat.eqb]. rewrite get_value. destruct name_cases as (_ & _ & -> & _ & -> & ->). rewrite bytes_same.
        cbn in Pl. rewrite Ct in Pl. now rewrite (Pl eq_refl).
    + easy.
Qed.

Lemma wrapped_done nm inner s : (forall s, done (inner s)) -> done (wrapped D nm inner s).
Proof. intros F. unfold wrapped, add. cbn [bind]. destruct (F (bump (bump (bump (bump s))))) as (e & s' & ->). cbn. eexists; eexists; reflexivity. Qed.
Lemma emit_finite : forall x v, meaning g x v -> forall n lv s, vdepth v < n -> done (emit W D C op g n lv x s).
Proof.
  assert (H : forall n x v, meaning g x v -> forall lv s, vdepth v < n -> done (emit W D C op g n lv x s)); [|eauto].
  induction n as [|n IH]; intros x v M lv s L; [lia|]. inversion M as [v' S|p l vs E F|p m ws E F|p x' v' E F|p b E|p a b z E]; subst; cbn [emit]; try rewrite E; cbn [emit_node].
  - destruct v; try easy; try (eexists; eexists; reflexivity). apply emit_string_done.
  - apply process_done. intros s'.
    destruct (emit_list_done (emit W D C op g n lv) l) with (s := bump s') as (es & s2 & ->); [|cbn; eexists; eexists; reflexivity].
    intros x Ix s1. destruct (arr_parts _ _ _ E M x Ix) as (v & Mv & Lv). eapply IH; eauto. lia.
  - assert (En : forall lk s', exists es s2, emit_entries (emit W D C op g n lk) (emit W D C op g n lv) m s' = Done (es, s2)).
    { intros lk s'. apply emit_entries_done. intros e Ie s1. destruct (key_depth _ _ _ E M e Ie) as (k & Mk & Lk), (value_depth _ _ _ E M e Ie) as (v & Mv & Lv).
      split; eapply IH; eauto; lia. }
    rewrite (not_complex _ _ E), (map_no_ref _ _ E), op_rich. destruct (richb p); cbn [negb]; apply process_done; intros s'.
    + apply wrapped_done. intros s1. destruct (En NoDedup (bump s1)) as (es & s2 & ->). cbn. eexists; eexists; reflexivity.
    + destruct (En (key_level lv) (bump s')) as (es & s2 & ->). cbn. eexists; eexists; reflexivity.
  - apply process_done. intros s'. rewrite op_rich. apply wrapped_done. intros s1. eapply IH; eauto. cbn [vdepth] in L. lia.
  - apply process_done. intros s'. rewrite op_rich. destruct (c_binary C); [eexists; eexists; reflexivity|]. apply wrapped_done. intros s1. apply emit_string_done.
  - apply process_done. intros s'. rewrite op_rich. destruct (c_time C); [eexists; eexists; reflexivity|]. apply wrapped_done. intros s1. apply emit_string_done.
Qed.
End Rich.

(* a finite value is streamed and decoded *)
Theorem rich_collected W D C op g lv x v : meaning g x v -> Forall (encodable W D C g) g -> proper D -> o_rich op = true -> (lv = NoDedup \/ encoded_once C g x) ->
  exists n0, forall n m, n0 <= n -> n0 <= m -> exists e h y, emits W D C op g n lv x = Done e /\ collects m (decoding W D m) e = Done (h, y) /\ stands h y v.
Proof.
  intros M G Dp Or Lv. exists (S (S (S (vdepth v)))). intros n m Ln Lm. set (s0 := mk_stream [] 0). set (c0 := mk_coll [] [] [FTemp []]).
  destruct (emit_finite W D C op g Or G x v M n (start_level C lv) s0 ltac:(lia)) as (e & s & E).
  assert (Fr : fresh_at C g (start_level C lv) s0 x).
  { intros Nd. rewrite start_nodedup in Nd. destruct Lv as [->|On]; [now elim Nd|]. unfold encoded_once in On. pose proof (refs_tail C g _ _ On) as On'.
    split; [exact On'|]. split; [intros p _ Z; now elim Z|]. intros p -> Rp. split; [reflexivity|]. intros q (nd & Eq & Iq). exfalso.
    apply (refs_head C g _ _ p On); [|assumption|reflexivity]. apply in_flat_map. exists nd. split; [eapply nth_error_In; eauto|assumption]. }
  destruct (emit_rich W D C op g m Dp Or G n _ x s0 e s E Fr v M ltac:(lia) [] [] c0) as (c & y & t & Ec & X & I1 & R).
  - constructor; cbn; auto; try discriminate. intros p q Z. destruct q; discriminate.
  - constructor; cbn; easy.
  - intros p q [].
  - exists e, (heap c), y. split; [unfold emits; fold s0; now rewrite E|]. split; [|eapply rel_stands; eauto].
    unfold collects. fold c0. rewrite Ec. cbn [bind]. destruct (x_content _ _ _ X) as (l & L1 & L2). cbn in L1. injection L1 as <-. cbn in L2.
    pose proof (x_stack _ _ _ X) as St. cbn in St. unfold content in L2. destruct (stack c) as [|[q|l] r]; try easy. subst r. injection L2 as ->. reflexivity.
Qed.
