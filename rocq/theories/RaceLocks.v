(* No deadlock, and every lock is given back. *)
From Coq Require Import List Bool Arith Lia.
From Verif Require Import Race RaceSpec RaceProofs.
Import ListNotations.

Fixpoint locked (Q : holding -> Prop) (h : holding) (p : prog) : Prop :=
  match p with
  | PDone => Q h
  | PDo o r =>
      match o with
      | OLock m => h = None /\ locked Q (Some (m, true)) r
      | OUnlock m => h = Some (m, true) /\ locked Q None r
      | ORLock m => h = None /\ locked Q (Some (m, false)) r
      | ORUnlock m => h = Some (m, false) /\ locked Q None r
      | ORead x | OWrite x => locked Q h r
      | OKeep k => locked Q h r
      end
  | PTest _ a b | PChoose a b => locked Q h a /\ locked Q h b
  | PScan r | PScanAt _ r | PScanWrite _ r => locked Q h r
  end.
Definition unlocked (h : holding) : Prop := h = None.
Lemma locked_more (Q Q' : holding -> Prop) : (forall h, Q h -> Q' h) -> forall p h, locked Q h p -> locked Q' h p.
Proof.
  intros H p. induction p as [|o r IH|k a IHa b IHb|a IHa b IHb|r IH|k r IH|k r IH]; intros h; cbn [locked]; auto.
  - destruct o as [m|m|m|m|x|x|k]; try (intros [A B]; split; [exact A|now apply IH]); apply IH.
  - intros [A B]. auto.
  - intros [A B]. auto.
Qed.
Lemma locked_seq Q q : forall p h, locked (fun h => locked Q h q) h p -> locked Q h (seq p q).
Proof.
  intros p. induction p as [|o r IH|k a IHa b IHb|a IHa b IHb|r IH|k r IH|k r IH]; intros h; cbn [locked seq]; auto.
  - destruct o as [m|m|m|m|x|x|k]; try (intros [A B]; split; [exact A|now apply IH]); apply IH.
  - intros [A B]. auto.
  - intros [A B]. auto.
Qed.
Lemma locked_then p q : locked unlocked None p -> locked unlocked None q -> locked unlocked None (seq p q).
Proof. intros P H. apply locked_seq. apply (locked_more unlocked); [|exact P]. intros h ->. exact H. Qed.
Lemma locked_hash Q h k r : locked Q h r -> locked Q h (hash_of k r).
Proof. destruct k; cbn; auto. Qed.
Lemma locked_get Q h x k r : locked Q h r -> locked Q h (map_get x k r).
Proof. intros H. cbn. split; [exact H|]. now apply locked_hash. Qed.
Lemma locked_put Q h x k r : locked Q h r -> locked Q h (map_put x k r).
Proof. intros H. unfold map_put. apply locked_hash. destruct k; cbn; auto. Qed.
Lemma locked_entries Q h l ks panics r : locked Q h panics -> locked Q h r -> locked Q h (add_entries l ks panics r).
Proof.
  intros P H. induction ks as [|k ks IH]; cbn [add_entries]; [exact H|]. apply locked_get. split; [now apply locked_put|]. split; assumption.
Qed.
Lemma calls_locked p : any_calls p -> locked unlocked None p.
Proof.
  induction 1 as [|l k finder ks r F IHf R IHr|l k r R IHr|l creator equals r C IHc E IHe R IHr|l l' r R IHr|l r R IHr|l r R IHr|l l' r R IHr|l r R IHr|adder r A IHa R IHr|r R IHr|k r R IHr].
  - reflexivity.
  - split; [reflexivity|]. apply locked_get. split; [reflexivity|]. split; [exact IHr|]. apply locked_then; [exact IHf|]. split; [reflexivity|]. apply locked_hash. split; [apply locked_entries|]; split; [reflexivity|exact IHr|reflexivity|exact IHr|reflexivity|exact IHr].
  - now apply locked_get.
  - split; [reflexivity|]. apply locked_get. split; [reflexivity|]. split; [exact IHr|]. apply locked_then; [exact IHc|]. split; [exact IHr|]. split; [reflexivity|]. apply locked_get. split.
    + apply locked_put. split; [reflexivity|exact IHr].
    + split; [reflexivity|]. now apply locked_then.
  - cbn. auto.
  - exact IHr.
  - exact IHr.
  - exact IHr.
  - exact IHr.
  - apply locked_then; [exact IHa|]. cbn. auto.
  - exact IHr.
  - cbn. auto.
Qed.

Definition has (s : state) (i : nat) (h : holding) : Prop :=
  (forall m, s_writer s m = Some i <-> h = Some (m, true)) /\ (forall m, In i (s_readers s m) <-> h = Some (m, false)).
Definition held_right (s : state) : Prop := forall i, exists h, locked unlocked h (s_prog s i) /\ has s i h.

Lemma held_goto s i p h : held_right s -> locked unlocked h p -> has s i h -> held_right (goto s i p).
Proof.
  intros I G H j. destruct (Nat.eq_dec i j) as [<-|N]; [exists h; rewrite goto_same; auto|]. rewrite goto_other by exact N. apply I.
Qed.
Lemma held_other s s' i p h : held_right s -> locked unlocked h p -> has s' i h -> (forall j, s_prog s' j = s_prog s j) ->
  (forall j m, i <> j -> (s_writer s' m = Some j <-> s_writer s m = Some j)) -> (forall j m, i <> j -> (In j (s_readers s' m) <-> In j (s_readers s m))) -> held_right (goto s' i p).
Proof.
  intros I G H P W R j. destruct (Nat.eq_dec i j) as [<-|N]; [exists h; rewrite goto_same; auto|]. rewrite goto_other, P by exact N. destruct (I j) as (h' & G' & W' & R'). exists h'. split; [exact G'|]. split; intros m; cbn.
  - rewrite (W j m N). apply W'.
  - rewrite (R j m N). apply R'.
Qed.
Lemma step_held s i c s' : held_right s -> step s i c = Some s' -> held_right s'.
Proof.
  intros I E. destruct (I i) as (h & G & H). pose proof H as [Wr Rd]. unfold step in E.
  destruct (s_prog s i) as [|o r|k a b|a b|r|k r|k r] eqn:P; [discriminate| | | | | |].
  - destruct o as [m|m|m|m|x|x|k].
    + destruct G as [-> G]. destruct (s_writer s m) eqn:W; [discriminate|]. destruct (s_readers s m) eqn:R; [|discriminate]. injection E as <-.
      apply (held_other s _ i r (Some (m, true)) I G); [split; intros m'; cbn|reflexivity|intros j m' N; cbn|reflexivity].
      * destruct (mutex_eqb m' m) eqn:M; [apply mutex_eqb_eq in M; subst; split; congruence|]. rewrite Wr. split; [discriminate|]. intros X. injection X as <-. rewrite mutex_eqb_refl in M. discriminate.
      * rewrite Rd. split; discriminate.
      * destruct (mutex_eqb m' m) eqn:M; [|reflexivity]. apply mutex_eqb_eq in M. subst. rewrite W. split; congruence.
    + destruct G as [-> G]. injection E as <-. assert (W : s_writer s m = Some i) by now apply Wr.
      apply (held_other s _ i r None I G); [split; intros m'; cbn|reflexivity|intros j m' N; cbn|reflexivity].
      * destruct (mutex_eqb m' m) eqn:M; [split; discriminate|]. rewrite Wr. split; [|discriminate]. intros X. injection X as <-. rewrite mutex_eqb_refl in M. discriminate.
      * rewrite Rd. split; discriminate.
      * destruct (mutex_eqb m' m) eqn:M; [|reflexivity]. apply mutex_eqb_eq in M. subst. rewrite W. split; congruence.
    + destruct G as [-> G]. destruct (s_writer s m) eqn:W; [discriminate|]. injection E as <-.
      apply (held_other s _ i r (Some (m, false)) I G); [split; intros m'; cbn|reflexivity|reflexivity|intros j m' N; cbn].
      * rewrite Wr. split; discriminate.
      * destruct (mutex_eqb m' m) eqn:M; [apply mutex_eqb_eq in M; subst; split; [reflexivity|now left]|]. rewrite Rd. split; [discriminate|]. intros X. injection X as <-. rewrite mutex_eqb_refl in M. discriminate.
      * destruct (mutex_eqb m' m) eqn:M; [|reflexivity]. apply mutex_eqb_eq in M. subst. split; [intros [X|X]; [contradiction|exact X]|now right].
    + destruct G as [-> G]. injection E as <-.
      apply (held_other s _ i r None I G); [split; intros m'; cbn|reflexivity|reflexivity|intros j m' N; cbn].
      * rewrite Wr. split; discriminate.
      * destruct (mutex_eqb m' m) eqn:M; [split; [intros X; now apply remove_In in X|discriminate]|]. rewrite Rd. split; [|discriminate]. intros X. injection X as <-. rewrite mutex_eqb_refl in M. discriminate.
      * destruct (mutex_eqb m' m) eqn:M; [|reflexivity]. apply mutex_eqb_eq in M. subst. split; [intros X; now apply in_remove in X|intros X; apply in_in_remove; [now apply not_eq_sym|exact X]].
    + injection E as <-. now apply (held_goto s i r h).
    + injection E as <-. destruct x; apply (held_other s _ i r h I G); first [exact H|reflexivity].
    + injection E as <-. apply (held_other s _ i r h I G); [exact H|reflexivity|reflexivity|reflexivity].
  - destruct G as [G G']. injection E as <-. destruct (s_hashed s k); now apply (held_goto s i _ h).
  - destruct G as [G G']. destruct c; [| |discriminate]; injection E as <-; now apply (held_goto s i _ h).
  - destruct c as [| |k]; try (injection E as <-; now apply (held_goto s i r h)). destruct existsb; [|discriminate]. injection E as <-. now apply (held_goto s i _ h).
  - injection E as <-. destruct (s_hashed s k); now apply (held_goto s i _ h).
  - injection E as <-. apply (held_other s _ i (PScan r) h I G); [exact H|reflexivity|reflexivity|reflexivity].
Qed.
Lemma run_held acts : forall s s', held_right s -> run s acts = Some s' -> held_right s'.
Proof.
  induction acts as [|[i c] t IH]; intros s s' I E; cbn [run] in E; [injection E as <-; exact I|]. destruct (step s i c) as [s1|] eqn:X; [|discriminate]. apply (IH s1); [|exact E]. now apply (step_held s i c).
Qed.
Lemma init_held hashed progs : (forall i, any_calls (progs i)) -> held_right (init hashed progs).
Proof. intros C i. exists None. split; [apply calls_locked, C|]. split; intros m; cbn; split; try discriminate; contradiction. Qed.

(* one who holds a lock is not done and does not wait *)
Lemma holder_moves s i h : locked unlocked h (s_prog s i) -> h <> None -> s_prog s i <> PDone /\ ~ waits s i.
Proof.
  intros G N. split; [intros E; rewrite E in G; now apply N|]. intros (m & r & [E|E] & _); rewrite E in G; destruct G as [G _]; now apply N.
Qed.
(* someone who does not wait can go on *)
Lemma can_step s i : s_prog s i <> PDone -> ~ waits s i -> exists c s', step s i c = Some s'.
Proof.
  intros N W. unfold step. destruct (s_prog s i) as [|o r|k a b|a b|r|k r|k r] eqn:P; [congruence| |exists Left; eauto|exists Left; eauto|exists Left; eauto|exists Left; eauto|exists Left; eauto].
  exists Left. destruct o as [m|m|m|m|x|x|k]; eauto.
  - destruct (s_writer s m) eqn:Wr; [exfalso; apply W; exists m, r; rewrite P, Wr; split; [now left|left; discriminate]|].
    destruct (s_readers s m) eqn:R; [eauto|]. exfalso. apply W. exists m, r. rewrite P, R. split; [now left|right; discriminate].
  - destruct (s_writer s m) eqn:Wr; [exfalso; apply W; exists m, r; rewrite P, Wr; split; [now right|left; discriminate]|]. eauto.
Qed.
Theorem no_deadlock hashed progs acts s i : (forall i, any_calls (progs i)) -> run (init hashed progs) acts = Some s ->
  s_prog s i <> PDone -> exists j, s_prog s j <> PDone /\ ~ waits s j /\ exists c s', step s j c = Some s'.
Proof.
  intros C E N. pose proof (run_held acts _ _ (init_held hashed progs C) E) as I.
  assert (X : exists j, s_prog s j <> PDone /\ ~ waits s j); [|destruct X as (j & A & B); exists j; split; [exact A|]; split; [exact B|]; now apply can_step].
  assert (D : forall m, (exists j h, locked unlocked h (s_prog s j) /\ h <> None) \/ s_writer s m = None /\ s_readers s m = []).
  { intros m. destruct (s_writer s m) as [j|] eqn:W.
    - left. destruct (I j) as (h & G & Wr & _). exists j, h. split; [exact G|]. apply Wr in W. congruence.
    - destruct (s_readers s m) as [|j t] eqn:R; [now right|]. left. destruct (I j) as (h & G & _ & Rd). exists j, h. split; [exact G|]. assert (J : In j (s_readers s m)) by (rewrite R; now left). apply Rd in J. congruence. }
  assert (F : forall m, (s_prog s i = s_prog s i -> s_writer s m = None /\ s_readers s m = []) \/ exists j, s_prog s j <> PDone /\ ~ waits s j).
  { intros m. destruct (D m) as [(j & h & G & H)|H]; [right; exists j; now apply (holder_moves s j h)|now left]. }
  destruct (s_prog s i) as [|o r|k a b|a b|r|k r|k r] eqn:P; [congruence| | | | | |].
  2-6: exists i; rewrite P; split; [discriminate|]; intros (m & r' & [Y|Y] & _); congruence.
  destruct o as [m|m|m|m|x|x|k].
  2, 4-7: exists i; rewrite P; split; [discriminate|]; intros (m' & r' & [Y|Y] & _); congruence.
  all: destruct (F m) as [H|H]; [|exact H]; destruct (H eq_refl) as [W R]; exists i; rewrite P; split; [discriminate|]; intros (m' & r' & Y & Z); assert (m' = m) as -> by (rewrite P in Y; destruct Y; congruence);
    destruct Z as [Z|Z]; [apply Z, W|apply Z, R].
Qed.
Theorem locks_given_back hashed progs acts s i m : (forall i, any_calls (progs i)) -> run (init hashed progs) acts = Some s ->
  s_prog s i = PDone -> s_writer s m <> Some i /\ ~ In i (s_readers s m).
Proof.
  intros C E P. destruct (run_held acts _ _ (init_held hashed progs C) E i) as (h & G & W & R). rewrite P in G. cbn in G. unfold unlocked in G. subst h. split; [rewrite W|rewrite R]; discriminate.
Qed.

(* ---------- witnesses of races ---------- *)

Definition loc_eqb (x y : loc) : bool :=
  match x, y with Entries l, Entries l' | Spaces l, Spaces l' => Nat.eqb l l' | Aliases, Aliases => true | Hash k, Hash k' => Nat.eqb k k' | _, _ => false end.
Definition shows (s : state) (i j : nat) : bool :=
  negb (Nat.eqb i j) && match access (s_prog s i), access (s_prog s j) with Some (x, w), Some (y, w') => loc_eqb x y && (w || w') | _, _ => false end.
Lemma loc_eqb_eq x y : loc_eqb x y = true -> x = y.
Proof. destruct x, y; cbn; try discriminate; rewrite ?Nat.eqb_eq; congruence. Qed.
Lemma race_shown hashed progs acts i j : match run (init hashed progs) acts with Some s => shows s i j | None => false end = true ->
  exists acts s, run (init hashed progs) acts = Some s /\ race s.
Proof.
  intros H. exists acts. destruct (run (init hashed progs) acts) as [s|]; [|discriminate]. exists s. split; [reflexivity|]. unfold shows in H. apply andb_prop in H as [N H]. exists i, j.
  destruct (access (s_prog s i)) as [[x w]|]; [|discriminate]. destruct (access (s_prog s j)) as [[y w']|]; [|discriminate]. apply andb_prop in H as [E H]. apply loc_eqb_eq in E. subst y.
  exists x, w, w'. split; [intros ->; now rewrite Nat.eqb_refl in N|auto].
Qed.
