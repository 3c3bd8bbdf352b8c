(* No data races where locks are used. *)
From Coq Require Import List Bool Arith Lia.
From Verif Require Import Race RaceSpec.
Import ListNotations.

Section Proofs.
Variable immutable : nat -> bool.
Variable hashed : nat -> bool.
Variable owner : nat -> nat.

Section Guarded.
Variable i : nat.
(* a lock, and whether it is held for writing *)
Definition holding := option (mutex * bool).
Definition lock_of (x : loc) : option mutex := match x with Entries l | Spaces l => Some (LoaderLock l) | _ => None end.
Definition fixed (x : loc) : bool := match x with Entries l | Spaces l => immutable l | Aliases => true | Hash k => hashed k end.
Definition may_read (known : list nat) (held : holding) (x : loc) : Prop :=
  fixed x = true \/ match x with Entries l | Spaces l => exists b, held = Some (LoaderLock l, b) | Hash k => In k known \/ owner k = i | Aliases => True end.
(* known: strings that have their hash code; cold: a string that has not *)
Fixpoint guarded (Q : list nat -> option nat -> holding -> Prop) (known : list nat) (cold : option nat) (held : holding) (p : prog) : Prop :=
  match p with
  | PDone => Q known cold held
  | PDo o r =>
      match o with
      | OLock m => held = None /\ guarded Q known cold (Some (m, true)) r
      | OUnlock m => held = Some (m, true) /\ guarded Q known cold None r
      | ORLock m => held = None /\ guarded Q known cold (Some (m, false)) r
      | ORUnlock m => held = Some (m, false) /\ guarded Q known cold None r
      | ORead x => may_read known held x /\ guarded Q known cold held r
      | OWrite (Hash k) => cold = Some k /\ guarded Q (k :: known) None held r
      | OWrite x => fixed x = false /\ (exists m, lock_of x = Some m /\ held = Some (m, true)) /\ guarded Q known cold held r
      | OKeep k => (hashed k = true \/ In k known) /\ guarded Q known cold held r
      end
  | PTest k a b =>
      (hashed k = true /\ guarded Q known None held a) \/
      (hashed k = false /\ owner k = i /\ guarded Q (k :: known) None held a /\ guarded Q known (Some k) held b)
  | PChoose a b => guarded Q known cold held a /\ guarded Q known cold held b
  | PScan r => forall known', incl known known' -> guarded Q known' cold held r
  | PScanAt k r => (hashed k = true \/ In k known) /\ forall known', incl known known' -> guarded Q known' cold held r
  | PScanWrite _ _ => False
  end.
Lemma guarded_more (Q Q' : list nat -> option nat -> holding -> Prop) : (forall kn c h, Q kn c h -> Q' kn c h) ->
  forall p kn c h, guarded Q kn c h p -> guarded Q' kn c h p.
Proof.
  intros H p. induction p as [|o r IH|k a IHa b IHb|a IHa b IHb|r IH|k r IH|k r IH]; intros kn c h; cbn [guarded].
  - apply H.
  - destruct o as [m|m|m|m|x|x|k]; try (intros [A B]; split; [exact A|now apply IH]).
    destruct x; intros X; repeat (destruct X as [? X]); repeat (split; [assumption|]); now apply IH.
  - intros [[A B]|(A & B & C & D)]; [left|right]; auto.
  - intros [A B]. auto.
  - intros A kn' I. auto.
  - intros [A B]. split; auto.
  - auto.
Qed.
Lemma guarded_seq Q q : forall p kn c h, guarded (fun kn c h => guarded Q kn c h q) kn c h p -> guarded Q kn c h (seq p q).
Proof.
  intros p. induction p as [|o r IH|k a IHa b IHb|a IHa b IHb|r IH|k r IH|k r IH]; intros kn c h; cbn [guarded seq].
  - auto.
  - destruct o as [m|m|m|m|x|x|k]; try (intros [A B]; split; [exact A|now apply IH]).
    destruct x; intros X; repeat (destruct X as [? X]); repeat (split; [assumption|]); now apply IH.
  - intros [[A B]|(A & B & C & D)]; [left|right]; auto.
  - intros [A B]. auto.
  - intros A kn' I. auto.
  - intros [A B]. split; auto.
  - auto.
Qed.

(* whatever is known *)
Definition safe (Q : list nat -> option nat -> holding -> Prop) (h : holding) (p : prog) : Prop := forall kn c, guarded Q kn c h p.
Lemma safe_hash_known Q h k r : usable hashed owner i (Some k) -> (forall kn c, hashed k = true \/ In k kn -> guarded Q kn c h r) -> safe Q h (hash_code k r).
Proof.
  intros U H kn c. unfold hash_code. cbn [guarded usable] in *. destruct (hashed k) eqn:E.
  - left. split; [reflexivity|]. split; [left; exact E|]. apply H. now left.
  - destruct U as [U|U]; [discriminate|]. right. split; [reflexivity|]. split; [exact U|]. split.
    + split; [right; now right|]. apply H. right. now left.
    + split; [reflexivity|]. split; [right; now right|]. apply H. right. now left.
Qed.
Lemma safe_hash Q h k r : usable hashed owner i k -> safe Q h r -> safe Q h (hash_of k r).
Proof. destruct k as [k|]; intros U H; [|exact H]. apply safe_hash_known; [exact U|]. intros kn c _. apply H. Qed.
Definition readable (h : holding) (x : loc) : Prop := match x with Entries l | Spaces l => immutable l = true \/ exists b, h = Some (LoaderLock l, b) | Aliases => True | Hash _ => False end.
Lemma readable_may h x kn : readable h x -> may_read kn h x.
Proof. destruct x; cbn; unfold may_read; cbn; tauto. Qed.
Lemma safe_get Q h x k r : readable h x -> usable hashed owner i k -> safe Q h r -> safe Q h (map_get x k r).
Proof.
  intros R U H kn c. unfold map_get. cbn [guarded]. split; [now apply readable_may|]. split; [apply H|]. apply safe_hash; [exact U|].
  intros kn' c'. cbn [guarded]. split; [now apply readable_may|apply H].
Qed.
Lemma safe_put Q x m k r : fixed x = false -> lock_of x = Some m -> usable hashed owner i k -> safe Q (Some (m, true)) r -> safe Q (Some (m, true)) (map_put x k r).
Proof.
  intros F L U H. assert (R : forall kn, may_read kn (Some (m, true)) x) by (intros kn; apply readable_may; destruct x; cbn in *; try discriminate; injection L as <-; right; now exists true).
  assert (W : forall kn c h r', guarded Q kn c h r' -> h = Some (m, true) -> guarded Q kn c h (PDo (OWrite x) r')).
  { intros kn c h r' G ->. destruct x; cbn in *; try discriminate; split; auto; split; eauto. }
  unfold map_put. destruct k as [k|]; cbn [hash_of].
  - apply safe_hash_known; [exact U|]. intros kn c K. split; [apply R|]. split.
    + apply W; [|reflexivity]. split; [exact K|apply H].
    + intros kn' I. apply W; [|reflexivity]. split; [destruct K as [K|K]; [now left|right; now apply I]|apply H].
  - intros kn c. split; [apply R|]. split; [apply W; [apply H|reflexivity]|]. intros kn' I. apply W; [apply H|reflexivity].
Qed.
Lemma safe_choose Q h a b : safe Q h a -> safe Q h b -> safe Q h (PChoose a b).
Proof. intros A B kn c. split; [apply A|apply B]. Qed.
Lemma safe_entry Q l k panics r : immutable l = false -> usable hashed owner i k -> safe Q (Some (LoaderLock l, true)) panics -> safe Q (Some (LoaderLock l, true)) r ->
  safe Q (Some (LoaderLock l, true)) (add_entry l k panics r).
Proof.
  intros M U P H. apply safe_get; [right; now exists true|exact U|]. apply safe_choose; [|apply safe_choose; assumption]. apply safe_put; auto.
Qed.
Lemma safe_entries Q l ks panics r : immutable l = false -> Forall (usable hashed owner i) ks -> safe Q (Some (LoaderLock l, true)) panics -> safe Q (Some (LoaderLock l, true)) r ->
  safe Q (Some (LoaderLock l, true)) (add_entries l ks panics r).
Proof. intros M U P H. induction U as [|k ks U _ IH]; cbn [add_entries]; [exact H|]. now apply safe_entry. Qed.
Lemma safe_lock Q m r : safe Q (Some (m, true)) r -> safe Q None (PDo (OLock m) r).
Proof. intros H kn c. split; [reflexivity|apply H]. Qed.
Lemma safe_unlock Q m r : safe Q None r -> safe Q (Some (m, true)) (PDo (OUnlock m) r).
Proof. intros H kn c. split; [reflexivity|apply H]. Qed.
Lemma safe_rlock Q m r : safe Q (Some (m, false)) r -> safe Q None (PDo (ORLock m) r).
Proof. intros H kn c. split; [reflexivity|apply H]. Qed.
Lemma safe_runlock Q m r : safe Q None r -> safe Q (Some (m, false)) (PDo (ORUnlock m) r).
Proof. intros H kn c. split; [reflexivity|apply H]. Qed.
Lemma safe_read Q h x r : readable h x -> safe Q h r -> safe Q h (PDo (ORead x) r).
Proof. intros R H kn c. split; [now apply readable_may|apply H]. Qed.
Definition free : list nat -> option nat -> holding -> Prop := fun _ _ h => h = None.
Lemma safe_seq Q p q : safe free None p -> safe Q None q -> safe Q None (seq p q).
Proof. intros P H kn c. apply guarded_seq. apply (guarded_more free); [|apply P]. intros kn' c' h ->. apply H. Qed.
Lemma calls_safe p : calls immutable hashed owner i p -> safe free None p.
Proof.
  induction 1 as [|l k finder ks r M U Us F IHf R IHr|l k r M U R IHr|l creator equals r M C IHc E IHe R IHr|l l' r M M' R IHr|l r M R IHr|r R IHr|k r U R IHr].
  - intros kn c. reflexivity.
  - apply safe_rlock. apply safe_get; [right; now exists false|exact U|]. apply safe_runlock. apply safe_choose; [exact IHr|]. apply safe_seq; [exact IHf|].
    apply safe_lock. apply safe_hash; [exact U|]. apply safe_choose; [apply safe_entries; auto|]; now apply safe_unlock.
  - apply safe_get; [now left|exact U|exact IHr].
  - apply safe_rlock. apply safe_get; [right; now exists false|exact I|]. apply safe_runlock. apply safe_choose; [exact IHr|]. apply safe_seq; [exact IHc|]. apply safe_choose; [exact IHr|].
    apply safe_lock. apply safe_get; [right; now exists true|exact I|]. apply safe_choose; [apply safe_put; auto; [exact I|now apply safe_unlock]|]. apply safe_unlock. now apply safe_seq.
  - apply safe_read; [now left|]. apply safe_read; [now left|exact IHr].
  - apply safe_read; [now left|exact IHr].
  - apply safe_read; [exact I|exact IHr].
  - apply safe_hash_known; [exact U|]. intros kn c _. apply IHr.
Qed.
End Guarded.

(* ---------- executions ---------- *)

Definition local (s : state) (i : nat) : Prop := exists kn c h,
  guarded i (free) kn c h (s_prog s i) /\
  (forall k, In k kn -> s_hashed s k = true) /\
  (forall k, c = Some k -> s_hashed s k = false /\ owner k = i /\ hashed k = false) /\
  (forall m, s_writer s m = Some i <-> h = Some (m, true)) /\
  (forall m, In i (s_readers s m) <-> h = Some (m, false)).
Record inv (s : state) : Prop := {
  inv_local : forall i, local s i;
  inv_excl : forall m i, s_writer s m = Some i -> s_readers s m = [];
  inv_kept : forall k, In k (s_kept s) -> s_hashed s k = true;
  inv_hashed : forall k, hashed k = true -> s_hashed s k = true
}.
Lemma mutex_eqb_eq a b : mutex_eqb a b = true <-> a = b.
Proof. destruct a, b; cbn; rewrite ?Nat.eqb_eq; split; congruence. Qed.
Lemma mutex_eqb_refl a : mutex_eqb a a = true.
Proof. now apply mutex_eqb_eq. Qed.

(* no two goroutines are about to access the same memory *)
Lemma inv_no_race s : inv s -> ~ race s.
Proof.
  intros I (i & j & x & w & w' & N & A & A' & WW).
  assert (X : forall i j w w', i <> j -> access (s_prog s i) = Some (x, w) -> access (s_prog s j) = Some (x, w') -> w = true -> False).
  { clear - I. intros i j w w' N A A' ->. destruct (inv_local s I i) as (kn & c & h & G & Kn & Co & Wr & Rd). destruct (inv_local s I j) as (kn' & c' & h' & G' & Kn' & Co' & Wr' & Rd').
    assert (Y : match x with Hash k => s_hashed s k = false /\ owner k = i /\ hashed k = false | _ => fixed x = false /\ exists m, lock_of x = Some m /\ h = Some (m, true) end).
    { destruct (s_prog s i) as [|[m|m|m|m|y|y|k] r|k a b|a b|r|k r|k r]; cbn [access] in A; try discriminate; injection A; intros; subst; [|destruct G].
      destruct x; [destruct G as (G1 & G2 & _)|destruct G as (G1 & G2 & _)|destruct G as (G1 & G2 & _)|destruct G as (G1 & G2); apply Co; exact G1]; auto. }
    assert (Z : match x with Hash k => s_hashed s k = true \/ owner k = j | _ => fixed x = true \/ exists m b, lock_of x = Some m /\ h' = Some (m, b) end).
    { destruct (s_prog s j) as [|[m|m|m|m|y|y|k] r|k a b|a b|r|k r|k r]; cbn [access] in A'; try discriminate; injection A'; intros; subst; try (destruct G'; fail).
      - destruct G' as [F _]. destruct x as [l|l| |k]; destruct F as [F|F].
        1, 3, 5: left; exact F.
        + destruct F as [b F]. right. exists (LoaderLock l), b. auto.
        + destruct F as [b F]. right. exists (LoaderLock l), b. auto.
        + left. reflexivity.
        + left. now apply (inv_hashed s I).
        + destruct F as [F|F]; [left; now apply Kn'|now right].
      - destruct x; [| | |right; destruct (Co' _ (proj1 G')) as (_ & X & _); exact X].
        all: destruct G' as (_ & (m & L & H) & _); right; exists m, true; auto.
      - destruct G' as [[F _]|(_ & F & _)]; [left; now apply (inv_hashed s I)|now right].
      - destruct G' as [[F|F] _]; left; [now apply (inv_hashed s I)|now apply Kn']. }
    destruct x as [l|l| |k].
    4: { destruct Y as (Y1 & Y2 & _). destruct Z as [Z|Z]; congruence. }
    all: destruct Y as (Y1 & m & L & H); destruct Z as [Z|(m' & b & L' & H')]; [congruence|]; assert (m' = m) as -> by congruence;
      apply Wr in H; destruct b; [apply Wr' in H'; congruence|apply Rd' in H'; rewrite (inv_excl s I m i H) in H'; destruct H']. }
  destruct w; [exact (X i j true w' N A A' eq_refl)|]. cbn in WW. apply (X j i w' false (not_eq_sym N) A' A WW).
Qed.

Lemma local_other s s' i j : i <> j -> local s j -> s_prog s' j = s_prog s j ->
  (forall k, s_hashed s k = true -> s_hashed s' k = true) -> (forall k, s_hashed s k = false -> owner k = j -> s_hashed s' k = false) ->
  (forall m, s_writer s' m = Some j <-> s_writer s m = Some j) -> (forall m, In j (s_readers s' m) <-> In j (s_readers s m)) -> local s' j.
Proof.
  intros N (kn & c & h & G & Kn & Co & Wr & Rd) P H1 H2 H3 H4. exists kn, c, h. rewrite P. split; [exact G|]. split; [auto|]. split.
  - intros k E. destruct (Co k E) as (X & Y & Z). auto.
  - split; intros m; [rewrite H3; apply Wr|rewrite H4; apply Rd].
Qed.
Lemma goto_same s i p : s_prog (goto s i p) i = p.
Proof. cbn. now rewrite Nat.eqb_refl. Qed.
Lemma goto_other s i p j : i <> j -> s_prog (goto s i p) j = s_prog s j.
Proof. intros N. cbn. destruct (Nat.eqb_spec j i); congruence. Qed.
(* a step that only goes on *)
Lemma inv_goto s i p kn c h : inv s -> guarded i free kn c h p ->
  (forall k, In k kn -> s_hashed s k = true) -> (forall k, c = Some k -> s_hashed s k = false /\ owner k = i /\ hashed k = false) ->
  (forall m, s_writer s m = Some i <-> h = Some (m, true)) -> (forall m, In i (s_readers s m) <-> h = Some (m, false)) -> inv (goto s i p).
Proof.
  intros I G Kn Co Wr Rd. constructor; try apply I. intros j. destruct (Nat.eq_dec i j) as [<-|N].
  - exists kn, c, h. rewrite goto_same. auto.
  - apply (local_other s (goto s i p) i j N (inv_local s I j)); [now apply goto_other|auto|auto|reflexivity|reflexivity].
Qed.
Lemma inv_set_hash s i p k : inv s -> owner k = i -> hashed k = false -> local (goto (set_hash s k) i p) i -> inv (goto (set_hash s k) i p).
Proof.
  intros I O H L. constructor.
  - intros j. destruct (Nat.eq_dec i j) as [<-|N]; [exact L|]. apply (local_other s _ i j N (inv_local s I j)); [now rewrite goto_other| | |reflexivity|reflexivity]; cbn; intros k' E.
    + destruct (Nat.eqb k' k); auto.
    + intros O'. destruct (Nat.eqb_spec k' k) as [->|]; [congruence|exact E].
  - apply I.
  - cbn. intros k' J. destruct (Nat.eqb k' k); [reflexivity|]. first [now apply (inv_kept s I)|now apply (inv_hashed s I)].
  - cbn. intros k' J. destruct (Nat.eqb k' k); [reflexivity|]. first [now apply (inv_kept s I)|now apply (inv_hashed s I)].
Qed.
Lemma step_inv s i ch s' : inv s -> step s i ch = Some s' -> inv s'.
Proof.
  intros I E. destruct (inv_local s I i) as (kn & c & h & G & Kn & Co & Wr & Rd). unfold step in E.
  destruct (s_prog s i) as [|o r|k a b|a b|r|k r|k r]; [discriminate| | | | | |destruct G].
  - destruct o as [m|m|m|m|x|x|k].
    + destruct G as [-> G]. destruct (s_writer s m) eqn:W; [discriminate|]. destruct (s_readers s m) eqn:R; [|discriminate]. injection E as <-. constructor.
      * intros j. destruct (Nat.eq_dec i j) as [<-|N].
        -- exists kn, c, (Some (m, true)). rewrite goto_same. split; [exact G|]. split; [exact Kn|]. split; [exact Co|]. split; intros m'; cbn.
           ++ destruct (mutex_eqb m' m) eqn:M; [apply mutex_eqb_eq in M; subst; split; congruence|]. rewrite Wr. split; [discriminate|]. intros X. injection X as <-. rewrite mutex_eqb_refl in M. discriminate.
           ++ rewrite Rd. split; discriminate.
        -- apply (local_other s _ i j N (inv_local s I j)); [now rewrite goto_other|auto|auto| |reflexivity]. intros m'. cbn. destruct (mutex_eqb m' m) eqn:M; [|reflexivity]. apply mutex_eqb_eq in M. subst. rewrite W. split; congruence.
      * cbn. intros m' j. destruct (mutex_eqb m' m) eqn:M; [apply mutex_eqb_eq in M; subst; auto|apply I].
      * apply I.
      * apply I.
    + destruct G as [-> G]. injection E as <-. assert (W : s_writer s m = Some i) by now apply Wr. constructor.
      * intros j. destruct (Nat.eq_dec i j) as [<-|N].
        -- exists kn, c, None. rewrite goto_same. split; [exact G|]. split; [exact Kn|]. split; [exact Co|]. split; intros m'; cbn.
           ++ destruct (mutex_eqb m' m) eqn:M; [split; discriminate|]. rewrite Wr. split; [|discriminate]. intros X. injection X as <-. rewrite mutex_eqb_refl in M. discriminate.
           ++ rewrite Rd. split; discriminate.
        -- apply (local_other s _ i j N (inv_local s I j)); [now rewrite goto_other|auto|auto| |reflexivity]. intros m'. cbn. destruct (mutex_eqb m' m) eqn:M; [|reflexivity]. apply mutex_eqb_eq in M. subst. rewrite W. split; congruence.
      * cbn. intros m' j. destruct (mutex_eqb m' m) eqn:M; [discriminate|apply I].
      * apply I.
      * apply I.
    + destruct G as [-> G]. destruct (s_writer s m) eqn:W; [discriminate|]. injection E as <-. constructor.
      * intros j. destruct (Nat.eq_dec i j) as [<-|N].
        -- exists kn, c, (Some (m, false)). rewrite goto_same. split; [exact G|]. split; [exact Kn|]. split; [exact Co|]. split; intros m'; cbn.
           ++ rewrite Wr. split; discriminate.
           ++ destruct (mutex_eqb m' m) eqn:M; [apply mutex_eqb_eq in M; subst; split; [reflexivity|now left]|]. rewrite Rd. split; [discriminate|]. intros X. injection X as <-. rewrite mutex_eqb_refl in M. discriminate.
        -- apply (local_other s _ i j N (inv_local s I j)); [now rewrite goto_other|auto|auto|reflexivity|]. intros m'. cbn. destruct (mutex_eqb m' m) eqn:M; [|reflexivity]. apply mutex_eqb_eq in M. subst. split; [intros [X|X]; [contradiction|exact X]|now right].
      * cbn. intros m' j X. destruct (mutex_eqb m' m) eqn:M; [apply mutex_eqb_eq in M; subst; congruence|now apply (inv_excl s I m' j)].
      * apply I.
      * apply I.
    + destruct G as [-> G]. injection E as <-. assert (R : In i (s_readers s m)) by now apply Rd. constructor.
      * intros j. destruct (Nat.eq_dec i j) as [<-|N].
        -- exists kn, c, None. rewrite goto_same. split; [exact G|]. split; [exact Kn|]. split; [exact Co|]. split; intros m'; cbn.
           ++ rewrite Wr. split; discriminate.
           ++ destruct (mutex_eqb m' m) eqn:M; [split; [intros X; now apply remove_In in X|discriminate]|]. rewrite Rd. split; [|discriminate]. intros X. injection X as <-. rewrite mutex_eqb_refl in M. discriminate.
        -- apply (local_other s _ i j N (inv_local s I j)); [now rewrite goto_other|auto|auto|reflexivity|]. intros m'. cbn. destruct (mutex_eqb m' m) eqn:M; [|reflexivity]. apply mutex_eqb_eq in M. subst. split; [intros X; now apply in_remove in X|intros X; apply in_in_remove; [now apply not_eq_sym|exact X]].
      * cbn. intros m' j X. destruct (mutex_eqb m' m) eqn:M; [apply mutex_eqb_eq in M; subst; now rewrite (inv_excl s I m j X)|now apply (inv_excl s I m' j)].
      * apply I.
      * apply I.
    + destruct G as [_ G]. injection E as <-. now apply (inv_goto s i r kn c h).
    + injection E as <-. destruct x as [l|l| |k]; try (destruct G as (_ & _ & G); now apply (inv_goto s i r kn c h)).
      destruct G as [-> G]. destruct (Co k eq_refl) as (X & Y & Z). apply inv_set_hash; [exact I|exact Y|exact Z|]. exists (k :: kn), None, h. rewrite goto_same. split; [exact G|]. split.
      * cbn. intros k' [<-|J]; [now rewrite Nat.eqb_refl|]. destruct (Nat.eqb k' k); [reflexivity|now apply Kn].
      * split; [discriminate|]. auto.
    + destruct G as [K G]. injection E as <-. constructor.
      * intros j. destruct (Nat.eq_dec i j) as [<-|N].
        -- exists kn, c, h. rewrite goto_same. auto.
        -- apply (local_other s _ i j N (inv_local s I j)); [now rewrite goto_other|auto|auto|reflexivity|reflexivity].
      * apply I.
      * cbn. intros k' [<-|J]; [destruct K as [K|K]; [now apply (inv_hashed s I)|now apply Kn]|now apply (inv_kept s I)].
      * apply I.
  - injection E as <-. destruct G as [[A G]|(A & B & G & G')].
    + rewrite (inv_hashed s I k A). apply (inv_goto s i a kn None h); auto; try discriminate.
    + destruct (s_hashed s k) eqn:H.
      * apply (inv_goto s i a (k :: kn) None h); auto; try discriminate. intros k' [<-|J]; auto.
      * apply (inv_goto s i b kn (Some k) h); auto. intros k' X. injection X as <-. auto.
  - destruct G as [G G']. destruct ch; [| |discriminate]; injection E as <-; [now apply (inv_goto s i a kn c h)|now apply (inv_goto s i b kn c h)].
  - destruct ch as [| |k]; try (injection E as <-; apply (inv_goto s i r kn c h); auto; apply G; apply incl_refl).
    destruct (existsb (Nat.eqb k) (s_kept s)) eqn:X; [|discriminate]. injection E as <-. apply existsb_exists in X as (k' & J & Q). apply Nat.eqb_eq in Q. subst k'.
    apply (inv_goto s i _ (k :: kn) c h); auto.
    + split; [right; now left|]. intros kn' J'. apply G. intros z Jz. apply J'. now right.
    + intros k' [<-|J']; [now apply (inv_kept s I)|now apply Kn].
  - destruct G as [K G]. assert (H : s_hashed s k = true) by (destruct K as [K|K]; [now apply (inv_hashed s I)|now apply Kn]). rewrite H in E. injection E as <-. now apply (inv_goto s i (PScan r) kn c h).
Qed.
Lemma run_inv acts : forall s s', inv s -> run s acts = Some s' -> inv s'.
Proof.
  induction acts as [|[i c] t IH]; intros s s' I E; cbn [run] in E; [injection E as <-; exact I|]. destruct (step s i c) as [s1|] eqn:S; [|discriminate]. apply (IH s1); [|exact E]. now apply (step_inv s i c).
Qed.
Theorem no_races progs acts s : (forall i, calls immutable hashed owner i (progs i)) -> run (init hashed progs) acts = Some s -> ~ race s.
Proof.
  intros C E. apply inv_no_race. apply (run_inv acts (init hashed progs)); [|exact E]. constructor; cbn; try discriminate; try contradiction; [|auto].
  intros i. exists [], None, None. split; [apply (calls_safe i), C|]. split; [intros k []|]. split; [discriminate|]. split; intros m; cbn; split; try discriminate; contradiction.
Qed.
End Proofs.
