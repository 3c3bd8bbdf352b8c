(* All executions of a loader. *)
From Coq Require Import ZArith List Bool Arith Lia.
From Verif Require Import Data DataSpec DataProofs Loader LoaderSpec.
Import ListNotations.

(* ---------- maps ---------- *)

Lemma bytes_refl k : bytes_eqb k k = true.
Proof. now apply bytes_eqb_eq. Qed.

Lemma get_put_same {A} (m : list (name * A)) k v : get_key (put_key m k v) k = Some v.
Proof.
  induction m as [|[k' v'] r IH]; cbn [put_key]; [cbn; now rewrite bytes_refl|].
  destruct (bytes_eqb k' k) eqn:E; cbn [get_key]; rewrite E; auto.
Qed.

Lemma get_put_other {A} (m : list (name * A)) k k' v : k' <> k -> get_key (put_key m k v) k' = get_key m k'.
Proof.
  intros N. assert (F : forall x, bytes_eqb x k = true -> bytes_eqb x k' = false).
  { intros x E. apply bytes_eqb_eq in E as ->. destruct (bytes_eqb k k') eqn:E'; [|reflexivity]. apply bytes_eqb_eq in E'. congruence. }
  induction m as [|[x v'] r IH]; cbn [put_key get_key].
  - now rewrite (F k (bytes_refl k)).
  - destruct (bytes_eqb x k) eqn:E; cbn [get_key].
    + now rewrite (F x E).
    + destruct (bytes_eqb x k'); auto.
Qed.

Lemma put_monotone {A} (m : list (name * A)) k v : get_key m k = None ->
  forall k' v', get_key m k' = Some v' -> get_key (put_key m k v) k' = Some v'.
Proof.
  intros N k' v' H. rewrite get_put_other; [exact H|]. intros ->. congruence.
Qed.

Lemma put_values {A} (P : A -> Prop) (m : list (name * A)) k v : Forall (fun e => P (snd e)) m -> P v -> Forall (fun e => P (snd e)) (put_key m k v).
Proof.
  intros H Hv. induction H as [|[k' v'] r Hx Hr IH]; cbn [put_key]; [repeat constructor; exact Hv|].
  destruct (bytes_eqb k' k); constructor; auto.
Qed.

Lemma get_values {A} (P : A -> Prop) (m : list (name * A)) k v : Forall (fun e => P (snd e)) m -> get_key m k = Some v -> P v.
Proof.
  induction 1 as [|[k' v'] r Hx Hr IH]; cbn [get_key]; [discriminate|]. destruct (bytes_eqb k' k); [now intros [= <-]|exact IH].
Qed.

Lemma get_present {A} (m : list (name * A)) k v : get_key m k = Some v -> In (k, v) m.
Proof.
  induction m as [|[k' v'] r IH]; cbn [get_key]; [discriminate|]. destruct (bytes_eqb k' k) eqn:E; intros H.
  - apply bytes_eqb_eq in E as ->. injection H as ->. now left.
  - right. auto.
Qed.

(* ---------- the invariant ---------- *)

Section Config.
Variables (has_finder has_creator : bool).
Notation step := (step has_finder has_creator).
Notation run := (run has_finder has_creator).

(* holds the lock for reading or for writing *)
Definition reading (p : pc) : bool :=
  match p with GReading _ | GRead _ _ | NReading _ | NRead _ _ => true | _ => false end.
Definition writing (p : pc) : bool :=
  match p with
  | GAdding _ _ _ | GPut _ _ _ _ _ | GUnlock _ _ | NLocked _ _ | NPut _ _ | NUnlock _ _ _ => true
  | _ => false
  end.

Section Maps.
Variables (es : list (name * value)) (ns : list (name * nat)).

(* an entry for k is there and Equal to w *)
Definition known (k : name) (w : value) : Prop := exists old, get_key es k = Some old /\ veq old w = true.

Definition read_ok (k : name) (v : option value) : Prop :=
  match v with Some v => get_key es k = Some v | None => has_finder = false -> get_key es k = None end.
Definition space_ok (n : name) (o : option nat) : Prop :=
  match o with Some o => get_key ns n = Some o | None => True end.
Definition added (n : name) (o : nat) (old : option nat) : Prop :=
  get_key ns n = Some (match old with Some x => x | None => o end).
Definition all_data (m : list (name * value)) : Prop := Forall (fun e => data veq (snd e)) m.

(* what is known at each place; the negative facts only hold as the lock is held *)
Definition pc_ok (p : pc) : Prop :=
  match p with
  | Idle | GStart _ | GReading _ => True
  | GRead k v | GHave k v => read_ok k v
  | GFind k => has_finder = true
  | GAdd k f => has_finder = true /\ match f with FVal v => data veq v | FMulti m => all_data m | FPanic => True end
  | GAdding k todo w => has_finder = true /\ all_data todo /\ data veq w /\ (get_key todo k = Some w \/ known k w)
  | GPut k k' v' todo w =>
      has_finder = true /\ all_data ((k', v') :: todo) /\ data veq w /\ (get_key ((k', v') :: todo) k = Some w \/ known k w) /\ get_key es k' = None
  | GUnlock k w => has_finder = true /\ match w with Some w => data veq w /\ known k w | None => True end
  | NStart _ | NReading _ => True
  | NRead n o | NHave n o => space_ok n o
  | NCreate _ | NLock _ _ | NLocked _ _ => True
  | NPut n o => get_key ns n = None
  | NUnlock n o old | NCompare n o old => added n o old
  end.

Definition event_ok (e : event) : Prop :=
  match e with
  | EGot _ k v => data veq v /\ (known k v \/ (has_finder = false /\ get_key es k = None /\ v = VNil))
  | ESpace _ n o => space_ok n o
  | _ => True
  end.
End Maps.

Record inv (s : state) : Prop := {
  inv_readers : forall i, In i (l_readers s) <-> reading (l_pc s i) = true;
  inv_writer : forall i, l_writer s = Some i <-> writing (l_pc s i) = true;
  inv_excl : l_writer s <> None -> l_readers s = [];
  inv_data : all_data (l_entries s);
  inv_pc : forall i, pc_ok (l_entries s) (l_spaces s) (l_pc s i);
  inv_log : Forall (event_ok (l_entries s) (l_spaces s)) (l_log s)
}.

Lemma inv_init es : all_data es -> inv (init es).
Proof.
  intros H. constructor; cbn; auto; try (intros; split; (contradiction || discriminate)); try tauto.
Qed.

(* maps that only grow; without a finder the entries stay *)
Definition grows (es es' : list (name * value)) (ns ns' : list (name * nat)) : Prop :=
  (forall k v, get_key es k = Some v -> get_key es' k = Some v) /\
  (forall n o, get_key ns n = Some o -> get_key ns' n = Some o) /\ (has_finder = false -> es' = es).

Lemma grows_refl es ns : grows es es ns ns.
Proof. repeat split; auto. Qed.

Lemma known_grows es es' ns ns' k w : grows es es' ns ns' -> known es k w -> known es' k w.
Proof. intros (G & _ & _) (old & A & B). exists old. auto. Qed.
Lemma read_grows es es' ns ns' k v : grows es es' ns ns' -> read_ok es k v -> read_ok es' k v.
Proof. intros (G & _ & N). destruct v; cbn; [auto|]. intros H E. rewrite N by exact E. auto. Qed.
Lemma space_grows es es' ns ns' n o : grows es es' ns ns' -> space_ok ns n o -> space_ok ns' n o.
Proof. intros (_ & G & _). destruct o; cbn; auto. Qed.
Lemma added_grows es es' ns ns' n o old : grows es es' ns ns' -> added ns n o old -> added ns' n o old.
Proof. intros (_ & G & _). unfold added. auto. Qed.

Lemma event_grows es es' ns ns' e : grows es es' ns ns' -> event_ok es ns e -> event_ok es' ns' e.
Proof.
  intros G. destruct e; cbn; auto.
  - intros (D & [K|(F & N & E)]); split; auto; [left; eapply known_grows; eauto|right].
    destruct G as (_ & _ & Q). rewrite Q by exact F. auto.
  - now apply (space_grows es es' ns ns').
Qed.

(* facts of a goroutine that is not writing survive *)
Lemma pc_grows es es' ns ns' p : grows es es' ns ns' -> writing p = false -> pc_ok es ns p -> pc_ok es' ns' p.
Proof.
  intros G. destruct p; cbn; try discriminate; auto; intros _.
  - now apply (read_grows es es' ns ns').
  - now apply (read_grows es es' ns ns').
  - now apply (space_grows es es' ns ns').
  - now apply (space_grows es es' ns ns').
  - now apply (added_grows es es' ns ns').
Qed.

(* all steps have this form: goroutine i moves to p, the maps grow if it is writing, the lock follows *)
Lemma inv_move s s' i p evs :
  inv s ->
  (forall j, l_pc s' j = if Nat.eqb j i then p else l_pc s j) ->
  grows (l_entries s) (l_entries s') (l_spaces s) (l_spaces s') ->
  ((l_entries s' = l_entries s /\ l_spaces s' = l_spaces s) \/ l_writer s = Some i) ->
  all_data (l_entries s') ->
  pc_ok (l_entries s') (l_spaces s') p ->
  l_log s' = evs ++ l_log s -> Forall (event_ok (l_entries s') (l_spaces s')) evs ->
  (forall j, j <> i -> (In j (l_readers s') <-> In j (l_readers s))) -> (In i (l_readers s') <-> reading p = true) ->
  (forall j, j <> i -> (l_writer s' = Some j <-> l_writer s = Some j)) -> (l_writer s' = Some i <-> writing p = true) ->
  (l_writer s' <> None -> l_readers s' = []) ->
  inv s'.
Proof.
  intros I Hpc G Hw Hd Hp Hlog Hev Hr Hri Hww Hwi Hx. constructor.
  - intros j. rewrite Hpc. destruct (Nat.eqb_spec j i) as [->|N]; [exact Hri|]. rewrite Hr by exact N. apply (inv_readers s I).
  - intros j. rewrite Hpc. destruct (Nat.eqb_spec j i) as [->|N]; [exact Hwi|]. rewrite Hww by exact N. apply (inv_writer s I).
  - exact Hx.
  - exact Hd.
  - intros j. rewrite Hpc. destruct (Nat.eqb_spec j i) as [->|N]; [exact Hp|].
    destruct (writing (l_pc s j)) eqn:E; [|apply (pc_grows _ _ _ _ _ G E), (inv_pc s I)].
    destruct Hw as [[-> ->]|Hw]; [apply (inv_pc s I)|].
    apply (inv_writer s I) in E. congruence.
  - rewrite Hlog. apply Forall_app. split; [exact Hev|]. apply Forall_impl with (2 := inv_log s I). intros e. now apply event_grows.
Qed.

Lemma not_reading s i : inv s -> reading (l_pc s i) = false -> ~ In i (l_readers s).
Proof. intros I H C. apply (inv_readers s I) in C. congruence. Qed.
Lemma not_writing s i : inv s -> writing (l_pc s i) = false -> l_writer s <> Some i.
Proof. intros I H C. apply (inv_writer s I) in C. congruence. Qed.

(* a step that changes neither maps nor lock *)
Lemma inv_goto s i p : inv s -> reading (l_pc s i) = reading p -> writing (l_pc s i) = writing p ->
  pc_ok (l_entries s) (l_spaces s) p -> inv (goto s i p).
Proof.
  intros I R Wr P. apply (inv_move s _ i p []); cbn; auto using grows_refl, (inv_data s I), (inv_excl s I); try tauto.
  - rewrite <- R. apply (inv_readers s I).
  - rewrite <- Wr. apply (inv_writer s I).
Qed.

Lemma inv_emit s i e : inv s -> reading (l_pc s i) = false -> writing (l_pc s i) = false ->
  event_ok (l_entries s) (l_spaces s) e -> inv (emit s i e).
Proof.
  intros I R Wr P. apply (inv_move s _ i Idle [e]); cbn; auto using grows_refl, (inv_data s I), (inv_excl s I); try tauto.
  - rewrite (inv_readers s I), R. tauto.
  - rewrite (inv_writer s I), Wr. tauto.
Qed.

Lemma inv_rlock s s' i p : inv s -> rlock s i = Some s' -> reading (l_pc s i) = false -> writing (l_pc s i) = false ->
  reading p = true -> writing p = false -> pc_ok (l_entries s) (l_spaces s) p -> inv (goto s' i p).
Proof.
  unfold rlock. intros I E R Wr Rp Wp P. destruct (l_writer s) eqn:Ew; [discriminate|]. injection E as <-.
  apply (inv_move s _ i p []); cbn; auto using grows_refl, (inv_data s I); try tauto.
  - intros j N. split; [intros [->|]; [contradiction|auto]|auto].
  - rewrite Ew. intuition congruence.
Qed.

Lemma inv_runlock s i p : inv s -> reading (l_pc s i) = true ->
  reading p = false -> writing p = false -> pc_ok (l_entries s) (l_spaces s) p -> inv (goto (runlock s i) i p).
Proof.
  intros I R Rp Wp P. assert (I' : In i (l_readers s)) by now apply (inv_readers s I).
  assert (N : l_writer s = None). { destruct (l_writer s) eqn:E; [|reflexivity]. rewrite (inv_excl s I) in I'; [contradiction|congruence]. }
  apply (inv_move s _ i p []); cbn; auto using grows_refl, (inv_data s I); try tauto.
  - intros j Nj. split; [intros H; apply in_remove in H; tauto|intros H; apply in_in_remove; auto].
  - split; [intros H; exfalso; revert H; apply remove_In|congruence].
  - rewrite N. intuition congruence.
Qed.

Lemma inv_lock s s' i p : inv s -> lock s i = Some s' -> reading (l_pc s i) = false ->
  reading p = false -> writing p = true -> pc_ok (l_entries s) (l_spaces s) p -> inv (goto s' i p).
Proof.
  unfold lock. intros I E R Rp Wp P. destruct (l_writer s) eqn:Ew; [discriminate|]. destruct (l_readers s) eqn:Er; [|discriminate]. injection E as <-.
  apply (inv_move s _ i p []); cbn; auto using grows_refl, (inv_data s I); try tauto.
  all: try (rewrite Er; cbn; intuition congruence); try (intros j N; rewrite Ew; intuition congruence).
Qed.

(* a writing goroutine gives the lock back *)
Lemma inv_unlock s i p evs : inv s -> writing (l_pc s i) = true -> reading p = false -> writing p = false ->
  pc_ok (l_entries s) (l_spaces s) p -> Forall (event_ok (l_entries s) (l_spaces s)) evs ->
  inv (goto (mk_state (l_entries s) (l_spaces s) (l_readers s) None (l_pc s) (evs ++ l_log s)) i p).
Proof.
  intros I Wr Rp Wp P E. pose proof Wr as Wr'. apply (inv_writer s I) in Wr'.
  assert (X : l_readers s = []) by (apply (inv_excl s I); congruence).
  apply (inv_move s _ i p evs); cbn; auto using grows_refl, (inv_data s I); try tauto.
  all: try (rewrite X, Rp; cbn; intuition congruence); try (intros j N; rewrite Wr'; intuition congruence); try (intuition congruence).
Qed.

(* a writing goroutine adds something *)
Lemma inv_put s s' i p : inv s -> writing (l_pc s i) = true -> reading p = false -> writing p = true ->
  l_readers s' = l_readers s -> l_writer s' = l_writer s -> l_log s' = l_log s -> l_pc s' = l_pc s ->
  grows (l_entries s) (l_entries s') (l_spaces s) (l_spaces s') -> all_data (l_entries s') ->
  pc_ok (l_entries s') (l_spaces s') p -> inv (goto s' i p).
Proof.
  intros I Wr Rp Wp E1 E2 E3 E4 G D P. pose proof Wr as Wr'. apply (inv_writer s I) in Wr'.
  assert (X : l_readers s = []) by (apply (inv_excl s I); congruence).
  apply (inv_move s _ i p []); cbn; auto; rewrite ?E1, ?E2, ?E4; auto; try tauto.
  all: try (rewrite X, Rp; cbn; intuition congruence); try (rewrite Wr'; intuition congruence).
Qed.

Lemma known_equal (es : list (name * value)) k w v : all_data es -> data veq w -> get_key es k = Some v -> veq v w = true -> known es k w.
Proof. intros _ _ H E. exists v. auto. Qed.

Lemma step_inv s a s' : inv s -> proper a -> step s a = Some s' -> inv s'.
Proof.
  intros I Pa H. destruct a as [i k|i n|i|i f|i c|i b]; cbn [Loader.step] in H.
  - destruct (l_pc s i) eqn:E; try discriminate. injection H as <-. apply inv_goto; rewrite ?E; auto; try exact Logic.I.
  - destruct (l_pc s i) eqn:E; try discriminate. injection H as <-. apply inv_goto; rewrite ?E; auto; try exact Logic.I.
  - unfold step_at in H. pose proof (inv_pc s I i) as P. destruct (l_pc s i) eqn:E; cbn [pc_ok] in P; try discriminate.
    + destruct (rlock s i) eqn:R; [|discriminate]. injection H as <-. apply (inv_rlock s); rewrite ?E; auto; try exact Logic.I.
    + injection H as <-. apply inv_goto; rewrite ?E; auto. cbn. unfold read_ok. destruct (get_key (l_entries s) k) eqn:G; auto.
    + injection H as <-. apply inv_runlock; rewrite ?E; auto.
    + destruct v as [v|]; [|destruct has_finder eqn:F]; injection H as <-.
      * apply inv_emit; rewrite ?E; auto. cbn in *. pose proof (get_values (data veq) _ _ _ (inv_data s I) P) as D.
        split; [exact D|]. left. exists v. split; [exact P|]. now apply veq_refl.
      * apply inv_goto; rewrite ?E; auto.
      * apply inv_emit; rewrite ?E; auto. cbn in *. split; [constructor|]. right. repeat split; auto.
    + destruct (lock s i) as [s1|] eqn:L; [|discriminate]. cbn [option_map] in H. injection H as <-. destruct P as [F Pf].
      destruct f as [w|m|].
      * apply (inv_lock s); rewrite ?E; auto. cbn. repeat split; auto; [repeat constructor; exact Pf|]. left. now rewrite bytes_refl.
      * destruct (get_key m k) as [w|] eqn:G.
        { apply (inv_lock s); rewrite ?E; auto. cbn. repeat split; auto. exact (get_values (data veq) _ _ _ Pf G). }
        { apply (inv_lock s); rewrite ?E; auto. cbn. auto. }
      * apply (inv_lock s); rewrite ?E; auto. cbn. auto.
    + destruct P as (F & D & Dw & K). destruct todo as [|[k' v'] r].
      * injection H as <-. apply inv_goto; rewrite ?E; auto. cbn. destruct K as [K|K]; [discriminate|auto].
      * destruct (get_key (l_entries s) k') as [old|] eqn:G.
        { inversion D as [|? ? Dv Dr]; subst. cbn in Dv. destruct (veq old v') eqn:V; injection H as <-.
          - apply inv_goto; rewrite ?E; auto. cbn. repeat split; auto. destruct K as [K|K]; [|auto]. cbn [get_key] in K.
            destruct (bytes_eqb k' k) eqn:B; [|auto]. injection K as ->. apply bytes_eqb_eq in B as ->. right. exists old. auto.
          - apply inv_goto; rewrite ?E; auto. cbn. auto. }
        { injection H as <-. apply inv_goto; rewrite ?E; auto. cbn. repeat split; auto. }
    + destruct P as (F & D & Dw & K & N). injection H as <-. inversion D as [|? ? Dv Dr]; subst. cbn in Dv.
      assert (G : grows (l_entries s) (put_key (l_entries s) k' v') (l_spaces s) (l_spaces s)).
      { repeat split; auto; [now apply put_monotone|congruence]. }
      apply (inv_put s); rewrite ?E; cbn; auto.
      * exact (put_values (data veq) _ _ _ (inv_data s I) Dv).
      * repeat split; auto. destruct K as [K|K]; [|right; eapply known_grows; eauto]. cbn [get_key] in K.
        destruct (bytes_eqb k' k) eqn:B; [|auto]. injection K as ->. apply bytes_eqb_eq in B as ->. right. exists w. split; [apply get_put_same|].
        now apply veq_refl.
    + destruct P as [F P]. destruct w as [w|]; injection H as <-.
      * apply (inv_unlock s i Idle [EGot i k w]); rewrite ?E; auto; cbn; auto. constructor; [|constructor]. cbn. destruct P. split; auto.
      * apply (inv_unlock s i Idle [EPanic i]); rewrite ?E; auto; cbn; auto.
    + destruct n as [|c n].
      * injection H as <-. apply inv_emit; rewrite ?E; auto; try exact Logic.I.
      * destruct (rlock s i) eqn:R; [|discriminate]. injection H as <-. apply (inv_rlock s); rewrite ?E; auto; try exact Logic.I.
    + injection H as <-. apply inv_goto; rewrite ?E; auto. cbn. unfold space_ok. destruct (get_key (l_spaces s) n) eqn:G; auto.
    + injection H as <-. apply inv_runlock; rewrite ?E; auto.
    + destruct o as [o|]; [|destruct has_creator]; injection H as <-.
      * apply inv_emit; rewrite ?E; auto.
      * apply inv_goto; rewrite ?E; auto.
      * apply inv_emit; rewrite ?E; auto. 
    + destruct (lock s i) as [s1|] eqn:L; [|discriminate]. injection H as <-. apply (inv_lock s); rewrite ?E; auto; try exact Logic.I.
    + destruct (get_key (l_spaces s) n) eqn:G; injection H as <-; apply inv_goto; rewrite ?E; auto.
    + injection H as <-.
      assert (G : grows (l_entries s) (l_entries s) (l_spaces s) (put_key (l_spaces s) n o)).
      { repeat split; auto. now apply put_monotone. }
      apply (inv_put s); rewrite ?E; cbn; auto; [apply (inv_data s I)|]. unfold added. apply get_put_same.
    + injection H as <-. apply (inv_unlock s i (NCompare n o old) []); rewrite ?E; auto.
    + destruct old; [discriminate|]. injection H as <-. apply inv_emit; rewrite ?E; auto.
  - destruct (l_pc s i) eqn:E; try discriminate. pose proof (inv_pc s I i) as P. rewrite E in P. cbn in P.
    destruct f; injection H as <-; try (apply inv_goto; rewrite ?E; auto; cbn; now auto). apply inv_emit; rewrite ?E; auto; try exact Logic.I.
  - destruct (l_pc s i) eqn:E; try discriminate.
    destruct c; injection H as <-; try (apply inv_goto; rewrite ?E; auto; exact Logic.I); apply inv_emit; rewrite ?E; auto; exact Logic.I.
  - destruct (l_pc s i) eqn:E; try discriminate. destruct old as [old|]; [|discriminate]. pose proof (inv_pc s I i) as P. rewrite E in P. cbn in P.
    destruct b; injection H as <-; apply inv_emit; rewrite ?E; auto; try exact Logic.I.
Qed.

Lemma run_inv acts : forall s s', inv s -> Forall proper acts -> run s acts = Some s' -> inv s'.
Proof.
  induction acts as [|a r IH]; cbn [Loader.run]; intros s s' I P H; [now injection H as <-|].
  destruct (step s a) as [s1|] eqn:E; [|discriminate]. inversion P; subst. apply (IH s1); auto. now apply (step_inv s a).
Qed.

(* ---------- C42 ---------- *)

Theorem one_value es acts s : all_data es -> Forall proper acts -> run (init es) acts = Some s ->
  forall i j k v w, In (EGot i k v) (l_log s) -> In (EGot j k w) (l_log s) -> veq v w = true.
Proof.
  intros De Pa H i j k v w Hv Hw. pose proof (run_inv acts _ _ (inv_init es De) Pa H) as I.
  pose proof (proj1 (Forall_forall _ _) (inv_log s I) _ Hv) as (Dv & A). pose proof (proj1 (Forall_forall _ _) (inv_log s I) _ Hw) as (Dw & B).
  destruct A as [(x & Gx & Ex)|(F & N & ->)], B as [(y & Gy & Ey)|(F' & N' & ->)]; try congruence; [|reflexivity].
  assert (x = y) as <- by congruence. assert (Dx : data veq x) by exact (get_values (data veq) _ _ _ (inv_data s I) Gx).
  apply (veq_trans v x w); auto. now apply veq_sym.
Qed.

Lemma step_grows s a s' : inv s -> step s a = Some s' -> grows (l_entries s) (l_entries s') (l_spaces s) (l_spaces s').
Proof.
  intros I H. assert (R : grows (l_entries s) (l_entries s) (l_spaces s) (l_spaces s)) by apply grows_refl.
  assert (K : l_entries s' = l_entries s -> l_spaces s' = l_spaces s -> grows (l_entries s) (l_entries s') (l_spaces s) (l_spaces s')) by (intros -> ->; exact R).
  destruct a as [i k|i n|i|i f|i c|i b]; cbn [Loader.step] in H.
  - destruct (l_pc s i); try discriminate. injection H as <-. exact R.
  - destruct (l_pc s i); try discriminate. injection H as <-. exact R.
  - unfold step_at in H. pose proof (inv_pc s I i) as P. destruct (l_pc s i) eqn:E; cbn [pc_ok] in P; try discriminate.
    + unfold rlock in H. destruct (l_writer s); [discriminate|]. injection H as <-. exact R.
    + injection H as <-. exact R.
    + injection H as <-. exact R.
    + destruct v; [|destruct has_finder]; injection H as <-; exact R.
    + unfold lock in H. destruct (l_writer s); [discriminate|]. destruct (l_readers s); [|discriminate]. cbn in H. injection H as <-.
      destruct f; try exact R. destruct (get_key m k); exact R.
    + destruct todo as [|[k' v'] r]; [injection H as <-; exact R|].
      destruct (get_key (l_entries s) k'); [destruct (veq v v')|]; injection H as <-; exact R.
    + destruct P as (F & D & Dw & K' & N). injection H as <-. repeat split; cbn; auto; [now apply put_monotone|congruence].
    + destruct w; injection H as <-; exact R.
    + destruct n; [injection H as <-; exact R|]. unfold rlock in H. destruct (l_writer s); [discriminate|]. injection H as <-. exact R.
    + injection H as <-. exact R.
    + injection H as <-. exact R.
    + destruct o; [|destruct has_creator]; injection H as <-; exact R.
    + unfold lock in H. destruct (l_writer s); [discriminate|]. destruct (l_readers s); [|discriminate]. injection H as <-. exact R.
    + destruct (get_key (l_spaces s) n); injection H as <-; exact R.
    + injection H as <-. repeat split; cbn; auto. now apply put_monotone.
    + injection H as <-. exact R.
    + destruct old; [discriminate|]. injection H as <-. exact R.
  - destruct (l_pc s i); try discriminate. destruct f; injection H as <-; exact R.
  - destruct (l_pc s i); try discriminate. destruct c; injection H as <-; exact R.
  - destruct (l_pc s i); try discriminate. destruct old; [|discriminate]. destruct b; injection H as <-; exact R.
Qed.

Lemma run_grows acts : forall s s', inv s -> Forall proper acts -> run s acts = Some s' ->
  grows (l_entries s) (l_entries s') (l_spaces s) (l_spaces s').
Proof.
  induction acts as [|a r IH]; cbn [Loader.run]; intros s s' I P H; [injection H as <-; apply grows_refl|].
  destruct (step s a) as [s1|] eqn:E; [|discriminate]. inversion P; subst.
  pose proof (step_grows s a s1 I E) as (A1 & A2 & A3). destruct (IH s1 s') as (B1 & B2 & B3); auto; [now apply (step_inv s a)|].
  repeat split; auto. intros F. rewrite B3, A3; auto.
Qed.

Theorem never_overwritten es acts acts' s s' : all_data es -> Forall proper (acts ++ acts') ->
  run (init es) acts = Some s -> run s acts' = Some s' ->
  (forall k v, get_key (l_entries s) k = Some v -> get_key (l_entries s') k = Some v) /\
  (forall n o, get_key (l_spaces s) n = Some o -> get_key (l_spaces s') n = Some o).
Proof.
  intros De Pa H H'. apply Forall_app in Pa as [Pa Pa'].
  destruct (run_grows acts' s s') as (A & B & _); auto. now apply (run_inv acts (init es)); [apply inv_init| |].
Qed.

(* a returned value is in the loader *)
Theorem returned_is_kept es acts s : all_data es -> Forall proper acts -> run (init es) acts = Some s -> has_finder = true ->
  forall i k v, In (EGot i k v) (l_log s) -> exists old, get_key (l_entries s) k = Some old /\ veq old v = true.
Proof.
  intros De Pa H F i k v Hv. pose proof (run_inv acts _ _ (inv_init es De) Pa H) as I.
  destruct (proj1 (Forall_forall _ _) (inv_log s I) _ Hv) as (Dv & [A|(F' & _)]); [exact A|congruence].
Qed.

(* ---------- C43 ---------- *)

Theorem one_namespace es acts s : all_data es -> Forall proper acts -> run (init es) acts = Some s ->
  forall i j n o o', In (ESpace i n (Some o)) (l_log s) -> In (ESpace j n (Some o')) (l_log s) -> o = o'.
Proof.
  intros De Pa H i j n o o' A B. pose proof (run_inv acts _ _ (inv_init es De) Pa H) as I.
  pose proof (proj1 (Forall_forall _ _) (inv_log s I) _ A) as A'. pose proof (proj1 (Forall_forall _ _) (inv_log s I) _ B) as B'. cbn in A', B'. congruence.
Qed.

(* ---------- a conflict ---------- *)

(* goroutine i is in a call that can only panic *)
Definition doomed (es : list (name * value)) (i : nat) (p : pc) : Prop :=
  (exists k v w, (p = GAdd k (FVal w) \/ p = GAdding k [(k, w)] w) /\ get_key es k = Some v /\ veq v w = false) \/
  (exists k, p = GUnlock k None).

Lemma goto_other s i j p : j <> i -> l_pc (goto s i p) j = l_pc s j.
Proof. cbn. now destruct (Nat.eqb_spec j i). Qed.

Definition mover (a : action) : nat :=
  match a with AGet i _ | ANamespace i _ | AStep i | AFound i _ | ACreated i _ | AEqual i _ => i end.

(* other goroutines do not move i and do not return for it *)
Lemma step_other s a s' i : step s a = Some s' -> mover a <> i -> l_pc s' i = l_pc s i /\ outcomes i s' = outcomes i s.
Proof.
  intros H N. assert (G : forall s0 j p, j <> i -> l_pc (goto s0 j p) i = l_pc s0 i /\ outcomes i (goto s0 j p) = outcomes i s0).
  { intros s0 j p Nj. split; [cbn; destruct (Nat.eqb_spec i j); [congruence|reflexivity]|reflexivity]. }
  assert (Em : forall s0 j e, j <> i -> made_by i e = false -> l_pc (emit s0 j e) i = l_pc s0 i /\ outcomes i (emit s0 j e) = outcomes i s0).
  { intros s0 j e Nj B. unfold outcomes. cbn. rewrite B. split; [destruct (Nat.eqb_spec i j); [congruence|reflexivity]|reflexivity]. }
  assert (Eb : forall j, j <> i -> Nat.eqb j i = false) by (intros; now apply Nat.eqb_neq).
  destruct a as [j k|j n|j|j f|j c|j b]; cbn [Loader.step mover] in *; specialize (Eb j N).
  - destruct (l_pc s j); try discriminate. injection H as <-. now apply G.
  - destruct (l_pc s j); try discriminate. injection H as <-. now apply G.
  - unfold step_at in H. destruct (l_pc s j); try discriminate.
    + unfold rlock in H. destruct (l_writer s); [discriminate|]. injection H as <-. exact (G (set_readers s (j :: l_readers s)) j _ N).
    + injection H as <-. now apply G.
    + injection H as <-. exact (G (runlock s j) j _ N).
    + destruct v; [|destruct has_finder]; injection H as <-; auto.
    + unfold lock in H. destruct (l_writer s); [discriminate|]. destruct (l_readers s); [|discriminate]. cbn in H. injection H as <-.
      destruct f; try exact (G (set_writer s (Some j)) j _ N). destruct (get_key m k); exact (G (set_writer s (Some j)) j _ N).
    + destruct todo as [|[k' v'] r]; [injection H as <-; auto|]. destruct (get_key (l_entries s) k'); [destruct (veq v v')|]; injection H as <-; auto.
    + injection H as <-. exact (G (put_entry s k' v') j _ N).
    + destruct w; injection H as <-; apply (Em (unlock s) j); auto.
    + destruct n; [injection H as <-; auto|]. unfold rlock in H. destruct (l_writer s); [discriminate|]. injection H as <-.
      exact (G (set_readers s (j :: l_readers s)) j _ N).
    + injection H as <-. now apply G.
    + injection H as <-. exact (G (runlock s j) j _ N).
    + destruct o; [|destruct has_creator]; injection H as <-; auto.
    + unfold lock in H. destruct (l_writer s); [discriminate|]. destruct (l_readers s); [|discriminate]. injection H as <-. exact (G (set_writer s (Some j)) j _ N).
    + destruct (get_key (l_spaces s) n); injection H as <-; auto.
    + injection H as <-. exact (G (put_space s n o) j _ N).
    + injection H as <-. exact (G (unlock s) j _ N).
    + destruct old; [discriminate|]. injection H as <-. auto.
  - destruct (l_pc s j); try discriminate. destruct f; injection H as <-; auto.
  - destruct (l_pc s j); try discriminate. destruct c; injection H as <-; auto.
  - destruct (l_pc s j); try discriminate. destruct old; [|discriminate]. destruct b; injection H as <-; auto.
Qed.

Lemma goto_pc s i p : l_pc (goto s i p) i = p.
Proof. cbn. now rewrite Nat.eqb_refl. Qed.

(* the call of i is going to panic or has panicked *)
Definition lost (i : nat) (out : list event) (s : state) : Prop :=
  (doomed (l_entries s) i (l_pc s i) /\ outcomes i s = out) \/ (l_pc s i = Idle /\ outcomes i s = EPanic i :: out).

Lemma doomed_grows es es' ns ns' i p : grows es es' ns ns' -> doomed es i p -> doomed es' i p.
Proof.
  intros (G & _) [(k & v & w & A & B & C)|D]; [left; exists k, v, w; auto|now right].
Qed.

Lemma lost_step s a s' i out : inv s -> no_call i a -> lost i out s -> step s a = Some s' -> lost i out s'.
Proof.
  intros I Nc L H. destruct (Nat.eq_dec (mover a) i) as [M|M].
  2:{ destruct (step_other s a s' i H M) as [E1 E2]. unfold lost. rewrite E1, E2. destruct L as [[D O]|L]; [left|now right]. split; [|exact O].
      eapply doomed_grows; [apply (step_grows s a s' I H)|exact D]. }
  destruct L as [[D O]|[P O]].
  2:{ destruct a as [j k|j n|j|j f|j c|j b]; cbn in M, Nc; subst; try contradiction; cbn [Loader.step] in H; unfold step_at in H; rewrite P in H; discriminate. }
  destruct a as [j k|j n|j|j f|j c|j b]; cbn in M, Nc; subst; try contradiction; cbn [Loader.step] in H; unfold step_at in H;
    destruct D as [(k & v & w & [P|P] & G & V)|(k & P)]; rewrite P in H; try discriminate.
  - unfold lock in H. destruct (l_writer s); [discriminate|]. destruct (l_readers s); [|discriminate]. cbn in H. injection H as <-.
    left. split; [|reflexivity]. left. exists k, v, w. rewrite goto_pc. cbn. auto.
  - rewrite G, V in H. injection H as <-. left. split; [|reflexivity]. right. exists k. apply goto_pc.
  - injection H as <-. right. unfold outcomes in *. cbn. rewrite !Nat.eqb_refl. cbn. split; reflexivity.
Qed.

Lemma lost_run acts : forall s s' i out, inv s -> Forall proper acts -> Forall (no_call i) acts -> lost i out s -> run s acts = Some s' -> lost i out s'.
Proof.
  induction acts as [|a r IH]; cbn [Loader.run]; intros s s' i out I P N L H; [now injection H as <-|].
  destruct (step s a) as [s1|] eqn:E; [|discriminate]. inversion P; inversion N; subst. apply (IH s1); auto; [now apply (step_inv s a)|].
  now apply (lost_step s a).
Qed.

(* the finder of goroutine i returns a value for k that differs from the entry: the call panics if it ends *)
Theorem conflict_panics es acts s i k v w acts' s' : all_data es -> Forall proper (acts ++ AFound i (FVal w) :: acts') ->
  run (init es) acts = Some s -> l_pc s i = GFind k -> get_key (l_entries s) k = Some v -> veq v w = false ->
  Forall (no_call i) acts' -> run s (AFound i (FVal w) :: acts') = Some s' ->
  (l_pc s' i <> Idle /\ outcomes i s' = outcomes i s) \/ (l_pc s' i = Idle /\ outcomes i s' = EPanic i :: outcomes i s).
Proof.
  intros De Pa H E G V N H'. apply Forall_app in Pa as [Pa Pa']. inversion Pa' as [|? ? Pf Pr]; subst.
  pose proof (run_inv acts _ _ (inv_init es De) Pa H) as I. cbn [Loader.run] in H'.
  destruct (step s (AFound i (FVal w))) as [s1|] eqn:S; [|discriminate]. pose proof (step_inv s _ s1 I Pf S) as I1.
  cbn [Loader.step] in S. rewrite E in S. injection S as <-.
  assert (L : lost i (outcomes i s) (goto s i (GAdd k (FVal w)))).
  { left. split; [|reflexivity]. left. exists k, v, w. rewrite goto_pc. auto. }
  destruct (lost_run acts' _ _ i _ I1 Pr N L H') as [[D O]|X]; [left|now right]. split; [|exact O].
  intros X. rewrite X in D. destruct D as [(k0 & v0 & w0 & [Q|Q] & _)|(k0 & Q)]; discriminate.
Qed.

(* ---------- a call for something that is there ---------- *)

(* goroutine i is in a call for something that the loader has, e is what the call returns *)
Definition settled (es : list (name * value)) (ns : list (name * nat)) (i : nat) (p : pc) (e : event) : Prop :=
  (exists k v, (p = GStart k \/ p = GReading k \/ p = GRead k (Some v) \/ p = GHave k (Some v)) /\ get_key es k = Some v /\ e = EGot i k v) \/
  (exists n o, (p = NStart n \/ p = NReading n \/ p = NRead n (Some o) \/ p = NHave n (Some o)) /\ n <> [] /\ get_key ns n = Some o /\ e = ESpace i n (Some o)).

Definition served (i : nat) (out : list event) (e : event) (s : state) : Prop :=
  (settled (l_entries s) (l_spaces s) i (l_pc s i) e /\ outcomes i s = out) \/ (l_pc s i = Idle /\ outcomes i s = e :: out).

Lemma settled_grows es es' ns ns' i p e : grows es es' ns ns' -> settled es ns i p e -> settled es' ns' i p e.
Proof.
  intros (G & G' & _) [(k & v & A & B & C)|(n & o & A & N & B & C)]; [left; exists k, v; auto|right; exists n, o; auto].
Qed.

Lemma served_step s a s' i out e : inv s -> no_call i a -> served i out e s -> step s a = Some s' -> served i out e s'.
Proof.
  intros I Nc L H. destruct (Nat.eq_dec (mover a) i) as [M|M].
  2:{ destruct (step_other s a s' i H M) as [E1 E2]. unfold served. rewrite E1, E2. destruct L as [[D O]|L]; [left|now right]. split; [|exact O].
      eapply settled_grows; [apply (step_grows s a s' I H)|exact D]. }
  destruct L as [[D O]|[P O]].
  2:{ destruct a as [j k|j n|j|j f|j c|j b]; cbn in M, Nc; subst; try contradiction; cbn [Loader.step] in H; unfold step_at in H; rewrite P in H; discriminate. }
  destruct a as [j k|j n|j|j f|j c|j b]; cbn in M, Nc; subst; try contradiction; cbn [Loader.step] in H; unfold step_at in H;
    destruct D as [(k & v & [P|[P|[P|P]]] & G & Ee)|(n & o & [P|[P|[P|P]]] & N & G & Ee)]; rewrite P in H; try discriminate; subst e.
  - unfold rlock in H. destruct (l_writer s); [discriminate|]. injection H as <-. left. split; [|reflexivity]. left. exists k, v. rewrite goto_pc. auto.
  - rewrite G in H. injection H as <-. left. split; [|reflexivity]. left. exists k, v. rewrite goto_pc. auto.
  - injection H as <-. left. split; [|reflexivity]. left. exists k, v. rewrite goto_pc. auto 6.
  - injection H as <-. right. unfold outcomes in *. cbn. rewrite !Nat.eqb_refl. cbn. split; reflexivity.
  - destruct n as [|c n]; [congruence|]. unfold rlock in H. destruct (l_writer s); [discriminate|]. injection H as <-.
    left. split; [|reflexivity]. right. exists (c :: n), o. rewrite goto_pc. auto.
  - rewrite G in H. injection H as <-. left. split; [|reflexivity]. right. exists n, o. rewrite goto_pc. auto 6.
  - injection H as <-. left. split; [|reflexivity]. right. exists n, o. rewrite goto_pc. auto 7.
  - injection H as <-. right. unfold outcomes in *. cbn. rewrite !Nat.eqb_refl. cbn. split; reflexivity.
Qed.

Lemma served_run acts : forall s s' i out e, inv s -> Forall proper acts -> Forall (no_call i) acts -> served i out e s -> run s acts = Some s' -> served i out e s'.
Proof.
  induction acts as [|a r IH]; cbn [Loader.run]; intros s s' i out e I P N L H; [now injection H as <-|].
  destruct (step s a) as [s1|] eqn:E; [|discriminate]. inversion P; inversion N; subst. apply (IH s1); auto; [now apply (step_inv s a)|].
  now apply (served_step s a).
Qed.

Lemma served_done i out e s : served i out e s -> (l_pc s i <> Idle /\ outcomes i s = out) \/ (l_pc s i = Idle /\ outcomes i s = e :: out).
Proof.
  intros [[D O]|X]; [left|now right]. split; [|exact O].
  intros X. rewrite X in D. destruct D as [(k & v & [Q|[Q|[Q|Q]]] & _)|(n & o & [Q|[Q|[Q|Q]]] & _)]; discriminate.
Qed.

Theorem existing_value es acts s i k v acts' s' : all_data es -> Forall proper (acts ++ acts') ->
  run (init es) acts = Some s -> get_key (l_entries s) k = Some v ->
  Forall (no_call i) acts' -> run s (AGet i k :: acts') = Some s' ->
  (l_pc s' i <> Idle /\ outcomes i s' = outcomes i s) \/ (l_pc s' i = Idle /\ outcomes i s' = EGot i k v :: outcomes i s).
Proof.
  intros De Pa H G N H'. apply Forall_app in Pa as [Pa Pa'].
  pose proof (run_inv acts _ _ (inv_init es De) Pa H) as I. cbn [Loader.run] in H'.
  destruct (step s (AGet i k)) as [s1|] eqn:S; [|discriminate]. pose proof (step_inv s (AGet i k) s1 I Logic.I S) as I1.
  cbn [Loader.step] in S. destruct (l_pc s i) eqn:E; try discriminate. injection S as <-.
  apply served_done. apply (served_run acts' _ _ i _ _ I1 Pa' N) with (2 := H').
  left. split; [|reflexivity]. left. exists k, v. rewrite goto_pc. auto.
Qed.

Theorem existing_namespace es acts s i n o acts' s' : all_data es -> Forall proper (acts ++ acts') ->
  run (init es) acts = Some s -> n <> [] -> get_key (l_spaces s) n = Some o ->
  Forall (no_call i) acts' -> run s (ANamespace i n :: acts') = Some s' ->
  (l_pc s' i <> Idle /\ outcomes i s' = outcomes i s) \/ (l_pc s' i = Idle /\ outcomes i s' = ESpace i n (Some o) :: outcomes i s).
Proof.
  intros De Pa H Nn G N H'. apply Forall_app in Pa as [Pa Pa'].
  pose proof (run_inv acts _ _ (inv_init es De) Pa H) as I. cbn [Loader.run] in H'.
  destruct (step s (ANamespace i n)) as [s1|] eqn:S; [|discriminate]. pose proof (step_inv s (ANamespace i n) s1 I Logic.I S) as I1.
  cbn [Loader.step] in S. destruct (l_pc s i) eqn:E; try discriminate. injection S as <-.
  apply served_done. apply (served_run acts' _ _ i _ _ I1 Pa' N) with (2 := H').
  left. split; [|reflexivity]. right. exists n, o. rewrite goto_pc. auto.
Qed.

(* a namespace that was returned stays *)
Theorem namespace_is_kept es acts s : all_data es -> Forall proper acts -> run (init es) acts = Some s ->
  forall i n o, In (ESpace i n (Some o)) (l_log s) -> get_key (l_spaces s) n = Some o.
Proof.
  intros De Pa H i n o A. pose proof (run_inv acts _ _ (inv_init es De) Pa H) as I.
  exact (proj1 (Forall_forall _ _) (inv_log s I) _ A).
Qed.

(* ---------- no deadlock ---------- *)

Lemma holder_moves s i : reading (l_pc s i) = true \/ writing (l_pc s i) = true -> exists s', step s (AStep i) = Some s'.
Proof.
  cbn [Loader.step]. unfold step_at. destruct (l_pc s i) eqn:E; cbn; intros [H|H]; try discriminate; eauto.
  - destruct todo as [|[k' v'] r]; eauto. destruct (get_key (l_entries s) k'); eauto. destruct (veq v v'); eauto.
  - destruct w; eauto.
  - destruct (get_key (l_spaces s) n); eauto.
Qed.

Theorem no_deadlock es acts s : all_data es -> Forall proper acts -> run (init es) acts = Some s ->
  (exists i, l_pc s i <> Idle) -> exists a s', continues a /\ step s a = Some s'.
Proof.
  intros De Pa H [i Hi]. pose proof (run_inv acts _ _ (inv_init es De) Pa H) as I.
  destruct (l_writer s) as [j|] eqn:Ew.
  { assert (W : writing (l_pc s j) = true) by now apply (inv_writer s I). destruct (holder_moves s j) as [s' S]; [auto|]. exists (AStep j), s'. split; [exact Logic.I|exact S]. }
  destruct (l_readers s) as [|j r] eqn:Er.
  2:{ assert (R : reading (l_pc s j) = true) by (apply (inv_readers s I); rewrite Er; now left).
      destruct (holder_moves s j) as [s' S]; [auto|]. exists (AStep j), s'. split; [exact Logic.I|exact S]. }
  destruct (l_pc s i) eqn:E; try congruence;
    try (destruct (holder_moves s i) as [s' S]; [rewrite E; cbn; auto|]; exists (AStep i), s'; split; [exact Logic.I|exact S]).
  - exists (AStep i). cbn. unfold step_at. rewrite E. unfold rlock. rewrite Ew. cbn. eauto.
  - exists (AStep i). cbn. unfold step_at. rewrite E. destruct v; [|destruct has_finder]; eauto.
  - exists (AFound i FPanic). cbn. rewrite E. eauto.
  - exists (AStep i). cbn. unfold step_at. rewrite E. unfold lock. rewrite Ew, Er. cbn. eauto.
  - exists (AStep i). cbn. unfold step_at. rewrite E. unfold rlock. rewrite Ew. destruct n; cbn; eauto.
  - exists (AStep i). cbn. unfold step_at. rewrite E. destruct o; [|destruct has_creator]; eauto.
  - exists (ACreated i CNil). cbn. rewrite E. eauto.
  - exists (AStep i). cbn. unfold step_at. rewrite E. unfold lock. rewrite Ew, Er. cbn. eauto.
  - destruct old; [exists (AEqual i true); cbn; rewrite E; eauto|]. exists (AStep i). cbn. unfold step_at. rewrite E. eauto.
Qed.
End Config.
