(* Instance of types whose references have been replaced. *)
From Coq Require Import ZArith List Bool Lia.
From Verif Require Import Int64 HMap Data DataSpec Types TypesSpec Graph RecTypes RecTypesSpec RecTypesProofs RecTypesEnds Resolve ResolveSpec ResolveProofs.
Import ListNotations.
Open Scope Z_scope.

Definition same {A} (m m' : RM A) : Prop := forall s, m s = m' s.
Lemma same_bind {A B} (m m' : RM A) (f f' : A -> RM B) : same m m' -> (forall x, same (f x) (f' x)) -> same (r_bind m f) (r_bind m' f').
Proof. intros H K s. unfold r_bind. rewrite H. destruct (m' s) as [[x s']|]; [apply K|reflexivity]. Qed.
Lemma same_and m m' k k' : same m m' -> same k k' -> same (r_and m k) (r_and m' k').
Proof. intros H K. apply same_bind; [exact H|]. intros [|] s; [apply K|reflexivity]. Qed.
Lemma same_all {A} (f f' : A -> RM bool) l : (forall x, In x l -> same (f x) (f' x)) -> same (r_all f l) (r_all f' l).
Proof. induction l as [|x l IH]; intros H; [intros s; reflexivity|]. cbn. apply same_and; [apply H; now left|apply IH; intros y Y; apply H; now right]. Qed.
Lemma same_any {A} (f f' : A -> RM bool) l : (forall x, In x l -> same (f x) (f' x)) -> same (r_any f l) (r_any f' l).
Proof.
  induction l as [|x l IH]; intros H; [intros s; reflexivity|]. cbn. apply same_bind; [apply H; now left|]. intros [|]; [intros s; reflexivity|].
  apply IH; intros y Y; apply H; now right.
Qed.
Lemma same_one {A} (f f' : A -> RM bool) l : (forall x, In x l -> same (f x) (f' x)) -> forall b, same (r_one f b l) (r_one f' b l).
Proof.
  induction l as [|x l IH]; intros H b; [intros s; reflexivity|]. cbn. assert (K : forall y, In y l -> same (f y) (f' y)) by (intros y Y; apply H; now right).
  apply same_bind; [apply H; now left|]. intros [|]; [destruct b; [intros s; reflexivity|]|]; apply IH; exact K.
Qed.
Lemma same_zip {A B} (f f' : A -> B -> RM bool) l : (forall x y, In x l -> same (f x y) (f' x y)) -> forall l', same (r_zip f l l') (r_zip f' l l').
Proof.
  induction l as [|x l IH]; intros H [|y l']; try (intros s; reflexivity). cbn. apply same_and; [apply H; now left|]. apply IH. intros z w Z. apply H. now right.
Qed.
Lemma same_with {A} g (m m' : RM A) : same m m' -> same (with_rguard g m) (with_rguard g m').
Proof. intros H s. unfold with_rguard. now rewrite H. Qed.
Lemma same_enter a b d m m' : same m m' -> same (r_enter a b d m) (r_enter a b d m').
Proof. intros H s. unfold r_enter. destruct d; [|apply H]. destruct s as [g|]; [|now apply same_with]. destruct (r_append g a b). destruct (r_hit r0); [reflexivity|now apply same_with]. Qed.
Lemma same_struct (f f' : nat -> gval -> RM bool) ad es m : (forall e y, In e es -> same (f (snd (fst e)) y) (f' (snd (fst e)) y)) -> forall oc,
  same (r_struct f ad es m oc) (r_struct f' ad es m oc).
Proof.
  induction es as [|[[k t] b] es IH]; intros H oc; [intros s; reflexivity|]. cbn. assert (K : forall e y, In e es -> same (f (snd (fst e)) y) (f' (snd (fst e)) y)) by (intros e y E; apply H; now right).
  destruct (get_with (veq k) m) as [ov|].
  - apply same_bind; [apply (H (k, t, b)); now left|]. intros [|]; [now apply IH|intros s; reflexivity].
  - destruct b; [intros s; reflexivity|now apply IH].
Qed.
Lemma same_tuple (f f' : nat -> gval -> RM bool) ts v l : (forall t y, In t ts -> same (f t y) (f' t y)) -> same (r_tuple f ts v l) (r_tuple f' ts v l).
Proof.
  intros H. unfold r_tuple. destruct v.
  - destruct (_ <? _)%nat; [intros s; reflexivity|]. destruct (nth_error ts _) as [t|] eqn:E; [|intros s; reflexivity]. apply same_and.
    + apply same_zip. intros x y X. apply H. rewrite <- (firstn_skipn (Nat.pred (length ts)) ts). apply in_or_app. now left.
    + apply same_all. intros y _. apply H. now apply nth_error_In in E.
  - destruct (_ =? _)%nat; [|intros s; reflexivity]. apply same_zip. intros x y X. now apply H.
Qed.

Section Agree.
Variable W : world.
Variable G : graph.
Variables T1 T2 : tgraph.
Variable S : nat -> Prop.
Hypothesis SE : forall p, S p -> nth_error T1 p = nth_error T2 p.
Hypothesis SC : forall p nd q, S p -> nth_error T1 p = Some nd -> In q (refers nd) -> S q.

Lemma same_node_any q : S q -> node_any T1 q = node_any T2 q.
Proof. intros H. unfold node_any. now rewrite SE. Qed.
Lemma same_step R R' nd x : (forall fn q y, S q -> same (R fn q y) (R' fn q y)) -> (forall q, In q (refers nd) -> S q) ->
  same (r_step W T1 G R nd x) (r_step W T2 G R' nd x).
Proof.
  intros H K. unfold r_step. destruct (view G x) as [w|]; [|intros s; reflexivity].
  destruct nd as [t|e a b|ts v|k v a b|ad es|ts|ts|ts|t|t]; cbn [refers] in K.
  - intros s; reflexivity.
  - destruct w as [v|[l|y|m]]; try (intros s; reflexivity). destruct (size_in a b (length_z l)); [|intros s; reflexivity].
    rewrite (same_node_any e) by (apply K; now left). destruct (node_any T2 e); [intros s; reflexivity|]. apply same_all. intros y _. apply H, K. now left.
  - destruct w as [u|[l|y|m]]; try (intros s; reflexivity). apply same_tuple. intros t y Ht. now apply H, K.
  - destruct w as [u|[l|y|m]]; try (intros s; reflexivity). destruct (size_in a b (length_z m)); [|intros s; reflexivity].
    assert (Sk : S k) by (apply K; now left). assert (Sv : S v) by (apply K; right; now left).
    rewrite (same_node_any k Sk), (same_node_any v Sv). destruct (node_any T2 k), (node_any T2 v); try (intros s; reflexivity); apply same_all; intros e _; try (now apply H).
    apply same_and; now apply H.
  - destruct w as [u|[l|y|m]]; try (intros s; reflexivity). apply same_struct. intros e y He. apply H, K. now apply (in_map (fun e => snd (fst e))).
  - apply same_all. intros t Ht. now apply H, K.
  - apply same_any. intros t Ht. now apply H, K.
  - apply same_one. intros t Ht. now apply H, K.
  - apply same_bind; [apply H, K; now left|]. intros b s. reflexivity.
  - destruct w as [u|[l|y|m]]; try (intros s; reflexivity). apply H, K. now left.
Qed.
Lemma same_rinst n : forall fn p x, S p -> same (rinst W T1 G n fn p x) (rinst W T2 G n fn p x).
Proof.
  induction n as [|n IH]; intros fn p x Sp; [intros s; reflexivity|]. cbn [rinst]. rewrite <- (SE p Sp). destruct (nth_error T1 p) as [nd|] eqn:E; [|intros s; reflexivity].
  assert (ST : same (r_step W T1 G (rinst W T1 G n) nd x) (r_step W T2 G (rinst W T2 G n) nd x)).
  { apply same_step; [exact IH|]. intros q. now apply (SC p nd). }
  destruct (deep_node nd); [destruct fn|].
  - now apply same_enter.
  - now apply same_with, IH.
  - now apply same_with.
Qed.
End Agree.

Lemma refers_points n q : In q (refers (as_type n)) -> In q (points_to n).
Proof. destruct n; cbn; tauto. Qed.
Lemma linked_agree types W G h n p x : resolved h p -> rec_instance W (types_of h) G n p x = rec_instance W (linked types h) G n p x.
Proof.
  intros R. unfold rec_instance. f_equal. apply (same_rinst W G (types_of h) (linked types h) (reaches h p)); [| |constructor].
  - intros q Q. unfold types_of, linked. rewrite !nth_error_map. destruct (nth_error h q) as [m|] eqn:E; [|reflexivity]. cbn. f_equal.
    pose proof (R q m Q E) as A. destruct m as [s|nd|t|l]; try reflexivity. destruct A. now exists s.
  - intros q nd k Q E K. unfold types_of in E. rewrite nth_error_map in E. destruct (nth_error h q) as [m|] eqn:Em; [|discriminate E]. injection E as <-.
    eapply reaches_step; [exact Q|exact Em|now apply refers_points].
Qed.
Lemma finite_with_parts G : with_parts G (finite G).
Proof. intros x y H P. destruct H as [x H]. now apply H. Qed.

Section After.
Variables (any : nat) (types : list Z -> option nat) (h0 : heap) (l : list nat).
Hypothesis OK : heap_ok types any h0.
Hypothesis NC : no_chains types h0.
Hypothesis L : Forall (in_heap h0) l.
Hypothesis AD : added types h0 l.
Hypothesis NS : no_sensitive h0.
Hypothesis OT : only_types h0.
Variables (n : nat) (rs : list nat) (h' : heap) (tr : list heap).
Hypothesis E : update any types n l h0 [] = HOk rs h' tr.

Theorem after_exact W G P p x m r : types_ok (linked types h') -> flat_alternatives (linked types h') -> values_ok G ->
  names_mean types W G (finite G) h0 P -> val_ok G x -> finite G x -> In p rs ->
  rec_instance W (types_of h') G m p x = Some r -> (r = true <-> P p x).
Proof.
  intros TO FA VO M VX FX Hp H. pose proof (update_resolved any types h0 l OK NC L n rs h' tr E AD NS) as R. rewrite Forall_forall in R.
  rewrite (linked_agree types) in H by (now apply R).
  apply (update_meaning any types h0 l OK NC L n rs h' tr E W G (finite G) P (finite_with_parts G)) in M.
  pose proof (linked_meaning any types h0 l OK NC L n rs h' tr E W G (finite G) P OT M) as M'.
  exact (rec_exact_finite W (linked types h') G P p x m r TO VO FA M' VX FX H).
Qed.
Theorem after_accepts W G P p x m r : types_ok (linked types h') -> positive (linked types h') -> values_ok G ->
  names_mean types W G (fun _ => True) h0 P -> val_ok G x -> P p x -> In p rs ->
  rec_instance W (types_of h') G m p x = Some r -> r = true.
Proof.
  intros TO PO VO M VX Px Hp H. pose proof (update_resolved any types h0 l OK NC L n rs h' tr E AD NS) as R. rewrite Forall_forall in R.
  rewrite (linked_agree types) in H by (now apply R).
  apply (update_meaning any types h0 l OK NC L n rs h' tr E W G (fun _ => True) P (fun _ _ _ _ => I)) in M.
  pose proof (linked_meaning any types h0 l OK NC L n rs h' tr E W G (fun _ => True) P OT M) as M'.
  assert (C : consistent W (linked types h') G P). { intros q nd y Eq Py. now apply (M' q nd y I Eq). }
  exact (rec_accepts W (linked types h') G P p x m r TO VO PO C VX Px H).
Qed.
End After.

(* references by name have a meaning *)
Lemma linked_names any types W G D h P : heap_ok types any h -> no_chains types h -> meaning W (linked types h) G D P -> names_mean types W G D h P.
Proof.
  intros OK NC M p m x Dx E.
  assert (K : forall q k, nth_error h q = Some k -> (P q x <-> holds W G P (linked_node types h k) x)).
  { intros q k Eq. apply M; [exact Dx|]. unfold linked. now rewrite nth_error_map, Eq. }
  destruct m as [s|nd|t|l]; try exact I; [|exact (K p _ E)].
  destruct (types s) as [q|] eqn:T; [|exact I]. rewrite (K p _ E). cbn [linked_node]. rewrite T. destruct OK as (_ & _ & NK). destruct (NK p s E) as (q' & T' & Iq).
  assert (q' = q) by congruence. subst q'. unfold in_heap in Iq. destruct (nth_error h q) as [k|] eqn:Eq; [|apply nth_error_None in Eq; lia].
  rewrite (K q k Eq). pose proof (NC s q k T Eq) as A. destruct k as [s'|nd|t|l]; try reflexivity. destruct A. now exists s'.
Qed.
Theorem names_have_meaning any types W G h : heap_ok types any h -> no_chains types h -> positive (linked types h) ->
  exists P, names_mean types W G (fun _ => True) h P.
Proof.
  intros OK NC Pos. destruct (rec_meaning W (linked types h) G Pos) as (P & M & _). exists P. now apply (linked_names any).
Qed.
