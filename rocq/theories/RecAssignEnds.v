(* That Assignable returns on types that refer to themselves. *)
From Coq Require Import ZArith List Bool Lia Relations.
From Verif Require Import Int64 HMap Data DataSpec Types TypesSpec SemProofs RegistryProofs Graph RecTypes RecTypesSpec RecAssign RecAssignSpec RecAssignProofs.
Import ListNotations.
Open Scope Z_scope.

Definition atot (J : option aguard -> Prop) (m : AM) : Prop := forall s, J s -> exists x s', m s = Some (x, s') /\ J s'.

Section Tot.
Variable J : option aguard -> Prop.
Lemma at_ret b : atot J (a_ret b).
Proof. intros s Js. exists b, s. auto. Qed.
Lemma at_bind m f : atot J m -> (forall b, atot J (f b)) -> atot J (a_bind m f).
Proof. intros H Hf s Js. destruct (H s Js) as (b & s1 & E & J1). unfold a_bind. rewrite E. now apply Hf. Qed.
Lemma at_and m n : atot J m -> atot J n -> atot J (a_and m n).
Proof. intros H H2. apply at_bind; [exact H|]. intros []; [exact H2|apply at_ret]. Qed.
Lemma at_or m n : atot J m -> atot J n -> atot J (a_or m n).
Proof. intros H H2. apply at_bind; [exact H|]. intros []; [apply at_ret|exact H2]. Qed.
Lemma at_all f l : (forall x, In x l -> atot J (f x)) -> atot J (a_all f l).
Proof. induction l as [|x l IH]; intros H; cbn [a_all]; [apply at_ret|]. apply at_and; [apply H; now left|]. apply IH. intros. apply H. now right. Qed.
Lemma at_any f l : (forall x, In x l -> atot J (f x)) -> atot J (a_any f l).
Proof. induction l as [|x l IH]; intros H; cbn [a_any]; [apply at_ret|]. apply at_or; [apply H; now left|]. apply IH. intros. apply H. now right. Qed.
Lemma at_tuples R n : forall ts os tv ov,
  (forall i t o, nth_or ts tv i = Some t -> nth_or os ov i = Some o -> atot J (R t o)) -> atot J (a_tuples R n ts os tv ov).
Proof.
  induction n as [|n IH]; intros ts os tv ov H; cbn [a_tuples]; [apply at_ret|]. rewrite <- !nth_or_0.
  destruct (nth_or ts tv 0) as [t|] eqn:E1; [|apply at_ret]. destruct (nth_or os ov 0) as [o|] eqn:E2; [|apply at_ret].
  apply at_and; [now apply (H 0%nat)|]. apply IH. intros i t' o'. rewrite !nth_or_S. apply H.
Qed.
Lemma at_struct R ad oad os es : (forall e o, In e es -> In o os -> atot J (R (snd (fst e)) (snd (fst o)))) -> forall oc, atot J (a_struct R ad es oad os oc).
Proof.
  induction es as [|[[k t] rq] es IH]; intros H oc; cbn [a_struct]; [apply at_ret|].
  assert (IH' : forall oc, atot J (a_struct R ad es oad os oc)) by (apply IH; intros; apply H; [now right|assumption]).
  destruct (a_find k os) as [[o orq]|] eqn:F.
  - destruct (rq && negb orq); [apply at_ret|]. apply find_some in F as (k' & I & _). apply at_bind; [apply (H (k, t, rq) (k', o, orq)); [now left|exact I]|].
    intros []; [apply IH'|apply at_ret].
  - destruct (rq || oad); [apply at_ret|apply IH'].
Qed.
End Tot.
Lemma at_with (J K : option aguard -> Prop) f m : (forall s, J s -> K (f s)) -> atot K m -> atot J (with_aguard f m).
Proof. intros HK H s Js. destruct (H (f s) (HK s Js)) as (x & s' & E & _). unfold with_aguard. rewrite E. eauto. Qed.

Section Graphs.
Variable W : world.
Variable T : tgraph.
Variable any : nat.
Hypothesis TOK : types_ok T.
Hypothesis ANY : nth_error T any = Some (NLeaf TAny).
Hypothesis FRAG : assign_types T.
Notation at_node := (at_node T).
Notation a_step := (a_step W any).
Notation rasgn := (rasgn W T any).
Notation asks := (asks any).

Definition swaps (J : option aguard -> Prop) : Prop := forall s, J s -> J (option_map g_swap s).

Lemma step_total J R a na b nb : swaps J -> at_node a na -> at_node b nb ->
  (forall a' b', asks a na b nb a' b' -> atot J (R true a' b')) ->
  (forall e lo hi o lo' hi', na = NArr e lo hi -> nb = NArr o lo' hi' -> atot J (R false e o)) ->
  (forall os o, nb = NAny os -> In o os -> atot J (R true a o)) ->
  atot J (a_step R a na b nb).
Proof.
  intros SW A B HP HE HC. destruct FRAG as (F1 & F2 & F3).
  assert (C : atot J (a_check R a nb)).
  { destruct nb as [| | | | | |os| | |]; cbn [a_check]; try apply at_ret. apply (at_with J J); [exact SW|].
    apply at_and; [apply at_all; intros o I; apply (HC os o eq_refl I)|apply at_ret]. }
  destruct na as [t|e lo hi|ts v|k v lo hi|ad es|ts|ts|ts|t|t]; cbn [RecAssign.a_step]; try (now destruct (F1 a _ A)).
  - destruct nb; [apply at_ret|..]; destruct t; try exact C; apply at_ret.
  - destruct nb as [|o lo' hi'|os w| | | | | | |]; try exact C.
    + destruct (_ && _); [eapply HE; reflexivity|apply at_ret].
    + now destruct (F2 a b e lo hi os w).
  - destruct nb as [|e lo hi|os w| | | | | | |]; try exact C.
    + unfold a_tuple_array. destruct (_ && _); [|apply at_ret].
      assert (Sat : forall t, In t ts -> atot J (R true t e)) by (intros t I; apply HP; apply ask_parts; auto; now left).
      apply at_and.
      * apply at_all. intros t I. apply Sat. unfold t_head in I. destruct v; [now apply In_firstn in I|exact I].
      * destruct (t_rest ts v) as [t|] eqn:E; [|apply at_ret]. apply Sat. unfold t_rest in E. destruct v; [now apply nth_error_In in E|discriminate].
    + unfold a_tuple_tuple. destruct (_ || _); [apply at_ret|]. apply at_tuples. intros i t o E1 E2. apply position_iff in E1, E2.
      apply HP. apply ask_parts; auto; cbn [refers]; eapply position_in; eassumption.
  - destruct nb as [u| | |k' v' lo' hi'|oad os| | | | |]; try exact C.
    + destruct u; try exact C. destruct (_ && _); [|apply at_ret]. apply at_and; apply HP; eapply ask_any; try reflexivity; tauto.
    + destruct (_ && _); [|apply at_ret]. apply at_and; apply HP; apply ask_parts; cbn; auto.
    + now destruct (F3 a b k v lo hi oad os).
  - destruct nb as [| | | |oad os| | | | |]; try exact C. apply at_struct. intros e o I1 I2. apply HP. apply ask_parts; auto; cbn [refers]; apply in_map_iff; eauto.
  - destruct ts as [|t ts]; [apply at_ret|]. apply at_or; [|exact C]. apply at_any. intros x I. apply HP. eapply ask_choice; eauto.
  - destruct nb; try exact C. apply HP. apply ask_parts; cbn; auto.
Qed.

Lemma refers_node p nd q : at_node p nd -> In q (refers nd) -> exists nq, at_node q nq.
Proof.
  intros E I. pose proof (proj1 (node_type_ok T TOK p nd E)) as O. rewrite Forall_forall in O. specialize (O q I).
  destruct (nth_error T q) as [nq|] eqn:Q; [eauto|]. apply nth_error_None in Q. lia.
Qed.

(* ---------- a type without types on one side ---------- *)

Variable c : nat -> nat.
Variable C : nat.
Hypothesis CR : forall p nd q, at_node p nd -> In q (same_value nd) -> (c q < c p)%nat.
Hypothesis CB : forall p nd, at_node p nd -> (c p <= C)%nat.

Lemma left_leaf n : forall fn a b t nb, at_node a (NLeaf t) -> at_node b nb -> (c b < n)%nat -> forall J, swaps J -> atot J (rasgn n fn a b).
Proof.
  induction n as [|n IH]; intros fn a b t nb A B Hn J SW; [lia|]. cbn [RecAssign.rasgn]. pose proof A as A'. pose proof B as B'. unfold RecAssignSpec.at_node in A', B'. rewrite A', B'. cbn [deep_type].
  assert (St : atot anything (a_step (rasgn n) a (NLeaf t) b nb)).
  { apply step_total; auto; [now intros s| | |].
    - intros a' b' [a1 b1 D|ts a1 E|k v lo hi a1 E]; discriminate.
    - discriminate.
    - intros os o -> I. destruct (refers_node b (NAny os) o B I) as [no O]. apply (IH true a o t no A O); [|now intros s]. pose proof (CR b (NAny os) o B I). lia. }
  destruct fn; [destruct (same_addr T a b); [apply at_ret|]|]; apply (at_with J anything); auto; now intros.
Qed.

Definition is_tmap (nd : rnode) : bool := match nd with NLeaf TMap => true | _ => false end.
Lemma right_leaf n : forall a b na u, at_node a na -> at_node b (NLeaf u) -> (c a + c b + (if is_tmap (NLeaf u) then 2 * C + 1 else 0) < n)%nat -> forall J, swaps J -> atot J (rasgn n true a b).
Proof.
  induction n as [|n IH]; intros a b na u A B Hn J SW; [lia|].
  destruct (deep_type na) eqn:D.
  2:{ destruct na; try discriminate; [apply (left_leaf (S n) true a b t _ A B); [lia|exact SW]|]. destruct FRAG as [F _]. destruct (F a _ A). }
  cbn [RecAssign.rasgn]. pose proof A as A'. pose proof B as B'. unfold RecAssignSpec.at_node in A', B'. rewrite A', B', D. destruct (same_addr T a b); [apply at_ret|]. cbn [deep_type a_enter].
  change (a_enter a b false (a_step (rasgn n) a na b (NLeaf u))) with (a_step (rasgn n) a na b (NLeaf u)).
  apply step_total; auto.
  - intros a' b' [a1 b1 D1 D2|ts a1 -> I|k v lo hi a1 -> E2 I]; [discriminate| |].
    + destruct (refers_node a (NAny ts) a1 A I) as [n1 O]. apply (IH a1 b n1 u O B); [|exact SW]. pose proof (CR a (NAny ts) a1 A I). lia.
    + injection E2 as ->. destruct (refers_node a _ a1 A) as [n1 O]; [destruct I; subst; cbn; auto|]. apply (IH a1 any n1 TAny O ANY); [|exact SW].
      pose proof (CB a1 n1 O). pose proof (CB any _ ANY). cbn [is_tmap] in *. lia.
  - discriminate.
  - discriminate.
Qed.

(* ---------- both may refer to themselves ---------- *)

Variable rank : nat -> nat.
Hypothesis RR : forall p nd q, at_node p nd -> In q (refers nd) -> (rank q <= rank p)%nat /\ match nd with NArr _ _ _ => (rank q < rank p)%nat | _ => True end.

Definition N := length T.
Definition good (s : option aguard) : Prop :=
  match s with None => True | Some g => NoDup (l_seen g) /\ NoDup (r_seen g) /\ incl (l_seen g) (seq 0 N) /\ incl (r_seen g) (seq 0 N) end.
Definition room (s : option aguard) : nat := match s with None => 2 * N + 1 | Some g => (N - length (l_seen g)) + (N - length (r_seen g)) end.
Definition J (k : nat) (s : option aguard) : Prop := good s /\ (room s <= k)%nat.

Lemma J_swaps k : swaps (J k).
Proof. intros [g|] [G R]; [|now split]. cbn in *. destruct G as (A & B & D & E). split; [cbn; auto|cbn; lia]. Qed.
Lemma J_grow k k' s : (k <= k')%nat -> J k s -> J k' s.
Proof. intros L [G R]. split; [exact G|lia]. Qed.

Lemma seen_bound l : NoDup l -> incl l (seq 0 N) -> (length l <= N)%nat.
Proof. intros A B. apply NoDup_incl_length in B; [|exact A]. now rewrite seq_length in B. Qed.
Lemma seen_more l p : NoDup l -> incl l (seq 0 N) -> (p < N)%nat -> existsb (Nat.eqb p) l = false -> NoDup (l ++ [p]) /\ incl (l ++ [p]) (seq 0 N) /\ (length l < N)%nat.
Proof.
  intros A B P E. assert (NI : ~ In p l). { intros I. assert (X : existsb (Nat.eqb p) l = true) by (apply existsb_exists; exists p; split; [exact I|apply Nat.eqb_refl]). congruence. }
  assert (ND : NoDup (l ++ [p])) by (apply RegistryProofs.NoDup_app_comm_one; [exact A|exact NI]).
  assert (IC : incl (l ++ [p]) (seq 0 N)) by (intros q I; apply in_app_iff in I as [I|[<-|[]]]; [auto|apply in_seq; lia]).
  split; [exact ND|]. split; [exact IC|]. pose proof (seen_bound _ ND IC) as Q. rewrite app_length in Q. cbn in Q. lia.
Qed.

Lemma append_room g a b g' cg k : (a < N)%nat -> (b < N)%nat -> J k (Some g) -> g_append g a b = (g', cg) ->
  J k (Some g') /\ (g_hit cg = true \/ exists k', k = S k' /\ J k' (Some cg)).
Proof.
  intros Ha Hb [(G1 & G2 & G3 & G4) R]. unfold g_append. intros [= <- <-]. split; [split; [cbn; auto|exact R]|].
  unfold g_hit. cbn [in_l in_r]. cbn [room l_seen r_seen] in R.
  destruct (in_l g || existsb (Nat.eqb a) (l_seen g)) eqn:E1; destruct (in_r g || existsb (Nat.eqb b) (r_seen g)) eqn:E2; [now left|right..].
  - apply orb_false_iff in E2 as [_ E2]. destruct (seen_more _ b G2 G4 Hb E2) as (X1 & X2 & X3). exists (Nat.pred k). split; [lia|]. split; [cbn; auto|].
    cbn. rewrite app_length. cbn. lia.
  - apply orb_false_iff in E1 as [_ E1]. destruct (seen_more _ a G1 G3 Ha E1) as (X1 & X2 & X3). exists (Nat.pred k). split; [lia|]. split; [cbn; auto|].
    cbn. rewrite app_length. cbn. lia.
  - apply orb_false_iff in E1 as [_ E1]. apply orb_false_iff in E2 as [_ E2]. destruct (seen_more _ a G1 G3 Ha E1) as (X1 & X2 & X3). destruct (seen_more _ b G2 G4 Hb E2) as (Y1 & Y2 & Y3).
    exists (Nat.pred k). split; [lia|]. split; [cbn; auto|]. cbn. rewrite !app_length. cbn. lia.
Qed.

Definition fuel (a b k : nat) : nat := (rank a + rank b) * (2 * N + 3) + k + (4 * C + 3).

Lemma fuel_le a b a' b' k : (rank a' <= rank a)%nat -> (rank b' <= rank b)%nat -> (fuel a' b' k <= fuel a b k)%nat.
Proof. intros X Y. unfold fuel. pose proof (Nat.mul_le_mono_r (rank a' + rank b') (rank a + rank b) (2 * N + 3)). lia. Qed.
Lemma fuel_lt a b a' b' k : (rank a' < rank a)%nat -> (rank b' < rank b)%nat -> (fuel a' b' (2 * N + 1) + 2 <= fuel a b k)%nat.
Proof. intros X Y. unfold fuel. pose proof (Nat.mul_le_mono_r (S (rank a' + rank b')) (rank a + rank b) (2 * N + 3)) as M. cbn [Nat.mul] in M. lia. Qed.
Lemma fuel_S a b k : fuel a b (S k) = S (fuel a b k).
Proof. unfold fuel. lia. Qed.

Lemma function_ends n : forall a b na nb k, at_node a na -> at_node b nb -> (fuel a b k <= n)%nat -> atot (J k) (rasgn n true a b).
Proof.
  induction n as [n IH] using (well_founded_induction lt_wf). intros a b na nb k A B Hn.
  assert (Lf : (4 * C + 3 <= n)%nat) by (unfold fuel in Hn; lia). pose proof (CB a na A) as Ca. pose proof (CB b nb B) as Cb.
  destruct (deep_type na) eqn:Da.
  2:{ destruct na; try discriminate; [apply (left_leaf n true a b t nb A B); [lia|apply J_swaps]|]. destruct FRAG as [F _]. destruct (F a _ A). }
  destruct (deep_type nb) eqn:Db.
  2:{ destruct nb; try discriminate; [|destruct FRAG as [F _]; destruct (F b _ B)]. apply (right_leaf n a b na t A B); [|apply J_swaps]. destruct (is_tmap _); lia. }
  destruct n as [|n]; [lia|]. cbn [RecAssign.rasgn]. pose proof A as A'. pose proof B as B'. unfold RecAssignSpec.at_node in A', B'. rewrite A', B', Da, Db. destruct (same_addr T a b); [apply at_ret|].
  assert (Ha : (a < N)%nat) by (apply nth_error_Some; congruence). assert (Hb : (b < N)%nat) by (apply nth_error_Some; congruence).
  assert (St : forall k', (fuel a b k' <= n)%nat -> atot (J k') (a_step (rasgn n) a na b nb)).
  { intros k' Hk. apply step_total; auto; [apply J_swaps| | |].
    - intros a' b' [a1 b1 _ _ I1 I2|ts a1 -> I1|kt vt lo hi a1 -> -> I1]; [| |discriminate].
      + destruct (refers_node a na a1 A I1) as [n1 O1]. destruct (refers_node b nb b1 B I2) as [n2 O2].
        apply (IH n (Nat.lt_succ_diag_r n) a1 b1 n1 n2 k' O1 O2). pose proof (fuel_le a b a1 b1 k' (proj1 (RR a na a1 A I1)) (proj1 (RR b nb b1 B I2))). lia.
      + destruct (refers_node a _ a1 A I1) as [n1 O1]. apply (IH n (Nat.lt_succ_diag_r n) a1 b n1 nb k' O1 B).
        pose proof (fuel_le a b a1 b k' (proj1 (RR a _ a1 A I1)) (le_n _)). lia.
    - intros e lo hi o lo' hi' -> ->. destruct (refers_node a _ e A) as [n1 O1]; [now left|]. destruct (refers_node b _ o B) as [n2 O2]; [now left|].
      pose proof (proj2 (RR a _ e A (or_introl eq_refl))) as R1. pose proof (proj2 (RR b _ o B (or_introl eq_refl))) as R2. cbv beta iota in R1, R2.
      pose proof (fuel_lt a b e o k' R1 R2) as FL. pose proof (CB e n1 O1). pose proof (CB o n2 O2).
      destruct n as [|n]; [lia|].
      destruct (deep_type n1) eqn:D1.
      + cbn [RecAssign.rasgn]. pose proof O1 as O1'. pose proof O2 as O2'. unfold RecAssignSpec.at_node in O1', O2'. rewrite O1', O2', D1. apply (at_with (J k') (J (2 * N + 1))); [intros s _; split; [exact I|cbn; lia]|].
        apply (IH n ltac:(lia) e o n1 n2 (2 * N + 1)%nat O1 O2). lia.
      + destruct n1; try discriminate D1; [|destruct FRAG as [F _]; destruct (F e _ O1)]. apply (left_leaf (S n) false e o t n2 O1 O2); [|apply J_swaps]. unfold fuel in FL. lia.
    - intros os o -> I1. destruct (refers_node b _ o B I1) as [n1 O1]. apply (IH n (Nat.lt_succ_diag_r n) a o na n1 k' A O1).
      pose proof (fuel_le a b a o k' (le_n _) (proj1 (RR b _ o B I1))). lia. }
  intros s Js. unfold a_enter. destruct s as [g|].
  - destruct (g_append g a b) as [g' cg] eqn:Ap. destruct (append_room g a b g' cg k Ha Hb Js Ap) as [J' [Hit|(k' & -> & Jc)]]; [rewrite Hit; exists true, (Some g'); auto|].
    destruct (g_hit cg); [exists true, (Some g'); auto|]. rewrite fuel_S in Hn.
    exact (at_with (J (S k')) (J k') _ _ (fun _ _ => Jc) (St k' ltac:(lia)) (Some g') J').
  - destruct Js as [_ R]. cbn [room] in R. destruct k as [|k]; [lia|]. rewrite fuel_S in Hn.
    apply (at_with (J (S k)) (J k)); [|apply St; lia|split; [exact I|exact R]]. intros _ _. split.
    + cbn. split; [repeat constructor; intros []|]. split; [repeat constructor; intros []|]. split; intros q [<-|[]]; apply in_seq; lia.
    + cbn. lia.
Qed.
End Graphs.

(* a bound for the ranks *)
Lemma rank_bound (T : tgraph) (c : nat -> nat) : exists C, forall p nd, nth_error T p = Some nd -> (c p <= C)%nat.
Proof.
  exists (list_max (map c (seq 0 (length T)))). intros p nd E. assert (L : (p < length T)%nat) by (apply nth_error_Some; congruence).
  assert (F := proj1 (list_max_le (map c (seq 0 (length T))) _) (le_n _)). rewrite Forall_forall in F. apply F. apply in_map. apply in_seq. lia.
Qed.


(* ---------- a higher bound gives the same outcome ---------- *)

Definition more (m m' : AM) : Prop := forall s r, m s = Some r -> m' s = Some r.
Lemma more_refl m : more m m.
Proof. now intros s r. Qed.
Lemma more_bind m m' f f' : more m m' -> (forall b, more (f b) (f' b)) -> more (a_bind m f) (a_bind m' f').
Proof. intros H Hf s r E. unfold a_bind in *. destruct (m s) as [[b s1]|] eqn:M; [|discriminate]. rewrite (H _ _ M). now apply Hf. Qed.
Lemma more_and m m' n n' : more m m' -> more n n' -> more (a_and m n) (a_and m' n').
Proof. intros H H2. apply more_bind; [exact H|]. intros []; [exact H2|apply more_refl]. Qed.
Lemma more_or m m' n n' : more m m' -> more n n' -> more (a_or m n) (a_or m' n').
Proof. intros H H2. apply more_bind; [exact H|]. intros []; [apply more_refl|exact H2]. Qed.
Lemma more_all f f' l : (forall x, more (f x) (f' x)) -> more (a_all f l) (a_all f' l).
Proof. intros H. induction l; cbn [a_all]; [apply more_refl|]. now apply more_and. Qed.
Lemma more_any f f' l : (forall x, more (f x) (f' x)) -> more (a_any f l) (a_any f' l).
Proof. intros H. induction l; cbn [a_any]; [apply more_refl|]. now apply more_or. Qed.
Lemma more_with g m m' : more m m' -> more (with_aguard g m) (with_aguard g m').
Proof. intros H s r E. unfold with_aguard in *. destruct (m (g s)) as [[b s1]|] eqn:M; [|discriminate]. now rewrite (H _ _ M). Qed.
Lemma more_enter a b d m m' : more m m' -> more (a_enter a b d m) (a_enter a b d m').
Proof.
  intros H s r E. unfold a_enter in *. destruct d; [|now apply H]. destruct s as [g|]; [|now apply (more_with _ m m')].
  destruct (g_append g a b) as [g' c]. destruct (g_hit c); [exact E|]. now apply (more_with _ m m').
Qed.
Lemma more_tuples R R' n : (forall t o, more (R t o) (R' t o)) -> forall ts os tv ov, more (a_tuples R n ts os tv ov) (a_tuples R' n ts os tv ov).
Proof.
  intros H. induction n as [|n IH]; intros ts os tv ov; cbn [a_tuples]; [apply more_refl|]. rewrite <- !nth_or_0.
  destruct (nth_or ts tv 0); [|apply more_refl]. destruct (nth_or os ov 0); [|apply more_refl]. apply more_and; auto.
Qed.
Lemma more_struct R R' ad oad os es : (forall t o, more (R t o) (R' t o)) -> forall oc, more (a_struct R ad es oad os oc) (a_struct R' ad es oad os oc).
Proof.
  intros H. induction es as [|[[k t] rq] es IH]; intros oc; cbn [a_struct]; [apply more_refl|]. destruct (a_find k os) as [[o orq]|].
  - destruct (_ && _); [apply more_refl|]. apply more_bind; [apply H|]. intros []; [apply IH|apply more_refl].
  - destruct (_ || _); [apply more_refl|apply IH].
Qed.
Lemma more_step W any R R' a na b nb : (forall fn a b, more (R fn a b) (R' fn a b)) -> more (a_step W any R a na b nb) (a_step W any R' a na b nb).
Proof.
  intros H. assert (C : more (a_check R a nb) (a_check R' a nb)).
  { destruct nb; cbn [a_check]; try apply more_refl. apply more_with. apply more_and; [apply more_all; auto|apply more_refl]. }
  destruct na as [t|e lo hi|ts v|k v lo hi|ad es|ts|ts|ts|t|t]; cbn [RecAssign.a_step]; try apply more_refl.
  - destruct nb; [apply more_refl|..]; destruct t; try exact C; apply more_refl.
  - destruct nb; try exact C; [|apply more_refl]. destruct (_ && _); [apply H|apply more_refl].
  - destruct nb; try exact C.
    + unfold a_tuple_array. destruct (_ && _); [|apply more_refl]. apply more_and; [apply more_all; auto|]. destruct (t_rest ts v); [apply H|apply more_refl].
    + unfold a_tuple_tuple. destruct (_ || _); [apply more_refl|]. apply more_tuples; auto.
  - destruct nb as [u| | | | | | | | |]; try exact C; try apply more_refl.
    + destruct u; try exact C. destruct (_ && _); [|apply more_refl]. apply more_and; apply H.
    + destruct (_ && _); [|apply more_refl]. apply more_and; apply H.
  - destruct nb; try exact C. apply more_struct; auto.
  - destruct ts; [apply more_refl|]. apply more_or; [apply more_any; auto|exact C].
  - destruct nb; try exact C. apply H.
Qed.
Lemma rasgn_S W T any n fn a b : rasgn W T any (S n) fn a b =
  match nth_error T a, nth_error T b with
  | Some na, Some nb =>
      if fn then
        if same_addr T a b then a_ret true
        else if deep_type na then a_enter a b (deep_type nb) (a_step W any (rasgn W T any n) a na b nb)
        else with_aguard (fun _ => None) (a_step W any (rasgn W T any n) a na b nb)
      else if deep_type na then with_aguard (fun _ => None) (rasgn W T any n true a b)
      else with_aguard (fun _ => None) (a_step W any (rasgn W T any n) a na b nb)
  | _, _ => a_fail
  end.
Proof. reflexivity. Qed.
Lemma more_rasgn W T any n : forall fn a b, more (rasgn W T any n fn a b) (rasgn W T any (S n) fn a b).
Proof.
  induction n as [|n IH]; intros fn a b; [intros s r E; discriminate|].
  rewrite (rasgn_S W T any (S n)), (rasgn_S W T any n). destruct (nth_error T a) as [na|]; [|apply more_refl]. destruct (nth_error T b) as [nb|]; [|apply more_refl].
  destruct fn.
  - destruct (same_addr T a b); [apply more_refl|]. destruct (deep_type na); [apply more_enter|apply more_with]; apply more_step; exact IH.
  - destruct (deep_type na); apply more_with; [apply IH|apply more_step; exact IH].
Qed.
Lemma more_rec W T any n m a b x : (n <= m)%nat -> rec_assignable W T any n a b = Some x -> rec_assignable W T any m a b = Some x.
Proof.
  intros L. induction L as [|m L IH]; [auto|]. intros E. specialize (IH E). unfold rec_assignable in *.
  destruct (rasgn W T any m false a b None) as [[y s]|] eqn:M; [|discriminate]. rewrite (more_rasgn W T any m false a b None _ M). exact IH.
Qed.

Theorem assignable_returns W T any : types_ok T -> nth_error T any = Some (NLeaf TAny) -> assign_types T -> contractive T -> no_array_loop T ->
  forall a b, (a < length T)%nat -> (b < length T)%nat -> exists x N, forall n, (N <= n)%nat -> rec_assignable W T any n a b = Some x.
Proof.
  intros TOK ANY FR [c CR] [rank RR] a b Ha Hb. destruct (rank_bound T c) as [C CB].
  destruct (nth_error T a) as [na|] eqn:A; [|apply nth_error_None in A; lia]. destruct (nth_error T b) as [nb|] eqn:B; [|apply nth_error_None in B; lia].
  set (n := fuel T C rank a b (2 * N T + 1)).
  assert (Ca : (c b <= C)%nat) by exact (CB b nb B).
  assert (Lf : (4 * C + 3 <= n)%nat) by (unfold n, fuel; lia).
  assert (E : exists x, rec_assignable W T any (S n) a b = Some x).
  { unfold rec_assignable. cbn [rasgn]. rewrite A, B. destruct (deep_type na) eqn:D.
    - destruct (function_ends W T any TOK ANY FR c C CR CB rank RR n a b na nb (2 * N T + 1) A B (le_n _) None) as (x & s' & E & _); [split; [exact I|cbn; lia]|].
      unfold with_aguard. rewrite E. cbn. eauto.
    - destruct na; try discriminate D; [|destruct FR as [F _]; destruct (F a _ A)].
      destruct (left_leaf W T any TOK FR c CR (S n) false a b t nb A B ltac:(lia) anything (fun s _ => I) None I) as (x & s' & E & _).
      cbn [rasgn] in E. rewrite A, B in E. cbn [deep_type] in E. rewrite E. cbn. eauto. }
  destruct E as [x E]. exists x, (S n). intros m L. now apply (more_rec W T any (S n) m).
Qed.
