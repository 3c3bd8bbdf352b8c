(* Freezing and copying objects: invariants of all histories. *)
From Coq Require Import ZArith List Bool Arith Lia.
From Verif Require Import HMap Objects ObjectsSpec.
Import ListNotations.
Local Open Scope nat_scope.

(* ---------- heaps ---------- *)

Lemma nth_lt {A} (l : list A) i x : nth_error l i = Some x -> i < length l.
Proof. intros H. apply nth_error_Some. congruence. Qed.
Lemma nth_old {A} (h l : list A) i x : nth_error h i = Some x -> nth_error (h ++ l) i = Some x.
Proof. intros H. rewrite nth_error_app1; [exact H|]. eapply nth_lt; eauto. Qed.
Lemma nth_split {A} (h l : list A) i x : nth_error (h ++ l) i = Some x ->
  nth_error h i = Some x \/ exists j, i = length h + j /\ nth_error l j = Some x.
Proof.
  destruct (Nat.lt_ge_cases i (length h)) as [L|L].
  - rewrite nth_error_app1 by exact L. now left.
  - rewrite nth_error_app2 by exact L. intros H. right. exists (i - length h). split; [lia|exact H].
Qed.
Lemma nth_new {A} (h l : list A) j : nth_error (h ++ l) (length h + j) = nth_error l j.
Proof. rewrite nth_error_app2 by lia. f_equal. lia. Qed.
Lemma upd_len {A} (h : list A) i x : length (upd h i x) = length h.
Proof. revert i. induction h as [|y h IH]; intros [|i]; cbn; auto. Qed.
Lemma upd_at {A} (l : list A) i j x y : nth_error l i = Some y -> nth_error (upd l i x) j = if Nat.eqb j i then Some x else nth_error l j.
Proof. revert i j. induction l as [|z l IH]; intros [|i] [|j] H; cbn in *; try discriminate; auto. Qed.
Lemma upd_app {A} (h l : list A) i x y : nth_error h i = Some y -> upd (h ++ l) i x = upd h i x ++ l.
Proof. revert i. induction h as [|z h IH]; intros [|i] H; cbn in *; try discriminate; [reflexivity|]. f_equal. now apply IH. Qed.

Definition okval (h : heap) (v : val) : Prop :=
  match v with
  | Imm _ => True
  | Ptr a => match nth_error h a with Some (Arr _ _) | Some (Map _ _) | Some (Sens _) | Some (Bin _ _) => True | _ => False end
  end.
Definition okobj (h : heap) (a : nat) (o : obj) : Prop :=
  match o with
  | Arr _ l => Forall (okval h) l
  | Map _ ns => Forall (fun n => exists k w, nth_error h n = Some (Node k w)) ns
  | Node k w => okval h k /\ okval h w
  | Sens w => okval h w /\ forall b, w = Ptr b -> b < a
  | Bin _ b => exists bs, nth_error h b = Some (Bytes bs)
  | Bytes _ => True
  end.
Definition same_kind (o o' : obj) : Prop :=
  match o, o' with
  | Arr _ _, Arr _ _ | Map _ _, Map _ _ | Node _ _, Node _ _ | Sens _, Sens _ | Bin _ _, Bin _ _ | Bytes _, Bytes _ => True
  | _, _ => False
  end.
Definition kinds (h h' : heap) : Prop := forall a o, nth_error h a = Some o -> exists o', nth_error h' a = Some o' /\ same_kind o o'.

Lemma same_kind_refl o : same_kind o o.
Proof. now destruct o. Qed.
Lemma kinds_refl h : kinds h h.
Proof. intros a o H. exists o. split; [exact H|apply same_kind_refl]. Qed.
Lemma kinds_app h l : kinds h (h ++ l).
Proof. intros a o H. exists o. split; [now apply nth_old|apply same_kind_refl]. Qed.
Lemma kinds_upd h a o o' : nth_error h a = Some o -> same_kind o o' -> kinds h (upd h a o').
Proof.
  intros H K b x Hb. rewrite (upd_at _ _ _ _ _ H). destruct (Nat.eqb_spec b a) as [->|]; [|exists x; split; [exact Hb|apply same_kind_refl]].
  exists o'. split; [reflexivity|]. congruence.
Qed.
Lemma kinds_trans h1 h2 h3 : kinds h1 h2 -> kinds h2 h3 -> kinds h1 h3.
Proof.
  intros A B a o H. destruct (A a o H) as (o1 & H1 & K1). destruct (B a o1 H1) as (o2 & H2 & K2). exists o2. split; [exact H2|].
  destruct o, o1, o2; cbn in *; auto.
Qed.
Lemma okval_kinds h h' v : kinds h h' -> okval h v -> okval h' v.
Proof.
  intros K. destruct v as [z|a]; cbn; [auto|]. destruct (nth_error h a) as [o|] eqn:E; [|contradiction].
  destruct (K a o E) as (o' & -> & S). destruct o, o'; cbn in S; auto.
Qed.
Lemma okvals_kinds h h' l : kinds h h' -> Forall (okval h) l -> Forall (okval h') l.
Proof. intros K. apply Forall_impl. intros v. now apply okval_kinds. Qed.
Lemma okobj_kinds h h' a o : kinds h h' -> okobj h a o -> okobj h' a o.
Proof.
  intros K. destruct o as [f l|f ns|k w|w|f b|bs]; cbn; auto.
  - now apply okvals_kinds.
  - apply Forall_impl. intros n (k & w & E). destruct (K _ _ E) as (o' & E' & S). destruct o'; cbn in S; try contradiction. eauto.
  - intros [A B]. split; now apply (okval_kinds h).
  - intros [A B]. split; [now apply (okval_kinds h)|exact B].
  - intros (bs & E). destruct (K _ _ E) as (o' & E' & S). destruct o'; cbn in S; try contradiction. eauto.
Qed.

(* what a caller that has an object can get from it *)
Definition acc (o : obj) : list val := match o with Bin true _ => [] | _ => fields o end.
Definition mutable (o : obj) : Prop :=
  match o with Arr f _ | Map f _ | Bin f _ => f = false | Bytes _ => True | Node _ _ | Sens _ => False end.

(* ---------- what is frozen ---------- *)

Inductive frz (h : heap) : val -> Prop :=
| frz_imm z : frz h (Imm z)
| frz_arr a l : nth_error h a = Some (Arr true l) -> frz h (Ptr a)
| frz_map a ns : nth_error h a = Some (Map true ns) -> frz h (Ptr a)
| frz_bin a b : nth_error h a = Some (Bin true b) -> frz h (Ptr a)
| frz_sens a w : nth_error h a = Some (Sens w) -> frz h w -> frz h (Ptr a).

Definition still (o : obj) : Prop := match o with Arr f _ | Map f _ | Bin f _ => f = true | Sens _ => True | _ => False end.
Definition keeps_still (h h' : heap) : Prop := forall a o, nth_error h a = Some o -> still o -> nth_error h' a = Some o.
Lemma frz_keep h h' v : keeps_still h h' -> frz h v -> frz h' v.
Proof.
  intros K H. induction H as [z|a l E|a ns E|a b E|a w E F IH].
  - constructor.
  - eapply frz_arr. apply K; [exact E|reflexivity].
  - eapply frz_map. apply K; [exact E|reflexivity].
  - eapply frz_bin. apply K; [exact E|reflexivity].
  - eapply frz_sens; [|exact IH]. apply K; [exact E|exact Logic.I].
Qed.
Lemma frzs_keep h h' l : keeps_still h h' -> Forall (frz h) l -> Forall (frz h') l.
Proof. intros K. apply Forall_impl. intros v. now apply frz_keep. Qed.
Lemma still_app h l : keeps_still h (h ++ l).
Proof. intros a o H _. now apply nth_old. Qed.
Lemma still_upd h a o o' : nth_error h a = Some o -> ~ still o -> keeps_still h (upd h a o').
Proof. intros H N b x Hb Sx. rewrite (upd_at _ _ _ _ _ H). destruct (Nat.eqb_spec b a) as [->|]; [congruence|exact Hb]. Qed.
Lemma still_trans h1 h2 h3 : keeps_still h1 h2 -> keeps_still h2 h3 -> keeps_still h1 h3.
Proof. intros A B a o H S. apply B; auto. Qed.

(* a frozen container contains frozen values, and keys are frozen *)
Definition sobj (h : heap) (o : obj) : Prop :=
  match o with
  | Arr true l => Forall (frz h) l
  | Map f ns => forall n k w, In n ns -> nth_error h n = Some (Node k w) -> frz h k /\ (f = true -> frz h w)
  | _ => True
  end.
(* except for the containers in G *)
Definition sound (G : nat -> Prop) (h : heap) : Prop := forall a o, nth_error h a = Some o -> ~ G a -> sobj h o.
Definition nobody : nat -> Prop := fun _ => False.

(* ---------- the invariant ---------- *)

Section Inv.
(* S: the objects that the callers can get; Q: objects that should stay as they are *)

Variables S Q : nat -> Prop.


Definition sv (v : val) : Prop := match v with Imm _ => True | Ptr a => S a end.

Record base (h : heap) : Prop := {
  b_obj : forall a o, nth_error h a = Some o -> okobj h a o;
  b_own : forall a b f g ns ms n, nth_error h a = Some (Map f ns) -> nth_error h b = Some (Map g ms) -> In n ns -> In n ms -> a = b;
  b_bin : forall a b g x, nth_error h a = Some (Bin true x) -> nth_error h b = Some (Bin g x) -> a = b;
  b_acc : forall a o, S a -> nth_error h a = Some o -> Forall sv (acc o);
  b_fix : forall a o, S a -> Q a -> nth_error h a = Some o -> ~ mutable o;
  b_up : forall m f ns n, nth_error h m = Some (Map f ns) -> In n ns -> Q n -> Q m;
  b_len : forall a, Q a -> a < length h;
  b_new : forall a, length h <= a -> S a
}.

Definition keeps (h h' : heap) : Prop := forall a, Q a -> nth_error h' a = nth_error h a.
Lemma keeps_refl h : keeps h h.
Proof. now intros a. Qed.
Lemma keeps_trans h1 h2 h3 : keeps h1 h2 -> keeps h2 h3 -> keeps h1 h3.
Proof. intros A B a H. rewrite B by exact H. now apply A. Qed.
Lemma keeps_app h l : base h -> keeps h (h ++ l).
Proof. intros B a H. apply nth_error_app1. now apply (b_len h B). Qed.
Lemma keeps_upd h a o o' : nth_error h a = Some o -> ~ Q a -> keeps h (upd h a o').
Proof. intros H N b Hb. rewrite (upd_at _ _ _ _ _ H). destruct (Nat.eqb_spec b a) as [->|]; [contradiction|reflexivity]. Qed.

Lemma base_app h l : base h ->
  (forall i o, nth_error l i = Some o -> okobj (h ++ l) (length h + i) o /\ Forall sv (acc o)) ->
  (forall i f ns, nth_error l i = Some (Map f ns) -> Forall (fun n => length h <= n) ns) ->
  (forall i j f g ns ms, nth_error l i = Some (Map f ns) -> nth_error l j = Some (Map g ms) -> i = j) ->
  (forall i b, nth_error l i = Some (Bin true b) -> length h <= b) ->
  (forall i j f g b c, nth_error l i = Some (Bin f b) -> nth_error l j = Some (Bin g c) -> i = j) ->
  (forall i f b, nth_error l i = Some (Bin f b) -> forall a, nth_error h a <> Some (Bin true b)) ->
  base (h ++ l).
Proof.
  intros [B1 B2 B3 B4 B5 B6 B7 B8] H1 H2 H3 H4 H5 H6. constructor.
  - intros a o E. apply nth_split in E as [E|(i & -> & E)].
    + apply (okobj_kinds h); [apply kinds_app|]. now apply B1.
    + now apply H1.
  - intros a b f g ns ms n Ea Eb Ia Ib.
    assert (Old : forall a f ns, nth_error h a = Some (Map f ns) -> In n ns -> n < length h).
    { intros a0 f0 ns0 E0 I0. specialize (B1 _ _ E0). cbn in B1. rewrite Forall_forall in B1. destruct (B1 _ I0) as (k & w & E). eapply nth_lt; eauto. }
    apply nth_split in Ea as [Ea|(i & -> & Ea)]; apply nth_split in Eb as [Eb|(j & -> & Eb)].
    + eapply B2; eauto.
    + exfalso. specialize (Old _ _ _ Ea Ia). specialize (H2 _ _ _ Eb). rewrite Forall_forall in H2. specialize (H2 _ Ib). lia.
    + exfalso. specialize (Old _ _ _ Eb Ib). specialize (H2 _ _ _ Ea). rewrite Forall_forall in H2. specialize (H2 _ Ia). lia.
    + f_equal. eapply H3; eauto.
  - intros a b g x Ea Eb. apply nth_split in Ea as [Ea|(i & -> & Ea)]; apply nth_split in Eb as [Eb|(j & -> & Eb)].
    + eapply B3; eauto.
    + exfalso. eapply H6; eauto.
    + exfalso. specialize (H4 _ _ Ea). specialize (B1 _ _ Eb) as (bs & E). apply nth_lt in E. lia.
    + f_equal. eapply H5; eauto.
  - intros a o Sa E. apply nth_split in E as [E|(i & -> & E)]; [now apply (B4 a)|now apply (H1 i)].
  - intros a o Sa Qa E. apply nth_split in E as [E|(i & -> & E)]; [eapply B5; eauto|]. specialize (B7 _ Qa). lia.
  - intros m f ns n E I Qn. apply nth_split in E as [E|(i & -> & E)]; [eapply B6; eauto|].
    specialize (H2 _ _ _ E). rewrite Forall_forall in H2. specialize (H2 _ I). specialize (B7 _ Qn). lia.
  - intros a Qa. rewrite app_length. specialize (B7 _ Qa). lia.
  - intros a L. rewrite app_length in L. apply B8. lia.
Qed.

Lemma base_upd h a o o' : base h -> nth_error h a = Some o -> same_kind o o' -> S a -> ~ Q a ->
  okobj h a o' -> Forall sv (acc o') ->
  (forall f ns, o' = Map f ns -> exists g ms, o = Map g ms /\
     forall n, In n ns -> In n ms \/ ((forall c g xs, nth_error h c = Some (Map g xs) -> ~ In n xs) /\ ~ Q n)) ->
  (forall f b, o' = Bin f b -> forall c g, nth_error h c <> Some (Bin g b)) ->
  base (upd h a o').
Proof.
  intros [B1 B2 B3 B4 B5 B6 B7 B8] Ea K Sa Qa Ok Ac Hm Hb.
  assert (U : forall b x, nth_error (upd h a o') b = Some x -> (b = a /\ x = o') \/ (b <> a /\ nth_error h b = Some x)).
  { intros b x E. rewrite (upd_at _ _ _ _ _ Ea) in E. destruct (Nat.eqb_spec b a) as [->|N]; [left; split; congruence|now right]. }
  assert (KK : kinds h (upd h a o')) by now apply (kinds_upd h a o).
  constructor.
  - intros b x E. apply U in E as [[-> ->]|[N E]]; apply (okobj_kinds h); auto.
  - intros b c f g ns ms n Eb Ec Ib Ic. apply U in Eb as [[-> Eb]|[Nb Eb]]; apply U in Ec as [[-> Ec]|[Nc Ec]]; auto.
    + destruct (Hm _ _ (eq_sym Eb)) as (g0 & ms0 & -> & P). destruct (P n Ib) as [I|[I _]]; [eapply B2; eauto|]. exfalso. eapply I; eauto.
    + destruct (Hm _ _ (eq_sym Ec)) as (g0 & ms0 & -> & P). destruct (P n Ic) as [I|[I _]]; [eapply B2; eauto|]. exfalso. eapply I; eauto.
    + eapply B2; eauto.
  - intros b c g x Eb Ec. apply U in Eb as [[-> Eb]|[Nb Eb]]; apply U in Ec as [[-> Ec]|[Nc Ec]]; auto.
    + exfalso. eapply (Hb _ _ (eq_sym Eb)); eauto.
    + exfalso. eapply (Hb _ _ (eq_sym Ec)); eauto.
    + eapply B3; eauto.
  - intros b x Sb E. apply U in E as [[-> ->]|[N E]]; [exact Ac|eapply B4; eauto].
  - intros b x Sb Qb E. apply U in E as [[-> ->]|[N E]]; [contradiction|eapply B5; eauto].
  - intros m f ns n E I Qn. apply U in E as [[-> E]|[N E]]; [|eapply B6; eauto].
    destruct (Hm _ _ (eq_sym E)) as (g0 & ms0 & -> & P). destruct (P n I) as [I2|[_ I2]]; [eapply B6; eauto|contradiction].
  - intros b Qb. rewrite upd_len. auto.
  - intros b L. rewrite upd_len in L. auto.
Qed.

(* ---------- new objects ---------- *)

Definition good (h : heap) (v : val) : Prop := okval h v /\ sv v.
Lemma good_kinds h h' v : kinds h h' -> good h v -> good h' v.
Proof. intros K [A B]. split; [now apply (okval_kinds h)|exact B]. Qed.
Lemma goods_kinds h h' l : kinds h h' -> Forall (good h) l -> Forall (good h') l.
Proof. intros K. apply Forall_impl. intros v. now apply good_kinds. Qed.
Lemma goods_ok h l : Forall (good h) l -> Forall (okval h) l.
Proof. apply Forall_impl. now intros v []. Qed.
Lemma goods_sv h l : Forall (good h) l -> Forall sv l.
Proof. apply Forall_impl. now intros v []. Qed.

Ltac one i := destruct i as [|[|i]]; cbn in *; try discriminate.

Lemma base_arr h f l : base h -> Forall (good h) l -> base (h ++ [Arr f l]).
Proof.
  intros B G. apply base_app; auto; try (intros i *; now one i); try (intros i j *; now one i).
  intros i o E. one i. injection E as <-. split; cbn; [apply (okvals_kinds h); [apply kinds_app|]; now apply goods_ok|now apply goods_sv in G].
Qed.
Lemma base_sens h w : base h -> good h w -> base (h ++ [Sens w]).
Proof.
  intros B [G1 G2]. apply base_app; auto; try (intros i *; now one i); try (intros i j *; now one i).
  intros i o E. one i. injection E as <-. split; cbn; [split|].
  - apply (okval_kinds h); [apply kinds_app|exact G1].
  - intros b ->. cbn in G1. destruct (nth_error h b) eqn:Eb; [apply nth_lt in Eb; lia|contradiction].
  - constructor; auto.
Qed.
Lemma base_bytes h bs : base h -> base (h ++ [Bytes bs]).
Proof.
  intros B. apply base_app; auto; try (intros i *; now one i); try (intros i j *; now one i).
  intros i o E. one i. injection E as <-. split; cbn; auto.
Qed.
Lemma base_map0 h : base h -> base (h ++ [Map false []]).
Proof.
  intros B. apply base_app; auto; try (intros i *; now one i).
  - intros i o E. one i. injection E as <-. split; cbn; auto.
  - intros i f ns E. one i. injection E as <- <-. constructor.
  - intros i j f g ns ms E1 E2. now one i; one j.
Qed.
Lemma base_wrap h b : base h -> sv (Ptr b) -> (exists bs, nth_error h b = Some (Bytes bs)) -> (forall a, nth_error h a <> Some (Bin true b)) ->
  base (h ++ [Bin false b]).
Proof.
  intros B Sb (bs & Eb) N. apply base_app; auto; try (intros i *; now one i).
  - intros i o E. one i. injection E as <-. split; cbn; [|constructor; auto]. exists bs. now apply nth_old.
  - intros i j f g x y E1 E2. now one i; one j.
  - intros i f x E. one i. injection E as <- <-. exact N.
Qed.
Lemma base_newbin h f bs : base h -> base (h ++ [Bytes bs; Bin f (length h)]).
Proof.
  intros B. assert (NB : forall a g, nth_error h a <> Some (Bin g (length h))).
  { intros a g E. destruct (b_obj h B _ _ E) as (bs' & E'). apply nth_lt in E'. lia. }
  apply base_app; auto.
  - intros i o E. destruct i as [|[|[|i]]]; cbn in E; try discriminate; injection E as <-; cbn.
    + auto.
    + split; [exists bs; rewrite nth_error_app2 by lia; now rewrite Nat.sub_diag|].
      destruct f; cbn; constructor; auto. cbn. apply (b_new h B). lia.
  - intros i g ns E. destruct i as [|[|[|i]]]; cbn in E; discriminate.
  - intros i j g g' ns ms E. destruct i as [|[|[|i]]]; cbn in E; discriminate.
  - intros i b E. destruct i as [|[|[|i]]]; cbn in E; try discriminate. injection E as _ <-. lia.
  - intros i j g g' x y E1 E2. destruct i as [|[|[|i]]], j as [|[|[|j]]]; cbn in *; discriminate || reflexivity.
  - intros i g b E a. destruct i as [|[|[|i]]]; cbn in E; try discriminate. injection E as _ <-. apply NB.
Qed.

Lemma nodes_nth kvs i o : nth_error (nodes_of kvs) i = Some o -> exists k w, o = Node k w /\ nth_error kvs i = Some (k, w).
Proof. unfold nodes_of. rewrite nth_error_map. destruct (nth_error kvs i) as [[k w]|]; cbn; [|discriminate]. intros E. injection E as <-. eauto. Qed.
Lemma nodes_len kvs : length (nodes_of kvs) = length kvs.
Proof. apply map_length. Qed.
Lemma nodes_at h l kvs i : i < length kvs -> exists k w, nth_error (h ++ nodes_of kvs ++ l) (length h + i) = Some (Node k w).
Proof.
  intros L. rewrite nth_new, nth_error_app1 by (rewrite nodes_len; exact L).
  destruct (nth_error (nodes_of kvs) i) as [o|] eqn:E; [|apply nth_error_None in E; rewrite nodes_len in E; lia].
  destruct (nodes_nth _ _ _ E) as (k & w & -> & _). eauto.
Qed.
Definition good_pairs (h : heap) (kvs : list (val * val)) : Prop := Forall (fun e => good h (fst e) /\ good h (snd e)) kvs.
Lemma good_pairs_nth h kvs i k w : good_pairs h kvs -> nth_error kvs i = Some (k, w) -> good h k /\ good h w.
Proof. intros G E. apply nth_error_In in E. unfold good_pairs in G. rewrite Forall_forall in G. exact (G _ E). Qed.

Lemma base_nodes h kvs : base h -> good_pairs h kvs -> base (h ++ nodes_of kvs).
Proof.
  intros B G. apply base_app; auto.
  - intros i o E. destruct (nodes_nth _ _ _ E) as (k & w & -> & E2). destruct (good_pairs_nth _ _ _ _ _ G E2) as [[K1 K2] [W1 W2]].
    split; cbn; [split; (apply (okval_kinds h); [apply kinds_app|assumption])|repeat constructor; assumption].
  - intros i f ns E. destruct (nodes_nth _ _ _ E) as (k & w & ? & _). discriminate.
  - intros i j f g ns ms E. destruct (nodes_nth _ _ _ E) as (k & w & ? & _). discriminate.
  - intros i b E. destruct (nodes_nth _ _ _ E) as (k & w & ? & _). discriminate.
  - intros i j f g b c E. destruct (nodes_nth _ _ _ E) as (k & w & ? & _). discriminate.
  - intros i f b E. destruct (nodes_nth _ _ _ E) as (k & w & ? & _). discriminate.
Qed.
Lemma base_alloc_map h f kvs : base h -> good_pairs h kvs -> base (fst (alloc_map h f kvs)).
Proof.
  intros B G. cbn.
  assert (C : forall i o, nth_error (nodes_of kvs ++ [Map f (seq (length h) (length kvs))]) i = Some o ->
    (exists k w, o = Node k w /\ good h k /\ good h w) \/ (i = length kvs /\ o = Map f (seq (length h) (length kvs)))).
  { intros i o E. apply nth_split in E as [E|(j & -> & E)].
    - destruct (nodes_nth _ _ _ E) as (k & w & -> & E2). left. destruct (good_pairs_nth _ _ _ _ _ G E2). eauto 6.
    - right. rewrite nodes_len. one j. injection E as <-. split; [lia|reflexivity]. }
  apply base_app; auto.
  - intros i o E. destruct (C i o E) as [(k & w & -> & [K1 K2] & [W1 W2])|[-> ->]].
    + split; cbn; [split; (apply (okval_kinds h); [apply kinds_app|assumption])|repeat constructor; assumption].
    + split; cbn.
      * apply Forall_forall. intros n I. apply in_seq in I. replace n with (length h + (n - length h)) by lia. apply nodes_at. lia.
      * apply Forall_forall. intros v I. apply in_map_iff in I as (n & <- & I). apply in_seq in I. cbn. apply (b_new h B). lia.
  - intros i g ns E. destruct (C i _ E) as [(k & w & ? & _)|[_ E2]]; [discriminate|]. injection E2 as -> ->.
    apply Forall_forall. intros n I. apply in_seq in I. lia.
  - intros i j g g' ns ms E1 E2. destruct (C i _ E1) as [(k & w & ? & _)|[-> _]]; [discriminate|].
    destruct (C j _ E2) as [(k & w & ? & _)|[-> _]]; [discriminate|reflexivity].
  - intros i b E. destruct (C i _ E) as [(k & w & ? & _)|[_ ?]]; discriminate.
  - intros i j g g' b c E. destruct (C i _ E) as [(k & w & ? & _)|[_ ?]]; discriminate.
  - intros i g b E. destruct (C i _ E) as [(k & w & ? & _)|[_ ?]]; discriminate.
Qed.

(* what is reachable from a good value is good *)
Lemma good_elems h a f l : base h -> good h (Ptr a) -> nth_error h a = Some (Arr f l) -> Forall (good h) l.
Proof.
  intros B [_ Sa] E. pose proof (b_obj h B _ _ E) as O. pose proof (b_acc h B _ _ Sa E) as A. cbn in O, A.
  rewrite Forall_forall in *. intros v I. split; auto.
Qed.
Lemma good_entries h a f ns : base h -> S a -> nth_error h a = Some (Map f ns) -> good_pairs h (pairs h ns).
Proof.
  intros B Sa E. pose proof (b_acc h B _ _ Sa E) as A. cbn in A. clear E.
  induction ns as [|n ns IH]; cbn; [constructor|]. inversion A as [|? ? Sn A']; subst.
  destruct (nth_error h n) as [[]|] eqn:En; try (now apply IH). constructor; [|now apply IH].
  pose proof (b_obj h B _ _ En) as [O1 O2]. pose proof (b_acc h B _ _ Sn En) as A2. cbn in A2. inversion A2 as [|? ? A3 A4]; subst. inversion A4; subst.
  cbn. unfold good. auto.
Qed.
Lemma good_sens h a w : base h -> good h (Ptr a) -> nth_error h a = Some (Sens w) -> good h w.
Proof.
  intros B [_ Sa] E. destruct (b_obj h B _ _ E) as [O _]. pose proof (b_acc h B _ _ Sa E) as A. cbn in A. inversion A. split; auto.
Qed.
Lemma good_pairs_kinds h h' kvs : kinds h h' -> good_pairs h kvs -> good_pairs h' kvs.
Proof. intros K. apply Forall_impl. intros [k w] [A B]. split; now apply (good_kinds h). Qed.
Lemma good_firsts h kvs : good_pairs h kvs -> Forall (good h) (map fst kvs).
Proof. intros G. induction G as [|[k w] r [A B] G IH]; cbn; constructor; auto. Qed.
Lemma good_seconds h kvs : good_pairs h kvs -> Forall (good h) (map snd kvs).
Proof. intros G. induction G as [|[k w] r [A B] G IH]; cbn; constructor; auto. Qed.
Lemma good_combine h ks ws : Forall (good h) ks -> Forall (good h) ws -> good_pairs h (combine ks ws).
Proof. intros K. revert ws. induction K as [|k ks Hk K IH]; intros [|w ws] W; cbn; try constructor; inversion W; subst; [split; auto|now apply IH]. Qed.

(* ---------- soundness ---------- *)

Lemma sobj_keep h h' o : keeps_still h h' -> (forall f ns, o = Map f ns -> forall n k w, In n ns -> nth_error h' n = Some (Node k w) -> nth_error h n = Some (Node k w)) ->
  sobj h o -> sobj h' o.
Proof.
  intros K N. destruct o as [[] l|f ns|k w|w|f b|bs]; cbn; auto.
  - now apply frzs_keep.
  - intros H n k w I E. apply (N _ _ eq_refl) in E; [|exact I]. destruct (H _ _ _ I E) as [A B]. split; [now apply (frz_keep h)|]. intros F. now apply (frz_keep h), B.
Qed.
Lemma sound_app G h l : base h -> sound G h -> (forall i o, nth_error l i = Some o -> sobj (h ++ l) o) -> sound G (h ++ l).
Proof.
  intros B S0 H a o E N. apply nth_split in E as [E|(i & -> & E)]; [|eapply H; eauto].
  apply (sobj_keep h); [apply still_app| |eapply S0; eauto].
  intros f ns -> n k w I En. pose proof (b_obj h B _ _ E) as O. cbn in O. rewrite Forall_forall in O. destruct (O _ I) as (k' & w' & E').
  rewrite (nth_old _ l _ _ E') in En. congruence.
Qed.
Lemma sound_arr G h f l : base h -> sound G h -> (f = true -> Forall (frz h) l) -> sound G (h ++ [Arr f l]).
Proof.
  intros B S0 F. apply sound_app; auto. intros i o E. one i. injection E as <-. destruct f; cbn; auto. apply (frzs_keep h); [apply still_app|auto].
Qed.
Lemma sound_plain G h l : base h -> sound G h -> (forall o, In o l -> match o with Arr _ _ | Map _ _ => False | _ => True end) -> sound G (h ++ l).
Proof. intros B S0 F. apply sound_app; auto. intros i o E. apply nth_error_In in E. specialize (F _ E). destruct o; cbn; auto; contradiction. Qed.
Lemma sound_map0 G h : base h -> sound G h -> sound G (h ++ [Map false []]).
Proof. intros B S0. apply sound_app; auto. intros i o E. one i. injection E as <-. cbn. intros n k w []. Qed.
Lemma sound_alloc_map G h f kvs : base h -> sound G h -> Forall (frz h) (map fst kvs) -> (f = true -> Forall (frz h) (map snd kvs)) ->
  sound G (fst (alloc_map h f kvs)).
Proof.
  intros B S0 FK FV. cbn. apply sound_app; auto. intros i o E. apply nth_split in E as [E|(j & -> & E)].
  - destruct (nodes_nth _ _ _ E) as (k & w & -> & _). exact Logic.I.
  - one j. injection E as <-. cbn. intros n k w I En. apply in_seq in I.
    replace n with (length h + (n - length h)) in En by lia. rewrite nth_new, nth_error_app1 in En by (rewrite nodes_len; lia).
    destruct (nodes_nth _ _ _ En) as (k' & w' & E' & Ei). injection E' as <- <-. apply nth_error_In in Ei.
    assert (Kk : frz h k) by (rewrite Forall_forall in FK; apply FK; apply in_map_iff; exists (k, w); auto).
    split; [apply (frz_keep h); [apply still_app|exact Kk]|]. intros F. apply (frz_keep h); [apply still_app|].
    specialize (FV F). rewrite Forall_forall in FV. apply FV. apply in_map_iff. exists (k, w). auto.
Qed.

(* the keys and values of a map of a sound heap *)
Lemma frz_keys h a f ns : sound nobody h -> nth_error h a = Some (Map f ns) -> Forall (frz h) (map fst (pairs h ns)).
Proof.
  intros S0 E. assert (SO := S0 _ _ E (fun x => x)). cbn in SO. clear E.
  assert (P : forall ms, incl ms ns -> Forall (frz h) (map fst (pairs h ms))).
  { induction ms as [|n ms IH]; intros I; cbn; [constructor|]. destruct (nth_error h n) as [[]|] eqn:En; try (apply IH; intros x Hx; apply I; now right).
    cbn. constructor; [|apply IH; intros x Hx; apply I; now right]. now destruct (SO n _ _ (I n (or_introl eq_refl)) En). }
  apply P. apply incl_refl.
Qed.
Lemma frz_values h a ns : sound nobody h -> nth_error h a = Some (Map true ns) -> Forall (frz h) (map snd (pairs h ns)).
Proof.
  intros S0 E. assert (SO := S0 _ _ E (fun x => x)). cbn in SO. clear E.
  assert (P : forall ms, incl ms ns -> Forall (frz h) (map snd (pairs h ms))).
  { induction ms as [|n ms IH]; intros I; cbn; [constructor|]. destruct (nth_error h n) as [[]|] eqn:En; try (apply IH; intros x Hx; apply I; now right).
    cbn. constructor; [|apply IH; intros x Hx; apply I; now right]. destruct (SO n _ _ (I n (or_introl eq_refl)) En); auto. }
  apply P. apply incl_refl.
Qed.

(* ---------- heaps before and after ---------- *)

(* objects keep their kind, and no frozen binary gets hold of a byte slice that was there before *)
Definition mild (h h' : heap) : Prop :=
  kinds h h' /\ forall a b, nth_error h' a = Some (Bin true b) -> b < length h -> nth_error h a = Some (Bin true b).
Lemma mild_refl h : mild h h.
Proof. split; [apply kinds_refl|auto]. Qed.
Lemma kinds_len h h' : kinds h h' -> length h <= length h'.
Proof.
  intros K. destruct (length h) as [|n] eqn:E; [lia|]. destruct (nth_error h n) as [o|] eqn:En; [|apply nth_error_None in En; lia].
  destruct (K _ _ En) as (o' & E' & _). apply nth_lt in E'. lia.
Qed.
Lemma mild_trans h1 h2 h3 : mild h1 h2 -> mild h2 h3 -> mild h1 h3.
Proof.
  intros [A B] [C D]. split; [eapply kinds_trans; eauto|]. intros a b E L. apply B; [|exact L]. apply D; [exact E|]. apply kinds_len in A. lia.
Qed.
Lemma mild_app h l : (forall b, In (Bin true b) l -> length h <= b) -> mild h (h ++ l).
Proof.
  intros N. split; [apply kinds_app|]. intros a b E L. apply nth_split in E as [E|(i & -> & E)]; [exact E|].
  apply nth_error_In in E. specialize (N _ E). lia.
Qed.
Lemma mild_upd h a o o' : nth_error h a = Some o -> same_kind o o' -> (forall b, o' = Bin true b -> length h <= b) -> mild h (upd h a o').
Proof.
  intros E K N. split; [now apply (kinds_upd h a o)|]. intros c b E2 L. rewrite (upd_at _ _ _ _ _ E) in E2.
  destruct (Nat.eqb_spec c a) as [->|]; [|exact E2]. injection E2 as E2. specialize (N _ E2). lia.
Qed.
Lemma mild_alloc_map h f kvs : mild h (fst (alloc_map h f kvs)).
Proof.
  cbn. apply mild_app. intros b I. apply in_app_or in I as [I|[I|[]]]; [|discriminate].
  unfold nodes_of in I. apply in_map_iff in I as (e & I & _). discriminate.
Qed.
Ltac mapp := apply mild_app; intros ? I; cbn in I; repeat (destruct I as [I|I]; [try discriminate; injection I as <- || injection I as -> <-; lia|]); now destruct I.

(* what a byte slice or a value becomes known as *)
Definition known1 (h : heap) (k : val) : Prop :=
  sv k /\ (okval h k \/ exists b bs, k = Ptr b /\ nth_error h b = Some (Bytes bs) /\ forall a, nth_error h a <> Some (Bin true b)).
Definition known (h : heap) (K : list val) : Prop := Forall (known1 h) K.
Lemma known_mild h h' K : mild h h' -> known h K -> known h' K.
Proof.
  intros [M1 M2]. apply Forall_impl. intros k [Sk [O|(b & bs & -> & E & N)]]; split; auto.
  - left. now apply (okval_kinds h).
  - right. destruct (M1 _ _ E) as (o & E' & SK). destruct o; cbn in SK; try contradiction.
    eexists _, _. split; [reflexivity|]. split; [exact E'|]. intros a Ea. apply (N a). apply M2; [exact Ea|]. eapply nth_lt; eauto.
Qed.
Lemma known_snoc h K v : known h K -> known1 h v -> known h (K ++ [v]).
Proof. intros A B. apply Forall_app. split; auto. Qed.
Lemma good_known h v : good h v -> known1 h v.
Proof. intros [A B]. split; auto. Qed.

(* ---------- Freeze ---------- *)

Definition frees (h h' : heap) (o o' : obj) : Prop :=
  match o with
  | Arr f l => o' = o \/ o' = Arr true l
  | Map f ns => o' = o \/ o' = Map true ns
  | Bin f b => o' = o \/ (f = false /\ exists b', o' = Bin true b' /\ forall bs, nth_error h b = Some (Bytes bs) -> nth_error h' b' = Some (Bytes bs))
  | _ => o' = o
  end.
Definition freezes (h h' : heap) : Prop := forall a o, nth_error h a = Some o -> exists o', nth_error h' a = Some o' /\ frees h h' o o'.
Lemma frees_refl h h' o : frees h h' o o.
Proof. destruct o; cbn; auto. Qed.
Lemma freezes_refl h : freezes h h.
Proof. intros a o E. exists o. split; [exact E|apply frees_refl]. Qed.
Lemma freezes_bytes h h' b bs : freezes h h' -> nth_error h b = Some (Bytes bs) -> nth_error h' b = Some (Bytes bs).
Proof. intros F E. destruct (F _ _ E) as (o' & E' & ->). exact E'. Qed.
Lemma freezes_trans h1 h2 h3 : freezes h1 h2 -> freezes h2 h3 -> freezes h1 h3.
Proof.
  intros A B a o E. destruct (A a o E) as (o1 & E1 & F1). destruct (B a o1 E1) as (o2 & E2 & F2). exists o2. split; [exact E2|].
  destruct o as [f l|f ns|k w|w|f b|bs]; cbn in *.
  - destruct F1 as [->| ->]; cbn in F2; tauto.
  - destruct F1 as [->| ->]; cbn in F2; tauto.
  - subst o1. exact F2.
  - subst o1. exact F2.
  - destruct F1 as [->|(-> & b1 & -> & P)]; cbn in F2.
    + destruct F2 as [->|(-> & b2 & -> & P)]; [auto|]. right. split; [reflexivity|]. exists b2. split; [reflexivity|]. intros bs E3. apply P. eapply freezes_bytes; eauto.
    + destruct F2 as [->|(? & _)]; [|discriminate]. right. split; [reflexivity|]. exists b1. split; [reflexivity|]. intros bs E3. eapply freezes_bytes; [exact B|]. auto.
  - subst o1. exact F2.
Qed.
Lemma freezes_still h h' : freezes h h' -> keeps_still h h'.
Proof.
  intros F a o E N. destruct (F a o E) as (o' & E' & P). rewrite E'. f_equal.
  destruct o as [f l|f ns|k w|w|f b|bs]; cbn in *; subst; try contradiction; try (destruct P as [->| ->]; reflexivity); auto.
  destruct P as [->|(? & _)]; [reflexivity|discriminate].
Qed.
Lemma freezes_node h h' a k w : freezes h h' -> nth_error h a = Some (Node k w) -> nth_error h' a = Some (Node k w).
Proof. intros F E. destruct (F _ _ E) as (o' & E' & ->). exact E'. Qed.

Definition gray (G : nat -> Prop) (h : heap) : Prop := forall a o, G a -> nth_error h a = Some o -> still o.
Lemma gray_still (G : nat -> Prop) h h' : kinds h h' -> keeps_still h h' -> (forall a, G a -> a < length h) -> gray G h -> gray G h'.
Proof.
  intros K KS L Gr a o Ga E. specialize (L _ Ga). destruct (nth_error h a) as [o0|] eqn:E0; [|apply nth_error_None in E0; lia].
  assert (T := Gr _ _ Ga E0). rewrite (KS _ _ E0 T) in E. injection E as <-. exact T.
Qed.
Definition lows (G : nat -> Prop) (h : heap) : Prop := forall a, G a -> a < length h.

(* what Freeze is called on: a value or an entry of a map *)
Definition vok (h : heap) (v : val) : Prop := good h v \/ exists a k w, v = Ptr a /\ S a /\ nth_error h a = Some (Node k w).
Definition frzn (h : heap) (v : val) : Prop := frz h v \/ exists a k w, v = Ptr a /\ nth_error h a = Some (Node k w) /\ frz h w.
Lemma vok_mild h h' v : mild h h' -> freezes h h' -> vok h v -> vok h' v.
Proof.
  intros [M _] F [G|(a & k & w & -> & Sa & E)]; [left; now apply (good_kinds h)|]. right. exists a, k, w. split; [reflexivity|]. split; [exact Sa|].
  eapply freezes_node; eauto.
Qed.
Lemma frzn_keep h h' v : freezes h h' -> frzn h v -> frzn h' v.
Proof.
  intros F [G|(a & k & w & -> & E & G)]; [left; apply (frz_keep h); [now apply freezes_still|exact G]|].
  right. exists a, k, w. split; [reflexivity|]. split; [eapply freezes_node; eauto|]. apply (frz_keep h); [now apply freezes_still|exact G].
Qed.

Definition froze (h h' : heap) : Prop := base h' /\ keeps h h' /\ freezes h h' /\ mild h h'.
Lemma froze_refl h : base h -> froze h h.
Proof. intros B. split; [exact B|]. split; [apply keeps_refl|]. split; [apply freezes_refl|apply mild_refl]. Qed.
Lemma froze_trans h1 h2 h3 : froze h1 h2 -> froze h2 h3 -> froze h1 h3.
Proof.
  intros (A1 & A2 & A3 & A4) (B1 & B2 & B3 & B4).
  split; [exact B1|]. split; [eapply keeps_trans; eauto|]. split; [eapply freezes_trans; eauto|eapply mild_trans; eauto].
Qed.

Definition freeze_ok (f : heap -> val -> option heap) : Prop := forall h v h', f h v = Some h' -> base h -> vok h v ->
  froze h h' /\ forall G, lows G h -> gray G h -> sound G h -> sound G h' /\ frzn h' v.

Lemma each_ok f l : freeze_ok f -> forall h h', each f h l = Some h' -> base h -> Forall (vok h) l ->
  froze h h' /\ forall G, lows G h -> gray G h -> sound G h -> sound G h' /\ Forall (frzn h') l.
Proof.
  intros F. induction l as [|v l IH]; cbn; intros h h' E B V.
  - injection E as <-. split; [now apply froze_refl|]. intros G _ _ S0. split; [exact S0|constructor].
  - destruct (f h v) as [h1|] eqn:E1; [|discriminate]. inversion V as [|? ? V1 V2]; subst.
    destruct (F _ _ _ E1 B V1) as [Z1 P1]. pose proof Z1 as (B1 & K1 & F1 & M1).
    assert (V3 : Forall (vok h1) l) by (eapply Forall_impl; [|exact V2]; intros x; now apply vok_mild).
    destruct (IH _ _ E B1 V3) as [Z2 P2]. pose proof Z2 as (B2 & K2 & F2 & M2).
    split; [eapply froze_trans; eauto|]. intros G LG GG S0. destruct (P1 G LG GG S0) as [S1 A1].
    destruct M1 as [M1a M1b].
    assert (GG1 : gray G h1) by (apply (gray_still G h); auto; now apply freezes_still).
    assert (LG1 : lows G h1) by (intros x Gx; apply kinds_len in M1a; specialize (LG _ Gx); lia).
    destruct (P2 G LG1 GG1 S1) as [S2 A2]. split; [exact S2|]. constructor; [|exact A2]. now apply (frzn_keep h1).
Qed.

Definition and_gray (G : nat -> Prop) (a : nat) : nat -> Prop := fun x => G x \/ x = a.

Lemma sound_mark G h a o o' : nth_error h a = Some o -> ~ still o -> same_kind o o' -> match o' with Node _ _ => False | _ => True end ->
  sound G h -> sound (and_gray G a) (upd h a o').
Proof.
  intros E N K NN S0 b x Eb Nb. rewrite (upd_at _ _ _ _ _ E) in Eb. destruct (Nat.eqb_spec b a) as [->|D]; [exfalso; apply Nb; now right|].
  assert (SO : sobj h x) by (eapply S0; [exact Eb|]; intros Gb; apply Nb; now left).
  apply (sobj_keep h); [eapply still_upd; eauto| |exact SO].
  intros f ns -> n k w I En. rewrite (upd_at _ _ _ _ _ E) in En. destruct (Nat.eqb_spec n a) as [->|]; [|exact En]. injection En as ->. contradiction.
Qed.
Lemma sound_unmark G h a o : nth_error h a = Some o -> sobj h o -> sound (and_gray G a) h -> sound G h.
Proof.
  intros E SO S0 b x Eb Nb. destruct (Nat.eq_dec b a) as [->|D]; [congruence|]. eapply S0; [exact Eb|]. intros [?|?]; contradiction.
Qed.
Lemma freezes_upd h a o o' : nth_error h a = Some o -> frees h (upd h a o') o o' -> freezes h (upd h a o').
Proof.
  intros E F b x Eb. rewrite (upd_at _ _ _ _ _ E). destruct (Nat.eqb_spec b a) as [->|]; [|exists x; split; [exact Eb|apply frees_refl]].
  rewrite E in Eb. injection Eb as <-. eauto.
Qed.
Lemma freezes_app h l : freezes h (h ++ l).
Proof. intros a o E. exists o. split; [now apply nth_old|apply frees_refl]. Qed.
Lemma gray_mark G h a o o' : nth_error h a = Some o -> still o' -> gray G h -> gray (and_gray G a) (upd h a o').
Proof.
  intros E So Gr b x Gb Eb. rewrite (upd_at _ _ _ _ _ E) in Eb. destruct (Nat.eqb_spec b a) as [->|D]; [injection Eb as <-; exact So|].
  destruct Gb as [Gb| ->]; [eapply Gr; eauto|contradiction].
Qed.
Lemma lows_mark G h a o o' : nth_error h a = Some o -> lows G h -> lows (and_gray G a) (upd h a o').
Proof. intros E L b [Gb| ->]; rewrite upd_len; [auto|eapply nth_lt; eauto]. Qed.

Lemma vok_at h a o : vok h (Ptr a) -> nth_error h a = Some o -> S a.
Proof. intros [[_ G]|(b & k & w & E & Sb & _)] Ea; [exact G|]. congruence. Qed.

Lemma freeze_spec n : freeze_ok (freeze n).
Proof.
  induction n as [|n IH]; intros h v h' E B V; [discriminate|]. cbn [freeze] in E.
  destruct v as [z|a].
  { injection E as <-. split; [now apply froze_refl|]. intros G _ _ S0. split; [exact S0|left; constructor]. }
  destruct (nth_error h a) as [o|] eqn:Ea.
  2:{ exfalso. destruct V as [[V _]|(b & k & w & EE & _ & Eb)]; [cbn in V; now rewrite Ea in V|]. congruence. }
  pose proof (vok_at _ _ _ V Ea) as Sa.
  assert (Vg : match o with Node _ _ => True | _ => good h (Ptr a) end).
  { destruct V as [V|(b & k & w & EE & _ & Eb)]; [destruct o; auto|]. injection EE as <-. rewrite Ea in Eb. injection Eb as ->. exact Logic.I. }
  destruct o as [[] l|[] ns|k w|w|[] b|bs].
  - injection E as <-. split; [now apply froze_refl|]. intros G _ _ S0. split; [exact S0|left; eapply frz_arr; eauto].
  - assert (NQ : ~ Q a) by (intros Qa; eapply (b_fix h B); eauto; reflexivity).
    pose proof (good_elems _ _ _ _ B Vg Ea) as Ge.
    assert (F1 : freezes h (upd h a (Arr true l))) by (eapply freezes_upd; [exact Ea|]; cbn; auto).
    assert (M1 : mild h (upd h a (Arr true l))) by (eapply mild_upd; [exact Ea|exact Logic.I|discriminate]).
    assert (B1 : base (upd h a (Arr true l))).
    { eapply base_upd; eauto; try discriminate; [exact Logic.I|exact (b_obj h B _ _ Ea)|exact (b_acc h B _ _ Sa Ea)]. }
    assert (V1 : Forall (vok (upd h a (Arr true l))) l).
    { eapply Forall_impl; [|exact Ge]. intros x Gx. left. eapply good_kinds; [apply M1|exact Gx]. }
    destruct (each_ok _ _ IH _ _ E B1 V1) as [Z P]. pose proof Z as (B2 & K2 & F2 & M2).
    split.
    { eapply froze_trans; [|exact Z]. split; [exact B1|]. split; [eapply keeps_upd; eauto|]. split; auto. }
    intros G LG GG S0.
    destruct (P (and_gray G a)) as [S1 A1].
    + eapply lows_mark; eauto.
    + eapply gray_mark; eauto. reflexivity.
    + eapply sound_mark; [exact Ea|cbn; discriminate|exact Logic.I|exact Logic.I|exact S0].
    + assert (Ea2 : nth_error h' a = Some (Arr true l)).
      { apply (freezes_still _ _ F2); [|reflexivity]. rewrite (upd_at _ _ _ _ _ Ea), Nat.eqb_refl. reflexivity. }
      split; [|left; eapply frz_arr; eauto]. eapply sound_unmark; [exact Ea2| |exact S1]. cbn.
      rewrite Forall_forall in *. intros x Ix. destruct (A1 x Ix) as [|(c & k & w & -> & Ec & _)]; [assumption|]. exfalso.
      specialize (Ge _ Ix). destruct Ge as [Gx _]. cbn in Gx. destruct (nth_error h c) as [oc|] eqn:Eo; [|contradiction].
      destruct (freezes_trans _ _ _ F1 F2 _ _ Eo) as (oc' & Ec' & Fc). rewrite Ec in Ec'. injection Ec' as <-.
      destruct oc; try contradiction; cbn in Fc; [destruct Fc; discriminate|destruct Fc; discriminate|discriminate|destruct Fc as [?|(_ & ? & ? & _)]; discriminate].
  - injection E as <-. split; [now apply froze_refl|]. intros G _ _ S0. split; [exact S0|left; eapply frz_map; eauto].
  - assert (NQ : ~ Q a) by (intros Qa; eapply (b_fix h B); eauto; reflexivity).
    pose proof (b_obj h B _ _ Ea) as Oa. cbn in Oa. pose proof (b_acc h B _ _ Sa Ea) as Aa. cbn in Aa.
    assert (F1 : freezes h (upd h a (Map true ns))) by (eapply freezes_upd; [exact Ea|]; cbn; auto).
    assert (M1 : mild h (upd h a (Map true ns))) by (eapply mild_upd; [exact Ea|exact Logic.I|discriminate]).
    assert (B1 : base (upd h a (Map true ns))).
    { eapply base_upd; eauto; try discriminate; [exact Logic.I|]. intros f ms Em. injection Em as <- <-. exists false, ns. auto. }
    assert (V1 : Forall (vok (upd h a (Map true ns))) (map Ptr ns)).
    { rewrite Forall_forall in *. intros x Ix. pose proof (Aa x Ix) as Sx. apply in_map_iff in Ix as (m & <- & Im). right.
      destruct (Oa m Im) as (k & w & Em). exists m, k, w. split; [reflexivity|]. split; [exact Sx|]. eapply freezes_node; eauto. }
    destruct (each_ok _ _ IH _ _ E B1 V1) as [Z P]. pose proof Z as (B2 & K2 & F2 & M2).
    split.
    { eapply froze_trans; [|exact Z]. split; [exact B1|]. split; [eapply keeps_upd; eauto|]. split; auto. }
    intros G LG GG S0.
    destruct (P (and_gray G a)) as [S1 A1].
    + eapply lows_mark; eauto.
    + eapply gray_mark; eauto. reflexivity.
    + eapply sound_mark; [exact Ea|cbn; discriminate|exact Logic.I|exact Logic.I|exact S0].
    + assert (Ea2 : nth_error h' a = Some (Map true ns)).
      { apply (freezes_still _ _ F2); [|reflexivity]. rewrite (upd_at _ _ _ _ _ Ea), Nat.eqb_refl. reflexivity. }
      split; [|left; eapply frz_map; eauto]. eapply sound_unmark; [exact Ea2| |exact S1]. cbn.
      assert (NG : ~ G a) by (intros Ga; specialize (GG _ _ Ga Ea); cbn in GG; discriminate).
      pose proof (S0 _ _ Ea NG) as SO. cbn in SO.
      intros m k w Im Em. rewrite Forall_forall in Oa, A1. destruct (Oa m Im) as (k0 & w0 & Em0).
      pose proof (freezes_node _ _ _ _ _ (freezes_trans _ _ _ F1 F2) Em0) as Em1. rewrite Em in Em1. injection Em1 as -> ->.
      split; [apply (frz_keep h); [apply freezes_still; eapply freezes_trans; eauto|]; now destruct (SO _ _ _ Im Em0)|]. intros _.
      destruct (A1 (Ptr m) (in_map _ _ _ Im)) as [Fm|(c & k1 & w1 & Ec & Ec2 & Fw)].
      * inversion Fm; congruence.
      * injection Ec as <-. rewrite Em in Ec2. injection Ec2 as <- <-. exact Fw.
  - destruct (b_obj h B _ _ Ea) as [Ok Ow]. pose proof (b_acc h B _ _ Sa Ea) as Aa. cbn in Aa.
    inversion Aa as [|? ? A1 A2]; subst. inversion A2 as [|? ? A3 _]; subst.
    destruct (IH _ _ _ E B (or_introl (conj Ow A3))) as [Z P]. split; [exact Z|]. intros G LG GG S0. destruct (P G LG GG S0) as [S1 F].
    split; [exact S1|]. right. exists a, k, w. split; [reflexivity|]. destruct Z as (_ & _ & Fz & [Mk _]). split; [eapply freezes_node; eauto|].
    destruct F as [F|(c & k1 & w1 & -> & Ec & _)]; [exact F|]. exfalso. apply (okval_kinds h h') in Ow; [|exact Mk]. cbn in Ow. now rewrite Ec in Ow.
  - pose proof (good_sens _ _ _ B Vg Ea) as Gw.
    destruct (IH _ _ _ E B (or_introl Gw)) as [Z P]. split; [exact Z|]. intros G LG GG S0. destruct (P G LG GG S0) as [S1 F].
    split; [exact S1|]. left. destruct Z as (_ & _ & Fz & [Mk _]).
    eapply frz_sens; [apply (freezes_still _ _ Fz); [exact Ea|exact Logic.I]|].
    destruct F as [F|(c & k1 & w1 & -> & Ec & _)]; [exact F|]. exfalso. destruct Gw as [Ow _]. apply (okval_kinds h h') in Ow; [|exact Mk]. cbn in Ow. now rewrite Ec in Ow.
  - injection E as <-. split; [now apply froze_refl|]. intros G _ _ S0. split; [exact S0|left; eapply frz_bin; eauto].
  - injection E as <-. assert (NQ : ~ Q a) by (intros Qa; eapply (b_fix h B); eauto; reflexivity).
    rewrite <- (upd_app _ _ _ _ _ Ea). pose proof (nth_old _ [Bytes (contents h b)] _ _ Ea) as Ea1.
    assert (B1 : base (h ++ [Bytes (contents h b)])) by now apply base_bytes.
    assert (NB : forall c g, nth_error (h ++ [Bytes (contents h b)]) c <> Some (Bin g (length h))).
    { intros c g Ec. apply nth_split in Ec as [Ec|(i & -> & Ec)]; [|one i]. destruct (b_obj h B _ _ Ec) as (bs & Eb). apply nth_lt in Eb. lia. }
    assert (Eb : nth_error (h ++ [Bytes (contents h b)]) (length h) = Some (Bytes (contents h b))).
    { rewrite nth_error_app2, Nat.sub_diag by lia. reflexivity. }
    assert (F : freezes h (upd (h ++ [Bytes (contents h b)]) a (Bin true (length h)))).
    { intros c o Ec. rewrite (upd_at _ _ _ _ _ Ea1). destruct (Nat.eqb_spec c a) as [->|D].
      - rewrite Ea in Ec. injection Ec as <-. eexists. split; [reflexivity|]. right. split; [reflexivity|]. eexists. split; [reflexivity|].
        intros bs Ebs. rewrite (upd_at _ _ _ _ _ Ea1). pose proof (nth_lt _ _ _ Ea). destruct (Nat.eqb_spec (length h) a); [lia|].
        rewrite Eb. unfold contents. now rewrite Ebs.
      - exists o. split; [now apply nth_old|apply frees_refl]. }
    split; [split; [|split; [|split]]|].
    + eapply base_upd; eauto; try discriminate; [exact Logic.I|cbn; eauto|cbn; constructor|].
      intros f x Ex. injection Ex as <- <-. exact NB.
    + eapply keeps_trans; [apply (keeps_app h [Bytes (contents h b)] B)|eapply keeps_upd; eauto].
    + exact F.
    + split.
      * eapply kinds_trans; [apply kinds_app|eapply kinds_upd; eauto; exact Logic.I].
      * intros c x Ec Lx. rewrite (upd_at _ _ _ _ _ Ea1) in Ec. destruct (Nat.eqb_spec c a) as [->|]; [injection Ec as <-; lia|].
        apply nth_split in Ec as [Ec|(i & -> & Ec)]; [exact Ec|one i].
    + intros G LG GG S0. split.
      * assert (S1 : sound G (h ++ [Bytes (contents h b)])) by (apply sound_plain; auto; intros o [<-|[]]; exact Logic.I).
        eapply sound_unmark; [rewrite (upd_at _ _ _ _ _ Ea1), Nat.eqb_refl; reflexivity|exact Logic.I|].
        eapply sound_mark; [exact Ea1|cbn; discriminate|exact Logic.I|exact Logic.I|exact S1].
      * left. eapply frz_bin. rewrite (upd_at _ _ _ _ _ Ea1), Nat.eqb_refl. reflexivity.
  - exfalso. destruct Vg as [Vg _]. cbn in Vg. now rewrite Ea in Vg.
Qed.

(* ---------- FrozenCopy and ThawedCopy ---------- *)

Definition copied (h h' : heap) : Prop := base h' /\ (exists l, h' = h ++ l) /\ mild h h'.
Lemma copied_refl h : base h -> copied h h.
Proof. intros B. split; [exact B|]. split; [exists []; now rewrite app_nil_r|apply mild_refl]. Qed.
Lemma copied_trans h1 h2 h3 : copied h1 h2 -> copied h2 h3 -> copied h1 h3.
Proof.
  intros (A1 & (l1 & ->) & A3) (B1 & (l2 & ->) & B3). split; [exact B1|]. split; [exists (l1 ++ l2); now rewrite app_assoc|eapply mild_trans; eauto].
Qed.
Lemma copied_kinds h h' : copied h h' -> kinds h h'.
Proof. now intros (_ & _ & [K _]). Qed.
Lemma copied_still h h' : copied h h' -> keeps_still h h'.
Proof. intros (_ & (l & ->) & _). apply still_app. Qed.
Lemma copied_keeps h h' : base h -> copied h h' -> keeps h h'.
Proof. intros B (_ & (l & ->) & _). now apply keeps_app. Qed.
Lemma copied_old h h' a o : copied h h' -> nth_error h a = Some o -> nth_error h' a = Some o.
Proof. intros (_ & (l & ->) & _). apply nth_old. Qed.
Lemma copied_app h l : base (h ++ l) -> mild h (h ++ l) -> copied h (h ++ l).
Proof. intros A B. split; [exact A|]. split; [now exists l|exact B]. Qed.

(* R: what is known of a copy *)
Definition copy_ok (R : heap -> val -> Prop) (f : heap -> val -> option (heap * val)) : Prop :=
  forall h v h' v', f h v = Some (h', v') -> base h -> good h v ->
  copied h h' /\ good h' v' /\ (sound nobody h -> sound nobody h' /\ R h' v').
Definition firm (R : heap -> val -> Prop) : Prop := forall h h' v, keeps_still h h' -> R h v -> R h' v.

Lemma map_each_ok R f l : firm R -> copy_ok R f -> forall h h' l', map_each f h l = Some (h', l') -> base h -> Forall (good h) l ->
  copied h h' /\ Forall (good h') l' /\ (sound nobody h -> sound nobody h' /\ Forall (R h') l').
Proof.
  intros FR F. induction l as [|v l IH]; cbn; intros h h' l' E B G.
  - injection E as <- <-. split; [now apply copied_refl|]. split; [constructor|]. intros S0. split; [exact S0|constructor].
  - destruct (f h v) as [[h1 v1]|] eqn:E1; [|discriminate]. destruct (map_each f h1 l) as [[h2 r]|] eqn:E2; [|discriminate]. injection E as <- <-.
    inversion G as [|? ? G1 G2]; subst. destruct (F _ _ _ _ E1 B G1) as (C1 & Gv & P1).
    assert (G3 : Forall (good h1) l) by (apply (goods_kinds h); [now apply copied_kinds|exact G2]).
    destruct (IH _ _ _ E2 (proj1 C1) G3) as (C2 & Gr & P2).
    split; [eapply copied_trans; eauto|]. split; [constructor; [|exact Gr]; apply (good_kinds h1); [now apply copied_kinds|exact Gv]|].
    intros S0. destruct (P1 S0) as [S1 R1]. destruct (P2 S1) as [S2 R2]. split; [exact S2|]. constructor; [|exact R2]. apply (FR h1); [now apply copied_still|exact R1].
Qed.

Lemma frozen_true n h w : base h -> good h w -> frozen n h w = Some true -> frz h w.
Proof.
  revert w. induction n as [|n IH]; intros w B G E; [discriminate|]. cbn in E. destruct w as [z|a]; [constructor|].
  destruct (nth_error h a) as [[f l|f ns|k w|w|f b|bs]|] eqn:Ea.
  - injection E as ->. eapply frz_arr; eauto.
  - injection E as ->. eapply frz_map; eauto.
  - destruct G as [G _]. cbn in G. now rewrite Ea in G.
  - eapply frz_sens; [exact Ea|]. apply IH; auto. eapply good_sens; eauto.
  - injection E as ->. eapply frz_bin; eauto.
  - destruct G as [G _]. cbn in G. now rewrite Ea in G.
  - destruct G as [G _]. cbn in G. now rewrite Ea in G.
Qed.

Lemma good_new h o : base h -> match o with Node _ _ | Bytes _ => False | _ => True end -> good (h ++ [o]) (Ptr (length h)).
Proof.
  intros B N. split; [|cbn; apply (b_new h B); lia]. cbn. rewrite nth_error_app2, Nat.sub_diag by lia. cbn. destruct o; auto.
Qed.
Lemma at_new {A} (h : list A) o : nth_error (h ++ [o]) (length h) = Some o.
Proof. rewrite nth_error_app2, Nat.sub_diag by lia. reflexivity. Qed.
Lemma at_map h f kvs : nth_error (fst (alloc_map h f kvs)) (length h + length kvs) = Some (Map f (seq (length h) (length kvs))).
Proof. unfold alloc_map. cbn [fst]. rewrite nth_new, nth_error_app2, nodes_len, Nat.sub_diag by (rewrite nodes_len; lia). reflexivity. Qed.
Lemma good_new_map h f kvs : base h -> good (fst (alloc_map h f kvs)) (Ptr (length h + length kvs)).
Proof. intros B. split; [unfold okval; now rewrite at_map|cbn; apply (b_new h B); lia]. Qed.
Lemma at_bin h f bs : nth_error (fst (alloc_bin h f bs)) (Datatypes.S (length h)) = Some (Bin f (length h)).
Proof. unfold alloc_bin. cbn [fst]. rewrite nth_error_app2 by lia. now replace (Datatypes.S (length h) - length h) with 1 by lia. Qed.
Lemma good_new_bin h f bs : base h -> good (fst (alloc_bin h f bs)) (Ptr (Datatypes.S (length h))).
Proof. intros B. split; [unfold okval; now rewrite at_bin|cbn; apply (b_new h B); lia]. Qed.

Lemma mild_one h o : (forall b, o <> Bin true b) -> mild h (h ++ [o]).
Proof. intros N. apply mild_app. intros b [E|[]]. now destruct (N b). Qed.
Lemma mild_bin h f bs : mild h (fst (alloc_bin h f bs)).
Proof. cbn. apply mild_app. intros b [E|[E|[]]]; [discriminate|]. injection E as _ <-. lia. Qed.
Lemma copied_arr h f l : base h -> Forall (good h) l -> copied h (h ++ [Arr f l]).
Proof. intros B G. apply copied_app; [now apply base_arr|now apply mild_one]. Qed.
Lemma copied_sens h w : base h -> good h w -> copied h (h ++ [Sens w]).
Proof. intros B G. apply copied_app; [now apply base_sens|now apply mild_one]. Qed.
Lemma copied_bin h f bs : base h -> copied h (fst (alloc_bin h f bs)).
Proof. intros B. apply copied_app; [now apply base_newbin|apply mild_bin]. Qed.
Lemma copied_map h f kvs : base h -> good_pairs h kvs -> copied h (fst (alloc_map h f kvs)).
Proof. intros B G. apply copied_app; [now apply (base_alloc_map h f)|apply (mild_alloc_map h f)]. Qed.
Lemma sound_bin h f bs : base h -> sound nobody h -> sound nobody (fst (alloc_bin h f bs)).
Proof. intros B S0. cbn. apply sound_plain; auto. intros o [<-|[<-|[]]]; exact Logic.I. Qed.
Lemma sound_sens h w : base h -> sound nobody h -> sound nobody (h ++ [Sens w]).
Proof. intros B S0. apply sound_plain; auto. intros o [<-|[]]; exact Logic.I. Qed.

Lemma firsts_combine {A B} (ks : list A) (ws : list B) P : Forall P ks -> Forall P (map fst (combine ks ws)).
Proof. intros F. revert ws. induction F as [|k ks Hk F IH]; intros [|w ws]; cbn; constructor; auto. Qed.
Lemma seconds_combine {A B} (ks : list A) (ws : list B) P : Forall P ws -> Forall P (map snd (combine ks ws)).
Proof. intros F. revert ks. induction F as [|k ws Hk F IH]; intros [|w ks]; cbn; constructor; auto. Qed.

Lemma frozen_copy_spec n : copy_ok frz (frozen_copy n).
Proof.
  assert (FR : firm frz) by (intros h h' v; apply frz_keep).
  induction n as [|n IH]; intros h v h' v' E B G; [discriminate|]. cbn [frozen_copy] in E.
  destruct v as [z|a].
  { injection E as <- <-. split; [now apply copied_refl|]. split; [exact G|]. intros S0. split; [exact S0|constructor]. }
  destruct (nth_error h a) as [o|] eqn:Ea; [|destruct G as [G _]; cbn in G; now rewrite Ea in G].
  destruct o as [[] l|[] ns|k w|w|[] b|bs].
  - injection E as <- <-. split; [now apply copied_refl|]. split; [exact G|]. intros S0. split; [exact S0|eapply frz_arr; eauto].
  - destruct (map_each (frozen_copy n) h l) as [[h1 l1]|] eqn:E1; [|discriminate]. injection E as <- <-.
    destruct (map_each_ok _ _ _ FR IH _ _ _ E1 B (good_elems _ _ _ _ B G Ea)) as (C1 & G1 & P1). pose proof (proj1 C1) as B1.
    split; [eapply copied_trans; [exact C1|now apply copied_arr]|]. split; [now apply good_new|].
    intros S0. destruct (P1 S0) as [S1 R1]. split; [now apply sound_arr|]. eapply frz_arr. apply at_new.
  - injection E as <- <-. split; [now apply copied_refl|]. split; [exact G|]. intros S0. split; [exact S0|eapply frz_map; eauto].
  - destruct (map_each (frozen_copy n) h (map snd (pairs h ns))) as [[h1 ws]|] eqn:E1; [|discriminate].
    pose proof (good_entries _ _ _ _ B (proj2 G) Ea) as GP.
    destruct (map_each_ok _ _ _ FR IH _ _ _ E1 B (good_seconds _ _ GP)) as (C1 & G1 & P1). pose proof (proj1 C1) as B1.
    assert (GC : good_pairs h1 (combine (map fst (pairs h ns)) ws)).
    { apply good_combine; [|exact G1]. apply (goods_kinds h); [now apply copied_kinds|now apply good_firsts]. }
    injection E as <- <-.
    split; [eapply copied_trans; [exact C1|now apply (copied_map h1 true)]|]. split; [now apply (good_new_map h1 true)|].
    intros S0. destruct (P1 S0) as [S1 R1]. split.
    + apply (sound_alloc_map _ h1 true); auto.
      * apply firsts_combine. apply (frzs_keep h); [now apply copied_still|]. eapply frz_keys; eauto.
      * intros _. now apply seconds_combine.
    + eapply frz_map. apply (at_map h1 true).
  - destruct G as [G _]. cbn in G. now rewrite Ea in G.
  - pose proof (good_sens _ _ _ B G Ea) as Gw. destruct (frozen n h w) as [[]|] eqn:Ef; [| |discriminate].
    + injection E as <- <-. split; [now apply copied_refl|]. split; [exact G|]. intros S0. split; [exact S0|]. eapply frz_sens; [exact Ea|]. eapply frozen_true; eauto.
    + destruct (frozen_copy n h w) as [[h1 w1]|] eqn:E1; [|discriminate]. injection E as <- <-.
      destruct (IH _ _ _ _ E1 B Gw) as (C1 & G1 & P1). pose proof (proj1 C1) as B1.
      split; [eapply copied_trans; [exact C1|now apply copied_sens]|]. split; [now apply good_new|].
      intros S0. destruct (P1 S0) as [S1 R1]. split; [now apply sound_sens|]. eapply frz_sens; [apply at_new|]. apply (frz_keep h1); [apply still_app|exact R1].
  - injection E as <- <-. split; [now apply copied_refl|]. split; [exact G|]. intros S0. split; [exact S0|eapply frz_bin; eauto].
  - injection E as <- <-. split; [now apply (copied_bin h true)|]. split; [now apply (good_new_bin h true)|].
    intros S0. split; [now apply (sound_bin h true)|]. eapply frz_bin. apply (at_bin h true).
  - destruct G as [G _]. cbn in G. now rewrite Ea in G.
Qed.

Lemma thawed_copy_spec n : copy_ok (fun _ _ => True) (thawed_copy n).
Proof.
  assert (FR : firm (fun _ _ => True)) by (intros h h' v; auto).
  induction n as [|n IH]; intros h v h' v' E B G; [discriminate|]. cbn [thawed_copy] in E.
  destruct v as [z|a].
  { injection E as <- <-. split; [now apply copied_refl|]. split; [exact G|]. intros S0. split; auto. }
  destruct (nth_error h a) as [o|] eqn:Ea; [|destruct G as [G _]; cbn in G; now rewrite Ea in G].
  destruct o as [f l|f ns|k w|w|f b|bs].
  - destruct (map_each (thawed_copy n) h l) as [[h1 l1]|] eqn:E1; [|discriminate]. injection E as <- <-.
    destruct (map_each_ok _ _ _ FR IH _ _ _ E1 B (good_elems _ _ _ _ B G Ea)) as (C1 & G1 & P1). pose proof (proj1 C1) as B1.
    split; [eapply copied_trans; [exact C1|now apply copied_arr]|]. split; [now apply good_new|].
    intros S0. destruct (P1 S0) as [S1 R1]. split; [|exact Logic.I]. apply sound_arr; auto. discriminate.
  - destruct (map_each (thawed_copy n) h (map snd (pairs h ns))) as [[h1 ws]|] eqn:E1; [|discriminate].
    pose proof (good_entries _ _ _ _ B (proj2 G) Ea) as GP.
    destruct (map_each_ok _ _ _ FR IH _ _ _ E1 B (good_seconds _ _ GP)) as (C1 & G1 & P1). pose proof (proj1 C1) as B1.
    assert (GC : good_pairs h1 (combine (map fst (pairs h ns)) ws)).
    { apply good_combine; [|exact G1]. apply (goods_kinds h); [now apply copied_kinds|now apply good_firsts]. }
    injection E as <- <-.
    split; [eapply copied_trans; [exact C1|now apply (copied_map h1 false)]|]. split; [now apply (good_new_map h1 false)|].
    intros S0. destruct (P1 S0) as [S1 R1]. split; [|exact Logic.I].
    apply (sound_alloc_map _ h1 false); auto; [|discriminate].
    apply firsts_combine. apply (frzs_keep h); [now apply copied_still|]. eapply frz_keys; eauto.
  - destruct G as [G _]. cbn in G. now rewrite Ea in G.
  - pose proof (good_sens _ _ _ B G Ea) as Gw. destruct w as [z|c].
    + injection E as <- <-. split; [now apply copied_refl|]. split; [exact G|]. intros S0. split; auto.
    + destruct (thawed_copy n h (Ptr c)) as [[h1 w1]|] eqn:E1; [|discriminate]. injection E as <- <-.
      destruct (IH _ _ _ _ E1 B Gw) as (C1 & G1 & P1). pose proof (proj1 C1) as B1.
      split; [eapply copied_trans; [exact C1|now apply copied_sens]|]. split; [now apply good_new|].
      intros S0. destruct (P1 S0) as [S1 R1]. split; [now apply sound_sens|exact Logic.I].
  - injection E as <- <-. split; [now apply (copied_bin h false)|]. split; [now apply (good_new_bin h false)|].
    intros S0. split; [now apply (sound_bin h false)|exact Logic.I].
  - destruct G as [G _]. cbn in G. now rewrite Ea in G.
Qed.

(* ---------- one operation ---------- *)

Definition stepped (h : heap) (h' : heap) (K' : list val) : Prop := base h' /\ keeps h h' /\ mild h h' /\ known h' K'.
Lemma stepped_same h K : base h -> known h K -> stepped h h K.
Proof. intros B N. split; [exact B|]. split; [apply keeps_refl|]. split; [apply mild_refl|exact N]. Qed.
Lemma stepped_more h K v : base h -> known h K -> known1 h v -> stepped h h (K ++ [v]).
Proof. intros B N V. apply stepped_same; [exact B|]. now apply known_snoc. Qed.
Lemma stepped_copy h h' K : base h -> known h K -> copied h h' -> stepped h h' K.
Proof.
  intros B N C. split; [apply C|]. split; [now apply copied_keeps|]. split; [apply C|]. apply (known_mild h); [apply C|exact N].
Qed.
Lemma stepped_give h h' K v : base h -> known h K -> copied h h' -> known1 h' v -> stepped h h' (K ++ [v]).
Proof.
  intros B N C V. destruct (stepped_copy _ _ _ B N C) as (A1 & A2 & A3 & A4). split; [exact A1|]. split; [exact A2|]. split; [exact A3|]. now apply known_snoc.
Qed.

Lemma arg_good h K i v : known h K -> arg h K i = Some v -> good h v.
Proof.
  unfold arg. intros N E. destruct (nth_error K i) as [x|] eqn:Ei; [|discriminate]. destruct (is_value h x) eqn:Ev; [|discriminate]. injection E as <-.
  apply nth_error_In in Ei. unfold known in N. rewrite Forall_forall in N. destruct (N _ Ei) as [Sx [O|(b & bs & -> & Eb & _)]]; [split; auto|].
  cbn in Ev. now rewrite Eb in Ev.
Qed.
Lemma args_good h K is : known h K -> Forall (good h) (args h K is).
Proof. intros N. induction is as [|i r IH]; cbn; [constructor|]. destruct (arg h K i) eqn:E; [|exact IH]. constructor; [eapply arg_good; eauto|exact IH]. Qed.
Lemma obj_at_known h K i a o : known h K -> obj_at h K i = Some (a, o) -> nth_error h a = Some o /\ S a /\ known1 h (Ptr a).
Proof.
  unfold obj_at. intros N E. destruct (nth_error K i) as [[z|c]|] eqn:Ei; try discriminate. destruct (nth_error h c) as [x|] eqn:Ec; [|discriminate]. injection E as <- <-.
  apply nth_error_In in Ei. unfold known in N. rewrite Forall_forall in N. specialize (N _ Ei). split; [exact Ec|]. split; [apply N|exact N].
Qed.
Lemma known_good h a o : known1 h (Ptr a) -> nth_error h a = Some o -> match o with Bytes _ => True | _ => good h (Ptr a) end.
Proof.
  intros [Sa [O|(b & bs & Eb & E & _)]] Ea; [destruct o; auto; split; auto|]. injection Eb as <-. rewrite Ea in E. now injection E as ->.
Qed.
Lemma Forall_upd {A} P (l : list A) i x : Forall P l -> P x -> Forall P (upd l i x).
Proof. intros F Px. revert i. induction F as [|y l Hy F IH]; intros [|i]; cbn; constructor; auto. Qed.
Lemma Forall_firstn {A} P n (l : list A) : Forall P l -> Forall P (firstn n l).
Proof. intros F. revert n. induction F as [|y l Hy F IH]; intros [|i]; cbn; constructor; auto. Qed.
Lemma Forall_skipn {A} P n (l : list A) : Forall P l -> Forall P (skipn n l).
Proof. intros F. revert n. induction F as [|y l Hy F IH]; intros [|i]; cbn; auto. Qed.
Lemma Forall_remove {A} P n (l : list A) : Forall P l -> Forall P (remove_at l n).
Proof. intros F. apply Forall_app. split; [now apply Forall_firstn|now apply Forall_skipn]. Qed.
Lemma Forall_insert {A} P n x (l : list A) : Forall P l -> P x -> Forall P (insert_at l n x).
Proof. intros F Px. apply Forall_app. split; [now apply Forall_firstn|]. constructor; [exact Px|now apply Forall_skipn]. Qed.
Lemma in_remove {A} (l : list A) n x : In x (remove_at l n) -> In x l.
Proof.
  intros I. apply in_app_or in I as [I|I].
  - rewrite <- (firstn_skipn n l). apply in_or_app. now left.
  - rewrite <- (firstn_skipn (Datatypes.S n) l). apply in_or_app. now right.
Qed.

(* an element of a mutable array is changed *)
Lemma step_arr h K a l l' : base h -> known h K -> S a -> nth_error h a = Some (Arr false l) -> Forall (good h) l' ->
  stepped h (upd h a (Arr false l')) K /\ (sound nobody h -> sound nobody (upd h a (Arr false l'))).
Proof.
  intros B N Sa Ea G. assert (NQ : ~ Q a) by (intros Qa; eapply (b_fix h B); eauto; reflexivity).
  assert (M : mild h (upd h a (Arr false l'))) by (eapply mild_upd; [exact Ea|exact Logic.I|discriminate]).
  split; [split; [|split; [|split]]|].
  - eapply base_upd; eauto; try discriminate; [exact Logic.I|cbn; now apply goods_ok|cbn; now apply goods_sv in G].
  - eapply keeps_upd; eauto.
  - exact M.
  - now apply (known_mild h).
  - intros S0. eapply sound_unmark; [rewrite (upd_at _ _ _ _ _ Ea), Nat.eqb_refl; reflexivity|exact Logic.I|].
    eapply sound_mark; [exact Ea|cbn; discriminate|exact Logic.I|exact Logic.I|exact S0].
Qed.
(* the nodes of a mutable map *)
Lemma step_map h K a ns ns' : base h -> known h K -> S a -> nth_error h a = Some (Map false ns) ->
  (forall n, In n ns' -> In n ns \/ ((forall c g xs, nth_error h c = Some (Map g xs) -> ~ In n xs) /\ ~ Q n)) ->
  okobj h a (Map false ns') -> Forall sv (map Ptr ns') ->
  stepped h (upd h a (Map false ns')) K /\ (sound nobody h -> sobj h (Map false ns') -> sound nobody (upd h a (Map false ns'))).
Proof.
  intros B N Sa Ea P Ok Ac. assert (NQ : ~ Q a) by (intros Qa; eapply (b_fix h B); eauto; reflexivity).
  assert (M : mild h (upd h a (Map false ns'))) by (eapply mild_upd; [exact Ea|exact Logic.I|discriminate]).
  split; [split; [|split; [|split]]|].
  - eapply base_upd; eauto; try discriminate; [exact Logic.I|]. intros f ms Em. injection Em as <- <-. exists false, ns. split; [reflexivity|exact P].
  - eapply keeps_upd; eauto.
  - exact M.
  - now apply (known_mild h).
  - intros S0 SO. eapply sound_unmark; [rewrite (upd_at _ _ _ _ _ Ea), Nat.eqb_refl; reflexivity| |].
    + apply (sobj_keep h); [eapply still_upd; [exact Ea|cbn; discriminate]| |exact SO].
      intros f ms Em n k w I En. rewrite (upd_at _ _ _ _ _ Ea) in En. destruct (Nat.eqb_spec n a); [discriminate|exact En].
    + eapply sound_mark; [exact Ea|cbn; discriminate|exact Logic.I|exact Logic.I|exact S0].
Qed.
(* the value of an entry of a mutable map *)
Lemma step_node h K a ns m k w w' : base h -> known h K -> S a -> nth_error h a = Some (Map false ns) -> In m ns ->
  nth_error h m = Some (Node k w) -> good h w' ->
  stepped h (upd h m (Node k w')) K /\ (sound nobody h -> sound nobody (upd h m (Node k w'))).
Proof.
  intros B N Sa Ea Im Em [Gw Sw].
  assert (NQ : ~ Q m) by (intros Qm; pose proof (b_up h B _ _ _ _ Ea Im Qm) as Qa; eapply (b_fix h B); eauto; reflexivity).
  assert (Sm : S m).
  { pose proof (b_acc h B _ _ Sa Ea) as A. cbn in A. rewrite Forall_forall in A. apply (A (Ptr m)). now apply in_map. }
  pose proof (b_acc h B _ _ Sm Em) as Am. cbn in Am. inversion Am; subst. destruct (b_obj h B _ _ Em) as [Ok _].
  assert (M : mild h (upd h m (Node k w'))) by (eapply mild_upd; [exact Em|exact Logic.I|discriminate]).
  split; [split; [|split; [|split]]|].
  - eapply base_upd; eauto; try discriminate; [exact Logic.I|split; auto|cbn; auto].
  - eapply keeps_upd; eauto.
  - exact M.
  - now apply (known_mild h).
  - intros S0 c o Ec Nc. rewrite (upd_at _ _ _ _ _ Em) in Ec. destruct (Nat.eqb_spec c m) as [->|D]; [injection Ec as <-; exact Logic.I|].
    pose proof (S0 _ _ Ec Nc) as SO. assert (KS : keeps_still h (upd h m (Node k w'))) by (eapply still_upd; [exact Em|auto]).
    destruct o as [[] l|f ms|k1 w1|w1|f b|bs]; cbn in *; auto; [now apply (frzs_keep h)|].
    intros n k2 w2 I En. rewrite (upd_at _ _ _ _ _ Em) in En. destruct (Nat.eqb_spec n m) as [->|D2].
    + injection En as <- <-. destruct (SO _ _ _ I Em) as [A _]. split; [now apply (frz_keep h)|]. intros ->. exfalso.
      assert (c = a) by (eapply (b_own h B); eauto). subst c. congruence.
    + destruct (SO _ _ _ I En) as [A A2]. split; [now apply (frz_keep h)|]. intros F. now apply (frz_keep h), A2.
Qed.

Lemma stepped_trans h1 h2 h3 K2 K3 : stepped h1 h2 K2 -> stepped h2 h3 K3 -> stepped h1 h3 K3.
Proof.
  intros (A1 & A2 & A3 & A4) (B1 & B2 & B3 & B4). split; [exact B1|]. split; [eapply keeps_trans; eauto|]. split; [eapply mild_trans; eauto|exact B4].
Qed.
Lemma sound_nodes G h kvs : base h -> sound G h -> sound G (h ++ nodes_of kvs).
Proof.
  intros B S0. apply sound_plain; auto. intros o I. unfold nodes_of in I. apply in_map_iff in I as (e & <- & _). exact Logic.I.
Qed.
Lemma copied_nodes h kvs : base h -> good_pairs h kvs -> copied h (h ++ nodes_of kvs).
Proof.
  intros B G. apply copied_app; [now apply base_nodes|]. apply mild_app. intros b I. unfold nodes_of in I. apply in_map_iff in I as (e & I & _). discriminate.
Qed.
Lemma nodes_seq h kvs m k w : In m (seq (length h) (length kvs)) -> nth_error (h ++ nodes_of kvs) m = Some (Node k w) -> In (k, w) kvs.
Proof.
  intros I E. apply in_seq in I. replace m with (length h + (m - length h)) in E by lia. rewrite nth_new in E.
  destruct (nodes_nth _ _ _ E) as (k' & w' & E' & Ei). injection E' as <- <-. eapply nth_error_In; eauto.
Qed.
Lemma nodes_seq_ok h kvs : Forall (fun n => exists k w, nth_error (h ++ nodes_of kvs) n = Some (Node k w)) (seq (length h) (length kvs)).
Proof.
  apply Forall_forall. intros m I. apply in_seq in I. replace m with (length h + (m - length h)) by lia.
  destruct (nodes_at h [] kvs (m - length h)) as (k & w & E); [lia|]. rewrite app_nil_r in E. eauto.
Qed.
Lemma unowned h kvs m : base h -> length h <= m -> forall c g xs, nth_error (h ++ nodes_of kvs) c = Some (Map g xs) -> ~ In m xs.
Proof.
  intros B L c g xs E I. apply nth_split in E as [E|(i & -> & E)]; [|destruct (nodes_nth _ _ _ E) as (? & ? & ? & _); discriminate].
  pose proof (b_obj h B _ _ E) as O. cbn in O. rewrite Forall_forall in O. destruct (O _ I) as (k & w & Em). apply nth_lt in Em. lia.
Qed.

(* Put of a new key: the nodes are the old ones or new ones *)
Lemma step_put h K a ns kvs old : base h -> known h K -> S a -> nth_error h a = Some (Map false ns) -> incl old ns -> good_pairs h kvs ->
  let h1 := h ++ nodes_of kvs in
  let m := Map false (old ++ seq (length h) (length kvs)) in
  stepped h (upd h1 a m) K /\
  (sound nobody h -> Forall (frz h) (map fst kvs) -> sound nobody (upd h1 a m)).
Proof.
  intros B N Sa Ea I0 G h1 m.
  assert (Inc : forall x, In x (old ++ seq (length h) (length kvs)) -> In x old \/ (In x (seq (length h) (length kvs)) /\ length h <= x)).
  { intros x Ix. apply in_app_or in Ix as [Ix|Ix]; [now left|right]. split; [exact Ix|]. apply in_seq in Ix. lia. }
  pose proof (copied_nodes _ _ B G) as C. pose proof (stepped_copy _ _ _ B N C) as T1. pose proof T1 as (B1 & K1 & M1 & N1).
  pose proof (copied_old _ _ _ _ C Ea) as Ea1.
  pose proof (b_obj h B _ _ Ea) as Oa. cbn in Oa. rewrite Forall_forall in Oa.
  destruct (step_map h1 K a ns (old ++ seq (length h) (length kvs)) B1 N1 Sa Ea1) as [T2 P2].
  - intros x Ix. destruct (Inc x Ix) as [Ix1|[Ix1 L]]; [left; now apply I0|right]. split; [now apply unowned|]. intros Qx. apply (b_len h B) in Qx. lia.
  - cbn. apply Forall_app. split; [|apply nodes_seq_ok]. apply Forall_forall. intros x Ix. destruct (Oa _ (I0 _ Ix)) as (k & w & Ex). exists k, w. now apply nth_old.
  - rewrite map_app. apply Forall_app. split.
    + pose proof (b_acc h B _ _ Sa Ea) as A. cbn in A. rewrite Forall_forall in *. intros x Ix. apply A. apply in_map_iff in Ix as (y & <- & Iy). apply in_map. now apply I0.
    + apply Forall_forall. intros x Ix. apply in_map_iff in Ix as (y & <- & Iy). apply in_seq in Iy. apply (b_new h B). lia.
  - split; [eapply stepped_trans; eauto|]. intros S0 FK. assert (S1 : sound nobody h1) by now apply sound_nodes. apply P2; [exact S1|].
    cbn. intros x k w Ix Ex. split; [|discriminate]. apply (frz_keep h); [apply still_app|].
    destruct (Inc x Ix) as [Ix1|[Ix1 L]].
    + destruct (Oa _ (I0 _ Ix1)) as (k0 & w0 & Ex0). unfold h1 in Ex. rewrite (nth_old _ _ _ _ Ex0) in Ex. injection Ex as <- <-.
      pose proof (S0 _ _ Ea (fun x => x)) as SO. cbn in SO. destruct (SO x k0 w0); auto.
    + apply nodes_seq in Ex; [|exact Ix1]. rewrite Forall_forall in FK. apply FK. apply in_map_iff. exists (k, w). auto.
Qed.

Lemma Forall_nth {A} (P : A -> Prop) l i x : Forall P l -> nth_error l i = Some x -> P x.
Proof. intros F E. rewrite Forall_forall in F. apply F. eapply nth_error_In; eauto. Qed.

Lemma pairs_ext h l ns f a : base h -> nth_error h a = Some (Map f ns) -> pairs (h ++ l) ns = pairs h ns.
Proof.
  intros B E. pose proof (b_obj h B _ _ E) as O. cbn in O. clear E. induction O as [|n ns (k & w & En) O IH]; cbn; [reflexivity|].
  rewrite (nth_old _ l _ _ En), En, IH. reflexivity.
Qed.
Lemma copied_pairs h h' ns f a : base h -> copied h h' -> nth_error h a = Some (Map f ns) -> pairs h' ns = pairs h ns.
Proof. intros B (_ & (l & ->) & _). now apply (pairs_ext h l ns f a). Qed.

Ltac stay := injection 1 as <- <-; split; [now apply stepped_same|auto].
Ltac ostay E := injection E as <- <-; split; [now apply stepped_same|auto].

Lemma not_frozen_obj h K i a o : obj_at h K i = Some (a, o) -> not_frozen h K i -> match o with Arr f _ | Map f _ => f = false | _ => True end.
Proof.
  unfold obj_at, not_frozen. destruct (nth_error K i) as [[z|c]|]; try discriminate. destruct (nth_error h c) as [x|]; [|discriminate].
  intros E. injection E as <- <-. now destruct x as [[] ?|[] ?| | | |].
Qed.

Lemma step_spec n h K o h' K' : step n h K o = Some (h', K') -> no_entries o -> base h -> known h K ->
  stepped h h' K' /\ (careful1 h K o -> sound nobody h -> sound nobody h').
Proof.
  intros E NE B N.
  assert (FR : firm frz) by (intros ? ? ?; apply frz_keep).
  assert (FT : firm (fun _ _ => True)) by (intros ? ? ?; auto).
  destruct o as [z|bs|i bs|i f|i|is|is|i j|i pos j|i pos j|i pos|i pos|i from to|i j|i j| |i at_ grow k j|i pos|i pos|i pos|i at_ sm k j|i pos|k j|i|i|i|i|i|i|i];
    cbn [step] in E; try contradiction.
  - (* OScalar *) injection E as <- <-. split; [apply stepped_more; auto; split; cbn; auto|auto].
  - (* OBytes *) injection E as <- <-. cbn. split.
    + apply stepped_give; auto; [apply copied_app; [now apply base_bytes|now apply mild_one]|].
      split; [cbn; apply (b_new h B); lia|]. right. exists (length h), bs. split; [reflexivity|]. split; [apply at_new|].
      intros a Ea. apply nth_split in Ea as [Ea|(x & -> & Ea)]; [|one x]. destruct (b_obj h B _ _ Ea) as (bs' & Eb). apply nth_lt in Eb. lia.
    + intros _ S0. apply sound_plain; auto. intros o [<-|[]]; exact Logic.I.
  - (* OWriteBytes *) destruct (obj_at h K i) as [[a [| | | | |old]]|] eqn:Eo; try (now ostay E). injection E as <- <-.
    destruct (obj_at_known _ _ _ _ _ N Eo) as (Ea & Sa & Na). assert (NQ : ~ Q a) by (intros Qa; eapply (b_fix h B); eauto; exact Logic.I).
    assert (M : mild h (upd h a (Bytes bs))) by (eapply mild_upd; [exact Ea|exact Logic.I|discriminate]).
    split; [split; [|split; [|split]]|].
    + eapply base_upd; eauto; try discriminate; try exact Logic.I; constructor.
    + eapply keeps_upd; eauto.
    + exact M.
    + now apply (known_mild h).
    + intros _ S0. eapply sound_unmark; [rewrite (upd_at _ _ _ _ _ Ea), Nat.eqb_refl; reflexivity|exact Logic.I|].
      eapply sound_mark; [exact Ea|cbn; auto|exact Logic.I|exact Logic.I|exact S0].
  - (* OBinary *) destruct (obj_at h K i) as [[a [| | | | |old]]|] eqn:Eo; try (now ostay E).
    destruct (obj_at_known _ _ _ _ _ N Eo) as (Ea & Sa & Na). destruct f; injection E as <- <-.
    + split; [apply stepped_give; auto; [now apply (copied_bin h true)|apply good_known; now apply (good_new_bin h true)]|]. intros _ S0. now apply (sound_bin h true).
    + assert (NB : forall c, nth_error h c <> Some (Bin true a)).
      { destruct Na as [_ [O|(b & bs & Eb & _ & NB)]]; [cbn in O; now rewrite Ea in O|]. injection Eb as <-. exact NB. }
      cbn. split.
      * apply stepped_give; auto; [apply copied_app; [apply base_wrap; eauto|now apply mild_one]|]. apply good_known. now apply good_new.
      * intros _ S0. apply sound_plain; auto. intros o [<-|[]]; exact Logic.I.
  - (* OGoBytes *) destruct (obj_at h K i) as [[a [| | | |f b|]]|] eqn:Eo; try (now ostay E).
    destruct (obj_at_known _ _ _ _ _ N Eo) as (Ea & Sa & Na). destruct f; injection E as <- <-.
    + cbn. split.
      * apply stepped_give; auto; [apply copied_app; [now apply base_bytes|now apply mild_one]|].
        split; [cbn; apply (b_new h B); lia|]. right. exists (length h). eexists. split; [reflexivity|]. split; [apply at_new|].
        intros c Ec. apply nth_split in Ec as [Ec|(x & -> & Ec)]; [|one x]. destruct (b_obj h B _ _ Ec) as (bs' & Eb). apply nth_lt in Eb. lia.
      * intros _ S0. apply sound_plain; auto. intros o [<-|[]]; exact Logic.I.
    + split; [|auto]. apply stepped_more; auto. pose proof (b_acc h B _ _ Sa Ea) as A. cbn in A. inversion A; subst.
      split; [assumption|]. right. destruct (b_obj h B _ _ Ea) as (bs & Eb). exists b, bs. split; [reflexivity|]. split; [exact Eb|].
      intros c Ec. pose proof (b_bin h B _ _ _ _ Ec Ea). subst c. congruence.
  - (* OArray *) injection E as <- <-. cbn. pose proof (args_good h K is N) as G. split.
    + apply stepped_give; auto; [now apply copied_arr|apply good_known; now apply good_new].
    + intros _ S0. apply sound_arr; auto. discriminate.
  - (* OValues *) destruct (map_each (frozen_copy n) h (args h K is)) as [[h1 l1]|] eqn:E1; [|discriminate]. injection E as <- <-. cbn.
    destruct (map_each_ok _ _ _ FR (frozen_copy_spec n) _ _ _ E1 B (args_good h K is N)) as (C1 & G1 & P1). pose proof (proj1 C1) as B1. split.
    + apply stepped_give; auto; [eapply copied_trans; [exact C1|now apply copied_arr]|apply good_known; now apply good_new].
    + intros _ S0. destruct (P1 S0) as [S1 R1]. now apply sound_arr.
  - (* OAdd *) destruct (obj_at h K i) as [[a [[] l| | | | |]]|] eqn:Eo; try (now ostay E). destruct (arg h K j) as [v|] eqn:Ej; [|now ostay E]. injection E as <- <-.
    destruct (obj_at_known _ _ _ _ _ N Eo) as (Ea & Sa & Na). pose proof (known_good _ _ _ Na Ea) as Ga. cbn in Ga.
    destruct (step_arr h K a l (l ++ [v]) B N Sa Ea) as [T P]; [|now split].
    apply Forall_app. split; [eapply good_elems; eauto|]. constructor; [eapply arg_good; eauto|constructor].
  - (* OInsert *) destruct (obj_at h K i) as [[a [[] l| | | | |]]|] eqn:Eo; try (now ostay E). destruct (arg h K j) as [v|] eqn:Ej; [|now ostay E].
    destruct (Nat.leb pos (length l)); [|now ostay E]. injection E as <- <-.
    destruct (obj_at_known _ _ _ _ _ N Eo) as (Ea & Sa & Na). pose proof (known_good _ _ _ Na Ea) as Ga. cbn in Ga.
    destruct (step_arr h K a l (insert_at l pos v) B N Sa Ea) as [T P]; [|now split].
    apply Forall_insert; [eapply good_elems; eauto|eapply arg_good; eauto].
  - (* OSet *) destruct (obj_at h K i) as [[a [[] l| | | | |]]|] eqn:Eo; try (now ostay E). destruct (arg h K j) as [v|] eqn:Ej; [|now ostay E]. injection E as <- <-.
    destruct (obj_at_known _ _ _ _ _ N Eo) as (Ea & Sa & Na). pose proof (known_good _ _ _ Na Ea) as Ga. cbn in Ga.
    destruct (step_arr h K a l (upd l pos v) B N Sa Ea) as [T P]; [|now split].
    apply Forall_upd; [eapply good_elems; eauto|eapply arg_good; eauto].
  - (* ORemove *) destruct (obj_at h K i) as [[a [[] l| | | | |]]|] eqn:Eo; try (now ostay E). injection E as <- <-.
    destruct (obj_at_known _ _ _ _ _ N Eo) as (Ea & Sa & Na). pose proof (known_good _ _ _ Na Ea) as Ga. cbn in Ga.
    destruct (step_arr h K a l (remove_at l pos) B N Sa Ea) as [T P]; [|now split].
    apply Forall_remove. eapply good_elems; eauto.
  - (* OGet *) destruct (obj_at h K i) as [[a [f l| | | | |]]|] eqn:Eo; try (now ostay E). destruct (nth_error l pos) as [v|] eqn:Ev; [|now ostay E]. injection E as <- <-.
    destruct (obj_at_known _ _ _ _ _ N Eo) as (Ea & Sa & Na). pose proof (known_good _ _ _ Na Ea) as Ga. cbn in Ga.
    split; [|auto]. apply stepped_more; auto. apply good_known. eapply Forall_nth; [eapply good_elems; eauto|exact Ev].
  - (* OSlice *) destruct (obj_at h K i) as [[a [f l| | | | |]]|] eqn:Eo; try (now ostay E).
    destruct (obj_at_known _ _ _ _ _ N Eo) as (Ea & Sa & Na). pose proof (known_good _ _ _ Na Ea) as Ga. cbn in Ga.
    destruct (Nat.leb from to && Nat.leb to (length l)); [|now ostay E].
    destruct (f && Nat.eqb from 0 && Nat.eqb to (length l)); injection E as <- <-.
    + split; [|auto]. apply stepped_more; auto.
    + cbn. assert (G : Forall (good h) (firstn (to - from) (skipn from l))) by (apply Forall_firstn, Forall_skipn; eapply good_elems; eauto). split.
      * apply stepped_give; auto; [now apply copied_arr|apply good_known; now apply good_new].
      * intros _ S0. apply sound_arr; auto. intros ->. apply Forall_firstn, Forall_skipn. exact (S0 _ _ Ea (fun x => x)).
  - (* OWith *) destruct (obj_at h K i) as [[a [f l| | | | |]]|] eqn:Eo; try (now ostay E). destruct (arg h K j) as [v|] eqn:Ej; [|now ostay E]. injection E as <- <-.
    destruct (obj_at_known _ _ _ _ _ N Eo) as (Ea & Sa & Na). pose proof (known_good _ _ _ Na Ea) as Ga. cbn in Ga.
    assert (GG : Forall (good h) (l ++ [v])).
    { apply Forall_app. split; [eapply good_elems; eauto|]. constructor; [eapply arg_good; eauto|constructor]. }
    split; [cbn; apply stepped_give; auto; [apply copied_arr; auto|apply good_known; now apply good_new]|].
    intros Cf S0. pose proof (not_frozen_obj _ _ _ _ _ Eo Cf) as Ff. cbn in Ff. subst f. cbn. apply sound_arr; auto. discriminate.
  - (* OWithAll *) destruct (obj_at h K i) as [[a [f l| | | | |]]|] eqn:Eo; try (now ostay E).
    destruct (obj_at h K j) as [[b [g m| | | | |]]|] eqn:Ej; try (now ostay E).
    destruct (obj_at_known _ _ _ _ _ N Eo) as (Ea & Sa & Na). pose proof (known_good _ _ _ Na Ea) as Ga. cbn in Ga.
    destruct (obj_at_known _ _ _ _ _ N Ej) as (Eb & Sb & Nb). pose proof (known_good _ _ _ Nb Eb) as Gb. cbn in Gb.
    assert (ME : match map_each (thawed_copy n) h l with
      | Some (h1, l1) =>
          if f then match frozen_copy n h1 (Ptr b) with
                    | Some (h2, Ptr b1) => match nth_error h2 b1 with Some (Arr _ m1) => Some (give K (alloc h2 (Arr true (l1 ++ m1)))) | _ => Some (h2, K) end
                    | Some (h2, _) => Some (h2, K)
                    | None => None end
          else Some (give K (alloc h1 (Arr false (l1 ++ m))))
      | None => None end = Some (h', K') -> stepped h h' K' /\ (f = false -> sound nobody h -> sound nobody h')).
    { clear E. intros E. destruct (map_each (thawed_copy n) h l) as [[h1 l1]|] eqn:E1; [|discriminate].
      destruct (map_each_ok _ _ _ FT (thawed_copy_spec n) _ _ _ E1 B (good_elems _ _ _ _ B Ga Ea)) as (C1 & G1 & P1). pose proof (proj1 C1) as B1.
      destruct f.
      - destruct (frozen_copy n h1 (Ptr b)) as [[h2 v2]|] eqn:E2; [|discriminate].
        assert (Gb1 : good h1 (Ptr b)) by (apply (good_kinds h); [now apply copied_kinds|exact Gb]).
        destruct (frozen_copy_spec n _ _ _ _ E2 B1 Gb1) as (C2 & G2 & _). pose proof (copied_trans _ _ _ C1 C2) as C3. pose proof (proj1 C2) as B2.
        destruct v2 as [z|b1]; [injection E as <- <-; split; [now apply stepped_copy|discriminate]|].
        destruct (nth_error h2 b1) as [[f1 m1| | | | |]|] eqn:Eb1; try (injection E as <- <-; split; [now apply stepped_copy|discriminate]).
        injection E as <- <-. cbn.
        assert (GG : Forall (good h2) (l1 ++ m1)).
        { apply Forall_app. split; [apply (goods_kinds h1); [now apply copied_kinds|exact G1]|]. eapply good_elems; eauto. }
        split; [|discriminate]. apply stepped_give; auto; [eapply copied_trans; [exact C3|now apply copied_arr]|apply good_known; now apply good_new].
      - injection E as <- <-. cbn.
        assert (GG : Forall (good h1) (l1 ++ m)).
        { apply Forall_app. split; [exact G1|]. apply (goods_kinds h); [now apply copied_kinds|]. eapply good_elems; eauto. }
        split; [apply stepped_give; auto; [eapply copied_trans; [exact C1|now apply copied_arr]|apply good_known; now apply good_new]|].
        intros _ S0. destruct (P1 S0) as [S1 _]. apply sound_arr; auto. discriminate. }
    destruct m as [|x m]; [injection E as <- <-; split; [apply stepped_more; auto|auto]|].
    destruct (ME E) as [T P]. split; [exact T|]. intros Cf. apply P. exact (not_frozen_obj _ _ _ _ _ Eo Cf).
  - (* OMap *) injection E as <- <-. cbn. split.
    + apply stepped_give; auto; [apply copied_app; [now apply base_map0|now apply mild_one]|apply good_known; now apply good_new].
    + intros _ S0. now apply sound_map0.
  - (* OPut *) destruct (obj_at h K i) as [[a [|[] ns| | | |]]|] eqn:Eo; try (now ostay E). destruct (arg h K k) as [kv|] eqn:Ek; [|now ostay E].
    destruct (arg h K j) as [v|] eqn:Ej; [|now ostay E].
    destruct (obj_at_known _ _ _ _ _ N Eo) as (Ea & Sa & Na). pose proof (known_good _ _ _ Na Ea) as Ga. cbn in Ga.
    pose proof (arg_good _ _ _ _ N Ek) as Gk. pose proof (arg_good _ _ _ _ N Ej) as Gv.
    destruct at_ as [pos|].
    + destruct (nth_error ns pos) as [nd|] eqn:En; [|now ostay E]. destruct (nth_error h nd) as [[| |k0 w0| | |]|] eqn:End; try (now ostay E). injection E as <- <-.
      apply nth_error_In in En. destruct (step_node h K a ns nd k0 w0 v B N Sa Ea En End Gv) as [T P]. now split.
    + destruct (frozen_copy n h kv) as [[h1 k1]|] eqn:E1; [|discriminate].
      destruct (frozen_copy_spec n _ _ _ _ E1 B Gk) as (C1 & G1 & P1). pose proof (proj1 C1) as B1.
      pose proof (stepped_copy _ _ _ B N C1) as T1. pose proof T1 as (_ & _ & M1 & N1). pose proof (copied_old _ _ _ _ C1 Ea) as Ea1.
      assert (Gv1 : good h1 v) by (apply (good_kinds h); [now apply copied_kinds|exact Gv]).
      destruct grow; injection E as <- <-.
      * rewrite (copied_pairs _ _ _ _ _ B C1 Ea).
        destruct (step_put h1 K a ns (pairs h ns ++ [(k1, v)]) [] B1 N1 Sa Ea1) as [T2 P2].
        -- intros x [].
        -- apply Forall_app. split; [apply (good_pairs_kinds h); [now apply copied_kinds|]; eapply good_entries; eauto|]. constructor; [split; auto|constructor].
        -- cbn [app] in T2, P2. split; [eapply stepped_trans; eauto|]. intros _ S0. destruct (P1 S0) as [S1 R1]. apply P2; [exact S1|].
           rewrite map_app. apply Forall_app. split; [|constructor; [exact R1|constructor]]. apply (frzs_keep h); [now apply copied_still|]. eapply frz_keys; eauto.
      * destruct (step_put h1 K a ns [(k1, v)] ns B1 N1 Sa Ea1) as [T2 P2].
        -- apply incl_refl.
        -- constructor; [split; auto|constructor].
        -- cbn in T2, P2. split; [eapply stepped_trans; eauto|]. intros _ S0. destruct (P1 S0) as [S1 R1]. apply P2; [exact S1|]. constructor; [exact R1|constructor].
  - (* ODelete *) destruct (obj_at h K i) as [[a [|[] ns| | | |]]|] eqn:Eo; try (now ostay E). injection E as <- <-.
    destruct (obj_at_known _ _ _ _ _ N Eo) as (Ea & Sa & Na).
    destruct (step_map h K a ns (remove_at ns pos) B N Sa Ea) as [T P].
    + intros x Ix. left. eapply in_remove; eauto.
    + pose proof (b_obj h B _ _ Ea) as O. cbn in *. now apply Forall_remove.
    + pose proof (b_acc h B _ _ Sa Ea) as A. cbn in A. rewrite Forall_forall in *. intros x Ix. apply A. apply in_map_iff in Ix as (y & <- & Iy). apply in_map. eapply in_remove; eauto.
    + split; [exact T|]. intros _ S0. apply P; [exact S0|]. pose proof (S0 _ _ Ea (fun x => x)) as SO. cbn in *. intros x k w Ix. apply SO. eapply in_remove; eauto.
  - (* OKey *) destruct (obj_at h K i) as [[a [|f ns| | | |]]|] eqn:Eo; try (now ostay E). destruct (nth_error (pairs h ns) pos) as [[k w]|] eqn:Ep; [|now ostay E]. injection E as <- <-.
    destruct (obj_at_known _ _ _ _ _ N Eo) as (Ea & Sa & Na). split; [|auto]. apply stepped_more; auto. apply good_known.
    now destruct (good_pairs_nth _ _ _ _ _ (good_entries _ _ _ _ B Sa Ea) Ep).
  - (* OValue *) destruct (obj_at h K i) as [[a [|f ns| | | |]]|] eqn:Eo; try (now ostay E). destruct (nth_error (pairs h ns) pos) as [[k w]|] eqn:Ep; [|now ostay E]. injection E as <- <-.
    destruct (obj_at_known _ _ _ _ _ N Eo) as (Ea & Sa & Na). split; [|auto]. apply stepped_more; auto. apply good_known.
    now destruct (good_pairs_nth _ _ _ _ _ (good_entries _ _ _ _ B Sa Ea) Ep).
  - (* OMapWith *) destruct (obj_at h K i) as [[a [|f ns| | | |]]|] eqn:Eo; try (now ostay E). destruct (arg h K k) as [kv|] eqn:Ek; [|now ostay E].
    destruct (arg h K j) as [v|] eqn:Ej; [|now ostay E].
    destruct (obj_at_known _ _ _ _ _ N Eo) as (Ea & Sa & Na). pose proof (known_good _ _ _ Na Ea) as Ga. cbn in Ga.
    pose proof (arg_good _ _ _ _ N Ek) as Gk. pose proof (arg_good _ _ _ _ N Ej) as Gv. pose proof (good_entries _ _ _ _ B Sa Ea) as GE.
    destruct sm; [injection E as <- <-; split; [apply stepped_more; auto|auto]|]. destruct at_ as [pos|].
    + destruct (nth_error (pairs h ns) pos) as [[k0 w0]|] eqn:Ep; [|now ostay E]. injection E as <- <-.
      assert (GG : good_pairs h (upd (pairs h ns) pos (k0, v))).
      { apply Forall_upd; [exact GE|]. cbn. split; [|exact Gv]. now destruct (good_pairs_nth _ _ _ _ _ GE Ep). }
      split; [apply stepped_give; auto; [now apply (copied_map h f)|apply good_known; now apply (good_new_map h f)]|].
      intros Cf S0. pose proof (not_frozen_obj _ _ _ _ _ Eo Cf) as Ff. cbn in Ff. subst f. apply (sound_alloc_map _ h false); auto; [|discriminate].
      pose proof (frz_keys _ _ _ _ S0 Ea) as FK. clear - FK Ep. revert pos Ep. induction (pairs h ns) as [|[x y] r IH]; intros [|pos] Ep; cbn in *; try discriminate.
      * injection Ep as -> ->. exact FK.
      * inversion FK; subst. constructor; [assumption|]. eapply IH; eauto.
    + destruct (frozen_copy n h kv) as [[h1 k1]|] eqn:E1; [|discriminate]. injection E as <- <-.
      destruct (frozen_copy_spec n _ _ _ _ E1 B Gk) as (C1 & G1 & P1). pose proof (proj1 C1) as B1.
      assert (GG : good_pairs h1 (pairs h1 ns ++ [(k1, v)])).
      { rewrite (copied_pairs _ _ _ _ _ B C1 Ea). apply Forall_app. split; [apply (good_pairs_kinds h); [now apply copied_kinds|exact GE]|].
        constructor; [split; [exact G1|apply (good_kinds h); [now apply copied_kinds|exact Gv]]|constructor]. }
      split; [apply stepped_give; auto; [eapply copied_trans; [exact C1|now apply (copied_map h1 f)]|apply good_known; now apply (good_new_map h1 f)]|].
      intros Cf S0. pose proof (not_frozen_obj _ _ _ _ _ Eo Cf) as Ff. cbn in Ff. subst f. destruct (P1 S0) as [S1 R1].
      apply (sound_alloc_map _ h1 false); auto; [|discriminate]. rewrite (copied_pairs _ _ _ _ _ B C1 Ea), map_app. apply Forall_app.
      split; [|constructor; [exact R1|constructor]]. apply (frzs_keep h); [now apply copied_still|]. eapply frz_keys; eauto.
  - (* OEntryKey *) destruct (obj_at h K i) as [[a [| |k w| | |]]|] eqn:Eo; try (now ostay E). exfalso.
    destruct (obj_at_known _ _ _ _ _ N Eo) as (Ea & Sa & Na). destruct (known_good _ _ _ Na Ea) as [G _]. cbn in G. now rewrite Ea in G.
  - (* OEntryValue *) destruct (obj_at h K i) as [[a [| |k w| | |]]|] eqn:Eo; try (now ostay E). exfalso.
    destruct (obj_at_known _ _ _ _ _ N Eo) as (Ea & Sa & Na). destruct (known_good _ _ _ Na Ea) as [G _]. cbn in G. now rewrite Ea in G.
  - (* OSensitive *) destruct (arg h K i) as [v|] eqn:Ei; [|now ostay E]. injection E as <- <-. pose proof (arg_good _ _ _ _ N Ei) as Gv. cbn. split.
    + apply stepped_give; auto; [now apply copied_sens|apply good_known; now apply good_new].
    + intros _ S0. now apply sound_sens.
  - (* OUnwrap *) destruct (obj_at h K i) as [[a [| | |w| |]]|] eqn:Eo; try (now ostay E). injection E as <- <-.
    destruct (obj_at_known _ _ _ _ _ N Eo) as (Ea & Sa & Na). pose proof (known_good _ _ _ Na Ea) as Ga. cbn in Ga.
    split; [|auto]. apply stepped_more; auto. apply good_known. eapply good_sens; eauto.
  - (* OFreeze *) destruct (arg h K i) as [v|] eqn:Ei; [|now ostay E]. destruct (freeze n h v) as [h1|] eqn:E1; [|discriminate]. injection E as <- <-.
    destruct (freeze_spec n _ _ _ E1 B (or_introl (arg_good _ _ _ _ N Ei))) as [(Z1 & Z2 & Z3 & Z4) P].
    split; [split; [exact Z1|split; [exact Z2|split; [exact Z4|now apply (known_mild h)]]]|].
    intros _ S0. apply (P nobody); [intros ? []|intros ? ? []|exact S0].
  - (* OFrozenCopy *) destruct (arg h K i) as [v|] eqn:Ei; [|now ostay E]. destruct (frozen_copy n h v) as [[h1 v1]|] eqn:E1; [|discriminate]. injection E as <- <-.
    destruct (frozen_copy_spec n _ _ _ _ E1 B (arg_good _ _ _ _ N Ei)) as (C1 & G1 & P1).
    split; [apply stepped_give; auto; now apply good_known|]. intros _ S0. now apply P1.
  - (* OThawedCopy *) destruct (arg h K i) as [v|] eqn:Ei; [|now ostay E]. destruct (thawed_copy n h v) as [[h1 v1]|] eqn:E1; [|discriminate]. injection E as <- <-.
    destruct (thawed_copy_spec n _ _ _ _ E1 B (arg_good _ _ _ _ N Ei)) as (C1 & G1 & P1).
    split; [apply stepped_give; auto; now apply good_known|]. intros _ S0. now apply P1.
Qed.

Lemma history_spec n ops : forall h K h' K', history n h K ops = Some (h', K') -> Forall no_entries ops -> base h -> known h K ->
  stepped h h' K' /\ (careful n h K ops -> sound nobody h -> sound nobody h').
Proof.
  induction ops as [|o ops IH]; cbn [history]; intros h K h' K' E NE B N.
  - injection E as <- <-. split; [now apply stepped_same|auto].
  - destruct (step n h K o) as [[h1 K1]|] eqn:E1; [|discriminate]. inversion NE as [|? ? NE1 NE2]; subst.
    destruct (step_spec _ _ _ _ _ _ E1 NE1 B N) as [T1 P1]. pose proof T1 as (B1 & _ & _ & N1).
    destruct (IH _ _ _ _ E NE2 B1 N1) as [T2 P2]. split; [eapply stepped_trans; eauto|].
    intros NW S0. cbn in NW. rewrite E1 in NW. destruct NW. auto.
Qed.
End Inv.
