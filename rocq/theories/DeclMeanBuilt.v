(* What belongs to the types that are built from an expression. *)
From Coq Require Import Strings.Ascii Strings.String.
From Coq Require Import ZArith List Bool Lia Arith.
From Verif Require Import Int64 Utf8 Text HMap Data DataSpec DataProofs Types TypesSpec Graph RecTypes RecTypesSpec RecTypesProofs RecTypesEnds RecMeaning Print.
From Verif Require Import Resolve ResolveSpec ResolveInstance DeclareSpec DeclareRead DeclareDone DeclMeanSpec DeclMeanProofs.
Import ListNotations.
Open Scope Z_scope.

Fixpoint distinct (l : list (list Z)) : bool := match l with [] => true | a :: r => negb (existsb (bytes_eqb a) r) && distinct r end.
Lemma distinct_nodup l : distinct l = true -> NoDup l.
Proof.
  induction l as [|a l IH]; intros H; constructor; cbn in H; apply andb_true_iff in H as [A B]; [|auto]. intros I. apply negb_true_iff in A.
  assert (X : existsb (bytes_eqb a) l = true) by (apply existsb_exists; exists a; split; [exact I|apply bytes_same]). congruence.
Qed.
Lemma fst_fun {A B} (l : list (A * B)) a b c : NoDup (map fst l) -> In (a, b) l -> In (a, c) l -> b = c.
Proof.
  induction l as [|[x y] l IH]; intros ND I J; [destruct I|]. inversion ND as [|? ? X Y]; subst. destruct I as [E|I], J as [F|J]; try (now apply IH); [congruence|injection E as <- <-|injection F as <- <-].
  - destruct X. now apply (in_map fst) in J.
  - destruct X. now apply (in_map fst) in I.
Qed.
Lemma word_fun w t t' : In (w, t) words -> In (w, t') words -> t = t'.
Proof. apply fst_fun. apply distinct_nodup. vm_compute. reflexivity. Qed.
Lemma word_type w t : In (w, t) words -> leaf_type t = true /\ type_ok t /\ match t with TExact _ _ => In w [lit "true"%string; lit "false"%string] | _ => True end.
Proof.
  intros I. assert (X : Forall (fun y => leaf_type (snd y) = true /\ type_ok (snd y) /\ match snd y with TExact _ _ => In (fst y) [lit "true"%string; lit "false"%string] | _ => True end) words).
  { unfold words. repeat (apply Forall_cons; [split; [reflexivity|split; [repeat constructor|cbn [fst snd]; first [exact Logic.I|left; reflexivity|right; left; reflexivity]]]|]). constructor. }
  rewrite Forall_forall in X. exact (X (w, t) I).
Qed.

Section No_value.
Variable T : list Z -> nat -> Prop.
Variable h : heap.
Lemma some_value (es : list ex) qs vs : Forall (fun e => forall q v, built T h e q -> inexact e -> ~ is_value h q v) es -> some inexact es -> pairs (built T h) es qs -> pairs (is_value h) qs vs -> False.
Proof.
  intros H S. rewrite some_exists in S. revert qs vs. induction H as [|e es A F IH]; intros qs vs B V; [inversion S|]. destruct qs as [|q qs]; [destruct B|]. destruct B as [B1 B2].
  destruct vs as [|v vs]; [destruct V|]. destruct V as [V1 V2]. inversion S; subst; [now apply (A q v)|]. now apply (IH H0 qs vs).
Qed.
Lemma some_field (fs : list (list Z * bool * ex)) qs vs : Forall (fun f => forall q v, built T h (snd f) q -> inexact (snd f) -> ~ is_value h q v) fs ->
  some (fun f : list Z * bool * ex => snd (fst f) = false \/ inexact (snd f)) fs -> forallb (fun f : list Z * bool * ex => snd (fst f)) fs = true ->
  pairs (fun f q => built T h (snd f) q) fs qs -> pairs (is_value h) qs vs -> False.
Proof.
  intros H S. rewrite some_exists in S. revert qs vs. induction H as [|e es A F IH]; intros qs vs R B V; [inversion S|]. destruct qs as [|q qs]; [destruct B|]. destruct B as [B1 B2].
  destruct vs as [|v vs]; [destruct V|]. destruct V as [V1 V2]. cbn [forallb] in R. apply andb_true_iff in R as [R1 R2]. inversion S; subst; [|now apply (IH H0 qs vs)].
  destruct H0 as [X|X]; [congruence|now apply (A q v)].
Qed.
Lemma no_value e : correct e -> plain e -> forall q v, built T h e q -> inexact e -> ~ is_value h q v.
Proof.
  induction e using ex_induct; cbn [correct plain built inexact]; intros C Di q u B X [i V]; unfold at_leaf, at_node in *; try contradiction.
  - destruct B as (t & I & B). assert (t = TExact i u) as -> by congruence. apply word_type in I as (_ & _ & I). exact (X I).
  - destruct ((lo =? min_int64) && (hi =? max_int64)); congruence.
  - destruct (size_of sz) as [lo hi]. destruct ((lo =? 0) && (hi =? max_int64)); congruence.
  - apply (IHe (proj2 (proj2 C)) Di q u (proj2 B) X). now exists i.
  - destruct B as (r & B & [K|[(_ & _ & K)|(Z1 & v & Vr & K)]]); [congruence|congruence|]. destruct X as [X|X]; [exact (X Z1)|]. exact (IHe (proj2 C) (proj2 Di) r v B X Vr).
  - destruct B as (r & r' & _ & _ & [B|(_ & _ & _ & B)]); congruence.
  - destruct B as (qs & B & [K|(vs & Vs & K)]); [congruence|]. destruct C as [_ C]. apply all_forall in C. destruct Di as [_ Di]. apply every_forall in Di.
    apply (some_value es qs vs); auto. rewrite Forall_forall in *. intros e0 I0. apply H; auto.
  - destruct B as (qs & B & [K|(-> & R & vs & Vs & K)]); [congruence|]. destruct X as [X|X]; [discriminate X|].
    destruct C as [_ C]. apply (all_forall (fun f : list Z * bool * ex => correct (snd f))) in C. destruct Di as [_ Di]. apply every_forall in Di.
    apply (some_field fs qs vs); auto. rewrite Forall_forall in *. intros f0 I0. apply H; auto.
  - destruct B as (qs & _ & B); congruence.
  - destruct B as (qs & _ & B); congruence.
  - destruct B as (qs & _ & B); congruence.
  - destruct B as (r & K & [B|B]); [congruence|]. exact (not_not T h e r q (proj1 C) (proj2 C) X K B).
Qed.
End No_value.

Lemma direct_plain e : direct e -> plain e.
Proof.
  assert (L : forall es, Forall (fun e => direct e -> plain e) es -> every (fun e => flat e /\ direct e) es -> every plain es).
  { intros es H E. rewrite every_forall in *. rewrite Forall_forall in *. intros a I. apply H; [exact I|now apply E]. }
  induction e using ex_induct; cbn [direct plain]; try tauto; auto.
  - intros [A B]. split; [exact A|]. rewrite every_forall in *. rewrite Forall_forall in *. auto.
  - intros [A B]. split; [exact A|]. rewrite every_forall in *. rewrite Forall_forall in *. auto.
Qed.
Lemma sized_part G x y : sized G x -> part G x y -> sized G y.
Proof. intros [_ _ _ H]. apply H. Qed.
Lemma sized_finite G x : sized G x -> finite G x.
Proof. induction 1 as [x _ _ _ H IH]. now constructor. Qed.

Section Means.
Variable W : world.
Variable G : graph.
Variable T : list Z -> nat -> Prop.
Variable h : heap.
Variable P : nat -> gval -> Prop.
Hypothesis TF : forall n p q, T n p -> T n q -> p = q.
(* the values that matter *)
Variable D : gval -> Prop.
Hypothesis DP : forall x y, D x -> part G x y -> D y.
Hypothesis DS : forall x, D x -> (forall l, elements G x l -> Z.of_nat (length l) <= max_int64) /\ (forall m, entries G x m -> Z.of_nat (length m) <= max_int64) /\
  match x with GLeaf (VStr s) => Z.of_nat (length s) <= max_int64 | GLeaf (VInt z) => min_int64 <= z <= max_int64 | _ => True end.
Hypothesis DEC : forall p q x, D x -> at_node h q (NNot p) -> P p x \/ ~ P p x.
Hypothesis M : forall p nd x, D x -> at_node h p nd -> (P p x <-> holds W G P nd x).
Let N (n : list Z) (x : gval) : Prop := exists q, T n q /\ P q x.
Definition same_as (e : ex) (p : nat) : Prop := forall x, D x -> (P p x <-> belongs W G N e x).

Lemma any_all q x : at_leaf h q TAny -> D x -> P q x.
Proof. intros A S. apply (M q _ x S A). cbn [holds]. destruct x; cbn; [exact I|now left]. Qed.
Lemma array_leaf x : leaf_holds W G TArray x <-> exists l, elements G x l.
Proof.
  destruct x as [v|p]; cbn [leaf_holds].
  - split; [intros [l ->]; eexists; constructor|]. intros [l H]. inversion H; subst. now exists l0.
  - split; [intros [X|[[_ X]|[X _]]]; [discriminate|exact X|discriminate]|]. intros X. right. left. auto.
Qed.
Lemma map_leaf x : leaf_holds W G TMap x <-> exists m, entries G x m.
Proof.
  destruct x as [v|p]; cbn [leaf_holds].
  - split; [intros [l ->]; eexists; constructor|]. intros [l H]. inversion H; subst. now exists m.
  - split; [intros [X|[[X _]|[_ X]]]; [discriminate|discriminate|exact X]|]. intros X. right. right. auto.
Qed.
Lemma pairs_same (R : ex -> nat -> Prop) es qs : Forall (fun e => forall p, R e p -> same_as e p) es -> pairs R es qs -> Forall2 same_as es qs.
Proof. rewrite pairs_forall2. intros H F. revert H. induction F; intros H1; inversion H1; subst; constructor; auto. Qed.
Lemma tuple_same es qs : Forall2 same_as es qs -> forall l, (forall y, In y l -> D y) -> (Forall2 P qs l <-> pairs (belongs W G N) es l).
Proof.
  induction 1 as [|e q es qs X F IH]; intros [|y l] S; cbn [pairs]; try (split; [intros K; inversion K|contradiction]); [split; constructor|].
  fold (pairs (belongs W G N) es l). rewrite <- (IH l), <- (X y) by (try (intros; apply S; now right); apply S; now left). split; [intros K; inversion K; auto|intros [A B]; now constructor].
Qed.
Lemma alternatives_same es qs x : Forall2 same_as es qs -> D x -> Forall2 (fun q e => P q x <-> belongs W G N e x) qs es.
Proof. induction 1; intros S; constructor; auto. Qed.

Lemma means e : correct e -> plain e -> forall p, built T h e p -> same_as e p.
Proof.
  assert (SUB : forall es qs, Forall (fun e => correct e -> plain e -> forall p, built T h e p -> same_as e p) es -> Forall correct es -> Forall plain es -> pairs (built T h) es qs -> Forall2 same_as es qs).
  { intros es qs H C Di B. apply (pairs_same (built T h)); [|exact B]. rewrite Forall_forall in *. intros e0 I. apply H; auto. }
  induction e using ex_induct; cbn [correct plain built]; intros C Di p B x S; cbn [belongs].
  - destruct B as (t & I & B). rewrite (M p _ x S B). cbn [holds]. split; [intros X; exists t; auto|]. intros (t' & I' & X). now rewrite (word_fun w t t' I I').
  - rewrite (M p _ x S B). cbn [holds]. destruct x as [v|q]; cbn [leaf_holds].
    + change (veq (VStr (encode cs)) v = true <-> GLeaf v = GLeaf (VStr (encode cs))). rewrite veq_str. split; congruence.
    + split; [intros [X|[[X _]|[X _]]]; discriminate|discriminate].
  - rewrite (M p _ x S B). cbn [holds]. destruct x as [v|q]; cbn [leaf_holds].
    + change (veq (VInt z) v = true <-> GLeaf v = GLeaf (VInt z)). split; [|intros [= ->]; cbn; apply Z.eqb_refl]. destruct v; cbn; try discriminate. intros X. apply Z.eqb_eq in X. now subst.
    + split; [intros [X|[[X _]|[X _]]]; discriminate|discriminate].
  - rewrite (M p _ x S B). cbn [holds]. destruct (DS x S) as (_ & _ & S'). destruct ((lo =? min_int64) && (hi =? max_int64)) eqn:Q.
    + apply andb_true_iff in Q as [Q1 Q2]. apply Z.eqb_eq in Q1, Q2. subst. destruct Di as [->|[Di|Di]]; [|congruence|congruence]. destruct x as [v|q]; cbn [leaf_holds].
      * split; [intros [z ->]; exists z; split; [reflexivity|lia]|]. intros (z & [= ->] & _). now exists z.
      * split; [intros [X|[[X _]|[X _]]]; discriminate|intros (z & X & _); discriminate].
    + destruct x as [v|q]; cbn [leaf_holds].
      * split; [intros (z & -> & X); exists z; auto|]. intros (z & [= ->] & X). now exists z.
      * split; [intros [X|[[X _]|[X _]]]; discriminate|intros (z & X & _); discriminate].
  - destruct C as (_ & C). destruct (size_of sz) as [lo hi]. cbn [fst snd] in *. rewrite (M p _ x S B). cbn [holds]. destruct (DS x S) as (_ & _ & S'). destruct ((lo =? 0) && (hi =? max_int64)) eqn:Q.
    + apply andb_true_iff in Q as [Q1 Q2]. apply Z.eqb_eq in Q1, Q2. subst. destruct x as [v|q]; cbn [leaf_holds].
      * split; [intros [z ->]; exists z; split; [reflexivity|lia]|]. intros (z & [= ->] & _). now exists z.
      * split; [intros [X|[[X _]|[X _]]]; discriminate|intros (z & X & _); discriminate].
    + destruct x as [v|q]; cbn [leaf_holds].
      * split; [intros (z & -> & X); exists z; auto|]. intros (z & [= ->] & X). now exists z.
      * split; [intros [X|[[X _]|[X _]]]; discriminate|intros (z & X & _); discriminate].
  - split; [intros X; exists p; auto|]. intros (q & B' & X). now rewrite (TF n p q B B').
  - split; [intros X; exists p; auto|]. intros (q & B' & X). now rewrite (TF n p q B B').
  - apply (IHe (proj2 (proj2 C)) Di p (proj2 B) x S).
  - destruct B as (q & B & K). destruct C as [_ C]. destruct Di as [Ix Di]. pose proof (IHe C Di q B) as X.
    assert (Y : forall l, elements G x l -> (Forall (P q) l <-> Forall (belongs W G N e) l)).
    { intros l E. apply F_iff. intros y I. apply X. apply (DP x); [exact S|now apply (part_element G x l)]. }
    destruct K as [K|[(Z1 & A & K)|(Z1 & v & V & K)]].
    + rewrite (M p _ x S K); cbn [holds]. split; intros (l & E & Sz & F); exists l; (split; [exact E|split; [exact Sz|now apply Y]]).
    + rewrite (M p _ x S K); cbn [holds]. rewrite array_leaf, Z1. cbn [fst snd]. split; [|intros (l & E & _); now exists l]. intros (l & E). exists l. split; [exact E|]. split; [destruct (DS x S) as (S' & _ & _); pose proof (S' l E); lia|].
      apply (Y l E). rewrite Forall_forall. intros y I. apply any_all; [exact A|]. apply (DP x); [exact S|now apply (part_element G x l)].
    + destruct Ix as [Ix|Ix]; [contradiction|]. now destruct (no_value T h e C Di q v B Ix).
  - destruct B as (q & r & B1 & B2 & K). destruct C as [_ C]. pose proof (IHe1 (proj1 C) (proj1 Di) q B1) as X1. pose proof (IHe2 (proj2 C) (proj2 Di) r B2) as X2.
    assert (Z1 : forall m a b, entries G x m -> In (a, b) m -> D (GLeaf a) /\ D b).
    { intros m a b E I. split; (apply (DP x); [exact S|]); [now apply (part_key G x m a b)|now apply (part_value G x m a b)]. }
    assert (Y : forall m, entries G x m -> (Forall (fun e => P q (GLeaf (fst e)) /\ P r (snd e)) m <-> Forall (fun y => belongs W G N e1 (GLeaf (fst y)) /\ belongs W G N e2 (snd y)) m)).
    { intros m E. apply F_iff. intros [a b] I. destruct (Z1 m a b E I) as [S1 S2]. cbn [fst snd]. rewrite (X1 _ S1), (X2 _ S2). reflexivity. }
    destruct K as [K|(Q & A1 & A2 & K)]; rewrite (M p _ x S K); cbn [holds].
    + split; intros (m & E & Sz & F); exists m; (split; [exact E|split; [exact Sz|now apply Y]]).
    + rewrite map_leaf, Q. cbn [fst snd]. split; [|intros (m & E & _); now exists m]. intros (m & E). exists m. split; [exact E|]. split; [destruct (DS x S) as (_ & S' & _); pose proof (S' m E); lia|]. apply (Y m E). rewrite Forall_forall. intros [a b] I.
      destruct (Z1 m a b E I). split; now apply any_all.
  - destruct B as (qs & B & K). destruct C as [_ C]. apply all_forall in C. pose proof Di as Di0. destruct Di as [Ix Di]. apply every_forall in Di.
    destruct K as [K|(vs & Vs & K)].
    + rewrite (M p _ x S K). cbn [holds]. pose proof (SUB es qs H C Di B) as F. apply exists_iff. intros l.
      assert (Y : elements G x l -> (Forall2 P qs l <-> pairs (belongs W G N) es l)).
      { intros E. apply tuple_same; [exact F|]. intros y I. apply (DP x); [exact S|now apply (part_element G x l)]. }
      split; intros [E X]; (split; [exact E|now apply Y]).
    + exfalso. apply (some_value T h es qs vs); auto. rewrite Forall_forall in *. intros e0 I q v. apply no_value; auto.
  - destruct B as (qs & B & K). destruct C as [_ C]. apply (all_forall (fun f : list Z * bool * ex => correct (snd f))) in C. destruct Di as [Ix Di]. apply every_forall in Di.
    destruct K as [K|(-> & R & vs & Vs & K)].
    2:{ exfalso. destruct Ix as [Ix|Ix]; [discriminate Ix|]. apply (some_field T h fs qs vs); auto. rewrite Forall_forall in *. intros f I q v. apply no_value; auto. }
    rewrite (M p _ x S K). cbn [holds]. rewrite pairs_forall2 in B. apply exists_iff. intros m.
    assert (LEN : length fs = length qs) by (clear - B; induction B; cbn; congruence).
    assert (Y : entries G x m -> (Forall (fun e : value * nat * bool =>
        (exists k y, In (k, y) m /\ veq (fst (fst e)) k = true /\ P (snd (fst e)) y) \/
        ((forall k y, In (k, y) m -> veq (fst (fst e)) k = false) /\ snd e = false)) (map (fun x => (VStr (fst (fst (fst x))), snd x, snd (fst (fst x)))) (combine fs qs)) <->
      every (fun f => (exists y, In (VStr (fst (fst f)), y) m /\ belongs W G N (snd f) y) \/ (snd (fst f) = false /\ forall y, ~ In (VStr (fst (fst f)), y) m)) fs)).
    { intros E. rewrite every_forall. clear K LEN Ix. revert H C Di. induction B as [|[[s b] d] q fs qs B F IH]; intros H C Di; [split; constructor|].
      inversion H; subst. inversion C; subst. inversion Di; subst. cbn [combine map fst snd]. cbn [fst snd] in *.
      assert (IH' := IH H3 H5 H7). 
      assert (HD : ((exists k y, In (k, y) m /\ veq (VStr s) k = true /\ P q y) \/ ((forall k y, In (k, y) m -> veq (VStr s) k = false) /\ b = false)) <->
                   ((exists y, In (VStr s, y) m /\ belongs W G N d y) \/ (b = false /\ forall y, ~ In (VStr s, y) m))).
      { split.
        - intros [(k & y & I & V & X)|[X ->]].
          + left. apply veq_str in V as ->. exists y. split; [exact I|]. apply (H2 H4 H6 q B y); [|exact X]. apply (DP x); [exact S|now apply (part_value G x m (VStr s) y)].
          + right. split; [reflexivity|]. intros y I. specialize (X _ _ I). apply veq_str_not in X. congruence.
        - intros [(y & I & X)|[-> X]].
          + left. exists (VStr s), y. split; [exact I|split; [now apply veq_str|]]. apply (H2 H4 H6 q B y); [|exact X]. apply (DP x); [exact S|now apply (part_value G x m (VStr s) y)].
          + right. split; [|reflexivity]. intros k y I. apply veq_str_not. intros ->. now apply (X y). }
      split; intros X; inversion X; subst; constructor; cbn [fst snd] in *; try (now apply HD); apply IH'; auto. }
    assert (Z1 : forall k, (exists e : value * nat * bool, In e (map (fun x => (VStr (fst (fst (fst x))), snd x, snd (fst (fst x)))) (combine fs qs)) /\ veq (fst (fst e)) k = true) <->
                           (exists f : list Z * bool * ex, In f fs /\ k = VStr (fst (fst f)))).
    { intros k. split.
      - intros (e0 & I & V). apply in_map_iff in I as ([f q] & <- & I). cbn [fst snd] in V. apply veq_str in V. exists f. split; [now apply in_combine_l in I|exact V].
      - intros (f & I & ->). destruct (In_nth _ _ f I) as (i & Li & Ei). exists (VStr (fst (fst f)), nth i qs 0%nat, snd (fst f)). split; [|now apply veq_str].
        apply in_map_iff. exists (f, nth i qs 0%nat). split; [reflexivity|]. rewrite <- Ei at 1. rewrite <- (combine_nth fs qs i f 0%nat LEN). apply nth_In. rewrite combine_length. lia. }
    split; intros (E & X & A); (split; [exact E|split; [now apply Y|]]); (destruct A as [A|A]; [now left|right]); intros k y I; apply Z1; now apply (A k y).
  - destruct B as (qs & B & K). destruct C as [_ C]. apply all_forall in C. apply every_forall in Di. rewrite (M p _ x S K). cbn [holds]. rewrite some_exists.
    pose proof (alternatives_same es qs x (SUB es qs H C Di B) S) as F. clear - F. induction F as [|q e qs es X F IH]; [split; intros K; inversion K|].
    split; intros K; inversion K; subst; [left|right|left|right]; try (now apply X); now apply IH.
  - destruct B as (qs & B & K). destruct C as [_ C]. apply all_forall in C. apply every_forall in Di. rewrite (M p _ x S K). cbn [holds].
    pose proof (alternatives_same es qs x (SUB es qs H C Di B) S) as F. rewrite <- (just_one_split (fun q => P q x) qs). now apply just_one_cong.
  - destruct B as (qs & B & K). destruct C as [_ C]. apply all_forall in C. apply every_forall in Di. rewrite (M p _ x S K). cbn [holds]. rewrite every_forall.
    pose proof (alternatives_same es qs x (SUB es qs H C Di B) S) as F. clear - F. induction F as [|q e qs es X F IH]; [split; constructor|].
    split; intros K; inversion K; subst; constructor; try (now apply X); now apply IH.
  - destruct B as (q & B & K). rewrite <- (IHe (proj1 C) Di q B x S). destruct K as [K|K]; [rewrite (M p _ x S K); reflexivity|].
    rewrite (M q _ x S K). cbn [holds]. destruct (DEC p q x S K); tauto.
Qed.
End Means.
