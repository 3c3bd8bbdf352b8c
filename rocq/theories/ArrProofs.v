(* Proofs about the array algorithms. *)
From Coq Require Import ZArith List Bool Lia Permutation.
From Coq Require Import Floats.SpecFloat.
From Verif Require Import Int64 HMap HMapBase HMapInv MapIter Data DataSpec DataProofs FloatInt CompareProofs Arr ArrSpec.
Import ListNotations.
Open Scope Z_scope.

Section Generic.
Variables (A : Type) (eq : A -> A -> bool) (hashcode : A -> Z) (P : A -> Prop).
Hypothesis eq_refl' : forall x, P x -> eq x x = true.
Hypothesis eq_sym' : forall x y, P x -> P y -> eq x y = true -> eq y x = true.
Hypothesis eq_trans' : forall x y z, P x -> P y -> P z -> eq x y = true -> eq y z = true -> eq x z = true.
Hypothesis eq_hash' : forall x y, P x -> P y -> eq x y = true -> hashcode x = hashcode y.

(* ---------- Unique ---------- *)

Definition chain_of (size : Z) (b : nat) (pre : list A) : list A :=
  filter (fun k => Nat.eqb (Z.to_nat (bucket_of size (hashcode k))) b) pre.

(* every chain holds, for each earlier element of that bucket, an equal one; and only earlier ones *)
Definition tbl_ok (tbl : list (list A)) (pre : list A) : Prop :=
  forall b chain, nth_error tbl b = Some chain ->
    (forall k, In k chain -> In k pre) /\
    (forall k, In k pre -> Z.to_nat (bucket_of (Z.of_nat (length tbl)) (hashcode k)) = b ->
       exists k', In k' chain /\ eq k k' = true).

Lemma existsb_iff_eq (f : A -> bool) l l' :
  (exists x, In x l /\ f x = true) <-> (exists x, In x l' /\ f x = true) -> existsb f l = existsb f l'.
Proof.
  intros H. destruct (existsb f l) eqn:E1, (existsb f l') eqn:E2; try reflexivity.
  - apply existsb_exists in E1. apply H in E1. apply existsb_exists in E1. congruence.
  - apply existsb_exists in E2. apply H in E2. apply existsb_exists in E2. congruence.
Qed.

Lemma unique_loop_firsts tbl pre a :
  (forall h, 0 <= bucket_of (Z.of_nat (length tbl)) h < Z.of_nat (length tbl)) ->
  tbl_ok tbl pre -> Forall P pre -> Forall P a ->
  unique_loop A eq hashcode tbl a = Some (firsts A eq pre a).
Proof.
  revert tbl pre. induction a as [|k r IH]; intros tbl pre Hb Ht Hpre Ha; [reflexivity|].
  inversion Ha as [|? ? Pk Pr]; subst. cbn [unique_loop firsts].
  set (hk := Z.to_nat (bucket_of (Z.of_nat (length tbl)) (hashcode k))).
  destruct (nth_error tbl hk) as [chain|] eqn:E.
  2: { exfalso. apply nth_error_None in E. specialize (Hb (hashcode k)). subst hk. lia. }
  destruct (Ht hk chain E) as [H1 H2].
  rewrite Forall_forall in Hpre.
  assert (EX : in_chain A eq k chain = existsb (eq k) pre).
  { apply existsb_iff_eq. split.
    - intros (x & Hx & Hk). exists x. auto.
    - intros (x & Hx & Hk).
      destruct (H2 x Hx) as (k' & Hk' & E').
      + subst hk. rewrite (eq_hash' k x); auto.
      + exists k'. split; auto. apply (eq_trans' k x k'); auto. }
  assert (Hpre' : Forall P (pre ++ [k])).
  { apply Forall_app. split; [now apply Forall_forall|auto]. }
  rewrite EX. destruct (existsb (eq k) pre) eqn:EE.
  - apply IH; auto. intros b c Hc. destruct (Ht b c Hc) as [C1 C2]. split.
    + intros x Hx. apply in_app_iff. auto.
    + intros x Hx Hbx. apply in_app_iff in Hx as [Hx|[->|[]]]; auto.
      apply existsb_exists in EE as (y & Hy & Ey).
      assert (hashcode x = hashcode y) as Hh by (apply eq_hash'; auto).
      rewrite Hh in Hbx. destruct (C2 y Hy Hbx) as (z & Hz & Ez).
      exists z. split; auto. apply (eq_trans' x y z); auto.
  - rewrite (IH (upd tbl hk (k :: chain)) (pre ++ [k])); auto.
    + rewrite upd_length. exact Hb.
    + intros b c Hc. rewrite upd_length. destruct (Nat.eq_dec b hk) as [->|Nb].
      * rewrite nth_error_upd_eq in Hc by (apply nth_error_Some; congruence). injection Hc as <-. split.
        -- intros x [->|Hx]; apply in_app_iff; [right; now left|left; auto].
        -- intros x Hx Hbx. apply in_app_iff in Hx as [Hx|[->|[]]].
           ++ destruct (H2 x Hx Hbx) as (z & Hz & Ez). exists z. split; [now right|auto].
           ++ exists x. split; [now left|auto].
      * rewrite nth_error_upd_neq in Hc by congruence. destruct (Ht b c Hc) as [C1 C2]. split.
        -- intros x Hx. apply in_app_iff. auto.
        -- intros x Hx Hbx. apply in_app_iff in Hx as [Hx|[->|[]]]; auto. exfalso. auto.
Qed.

Lemma unique_firsts a : Forall P a -> unique A eq hashcode a = Some (firsts A eq [] a).
Proof.
  intros Ha. unfold unique. destruct (Nat.ltb_spec (length a) 2) as [L|L].
  - destruct a as [|x [|y r]]; try reflexivity. cbn in L. lia.
  - set (n := tableSizeFor (Z.of_nat (length a) * 4 / 3)).
    assert (Hn : 0 < n).
    { destruct (bucket_in_table (Z.of_nat (length a) * 4 / 3) 0). subst n. lia. }
    apply unique_loop_firsts; auto.
    + intros h. rewrite repeat_length, Z2Nat.id by lia. apply bucket_in_table.
    + intros b c Hc. apply nth_error_In in Hc. apply repeat_spec in Hc. subst c.
      split; intros ? [].
Qed.

Lemma firsts_sub pre a : subsequence A (firsts A eq pre a) a.
Proof.
  revert pre. induction a as [|x r IH]; intros pre; cbn [firsts]; [constructor|].
  destruct (existsb (eq x) pre); constructor; apply IH.
Qed.

Lemma firsts_new pre a x : In x (firsts A eq pre a) -> existsb (eq x) pre = false.
Proof.
  revert pre. induction a as [|y r IH]; intros pre; cbn [firsts]; [intros []|].
  destruct (existsb (eq y) pre) eqn:E.
  - intros H. apply IH in H. rewrite existsb_app in H. now apply orb_false_elim in H.
  - intros [->|H]; [exact E|]. apply IH in H. rewrite existsb_app in H. now apply orb_false_elim in H.
Qed.

Lemma firsts_distinct pre a : ForallOrdPairs (fun x y => eq y x = false) (firsts A eq pre a).
Proof.
  revert pre. induction a as [|x r IH]; intros pre; cbn [firsts]; [constructor|].
  destruct (existsb (eq x) pre) eqn:E; [apply IH|]. constructor; [|apply IH].
  apply Forall_forall. intros y Hy. apply firsts_new in Hy. rewrite existsb_app in Hy.
  apply orb_false_elim in Hy as [_ Hy]. cbn in Hy. now rewrite orb_false_r in Hy.
Qed.

Lemma firsts_cover pre a x : Forall P pre -> Forall P a -> In x a ->
  exists y, (In y pre \/ In y (firsts A eq pre a)) /\ eq x y = true.
Proof.
  revert pre. induction a as [|y r IH]; intros pre Hp Ha; [intros []|].
  inversion Ha as [|? ? Py Pr]; subst. intros [->|H]; cbn [firsts].
  - destruct (existsb (eq x) pre) eqn:E.
    + apply existsb_exists in E as (z & Hz & Ez). exists z. auto.
    + exists x. split; [right; now left|auto].
  - destruct (IH (pre ++ [y])) as (z & Hz & Ez); auto.
    { apply Forall_app. auto. }
    assert (Px : P x) by (rewrite Forall_forall in Pr; auto).
    destruct Hz as [Hz|Hz].
    + apply in_app_iff in Hz as [Hz|[->|[]]].
      * exists z. auto.
      * destruct (existsb (eq z) pre) eqn:E.
        -- apply existsb_exists in E as (w & Hw & Ew). exists w. split; auto.
           rewrite Forall_forall in Hp. apply (eq_trans' x z w); auto.
        -- exists z. split; [right; now left|auto].
    + exists z. split; auto. right. destruct (existsb (eq y) pre); [auto|now right].
Qed.

Lemma sub_Forall u a : subsequence A u a -> Forall P a -> Forall P u.
Proof.
  intros S. induction S as [|x l l' S IH|x l l' S IH]; intros Ha; [constructor| |]; inversion Ha; subst; [|constructor]; auto.
Qed.

Lemma unique_correct a : Forall P a ->
  exists u, unique A eq hashcode a = Some u /\
    u = firsts A eq [] a /\
    subsequence A u a /\
    ForallOrdPairs (fun x y => eq x y = false /\ eq y x = false) u /\
    (forall x, In x a -> exists y, In y u /\ eq x y = true).
Proof.
  intros Ha. exists (firsts A eq [] a). split; [now apply unique_firsts|]. split; [reflexivity|].
  split; [apply firsts_sub|]. split.
  - pose proof (firsts_distinct [] a) as D.
    assert (Hin : Forall P (firsts A eq [] a)).
    { eapply sub_Forall; [apply firsts_sub|exact Ha]. }
    induction D as [|x l Hx Hl IH]; constructor.
    + inversion Hin as [|? ? Px Pl]; subst. rewrite Forall_forall in *. intros y Hy. split; auto.
      destruct (eq x y) eqn:E; auto. apply eq_sym' in E; auto. rewrite Hx in E by assumption. discriminate E.
    + inversion Hin; subst. auto.
  - intros x Hx. destruct (firsts_cover [] a x) as (y & [[]|Hy] & E); auto. exists y. auto.
Qed.

(* ---------- multisets ---------- *)

Definition count (x : A) (l : list A) : nat := length (filter (eq x) l).

Lemma count_perm x l l' : Permutation l l' -> count x l = count x l'.
Proof.
  unfold count. induction 1 as [|y l l' H IH|y z l|l l' l'' H1 IH1 H2 IH2]; cbn; auto.
  - destruct (eq x y); cbn; auto.
  - destruct (eq x y), (eq x z); cbn; auto.
  - congruence.
Qed.

Lemma count_match x l l' : P x -> Forall P l -> Forall P l' ->
  Forall2 (fun a b => eq a b = true) l l' -> count x l = count x l'.
Proof.
  intros Px Hl Hl' H. induction H as [|a b l l' Hab H IH]; [reflexivity|].
  inversion Hl; inversion Hl'; subst. unfold count in *. cbn [filter].
  assert (eq x a = eq x b) as ->.
  { destruct (eq x a) eqn:E1, (eq x b) eqn:E2; auto.
    - rewrite (eq_trans' x a b) in E2; auto.
    - rewrite (eq_trans' x b a) in E1; auto. }
  destruct (eq x b); cbn; auto.
Qed.

Lemma count_app x l l' : count x (l ++ l') = (count x l + count x l')%nat.
Proof. unfold count. now rewrite filter_app, app_length. Qed.

Lemma match_of_counts l : forall l', Forall P l -> Forall P l' -> length l = length l' ->
  (forall x, P x -> count x l = count x l') -> same_multiset A eq l l'.
Proof.
  induction l as [|x r IH]; intros l' Hl Hl' Hlen Hc.
  - destruct l'; [|discriminate]. exists []. split; constructor.
  - inversion Hl as [|? ? Px Pr]; subst.
    assert (Hx : (0 < count x l')%nat).
    { rewrite <- Hc by assumption. unfold count. cbn [filter]. rewrite eq_refl' by assumption. cbn. lia. }
    unfold count in Hx. destruct (filter (eq x) l') as [|y f] eqn:E; [cbn in Hx; lia|].
    assert (Hy : In y (filter (eq x) l')) by (rewrite E; now left).
    apply filter_In in Hy as [Hy Exy]. destruct (in_split _ _ Hy) as (l1 & l2 & ->).
    assert (Py : P y) by (rewrite Forall_forall in Hl'; auto).
    assert (Hl2 : Forall P (l1 ++ l2)).
    { rewrite Forall_app in *. destruct Hl' as [H1 H2]. inversion H2; auto. }
    destruct (IH (l1 ++ l2)) as (a' & Hp & Hf); auto.
    + rewrite app_length in *. cbn in *. lia.
    + intros z Pz. specialize (Hc z Pz). rewrite count_app in *. unfold count in *. cbn [filter] in Hc.
      assert (eq z x = eq z y) as Ez.
      { destruct (eq z x) eqn:E1, (eq z y) eqn:E2; auto.
        - rewrite (eq_trans' z x y) in E2; auto.
        - rewrite (eq_trans' z y x) in E1; auto. }
      rewrite Ez in Hc. destruct (eq z y); cbn [length] in Hc; lia.
    + (* put x in the place of y *)
      assert (HF : exists b1 b2, a' = b1 ++ b2 /\ Forall2 (fun a b => eq a b = true) b1 l1 /\
                                 Forall2 (fun a b => eq a b = true) b2 l2).
      { apply Forall2_app_inv_r in Hf as (b1 & b2 & F1 & F2 & ->). eauto. }
      destruct HF as (b1 & b2 & -> & F1 & F2).
      exists (b1 ++ x :: b2). split.
      * rewrite <- Permutation_middle. now constructor.
      * apply Forall2_app; auto.
Qed.

(* the elements not yet struck *)
Definition left_over (vs : list (option A)) : list A :=
  flat_map (fun o => match o with Some x => [x] | None => [] end) vs.

Lemma strike_some ea vs vs' : strike A eq ea vs = Some vs' ->
  exists be, eq be ea = true /\ Permutation (left_over vs) (be :: left_over vs') /\ length vs' = length vs.
Proof.
  revert vs'. induction vs as [|[be|] r IH]; intros vs'; cbn [strike]; [discriminate| |].
  - destruct (eq be ea) eqn:E.
    + intros H. injection H as <-. exists be. cbn. auto.
    + destruct (strike A eq ea r) as [r'|]; [|discriminate]. intros H. injection H as <-.
      destruct (IH r' Logic.eq_refl) as (b & E1 & E2 & E3). exists b. split; auto. cbn.
      split; [|now f_equal]. rewrite E2. apply perm_swap.
  - destruct (strike A eq ea r) as [r'|]; [|discriminate]. intros H. injection H as <-.
    destruct (IH r' Logic.eq_refl) as (b & E1 & E2 & E3). exists b. split; auto. cbn. split; auto.
Qed.

Lemma strike_none ea vs : strike A eq ea vs = None -> forall be, In be (left_over vs) -> eq be ea = false.
Proof.
  induction vs as [|[be|] r IH]; cbn [strike left_over flat_map]; [intros _ ? []| |].
  - destruct (eq be ea) eqn:E; [discriminate|]. destruct (strike A eq ea r); [discriminate|].
    intros _ b [<-|H]; auto.
  - destruct (strike A eq ea r); [discriminate|]. intros _ b H. apply IH; auto.
Qed.

Lemma contains_loop_sound n : forall a vs, contains_loop A eq n a vs = Some true ->
  (exists rest b, Permutation (left_over vs) (b ++ rest) /\
     Forall2 (fun x y => eq y x = true) (firstn n a) b /\ length b = n).
Proof.
  induction n as [|n IH]; intros a vs; cbn [contains_loop].
  - intros _. exists (left_over vs), []. cbn. repeat split. reflexivity. constructor.
  - destruct a as [|ea r]; [discriminate|]. destruct (strike A eq ea vs) as [vs'|] eqn:E; [|discriminate].
    intros H. destruct (IH _ _ H) as (rest & b & Hp & Hf & Hn).
    destruct (strike_some _ _ _ E) as (be & E1 & E2 & _).
    exists rest, (be :: b). split; [|split].
    + rewrite E2, Hp. reflexivity.
    + cbn [firstn]. constructor; auto.
    + cbn. now rewrite Hn.
Qed.

Lemma left_over_some l : left_over (map Some l) = l.
Proof. induction l; cbn; [reflexivity|]. unfold left_over in IHl. now rewrite IHl. Qed.

Lemma contains_loop_some n : forall a vs, (n <= length a)%nat -> exists b, contains_loop A eq n a vs = Some b.
Proof.
  induction n as [|n IH]; intros a vs H; cbn; [eauto|].
  destruct a; [cbn in H; lia|]. destruct (strike A eq a vs); eauto. apply IH. cbn in H. lia.
Qed.

Lemma contains_all_some a b : exists r, contains_all A eq a b = Some r.
Proof.
  unfold contains_all. destruct (Nat.ltb_spec (length a) (length b)); [eauto|].
  destruct a; [eauto|]. now apply contains_loop_some.
Qed.

Lemma Forall_perm_P l l' : Permutation l l' -> Forall P l -> Forall P l'.
Proof. intros H. now rewrite H. Qed.

Lemma contains_all_sound a b : Forall P a -> Forall P b ->
  contains_all A eq a b = Some true -> contains_multiset A eq a b.
Proof.
  intros Ha Hb. unfold contains_all. destruct (Nat.ltb_spec (length a) (length b)) as [L|L]; [discriminate|].
  destruct a as [|x r] eqn:Ea.
  { destruct b; [|cbn in L; lia]. intros _. exists [], []. split; [reflexivity|constructor]. }
  rewrite <- Ea in *. intros H.
  destruct (contains_loop_sound _ _ _ H) as (rest & b' & Hp & Hf & Hn).
  rewrite left_over_some in Hp.
  assert (rest = []).
  { apply Permutation_length in Hp. rewrite app_length in Hp. destruct rest; auto. cbn in Hp. lia. }
  subst rest. rewrite app_nil_r in Hp.
  set (c := firstn (length b) a). set (d := skipn (length b) a).
  assert (Hc : Forall P c).
  { assert (X : Forall P (c ++ d)) by (subst c d; now rewrite firstn_skipn). now apply Forall_app in X. }
  assert (Hb' : Forall P b') by (eapply Forall_perm_P; eauto).
  assert (Hf' : Forall2 (fun x y => eq x y = true) c b').
  { refine (Forall2_imp_in _ _ _ _ Hf _). cbn. intros u v Hu Hv E.
    rewrite Forall_forall in *. apply eq_sym'; auto. }
  (* reorder c like b *)
  assert (Hfl : Forall2 (fun y x => eq x y = true) b' c) by (now apply Forall2_flip' in Hf').
  destruct (Forall2_perm _ _ _ b Hfl (Permutation_sym Hp)) as (c' & Hpc & Hf2).
  exists c', d. split.
  - rewrite <- Hpc. subst c d. now rewrite firstn_skipn.
  - now apply Forall2_flip' in Hf2.
Qed.

Lemma contains_loop_complete n : forall a vs, n = length a ->
  Forall P a -> Forall P (left_over vs) -> length (left_over vs) = length a ->
  (forall x, P x -> count x a = count x (left_over vs)) ->
  contains_loop A eq n a vs = Some true.
Proof.
  induction n as [|n IH]; intros a vs Hn Ha Hv Hlen Hc; cbn [contains_loop]; [reflexivity|].
  destruct a as [|ea r]; [discriminate|]. inversion Ha as [|? ? Pe Pr]; subst.
  destruct (strike A eq ea vs) as [vs'|] eqn:E.
  - destruct (strike_some _ _ _ E) as (be & E1 & E2 & _).
    assert (Pbv : Forall P (be :: left_over vs')) by (eapply Forall_perm_P; eauto).
    inversion Pbv as [|? ? Pb Pv']; subst.
    apply IH; auto.
    + apply Permutation_length in E2. cbn in *. lia.
    + intros x Px. specialize (Hc x Px). rewrite (count_perm x _ _ E2) in Hc. unfold count in *. cbn [filter] in Hc.
      assert (eq x ea = eq x be) as Ez.
      { destruct (eq x ea) eqn:F1, (eq x be) eqn:F2; auto.
        - rewrite (eq_trans' x ea be) in F2; auto.
        - rewrite (eq_trans' x be ea) in F1; auto. }
      rewrite Ez in Hc. destruct (eq x be); cbn [length] in Hc; lia.
  - exfalso. assert (X : (0 < count ea (left_over vs))%nat).
    { rewrite <- Hc by assumption. unfold count. cbn [filter]. rewrite eq_refl' by assumption. cbn. lia. }
    unfold count in X. destruct (filter (eq ea) (left_over vs)) as [|y f] eqn:F; [cbn in X; lia|].
    assert (Hy : In y (filter (eq ea) (left_over vs))) by (rewrite F; now left).
    apply filter_In in Hy as [Hy Ey]. pose proof (strike_none _ _ E _ Hy) as N.
    rewrite Forall_forall in Hv. rewrite (eq_sym' ea y) in N; auto. discriminate.
Qed.

Lemma same_multiset_counts a b : Forall P a -> Forall P b -> same_multiset A eq a b ->
  length a = length b /\ forall x, P x -> count x a = count x b.
Proof.
  intros Ha Hb (a' & Hp & Hf). assert (Ha' : Forall P a') by (eapply Forall_perm_P; eauto). split.
  - rewrite (Permutation_length Hp). clear - Hf. induction Hf; cbn; auto.
  - intros x Px. rewrite (count_perm x _ _ Hp). now apply count_match.
Qed.

Lemma same_values_correct a b : Forall P a -> Forall P b ->
  exists r, same_values A eq a b = Some r /\ (r = true <-> same_multiset A eq a b).
Proof.
  intros Ha Hb. unfold same_values. destruct (Nat.eqb_spec (length a) (length b)) as [L|L].
  - destruct (contains_all_some a b) as [r E]. exists r. split; [exact E|]. split.
    + intros ->. apply contains_all_sound in E as (c & d & Hp & Hf); auto.
      assert (d = []).
      { apply Permutation_length in Hp. rewrite app_length in Hp.
        assert (length c = length b) by (clear - Hf; induction Hf; cbn; auto). destruct d; auto. cbn in Hp. lia. }
      subst d. rewrite app_nil_r in Hp. exists c. auto.
    + intros H. destruct (same_multiset_counts a b Ha Hb H) as [_ Hc].
      unfold contains_all in E. rewrite L, Nat.ltb_irrefl in E.
      destruct a as [|x r']; [congruence|].
      rewrite contains_loop_complete in E; auto; rewrite ?left_over_some; auto; congruence.
  - exists false. split; [reflexivity|]. split; [discriminate|].
    intros H. destruct (same_multiset_counts a b Ha Hb H). congruence.
Qed.

Lemma contains_all_partial a b : Forall P a -> Forall P b ->
  exists r, contains_all A eq a b = Some r /\
    (r = true -> contains_multiset A eq a b) /\
    (length a = length b -> contains_multiset A eq a b -> r = true).
Proof.
  intros Ha Hb. destruct (contains_all_some a b) as [r E]. exists r. split; [exact E|]. split.
  - intros ->. now apply contains_all_sound.
  - intros L (c & d & Hp & Hf).
    assert (d = []).
    { apply Permutation_length in Hp. rewrite app_length in Hp.
      assert (length c = length b) by (clear - Hf; induction Hf; cbn; auto). destruct d; auto. cbn in Hp. lia. }
    subst d. rewrite app_nil_r in Hp.
    destruct (same_values_correct a b Ha Hb) as (r' & E' & H').
    unfold same_values in E'. rewrite L, Nat.eqb_refl in E'. rewrite E in E'. injection E' as ->.
    apply H'. exists c. auto.
Qed.
End Generic.

(* ---------- iteration ---------- *)

Section Iter.
Variable A : Type.
Definition logged {B} (f : A -> B) (x : A) (log : list A) : B * list A := (f x, log ++ [x]).

Lemma all_logged f l log :
  all_loop A (list A) (logged f) l log = (forallb f l, log ++ through A (fun x => negb (f x)) l).
Proof.
  revert log. induction l as [|x r IH]; intros log; cbn; [now rewrite app_nil_r|].
  destruct (f x); cbn; [|reflexivity]. rewrite IH, <- app_assoc. reflexivity.
Qed.

Lemma any_logged f l log :
  any_loop A (list A) (logged f) l log = (existsb f l, log ++ through A f l).
Proof.
  revert log. induction l as [|x r IH]; intros log; cbn; [now rewrite app_nil_r|].
  destruct (f x); cbn; [reflexivity|]. rewrite IH, <- app_assoc. reflexivity.
Qed.

Lemma one_logged f b l log :
  fst (one_loop A (list A) (logged f) b l log) =
  Nat.eqb (length (filter f l) + (if b then 1 else 0)) 1.
Proof.
  revert b log. induction l as [|x r IH]; intros b log; [now destruct b|].
  cbn [one_loop filter]. unfold logged at 1. destruct (f x); cbn [length].
  - destruct b.
    + symmetry. apply Nat.eqb_neq. lia.
    + rewrite IH. f_equal. lia.
  - apply IH.
Qed.

Lemma find_logged {B} (f : A -> option B) l log :
  find_loop A (list A) (logged f) l log =
  (hd None (filter (fun o => match o with Some _ => true | None => false end) (map f l)),
   log ++ through A (fun x => match f x with Some _ => true | None => false end) l).
Proof.
  revert log. induction l as [|x r IH]; intros log; cbn; [now rewrite app_nil_r|].
  destruct (f x); cbn; [reflexivity|]. rewrite IH, <- app_assoc. reflexivity.
Qed.

Lemma map_logged {B} (f : A -> B) l log :
  map_loop A (list A) (logged f) l log = (map f l, log ++ l).
Proof.
  revert log. induction l as [|x r IH]; intros log; cbn; [now rewrite app_nil_r|].
  rewrite IH, <- app_assoc. reflexivity.
Qed.

Lemma select_logged keep f l log :
  select_loop A (list A) keep (logged f) l log = (filter (fun x => Bool.eqb (f x) keep) l, log ++ l).
Proof.
  revert log. induction l as [|x r IH]; intros log; cbn; [now rewrite app_nil_r|].
  rewrite IH, <- app_assoc. cbn. destruct (Bool.eqb (f x) keep); reflexivity.
Qed.

Lemma reduce_logged {M} (f : M -> A -> M) m l log :
  reduce_loop A (list A) (fun m x lg => (f m x, lg ++ [x])) m l log = (fold_left f l m, log ++ l).
Proof.
  revert m log. induction l as [|x r IH]; intros m log; cbn; [now rewrite app_nil_r|].
  rewrite IH, <- app_assoc. reflexivity.
Qed.

Lemma each_logged i l log :
  each_loop A (list (A * nat)) (fun i x lg => lg ++ [(x, i)]) i l log = log ++ combine l (seq i (length l)).
Proof.
  revert i log. induction l as [|x r IH]; intros i log; cbn; [now rewrite app_nil_r|].
  rewrite IH, <- app_assoc. reflexivity.
Qed.

Lemma index_loop_spec eq i x l :
  (exists n y, index_loop A eq i x l = i + Z.of_nat n /\ nth_error l n = Some y /\ eq x y = true /\
     forall m z, (m < n)%nat -> nth_error l m = Some z -> eq x z = false) \/
  (index_loop A eq i x l = -1 /\ forall y, In y l -> eq x y = false).
Proof.
  revert i. induction l as [|y r IH]; intros i; cbn.
  - right. split; [reflexivity|intros ? []].
  - destruct (eq x y) eqn:E.
    + left. exists O, y. split; [lia|]. repeat split; auto. intros m z H. lia.
    + destruct (IH (i + 1)) as [(n & z & H1 & H2 & H3 & H4)|[H1 H2]].
      * left. exists (S n), z. split; [lia|]. split; [exact H2|]. split; [exact H3|].
        intros [|m] w Hm Hw; [injection Hw as <-; exact E|]. apply (H4 m); auto. lia.
      * right. split; [exact H1|]. intros z [<-|Hz]; auto.
Qed.
End Iter.

(* ---------- iteration over maps ---------- *)

Section MapIteration.
Variables (K V : Type).
Implicit Types (s : list (node K V)).

Lemma walk_all_log s p fuel : forall oe d log, walk fuel s oe = Some d ->
  walk_all K V _ fuel s (logged (K * V) p) oe log = Some (forallb p d, log ++ through (K * V) (fun x => negb (p x)) d).
Proof.
  induction fuel as [|fuel IH]; intros [i|] d log; cbn; intros H; try discriminate;
    try (injection H as <-; cbn; now rewrite app_nil_r).
  destruct (nth_error s i) as [nd|]; [|discriminate].
  destruct (walk fuel s (nnext nd)) as [r|] eqn:E; [|discriminate]. injection H as <-. cbn.
  destruct (p (HMap.nkey nd, nval nd)); cbn; [|reflexivity].
  rewrite (IH _ _ _ E), <- app_assoc. reflexivity.
Qed.

Lemma walk_any_log s p fuel : forall oe d log, walk fuel s oe = Some d ->
  walk_any K V _ fuel s (logged (K * V) p) oe log = Some (existsb p d, log ++ through (K * V) p d).
Proof.
  induction fuel as [|fuel IH]; intros [i|] d log; cbn; intros H; try discriminate;
    try (injection H as <-; cbn; now rewrite app_nil_r).
  destruct (nth_error s i) as [nd|]; [|discriminate].
  destruct (walk fuel s (nnext nd)) as [r|] eqn:E; [|discriminate]. injection H as <-. cbn.
  destruct (p (HMap.nkey nd, nval nd)); cbn; [reflexivity|].
  rewrite (IH _ _ _ E), <- app_assoc. reflexivity.
Qed.

Lemma walk_find_log s p fuel : forall oe d log, walk fuel s oe = Some d ->
  walk_find K V _ fuel s (logged (K * V) p) oe log = Some (find p d, log ++ through (K * V) p d).
Proof.
  induction fuel as [|fuel IH]; intros [i|] d log; cbn; intros H; try discriminate;
    try (injection H as <-; cbn; now rewrite app_nil_r).
  destruct (nth_error s i) as [nd|]; [|discriminate].
  destruct (walk fuel s (nnext nd)) as [r|] eqn:E; [|discriminate]. injection H as <-. cbn.
  destruct (p (HMap.nkey nd, nval nd)); cbn; [reflexivity|].
  rewrite (IH _ _ _ E), <- app_assoc. reflexivity.
Qed.

Lemma walk_each_fold {S} s (f : K * V -> S -> S) fuel : forall oe d st, walk fuel s oe = Some d ->
  walk_each K V S fuel s f oe st = Some (fold_left (fun st e => f e st) d st).
Proof.
  induction fuel as [|fuel IH]; intros [i|] d st; cbn; intros H; try discriminate;
    try (injection H as <-; reflexivity).
  destruct (nth_error s i) as [nd|]; [|discriminate].
  destruct (walk fuel s (nnext nd)) as [r|] eqn:E; [|discriminate]. injection H as <-. cbn.
  apply IH. exact E.
Qed.

Lemma map_iteration s g d : hentries s g = Some d ->
  (forall p, map_all K V _ s g (logged _ p) [] = Some (forallb p d, through _ (fun x => negb (p x)) d)) /\
  (forall p, map_any K V _ s g (logged _ p) [] = Some (existsb p d, through _ p d)) /\
  (forall p, map_find K V _ s g (logged _ p) [] = Some (find p d, through _ p d)) /\
  map_each K V _ s g (fun e log => log ++ [e]) [] = Some d.
Proof.
  intros H. splits.
  - intros p. apply (walk_all_log s p _ _ _ [] H).
  - intros p. apply (walk_any_log s p _ _ _ [] H).
  - intros p. apply (walk_find_log s p _ _ _ [] H).
  - unfold map_each. rewrite (walk_each_fold s (fun e log => log ++ [e]) _ _ d [] H). f_equal.
    clear. assert (G : forall l, fold_left (fun log (e : K * V) => log ++ [e]) d l = l ++ d).
    { induction d as [|e r IH]; intros l; cbn; [now rewrite app_nil_r|]. rewrite IH, <- app_assoc. reflexivity. }
    apply G.
Qed.
End MapIteration.

Lemma array_iteration (A : Type) (l : list A) :
  (forall p, all_loop A _ (logged A p) l [] = (forallb p l, through A (fun x => negb (p x)) l)) /\
  (forall p, any_loop A _ (logged A p) l [] = (existsb p l, through A p l)) /\
  (forall p, fst (one_loop A _ (logged A p) false l []) = Nat.eqb (length (filter p l)) 1) /\
  (forall B (f : A -> option B), find_loop A _ (logged A f) l [] =
     (hd None (filter (fun o => match o with Some _ => true | None => false end) (map f l)),
      through A (fun x => match f x with Some _ => true | None => false end) l)) /\
  (forall B (f : A -> B), map_loop A _ (logged A f) l [] = (map f l, l)) /\
  (forall p, select_loop A _ true (logged A p) l [] = (filter p l, l)) /\
  (forall p, select_loop A _ false (logged A p) l [] = (filter (fun x => negb (p x)) l, l)) /\
  (forall M (f : M -> A -> M) m, reduce_loop A _ (fun m x log => (f m x, log ++ [x])) m l [] = (fold_left f l m, l)) /\
  each_loop A _ (fun i x log => log ++ [(x, i)]) 0 l [] = combine l (seq 0 (length l)).
Proof.
  splits.
  - intros p. apply (all_logged A p l []).
  - intros p. apply (any_logged A p l []).
  - intros p. rewrite one_logged. f_equal. lia.
  - intros B f. apply (find_logged A f l []).
  - intros B f. apply (map_logged A f l []).
  - intros p. rewrite select_logged. cbn. f_equal. apply filter_ext. intros x. now destruct (p x).
  - intros p. rewrite select_logged. reflexivity.
  - intros M f m. apply (reduce_logged A f m l []).
  - apply (each_logged A 0 l []).
Qed.

Lemma index_of_correct A (eq : A -> A -> bool) x l :
  (exists n y, index_of A eq x l = Z.of_nat n /\ nth_error l n = Some y /\ eq x y = true /\
     forall m z, (m < n)%nat -> nth_error l m = Some z -> eq x z = false) \/
  (index_of A eq x l = -1 /\ forall y, In y l -> eq x y = false).
Proof. apply (index_loop_spec A eq 0 x l). Qed.

(* ---------- Flatten ---------- *)

Lemma flatten_leaves v : exists ls, leaves v ls /\ (forall r, flatten_into v r = r ++ ls) /\
  forall x, In x ls -> is_array x = false.
Proof.
  induction v as [ |x|x|x|x|x|s1 n1 z1|x|x IHx|l IHl|m IHm] using value_ind';
    try (eexists; split; [apply leaves_self; discriminate|]; split; [reflexivity|intros ? [<-|[]]; reflexivity]).
  assert (H : exists ls, Forall2 leaves l ls /\ (forall r, fold_left (fun r x => flatten_into x r) l r = r ++ concat ls) /\
     forall x, In x (concat ls) -> is_array x = false).
  { induction IHl as [|x r (lx & H1 & H2 & H3) Hr (ls & G1 & G2 & G3)].
    - exists []. split; [constructor|]. split; [intros; cbn; now rewrite app_nil_r|intros ? []].
    - exists (lx :: ls). split; [now constructor|]. split.
      + intros q. cbn. rewrite H2, G2, <- app_assoc. reflexivity.
      + cbn. intros y Hy. apply in_app_iff in Hy as [Hy|Hy]; auto. }
  destruct H as (ls & H1 & H2 & H3). exists (concat ls). split; [now constructor|]. split; auto.
Qed.

Lemma leaves_fun v : forall l1 l2, leaves v l1 -> leaves v l2 -> l1 = l2.
Proof.
  induction v as [ |x|x|x|x|x|s1 n1 z1|x|x IHx|l IHl|m IHm] using value_ind'; intros l1 l2 H1 H2;
    try (inversion H1; inversion H2; subst; reflexivity).
  inversion H1 as [? Hn|? ls1 F1]; subst; [exfalso; apply (Hn l); reflexivity|].
  inversion H2 as [? Hn|? ls2 F2]; subst; [exfalso; apply (Hn l); reflexivity|].
  f_equal. clear H1 H2. revert ls1 ls2 F1 F2.
  induction IHl as [|x r Hx Hr IH]; intros ls1 ls2 F1 F2; inversion F1; inversion F2; subst; [reflexivity|].
  f_equal; auto.
Qed.

Lemma flatten_from_eq seen a :
  flatten_from seen a = fold_left (fun r x => flatten_into x r) a seen.
Proof.
  revert seen. induction a as [|x r IH]; intros seen; [reflexivity|]. cbn [flatten_from].
  destruct (is_array x) eqn:E; [reflexivity|]. rewrite IH. cbn [fold_left]. f_equal.
  destruct x; try reflexivity. discriminate.
Qed.

Lemma flatten_correct a : leaves (VArr a) (flatten a) /\
  (forall ls, leaves (VArr a) ls -> ls = flatten a) /\
  (forall x, In x (flatten a) -> forall l, x <> VArr l).
Proof.
  unfold flatten. rewrite flatten_from_eq.
  destruct (flatten_leaves (VArr a)) as (ls & H1 & H2 & H3).
  assert (E : fold_left (fun r x => flatten_into x r) a [] = ls) by (specialize (H2 []); exact H2).
  rewrite E. split; [exact H1|]. split.
  - intros ls' H. eapply leaves_fun; eauto.
  - intros x Hx l ->. specialize (H3 _ Hx). discriminate.
Qed.

(* ---------- Sort ---------- *)

Section Sort.
Variables (A : Type) (less : A -> A -> bool) (P : A -> Prop).
Hypothesis sw : strict_weak A less P.
Notation eqv := (equivalent A less).

Lemma insert_back_perm x rp : Permutation (x :: rp) (insert_back A less x rp).
Proof.
  induction rp as [|y r IH]; cbn; [reflexivity|]. destruct (less x y); [|reflexivity].
  rewrite perm_swap. now constructor.
Qed.

(* the reversed prefix is ordered downwards *)
Definition rordered (l : list A) : Prop := ForallOrdPairs (fun x y => less x y = false) l.

Lemma less_asym x y : P x -> P y -> less x y = true -> less y x = false.
Proof.
  intros Px Py H. destruct (less y x) eqn:E; auto.
  pose proof (sw_trans _ _ _ sw x y x Px Py Px H E) as T. rewrite (sw_irrefl _ _ _ sw x Px) in T. discriminate.
Qed.

Lemma eqv_sym x y : eqv x y = eqv y x.
Proof. unfold equivalent. apply andb_comm. Qed.

(* negative transitivity *)
Lemma less_cotrans x y z : P x -> P y -> P z -> less x y = false -> less y z = false -> less x z = false.
Proof.
  intros Px Py Pz H1 H2. destruct (less x z) eqn:E; auto.
  destruct (less y x) eqn:E1.
  - rewrite (sw_trans _ _ _ sw y x z) in H2; auto.
  - destruct (less z y) eqn:E2.
    + rewrite (sw_trans _ _ _ sw x z y) in H1; auto.
    + assert (X : eqv x z = true).
      { apply (sw_equiv _ _ _ sw x y z); auto; unfold equivalent; rewrite ?H1, ?H2, ?E1, ?E2; reflexivity. }
      unfold equivalent in X. rewrite E in X. discriminate.
Qed.

Lemma insert_back_ordered x rp : P x -> Forall P rp -> rordered rp -> rordered (insert_back A less x rp).
Proof.
  intros Px Hp H. induction H as [|y r Hy Hr IH]; cbn; [repeat constructor|].
  inversion Hp as [|? ? Py Pr]; subst.
  destruct (less x y) eqn:E.
  - constructor; [|now apply IH]. rewrite <- insert_back_perm. constructor; auto.
    now apply less_asym.
  - constructor; [|constructor; auto]. constructor; auto.
    rewrite Forall_forall in *. intros z Hz. apply (less_cotrans x y z); auto.
Qed.

Lemma insert_back_filter x rp z : P z -> P x -> Forall P rp -> rordered rp ->
  filter (eqv z) (insert_back A less x rp) = filter (eqv z) (x :: rp).
Proof.
  intros Pz Px Hp H. induction H as [|y r Hy Hr IH]; [reflexivity|].
  inversion Hp as [|? ? Py Pr]; subst. cbn [insert_back]. destruct (less x y) eqn:E; [|reflexivity].
  cbn [filter]. rewrite IH by assumption. cbn [filter].
  destruct (eqv z y) eqn:E1; [|reflexivity]. destruct (eqv z x) eqn:E2; [|reflexivity].
  exfalso. rewrite eqv_sym in E2.
  pose proof (sw_equiv _ _ _ sw x z y Px Pz Py E2 E1) as X. unfold equivalent in X. rewrite E in X. discriminate.
Qed.

Lemma rev_ordered l : rordered l -> ordered A less (rev l).
Proof.
  unfold ordered. induction 1 as [|x r Hx Hr IH]; cbn; [constructor|].
  assert (G : forall l, ForallOrdPairs (fun x y => less y x = false) l -> Forall (fun y => less x y = false) l ->
     ForallOrdPairs (fun x y => less y x = false) (l ++ [x])).
  { clear. intros l H. induction H as [|y l Hy Hl IH]; cbn; intros HF; [repeat constructor|].
    inversion HF; subst. constructor; auto. apply Forall_app. split; auto. }
  apply G; auto. apply Forall_rev. exact Hx.
Qed.

Lemma sort_inv l : forall rp, Forall P l -> Forall P rp -> rordered rp ->
  let q := fold_left (fun rp x => insert_back A less x rp) l rp in
  Permutation (l ++ rp) q /\ rordered q /\
  (forall z, P z -> filter (eqv z) q = filter (eqv z) (rev l ++ rp)).
Proof.
  induction l as [|x r IH]; intros rp Hl Hp Ho; cbn [fold_left].
  - split; [reflexivity|]. split; [exact Ho|reflexivity].
  - inversion Hl as [|? ? Px Pr]; subst.
    destruct (IH (insert_back A less x rp)) as (I1 & I2 & I3); auto.
    { rewrite <- insert_back_perm. auto. }
    { now apply insert_back_ordered. }
    split; [|split; [exact I2|]].
    + rewrite <- I1, <- insert_back_perm. cbn. apply Permutation_middle.
    + intros z Pz. rewrite I3 by assumption. cbn [rev]. rewrite <- app_assoc, !filter_app.
      f_equal. rewrite insert_back_filter by assumption. exact (filter_app (eqv z) [x] rp).
Qed.

Lemma filter_rev' (f : A -> bool) l : filter f (rev l) = rev (filter f l).
Proof.
  induction l as [|x r IH]; cbn; [reflexivity|]. rewrite filter_app, IH. cbn. destruct (f x); cbn; auto using app_nil_r.
Qed.

Lemma insertion_sort_stable l : Forall P l -> stable_sorted A less l (insertion_sort A less l).
Proof.
  intros Hl. unfold insertion_sort.
  destruct (sort_inv l [] Hl ltac:(constructor) ltac:(constructor)) as (I1 & I2 & I3).
  rewrite app_nil_r in I1. split; [|split].
  - rewrite <- Permutation_rev. exact I1.
  - now apply rev_ordered.
  - intros x Hx. rewrite Forall_forall in Hl. rewrite filter_rev', I3, app_nil_r, filter_rev', rev_involutive; auto.
Qed.

(* any list with these properties is the same list *)
Lemma stable_sorted_unique l : forall l1 l2, Forall P l ->
  stable_sorted A less l l1 -> stable_sorted A less l l2 -> l1 = l2.
Proof.
  intros l1 l2 Hl (P1 & O1 & F1) (P2 & O2 & F2).
  assert (H1 : Forall P l1) by (now rewrite <- P1).
  assert (FF : forall x, P x -> In x l1 -> filter (eqv x) l1 = filter (eqv x) l2).
  { intros x Px Hx. rewrite F1, F2; auto; eapply Permutation_in; try eassumption; now symmetry. }
  assert (PP : Permutation l1 l2) by (rewrite <- P1; exact P2).
  clear P1 P2 F1 F2 Hl. revert l2 O1 O2 FF PP.
  induction l1 as [|x r IH]; intros l2 O1 O2 FF PP.
  - now apply Permutation_nil in PP.
  - destruct l2 as [|y r2]; [symmetry in PP; now apply Permutation_nil in PP|].
    inversion H1 as [|? ? Px Pr]; subst.
    assert (H2 : Forall P (y :: r2)) by (eapply Permutation_Forall; [exact PP|constructor; assumption]). inversion H2 as [|? ? Py Pr2]; subst.
    inversion O1 as [|? ? Ox Or]; subst. inversion O2 as [|? ? Oy Or2]; subst.
    (* x and y are equivalent, both being minimal *)
    assert (LX : less x y = false).
    { assert (X : In x (y :: r2)) by (eapply Permutation_in; [exact PP|now left]).
      destruct X as [->|X]; [now apply (sw_irrefl _ _ _ sw)|]. rewrite Forall_forall in Oy. auto. }
    assert (LY : less y x = false).
    { assert (Y : In y (x :: r)) by (eapply Permutation_in; [symmetry; exact PP|now left]).
      destruct Y as [->|Y]; [now apply (sw_irrefl _ _ _ sw)|]. rewrite Forall_forall in Ox. auto. }
    assert (EXY : eqv x y = true) by (unfold equivalent; now rewrite LX, LY).
    assert (EXX : eqv x x = true).
    { unfold equivalent. now rewrite (sw_irrefl _ _ _ sw x Px). }
    pose proof (FF x Px (or_introl Logic.eq_refl)) as FX. cbn [filter] in FX. rewrite EXX, EXY in FX.
    injection FX as -> FX. f_equal. apply IH; auto.
    + intros z Pz Hz. pose proof (FF z Pz (or_intror Hz)) as FZ. cbn [filter] in FZ.
      destruct (eqv z y); congruence.
    + eapply Permutation_cons_inv. exact PP.
Qed.
End Sort.

(* the order given to Sort is a strict weak order on sortable arrays *)

(* every value has a level; comparison is by level, and inside a level by CompareTo *)
Definition level (v : value) : Z :=
  match v with
  | VNil => 0
  | VSens _ => 23
  | VArr _ => 31
  | VBin _ => 32
  | VBool _ => 33
  | VFloat _ | VInt _ => 35
  | VMap _ => 38
  | VRegexp _ => 42
  | VStr _ => 43
  | VTime _ _ _ => 44
  end.

Definition no_conflict (hasnil : bool) (v : value) : Prop :=
  if hasnil then match v with VMap _ | VSens _ => False | _ => True end else v <> VNil.

Lemma level_less hasnil k a b :
  sort_elem k a -> sort_elem k b -> no_conflict hasnil a -> no_conflict hasnil b ->
  level a <> level b -> vless a b = (level a <? level b).
Proof.
  intros Ha Hb Ca Cb H. unfold vless.
  destruct hasnil; destruct a, b; cbn in *; try congruence; try tauto; try reflexivity.
Qed.

Definition sgn_ok (o : option Z) (f : Z -> Prop) : Prop := match o with Some r => f r | None => False end.

Lemma level_eq_less k a b : sort_elem k a -> sort_elem k b -> level a = level b ->
  (exists r, vcmp a b = Some r /\ vcmp b a = Some (- r) /\ vless a b = (r <? 0) /\ vless b a = (- r <? 0)) \/
  (vless a b = false /\ vless b a = false /\ comparable a = false /\ comparable b = false).
Proof.
  intros Ha Hb H.
  assert (T : forall k', of_kind k' a -> of_kind k' b ->
     exists r, vcmp a b = Some r /\ vcmp b a = Some (- r) /\ vless a b = (r <? 0) /\ vless b a = (- r <? 0)).
  { intros k' Ka Kb. destruct (total_kind k') as [I1 I2 I3 I4].
    destruct (I1 a b Ka Kb) as (r & E & _). exists r. pose proof (I2 _ _ _ Ka Kb E) as E'.
    unfold vless. rewrite (of_kind_comparable _ _ Ka), (of_kind_comparable _ _ Kb), E, E'. auto. }
  assert (N : small_num a -> small_num b -> comparable a = true -> comparable b = true ->
     exists r, vcmp a b = Some r /\ vcmp b a = Some (- r) /\ vless a b = (r <? 0) /\ vless b a = (- r <? 0)).
  { intros Ka Kb Ca Cb. destruct (num_total a b) as (r & E & E'); auto using small_num_num.
    exists r. unfold vless. rewrite Ca, Cb, E, E'. auto. }
  destruct a, b; cbn in H; try discriminate H; try (right; auto; fail); left.
  - apply (T KInt); constructor.
  - apply (T KBool); constructor.
  - apply N; try reflexivity; left; eexists; split; try reflexivity; assumption.
  - apply N; try reflexivity; [left|right]; eexists; split; try reflexivity; assumption.
  - apply N; try reflexivity; [right|left]; eexists; split; try reflexivity; assumption.
  - apply N; try reflexivity; right; eexists; split; try reflexivity; assumption.
  - apply (T KStr); constructor.
  - apply (T KBin); constructor.
  - apply (T (KArr k)); constructor; assumption.
Qed.

Lemma level_eq_trans k a b c r s : sort_elem k a -> sort_elem k b -> sort_elem k c ->
  level a = level b -> level b = level c ->
  vcmp a b = Some r -> vcmp b c = Some s -> r <= 0 -> s <= 0 ->
  exists t, vcmp a c = Some t /\ t <= 0 /\ (t = 0 -> r = 0 /\ s = 0).
Proof.
  intros Ha Hb Hc H1 H2.
  assert (T : forall k', of_kind k' a -> of_kind k' b -> of_kind k' c -> vcmp a b = Some r -> vcmp b c = Some s ->
     r <= 0 -> s <= 0 -> exists t, vcmp a c = Some t /\ t <= 0 /\ (t = 0 -> r = 0 /\ s = 0)).
  { intros k' Ka Kb Kc. destruct (total_kind k') as [I1 I2 I3 I4]. intros. eapply (I4 a b c); eauto. }
  assert (N : small_num a -> small_num b -> small_num c -> vcmp a b = Some r -> vcmp b c = Some s ->
     r <= 0 -> s <= 0 -> exists t, vcmp a c = Some t /\ t <= 0 /\ (t = 0 -> r = 0 /\ s = 0)).
  { intros Ka Kb Kc. apply small_num_trans; auto. }
  assert (NI : forall z, sort_elem k (VInt z) -> small_num (VInt z)).
  { intros z Hz. left. exists z. auto. }
  assert (NF : forall f, sort_elem k (VFloat f) -> small_num (VFloat f)).
  { intros f Hf. right. exists f. auto. }
  destruct a, b; cbn in H1; try discriminate H1; destruct c; cbn in H2; try discriminate H2;
    try (intros E1 E2; discriminate E1); try (apply N; auto; fail);
    first [apply (T KInt); constructor; assumption | apply (T KBool); constructor; assumption
          | apply (T KStr); constructor; assumption | apply (T KBin); constructor; assumption
          | apply (T (KArr k)); constructor; assumption].
Qed.

Lemma vless_strict_weak hasnil k :
  strict_weak value vless (fun v => sort_elem k v /\ no_conflict hasnil v).
Proof.
  assert (LT : forall a b, sort_elem k a -> sort_elem k b -> no_conflict hasnil a -> no_conflict hasnil b ->
     level a <> level b -> vless a b = (level a <? level b)) by (intros; eapply level_less; eauto).
  (* a more convenient description of the order *)
  assert (D : forall a b, sort_elem k a -> sort_elem k b -> no_conflict hasnil a -> no_conflict hasnil b ->
     (vless a b = true <-> level a < level b \/ (level a = level b /\ exists r, vcmp a b = Some r /\ r < 0 /\ comparable a = true))).
  { intros a b Ha Hb Ca Cb. destruct (Z.eq_dec (level a) (level b)) as [E|E].
    - destruct (level_eq_less k a b Ha Hb E) as [(r & V1 & V2 & L1 & L2)|(L1 & L2 & C1 & C2)].
      + rewrite L1, Z.ltb_lt. split.
        * intros Hr. right. split; auto. exists r. repeat split; auto.
          unfold vless in L1. destruct (comparable a) eqn:Cc; auto. destruct a; try discriminate Cc; discriminate V1 || (destruct b; discriminate).
        * intros [X|(_ & r' & X1 & X2 & _)]; [lia|]. rewrite V1 in X1. injection X1 as ->. exact X2.
      + rewrite L1. split; [discriminate|]. intros [X|(_ & r' & X1 & X2 & X3)]; [lia|]. congruence.
    - rewrite LT by assumption. rewrite Z.ltb_lt. split; [auto|]. intros [X|(X & _)]; [auto|congruence]. }
  split.
  - intros x [Sx Cx]. apply not_true_is_false. intros H. apply D in H as [H|(_ & r & E & L & C)]; auto; [lia|].
    destruct (level_eq_less k x x Sx Sx eq_refl) as [(r' & V1 & V2 & _)|(L1 & _ & C1 & _)]; [|congruence].
    rewrite V1 in V2, E. injection V2 as V2. injection E as E. lia.
  - intros x y z [Sx Cx] [Sy Cy] [Sz Cz] H1 H2. apply D in H1; auto. apply D in H2; auto. apply D; auto.
    destruct H1 as [H1|(H1 & r & E1 & L1 & C1)], H2 as [H2|(H2 & s & E2 & L2 & C2)]; try (left; lia).
    right. split; [lia|].
    destruct (level_eq_trans k x y z r s Sx Sy Sz H1 H2 E1 E2 ltac:(lia) ltac:(lia)) as (t & E3 & L3 & Z3).
    exists t. repeat split; auto. destruct (Z.eq_dec t 0) as [->|]; [|lia]. destruct (Z3 eq_refl). lia.
  - assert (E : forall a b, sort_elem k a -> sort_elem k b -> no_conflict hasnil a -> no_conflict hasnil b ->
     (equivalent value vless a b = true <-> level a = level b /\ (comparable a = true -> vcmp a b = Some 0 /\ vcmp b a = Some 0))).
    { intros a b Ha Hb Ca Cb. unfold equivalent. rewrite andb_true_iff, !negb_true_iff.
      destruct (Z.eq_dec (level a) (level b)) as [El|El].
      - destruct (level_eq_less k a b Ha Hb El) as [(r & V1 & V2 & L1 & L2)|(L1 & L2 & C1 & C2)].
        + rewrite L1, L2, !Z.ltb_ge. split.
          * intros [X1 X2]. split; auto. intros _. assert (r = 0) by lia. subst. auto.
          * intros [_ X]. assert (Cc : comparable a = true).
            { destruct (comparable a) eqn:Cc; auto. destruct a; try discriminate Cc; discriminate V1 || (destruct b; discriminate). }
            destruct (X Cc) as [X1 X2]. rewrite V1 in X1. injection X1 as ->. lia.
        + rewrite L1, L2. split; auto. intros _. split; auto. congruence.
      - rewrite !LT by auto. rewrite !Z.ltb_ge. split; [lia|]. intros [X _]. congruence. }
    intros x y z [Sx Cx] [Sy Cy] [Sz Cz] H1 H2. apply E in H1 as [H1 G1]; auto. apply E in H2 as [H2 G2]; auto.
    apply E; auto. split; [congruence|]. intros Cc.
    assert (Cy' : comparable y = true) by (destruct x, y; try discriminate H1; try discriminate Cc; reflexivity).
    destruct (G1 Cc) as [A1 A2]. destruct (G2 Cy') as [B1 B2].
    destruct (level_eq_trans k x y z 0 0 Sx Sy Sz H1 H2 A1 B1 ltac:(lia) ltac:(lia)) as (t & T1 & T2 & _).
    destruct (level_eq_trans k z y x 0 0 Sz Sy Sx (eq_sym H2) (eq_sym H1) B2 A2 ltac:(lia) ltac:(lia)) as (u & U1 & U2 & _).
    destruct (level_eq_less k x z Sx Sz ltac:(congruence)) as [(r & V1 & V2 & _)|(_ & _ & C1 & _)]; [|congruence].
    rewrite T1 in V1. injection V1 as ->. rewrite U1 in V2. injection V2 as ->.
    assert (r = 0) by lia. subst. auto.
Qed.

Lemma sortable_sw k l : sortable k l -> exists P, strict_weak value vless P /\ Forall P l.
Proof.
  intros [H1 H2].
  assert (Dec : In VNil l \/ ~ In VNil l).
  { clear. induction l as [|x r [H|H]]; [right; intros []|left; now right|].
    destruct x; try (right; intros [X|X]; [discriminate X|auto]; fail). left. now left. }
  destruct Dec as [Hn|Hn].
  - exists (fun v => sort_elem k v /\ no_conflict true v). split; [apply vless_strict_weak|].
    rewrite Forall_forall in *. intros v Hv. split; auto. cbn. apply (H2 Hn v Hv).
  - exists (fun v => sort_elem k v /\ no_conflict false v). split; [apply vless_strict_weak|].
    rewrite Forall_forall in *. intros v Hv. split; auto. cbn. intros ->. auto.
Qed.

Lemma vsort_stable k l : sortable k l ->
  stable_sorted value vless l (vsort l) /\
  forall l', stable_sorted value vless l l' -> l' = vsort l.
Proof.
  intros H. destruct (sortable_sw k l H) as (P & SW & HP).
  assert (E : vsort l = insertion_sort value vless l).
  { unfold vsort. destruct (Nat.ltb_spec (length l) 2) as [L|L]; [|reflexivity].
    destruct l as [|x [|y r]]; [reflexivity|reflexivity|cbn in L; lia]. }
  rewrite E. split.
  - eapply insertion_sort_stable; eauto.
  - intros l' H'. eapply (stable_sorted_unique value vless P SW l); eauto.
    eapply insertion_sort_stable; eauto.
Qed.
