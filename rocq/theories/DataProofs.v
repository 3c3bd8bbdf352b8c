(* Proofs about Data: Equals is an equivalence, equal values have equal hashes, CompareTo
   is a total order on each kind. *)
From Coq Require Import ZArith List Bool Lia Permutation Sorted.
From Coq Require Import Floats.SpecFloat.
From Verif Require Import Int64 Utf8 Data DataSpec.
Import ListNotations.
Open Scope Z_scope.

Notation wf := (data veq).

(* ---------- sizes ---------- *)

Fixpoint vsize (v : value) : nat :=
  match v with
  | VSens v => S (vsize v)
  | VArr l => S (list_sum (map vsize l))
  | VMap m => S (list_sum (map (fun e => vsize (fst e) + vsize (snd e)) m))%nat
  | _ => 1%nat
  end.

Lemma list_sum_in {A} (f : A -> nat) (l : list A) x :
  In x l -> (f x <= list_sum (map f l))%nat.
Proof.
  induction l as [|y r IH]; intros H; [destruct H|].
  cbn [map list_sum fold_right]. fold (list_sum (map f r)).
  destruct H as [->|H]; [lia|]. specialize (IH H). lia.
Qed.

Lemma vsize_arr_in l x : In x l -> (vsize x < vsize (VArr l))%nat.
Proof. intros H. pose proof (list_sum_in vsize l x H). cbn [vsize]. lia. Qed.

Lemma vsize_map_in m k v : In (k, v) m -> (vsize k < vsize (VMap m) /\ vsize v < vsize (VMap m))%nat.
Proof.
  intros H. pose proof (list_sum_in (fun e => vsize (fst e) + vsize (snd e))%nat m (k, v) H) as E.
  cbn [vsize fst snd] in *. lia.
Qed.

(* induction on values with the hypotheses for all elements *)
Lemma value_ind' (P : value -> Prop) :
  P VNil -> (forall b, P (VBool b)) -> (forall z, P (VInt z)) -> (forall f, P (VFloat f)) ->
  (forall s, P (VStr s)) -> (forall s, P (VBin s)) -> (forall s n z, P (VTime s n z)) ->
  (forall s, P (VRegexp s)) -> (forall v, P v -> P (VSens v)) ->
  (forall l, Forall P l -> P (VArr l)) ->
  (forall m, Forall (fun e => P (fst e) /\ P (snd e)) m -> P (VMap m)) ->
  forall v, P v.
Proof.
  intros H1 H2 H3 H4 H5 H6 H7 H8 H9 HA HM.
  fix IH 1. intros [ |b|z|f|s|s|s n z|s|v|l|m].
  - exact H1.
  - apply H2.
  - apply H3.
  - apply H4.
  - apply H5.
  - apply H6.
  - apply H7.
  - apply H8.
  - apply H9, IH.
  - apply HA. induction l as [|x r IHr]; constructor; [apply IH | apply IHr].
  - apply HM. induction m as [|[k v] r IHr]; constructor; [split; apply IH | apply IHr].
Qed.

(* ---------- list forms of the nested recursions ---------- *)

Fixpoint forall2b {A B} (f : A -> B -> bool) (l : list A) (l' : list B) : bool :=
  match l, l' with
  | [], [] => true
  | x :: r, y :: r' => f x y && forall2b f r r'
  | _, _ => false
  end.

Lemma forall2b_iff {A B} (f : A -> B -> bool) l l' :
  forall2b f l l' = true <-> Forall2 (fun x y => f x y = true) l l'.
Proof.
  revert l'. induction l as [|x r IH]; intros [|y r']; cbn; split; intros H; try discriminate;
    try constructor; try (inversion H; fail).
  - apply andb_prop in H. tauto.
  - apply andb_prop in H. apply IH. tauto.
  - inversion H; subst. apply andb_true_intro. split; [assumption|]. apply IH. assumption.
Qed.

Lemma veq_arr l l' : veq (VArr l) (VArr l') = forall2b veq l l'.
Proof.
  cbn [veq]. revert l'. induction l as [|x r IH]; intros [|y r']; try reflexivity.
  cbn [forall2b]. now rewrite <- IH.
Qed.

Definition entry_found (m' : list (value * value)) (e : value * value) : bool :=
  match get_with (veq (fst e)) m' with Some v' => veq (snd e) v' | None => false end.

Lemma veq_map m m' :
  veq (VMap m) (VMap m') = Nat.eqb (length m) (length m') && forallb (entry_found m') m.
Proof.
  cbn [veq]. f_equal. induction m as [|[k v] r IH]; [reflexivity|].
  cbn [forallb]. now rewrite <- IH.
Qed.

Lemma get_with_some {V} f (m : list (value * V)) v :
  get_with f m = Some v -> exists k, In (k, v) m /\ f k = true.
Proof.
  unfold get_with. destruct (find _ m) as [[k x]|] eqn:E; [|discriminate].
  intros H. injection H as ->. apply find_some in E. exists k. exact E.
Qed.

Lemma get_with_none {V} f (m : list (value * V)) :
  get_with f m = None -> forall k v, In (k, v) m -> f k = false.
Proof.
  unfold get_with. destruct (find _ m) as [e|] eqn:E; [discriminate|].
  intros _ k v Hin. exact (find_none _ _ E _ Hin).
Qed.

(* ---------- base cases ---------- *)

Lemma bytes_eqb_eq a b : bytes_eqb a b = true <-> a = b.
Proof.
  revert b. induction a as [|x r IH]; intros [|y r']; cbn; try (split; intros H; congruence).
  rewrite andb_true_iff, Z.eqb_eq, IH. split; [intros [-> ->]; reflexivity|intros H; injection H; auto].
Qed.

Lemma SFcompare_refl f : f <> S754_nan -> SFcompare f f = Some Eq.
Proof.
  intros H. destruct f as [s|s| |s m e]; cbn; try congruence.
  - now destruct s.
  - destruct s; rewrite Z.compare_refl.
    + change (Pcompare m m Eq) with (m ?= m)%positive. now rewrite Pos.compare_refl.
    + change (Pcompare m m Eq) with (m ?= m)%positive. now rewrite Pos.compare_refl.
Qed.

(* a key that orders floats: sign class, exponent, mantissa *)
Definition fkey (f : spec_float) : Z * (Z * Z) :=
  match f with
  | S754_infinity true => (-2, (0, 0))
  | S754_finite true m e => (-1, (- e, - Zpos m))
  | S754_zero _ => (0, (0, 0))
  | S754_finite false m e => (1, (e, Zpos m))
  | S754_infinity false => (2, (0, 0))
  | S754_nan => (3, (0, 0))
  end.

Definition kcmp (a b : Z * (Z * Z)) : comparison :=
  match fst a ?= fst b with
  | Eq => match fst (snd a) ?= fst (snd b) with
          | Eq => snd (snd a) ?= snd (snd b)
          | c => c
          end
  | c => c
  end.

Lemma SFcompare_key a b : a <> S754_nan -> b <> S754_nan ->
  SFcompare a b = Some (kcmp (fkey a) (fkey b)).
Proof.
  intros Ha Hb.
  destruct a as [sa|sa| |sa ma ea], b as [sb|sb| |sb mb eb]; try congruence;
    try (destruct sa); try (destruct sb); try reflexivity.
  unfold kcmp, fkey, fst, snd. cbn [SFcompare]. rewrite Z.compare_refl.
    destruct (Z.compare_spec ea eb) as [->|H|H];
      [rewrite Z.compare_refl|rewrite (proj2 (Z.compare_gt_iff (- ea) (- eb))) by lia; reflexivity
       |rewrite (proj2 (Z.compare_lt_iff (- ea) (- eb))) by lia; reflexivity].
    change (Pcompare ma mb Eq) with (Zpos ma ?= Zpos mb).
    rewrite <- Z.compare_antisym. f_equal. symmetry. exact (Z.compare_opp (Zpos ma) (Zpos mb)).
Qed.

Lemma kcmp_eq a b : kcmp a b = Eq <-> a = b.
Proof.
  destruct a as [a1 [a2 a3]], b as [b1 [b2 b3]]. unfold kcmp. cbn [fst snd].
  destruct (Z.compare_spec a1 b1) as [H1|H1|H1];
  destruct (Z.compare_spec a2 b2) as [H2|H2|H2];
  destruct (Z.compare_spec a3 b3) as [H3|H3|H3]; subst; split; intros H; try discriminate; try reflexivity;
    injection H; intros; lia.
Qed.

Lemma kcmp_opp a b : kcmp b a = CompOpp (kcmp a b).
Proof.
  destruct a as [a1 [a2 a3]], b as [b1 [b2 b3]]. unfold kcmp. cbn [fst snd].
  rewrite (Z.compare_antisym a1 b1), (Z.compare_antisym a2 b2), (Z.compare_antisym a3 b3).
  destruct (a1 ?= b1), (a2 ?= b2), (a3 ?= b3); reflexivity.
Qed.

Lemma kcmp_trans a b c : kcmp a b <> Gt -> kcmp b c <> Gt ->
  kcmp a c <> Gt /\ (kcmp a c = Eq -> kcmp a b = Eq /\ kcmp b c = Eq).
Proof.
  destruct a as [a1 [a2 a3]], b as [b1 [b2 b3]], c as [c1 [c2 c3]]. unfold kcmp. cbn [fst snd].
  destruct (Z.compare_spec a1 b1) as [H1|H1|H1]; destruct (Z.compare_spec b1 c1) as [H1'|H1'|H1'];
  destruct (Z.compare_spec a1 c1) as [H1''|H1''|H1'']; try lia; try congruence;
  try (intros _ _; split; [discriminate|discriminate]);
  destruct (Z.compare_spec a2 b2) as [H2|H2|H2]; destruct (Z.compare_spec b2 c2) as [H2'|H2'|H2'];
  destruct (Z.compare_spec a2 c2) as [H2''|H2''|H2'']; try lia; try congruence;
  try (intros _ _; split; [discriminate|discriminate]);
  destruct (Z.compare_spec a3 b3) as [H3|H3|H3]; destruct (Z.compare_spec b3 c3) as [H3'|H3'|H3'];
  destruct (Z.compare_spec a3 c3) as [H3''|H3''|H3'']; try lia; try congruence;
  intros _ _; split; try discriminate; auto.
Qed.

Lemma SFeqb_key a b : a <> S754_nan -> b <> S754_nan ->
  SFeqb a b = true <-> fkey a = fkey b.
Proof.
  intros Ha Hb. unfold SFeqb. rewrite (SFcompare_key _ _ Ha Hb), <- kcmp_eq.
  destruct (kcmp _ _); split; congruence.
Qed.

Lemma fkey_hash a b : fkey a = fkey b -> a <> S754_nan -> b <> S754_nan ->
  float_to_int a = float_to_int b.
Proof.
  intros H Ha Hb.
  destruct a as [sa|sa| |sa ma ea], b as [sb|sb| |sb mb eb]; try congruence;
    try destruct sa; try destruct sb; cbn [fkey] in H; try discriminate; try reflexivity.
  - injection H as H1 H2. assert (ea = eb) by lia. now subst.
  - injection H as H1 H2. now subst.
Qed.

(* ---------- equivalence ---------- *)

Lemma data_arr_inv l : wf (VArr l) -> Forall wf l.
Proof. intros H. now inversion H. Qed.
Lemma data_map_inv m : wf (VMap m) ->
  Forall (fun e => wf (fst e) /\ wf (snd e)) m /\ ForallOrdPairs (keys_differ veq) m.
Proof. intros H. now inversion H. Qed.

Definition equivalence_below (n : nat) : Prop :=
  (forall a, wf a -> (vsize a < n)%nat -> veq a a = true) /\
  (forall a b, wf a -> wf b -> (vsize a < n)%nat -> (vsize b < n)%nat -> veq a b = true -> veq b a = true) /\
  (forall a b c, wf a -> wf b -> wf c -> (vsize a < n)%nat -> (vsize b < n)%nat -> (vsize c < n)%nat ->
     veq a b = true -> veq b c = true -> veq a c = true).

(* positions of pairwise different keys *)
Lemma fop_nth {A} (R : A -> A -> Prop) l i j x y :
  ForallOrdPairs R l -> (i < j)%nat -> nth_error l i = Some x -> nth_error l j = Some y -> R x y.
Proof.
  intros H. revert i j. induction H as [|a l Ha Hl IH]; intros i j Hij Hi Hj.
  - destruct i; discriminate.
  - destruct j as [|j]; [lia|]. destruct i as [|i].
    + injection Hi as ->. rewrite Forall_forall in Ha. apply Ha. eapply nth_error_In; exact Hj.
    + apply (IH i j); auto; lia.
Qed.

Lemma fop_app_cons {A} (R : A -> A -> Prop) l1 x l2 :
  ForallOrdPairs R (l1 ++ x :: l2) -> ForallOrdPairs R (l1 ++ l2).
Proof.
  induction l1 as [|y r IH]; cbn; intros H; inversion H; subst; auto.
  constructor; auto. rewrite Forall_app in *. destruct H2 as [Ha Hb]. inversion Hb; subst. split; auto.
Qed.

Lemma fop_mid {A} (R : A -> A -> Prop) l1 x l2 :
  ForallOrdPairs R (l1 ++ x :: l2) -> (forall y, In y l1 -> R y x) /\ (forall y, In y l2 -> R x y).
Proof.
  induction l1 as [|z r IH]; cbn; intros H; inversion H; subst.
  - split; [intros ? []|]. now rewrite <- Forall_forall.
  - destruct (IH H3) as [A1 A2]. split; auto.
    intros y [->|Hy]; auto. rewrite Forall_app in H2. destruct H2 as [_ H2].
    inversion H2; subst; assumption.
Qed.

Definition entries_match (e e' : value * value) : Prop :=
  veq (fst e) (fst e') = true /\ veq (snd e) (snd e') = true.

(* If every entry of m is found in m', a rearrangement of m' matches m entry by entry.
   [n] bounds the sizes of the keys. *)
Lemma match_up n m m' :
  equivalence_below n ->
  (forall k v, In (k, v) m -> wf k /\ vsize k < n)%nat ->
  (forall k v, In (k, v) m' -> wf k /\ vsize k < n)%nat ->
  ForallOrdPairs (keys_differ veq) m ->
  length m = length m' ->
  forallb (entry_found m') m = true ->
  exists m'', Permutation m' m'' /\ Forall2 entries_match m m''.
Proof.
  intros (_ & Hsym & Htr). revert m'.
  induction m as [|[k v] r IH]; intros m' Hm Hm' Hd Hlen Hall.
  { destruct m'; [|discriminate]. exists []. split; constructor. }
  cbn [forallb] in Hall. apply andb_prop in Hall as [H1 H2].
  unfold entry_found in H1. cbn [fst snd] in H1.
  destruct (get_with (veq k) m') as [v'|] eqn:E; [|discriminate].
  apply get_with_some in E as (k' & Hin & Hk).
  destruct (in_split _ _ Hin) as (l1 & l2 & ->).
  inversion Hd as [|? ? Hdk Hdr]; subst.
  destruct (IH (l1 ++ l2)) as (m'' & Hp & Hf).
  - intros k0 v0 H0. apply (Hm k0 v0). now right.
  - intros k0 v0 H0. apply (Hm' k0 v0). rewrite in_app_iff in *. cbn. tauto.
  - exact Hdr.
  - rewrite app_length in *. cbn in Hlen. lia.
  - apply forallb_forall. intros [k1 v1] Hin1.
    rewrite forallb_forall in H2. specialize (H2 _ Hin1).
    unfold entry_found in *. cbn [fst snd] in *.
    assert (Hne : veq k1 k' = false).
    { destruct (veq k1 k') eqn:E1; [|reflexivity]. exfalso.
      rewrite Forall_forall in Hdk. specialize (Hdk _ Hin1). unfold keys_differ in Hdk. cbn [fst] in Hdk.
      destruct (Hm k v (or_introl eq_refl)) as [Wk Sk].
      destruct (Hm k1 v1 (or_intror Hin1)) as [Wk1 Sk1].
      destruct (Hm' k' v' Hin) as [Wk' Sk'].
      rewrite (Htr k k' k1) in Hdk; auto; discriminate. }
    unfold get_with in *.
    assert (Ef : forall l : list (value * value), find (fun e => veq k1 (fst e)) (l1 ++ (k', v') :: l2)
                 = find (fun e => veq k1 (fst e)) (l1 ++ l2)).
    { intros _. clear - Hne. induction l1 as [|[a b] l IHl]; cbn.
      - now rewrite Hne.
      - destruct (veq k1 a); auto. }
    rewrite (Ef nil) in H2. exact H2.
  - exists ((k', v') :: m''). split.
    + rewrite <- Hp. symmetry. apply Permutation_middle.
    + constructor; auto. split; auto.
Qed.

Lemma perm_in_iff {A} (l l' : list A) x : Permutation l l' -> In x l' -> In x l.
Proof. intros H. apply Permutation_in. now symmetry. Qed.

(* the entry of m' matched with a key *)
Lemma get_unique n m k k' v' :
  equivalence_below n ->
  (forall k v, In (k, v) m -> wf k /\ vsize k < n)%nat ->
  wf k -> (vsize k < n)%nat ->
  ForallOrdPairs (keys_differ veq) m ->
  In (k', v') m -> veq k k' = true -> get_with (veq k) m = Some v'.
Proof.
  intros (_ & Hsym & Htr) Hm Wk Sk Hd Hin Hk.
  destruct (get_with (veq k) m) as [v1|] eqn:E.
  - pose proof E as E0. unfold get_with in E.
    destruct (find _ m) as [[k1 x]|] eqn:Ef; [|discriminate]. injection E as ->.
    apply find_some in Ef as [Hin1 Hk1]. cbn [fst] in Hk1.
    apply In_nth_error in Hin as [i Hi]. apply In_nth_error in Hin1 as [j Hj].
    assert (Wk' : wf k' /\ (vsize k' < n)%nat) by (apply (Hm k' v'); eapply nth_error_In; exact Hi).
    assert (Wk1 : wf k1 /\ (vsize k1 < n)%nat) by (apply (Hm k1 v1); eapply nth_error_In; exact Hj).
    destruct Wk' as [Wk' Sk'], Wk1 as [Wk1 Sk1].
    destruct (Nat.lt_trichotomy i j) as [L|[->|L]].
    + pose proof (fop_nth _ _ _ _ _ _ Hd L Hi Hj) as X. unfold keys_differ in X. cbn in X.
      rewrite (Htr k' k k1) in X; auto; discriminate.
    + congruence.
    + pose proof (fop_nth _ _ _ _ _ _ Hd L Hj Hi) as X. unfold keys_differ in X. cbn in X.
      rewrite (Htr k1 k k') in X; auto; discriminate.
  - rewrite (get_with_none _ _ E _ _ Hin) in Hk. discriminate.
Qed.

Lemma Forall2_in_l {A B} (R : A -> B -> Prop) l l' x :
  Forall2 R l l' -> In x l -> exists y, In y l' /\ R x y.
Proof.
  induction 1 as [|a b l l' Hab Hl IH]; intros [].
  - subst. exists b. split; [now left|assumption].
  - destruct (IH H) as (y & ? & ?). exists y. split; [now right|assumption].
Qed.

Lemma Forall2_in_r {A B} (R : A -> B -> Prop) l l' y :
  Forall2 R l l' -> In y l' -> exists x, In x l /\ R x y.
Proof.
  induction 1 as [|a b l l' Hab Hl IH]; intros [].
  - subst. exists a. split; [now left|assumption].
  - destruct (IH H) as (x & ? & ?). exists x. split; [now right|assumption].
Qed.

Lemma map_bounds n m : wf (VMap m) -> (vsize (VMap m) < S n)%nat ->
  (forall k v, In (k, v) m -> wf k /\ vsize k < n)%nat /\
  (forall k v, In (k, v) m -> wf v /\ vsize v < n)%nat /\ ForallOrdPairs (keys_differ veq) m.
Proof.
  intros W S. apply data_map_inv in W as [W D]. rewrite Forall_forall in W.
  split; [|split; [|exact D]]; intros k v Hin; destruct (W _ Hin) as [Wk Wv];
    destruct (vsize_map_in _ _ _ Hin); split; auto; lia.
Qed.

(* entries that match another map's entries make the maps equal *)
Lemma matched_equal n m m' m'' :
  equivalence_below n ->
  (forall k v, In (k, v) m -> wf k /\ vsize k < n)%nat ->
  (forall k v, In (k, v) m' -> wf k /\ vsize k < n)%nat ->
  ForallOrdPairs (keys_differ veq) m' ->
  Permutation m' m'' -> Forall2 entries_match m m'' ->
  veq (VMap m) (VMap m') = true.
Proof.
  intros HE Hm Hm' Hd Hp Hf. rewrite veq_map. apply andb_true_intro. split.
  - apply Nat.eqb_eq. rewrite (Permutation_length Hp). clear - Hf.
    induction Hf; cbn; auto.
  - apply forallb_forall. intros [k v] Hin. unfold entry_found. cbn [fst snd].
    destruct (Forall2_in_l _ _ _ _ Hf Hin) as ([k' v'] & Hin' & Hk & Hv). cbn [fst snd] in *.
    apply (perm_in_iff _ _ _ Hp) in Hin'.
    rewrite (get_unique n m' k k' v'); auto; apply (Hm k v); auto.
Qed.

Lemma equal_matched n m m' :
  equivalence_below n ->
  (forall k v, In (k, v) m -> wf k /\ vsize k < n)%nat ->
  (forall k v, In (k, v) m' -> wf k /\ vsize k < n)%nat ->
  ForallOrdPairs (keys_differ veq) m ->
  veq (VMap m) (VMap m') = true ->
  exists m'', Permutation m' m'' /\ Forall2 entries_match m m''.
Proof.
  intros HE Hm Hm' Hd H. rewrite veq_map in H. apply andb_prop in H as [H1 H2].
  apply Nat.eqb_eq in H1. eapply match_up; eauto.
Qed.

Lemma Forall2_perm {A B} (R : A -> B -> Prop) l l' l1 :
  Forall2 R l l' -> Permutation l l1 -> exists l1', Permutation l' l1' /\ Forall2 R l1 l1'.
Proof.
  intros H Hp. revert l' H. induction Hp as [|x l l1 Hp IH|x y l|l l1 l2 Hp1 IH1 Hp2 IH2]; intros l' H.
  - inversion H; subst. exists []. split; constructor.
  - inversion H; subst. destruct (IH _ H4) as (q & Hq & Hf). exists (y :: q). split; constructor; auto.
  - inversion H; subst. inversion H4; subst.
    eexists. split; [apply perm_swap|]. constructor; auto.
  - destruct (IH1 _ H) as (q & Hq & Hf). destruct (IH2 _ Hf) as (q' & Hq' & Hf').
    exists q'. split; [etransitivity; eassumption|assumption].
Qed.

Lemma Forall2_flip' {A B} (R : A -> B -> Prop) l l' :
  Forall2 R l l' -> Forall2 (fun y x => R x y) l' l.
Proof. induction 1; constructor; auto. Qed.

Lemma Forall2_imp_in {A B} (R S : A -> B -> Prop) l l' :
  Forall2 R l l' -> (forall x y, In x l -> In y l' -> R x y -> S x y) -> Forall2 S l l'.
Proof.
  induction 1 as [|x y l l' Hxy Hl IH]; intros HS; constructor.
  - apply HS; cbn; auto.
  - apply IH. intros; apply HS; cbn; auto.
Qed.

Lemma Forall2_trans_in {A} (R : A -> A -> Prop) l1 l2 l3 :
  Forall2 R l1 l2 -> Forall2 R l2 l3 ->
  (forall x y z, In x l1 -> In y l2 -> In z l3 -> R x y -> R y z -> R x z) -> Forall2 R l1 l3.
Proof.
  intros H. revert l3. induction H as [|x y l l' Hxy Hl IH]; intros l3 H3 HT; inversion H3; subst; constructor.
  - apply (HT x y y0); cbn; auto.
  - apply IH; auto. intros; eapply HT; cbn; eauto.
Qed.

Lemma equivalence_all n : equivalence_below n.
Proof.
  induction n as [|n IH].
  { repeat split; intros; lia. }
  assert (Hrefl : forall a, wf a -> (vsize a < S n)%nat -> veq a a = true).
  { intros a W Sa. destruct IH as (IR & IS & IT). pose proof (conj IR (conj IS IT)) as IH.
    destruct W.
    - reflexivity.
    - apply Bool.eqb_reflx.
    - apply Z.eqb_refl.
    - unfold veq. apply SFeqb_key; auto.
    - cbn. now apply bytes_eqb_eq.
    - cbn. now apply bytes_eqb_eq.
    - cbn. now rewrite !Z.eqb_refl.
    - cbn. now apply bytes_eqb_eq.
    - cbn [veq]. apply IR; auto. cbn [vsize] in Sa. lia.
    - rewrite veq_arr. apply forall2b_iff.
      assert (A : forall x, In x l -> veq x x = true).
      { intros x Hx. apply IR.
        - rewrite Forall_forall in H. auto.
        - pose proof (vsize_arr_in _ _ Hx). lia. }
      clear - A. induction l; constructor; auto. apply A. now left. apply IHl. intros; apply A; now right.
    - assert (W : wf (VMap m)) by (constructor; auto).
      destruct (map_bounds n m W Sa) as (B1 & B2 & D).
      apply (matched_equal n m m m); auto.
      assert (A : forall e, In e m -> entries_match e e).
      { intros [k v] Hin. destruct (B1 _ _ Hin), (B2 _ _ Hin). split; cbn; apply IR; auto. }
      clear - A. induction m; constructor; auto. apply A. now left. apply IHm. intros; apply A; now right. }
  split; [exact Hrefl|]. split.
  - intros a b Wa Wb Sa Sb H. destruct IH as (IR & IS & IT). pose proof (conj IR (conj IS IT)) as IH.
    destruct a as [ |x|x|x|x|x|s1 n1 z1|x|x|l|m], b as [ |y|y|y|y|y|s2 n2 z2|y|y|l'|m']; try discriminate H; auto.
    + cbn [veq] in *. rewrite Bool.eqb_true_iff in *. auto.
    + cbn [veq] in *. rewrite Z.eqb_eq in *. auto.
    + cbn [veq] in *. inversion Wa; inversion Wb; subst. rewrite SFeqb_key in * by assumption. auto.
    + cbn [veq] in *. rewrite bytes_eqb_eq in *. auto.
    + cbn [veq] in *. rewrite bytes_eqb_eq in *. auto.
    + cbn [veq] in *. rewrite andb_true_iff, !Z.eqb_eq in *. intuition.
    + cbn [veq] in *. rewrite bytes_eqb_eq in *. auto.
    + cbn [veq vsize] in *. inversion Wa; inversion Wb; subst. apply IS; auto; lia.
    + rewrite veq_arr, forall2b_iff in *. apply Forall2_flip' in H.
      apply data_arr_inv in Wa. apply data_arr_inv in Wb. rewrite Forall_forall in *.
      refine (Forall2_imp_in _ _ _ _ H _). cbn. intros y x Hy Hx Hxy.
      pose proof (vsize_arr_in _ _ Hx). pose proof (vsize_arr_in _ _ Hy). apply IS; auto; lia.
    + destruct (map_bounds n m Wa Sa) as (A1 & A2 & DA).
      destruct (map_bounds n m' Wb Sb) as (B1 & B2 & DB).
      destruct (equal_matched n m m' IH A1 B1 DA H) as (m'' & Hp & Hf).
      apply Forall2_flip' in Hf.
      assert (Hf2 : Forall2 entries_match m'' m).
      { refine (Forall2_imp_in _ _ _ _ Hf _). intros [k' v'] [k v] H1 H2 [E1 E2]. cbn [fst snd] in *.
        apply (perm_in_iff _ _ _ Hp) in H1.
        destruct (A1 _ _ H2), (A2 _ _ H2), (B1 _ _ H1), (B2 _ _ H1).
        split; cbn; apply IS; auto. }
      destruct (Forall2_perm _ _ _ m' Hf2 (Permutation_sym Hp)) as (q & Hq & Hf3).
      apply (matched_equal n m' m q); auto.
  - intros a b c Wa Wb Wc Sa Sb Sc H H'. destruct IH as (IR & IS & IT). pose proof (conj IR (conj IS IT)) as IH.
    destruct a as [ |x|x|x|x|x|s1 n1 z1|x|x|l|m], b as [ |y|y|y|y|y|s2 n2 z2|y|y|l'|m']; try discriminate H;
    destruct c as [ |z|z|z|z|z|s3 n3 z3|z|z|l''|m3]; try discriminate H'; auto.
    + cbn [veq] in *. rewrite Bool.eqb_true_iff in *. congruence.
    + cbn [veq] in *. rewrite Z.eqb_eq in *. congruence.
    + cbn [veq] in *. inversion Wa; inversion Wb; inversion Wc; subst. rewrite SFeqb_key in * by assumption. congruence.
    + cbn [veq] in *. rewrite bytes_eqb_eq in *. congruence.
    + cbn [veq] in *. rewrite bytes_eqb_eq in *. congruence.
    + cbn [veq] in *. rewrite andb_true_iff, !Z.eqb_eq in *. intuition congruence.
    + cbn [veq] in *. rewrite bytes_eqb_eq in *. congruence.
    + cbn [veq vsize] in *. inversion Wa; inversion Wb; inversion Wc; subst. apply (IT x y z); auto; lia.
    + rewrite veq_arr, forall2b_iff in *.
      apply data_arr_inv in Wa. apply data_arr_inv in Wb. apply data_arr_inv in Wc. rewrite Forall_forall in *.
      refine (Forall2_trans_in _ _ _ _ H H' _). cbn. intros x y z Hx Hy Hz.
      pose proof (vsize_arr_in _ _ Hx). pose proof (vsize_arr_in _ _ Hy). pose proof (vsize_arr_in _ _ Hz).
      apply IT; auto; lia.
    + destruct (map_bounds n m Wa Sa) as (A1 & A2 & DA).
      destruct (map_bounds n m' Wb Sb) as (B1 & B2 & DB).
      destruct (map_bounds n m3 Wc Sc) as (C1 & C2 & DC).
      destruct (equal_matched n m m' IH A1 B1 DA H) as (q & Hp & Hf).
      destruct (equal_matched n m' m3 IH B1 C1 DB H') as (q' & Hp' & Hf').
      destruct (Forall2_perm _ _ _ q Hf' Hp) as (q2 & Hq2 & Hf2).
      apply (matched_equal n m m3 q2); auto.
      * etransitivity; eassumption.
      * refine (Forall2_trans_in _ _ _ _ Hf Hf2 _).
        intros [k v] [k' v'] [k2 v2] H1 H2 H3 [E1 E2] [E3 E4]. cbn [fst snd] in *.
        apply (perm_in_iff _ _ _ Hp) in H2.
        apply (perm_in_iff _ _ _ Hq2) in H3. apply (perm_in_iff _ _ _ Hp') in H3.
        destruct (A1 _ _ H1), (A2 _ _ H1), (B1 _ _ H2), (B2 _ _ H2), (C1 _ _ H3), (C2 _ _ H3).
        split; cbn; [apply (IT k k' k2)|apply (IT v v' v2)]; auto.
Qed.

Theorem veq_refl a : wf a -> veq a a = true.
Proof. intros W. destruct (equivalence_all (S (vsize a))) as (R & _ & _). apply R; auto. Qed.

Theorem veq_sym a b : wf a -> wf b -> veq a b = true -> veq b a = true.
Proof.
  intros Wa Wb. destruct (equivalence_all (S (vsize a + vsize b))) as (_ & S & _). apply S; auto; lia.
Qed.

Theorem veq_trans a b c : wf a -> wf b -> wf c -> veq a b = true -> veq b c = true -> veq a c = true.
Proof.
  intros Wa Wb Wc. destruct (equivalence_all (S (vsize a + vsize b + vsize c))) as (_ & _ & T). apply T; auto; lia.
Qed.

Lemma veq_sym_eq a b : wf a -> wf b -> veq a b = veq b a.
Proof.
  intros Wa Wb. destruct (veq a b) eqn:E.
  - symmetry. now apply veq_sym.
  - destruct (veq b a) eqn:E'; [|reflexivity]. apply veq_sym in E'; auto. congruence.
Qed.

(* ---------- maps ---------- *)

Lemma wf_map_entry m k v : wf (VMap m) -> In (k, v) m -> wf k /\ wf v.
Proof. intros W Hin. apply data_map_inv in W as [W _]. rewrite Forall_forall in W. exact (W _ Hin). Qed.

Lemma map_equal_matched m m' : wf (VMap m) -> wf (VMap m') -> veq (VMap m) (VMap m') = true ->
  exists m'', Permutation m' m'' /\ Forall2 entries_match m m''.
Proof.
  intros W W' H. set (n := S (vsize (VMap m) + vsize (VMap m'))).
  destruct (map_bounds n m W ltac:(subst n; lia)) as (A1 & A2 & DA).
  destruct (map_bounds n m' W' ltac:(subst n; lia)) as (B1 & B2 & DB).
  exact (equal_matched n m m' (equivalence_all n) A1 B1 DA H).
Qed.

Lemma matched_map_equal m m' m'' : wf (VMap m) -> wf (VMap m') ->
  Permutation m' m'' -> Forall2 entries_match m m'' -> veq (VMap m) (VMap m') = true.
Proof.
  intros W W' Hp Hf. set (n := S (vsize (VMap m) + vsize (VMap m'))).
  destruct (map_bounds n m W ltac:(subst n; lia)) as (A1 & A2 & DA).
  destruct (map_bounds n m' W' ltac:(subst n; lia)) as (B1 & B2 & DB).
  exact (matched_equal n m m' m'' (equivalence_all n) A1 B1 DB Hp Hf).
Qed.

Lemma get_with_assoc m k : get_with (veq k) m = assoc veq m k.
Proof.
  unfold get_with. induction m as [|[k' v] r IH]; [reflexivity|]. cbn [find fst assoc].
  destruct (veq k k'); [reflexivity|exact IH].
Qed.

Lemma assoc_unique m k k' v' : wf (VMap m) -> wf k -> In (k', v') m -> veq k k' = true ->
  assoc veq m k = Some v'.
Proof.
  intros W Wk Hin Hk. rewrite <- get_with_assoc.
  set (n := S (vsize (VMap m) + vsize k)).
  destruct (map_bounds n m W ltac:(subst n; lia)) as (A1 & A2 & DA).
  apply (get_unique n m k k' v'); auto. apply equivalence_all. subst n; lia.
Qed.

Lemma assoc_some m k v : assoc veq m k = Some v -> exists k', In (k', v) m /\ veq k k' = true.
Proof. rewrite <- get_with_assoc. apply get_with_some. Qed.

Lemma assoc_none m k : assoc veq m k = None -> forall k' v, In (k', v) m -> veq k k' = false.
Proof. rewrite <- get_with_assoc. apply get_with_none. Qed.

Lemma map_equal_iff m m' : wf (VMap m) -> wf (VMap m') ->
  (veq (VMap m) (VMap m') = true <->
   forall k, wf k -> same_assoc veq (assoc veq m k) (assoc veq m' k)).
Proof.
  intros W W'. split.
  - intros H k Wk. destruct (map_equal_matched m m' W W' H) as (q & Hp & Hf).
    destruct (assoc veq m k) as [v|] eqn:E.
    + apply assoc_some in E as (k1 & Hin & Hk).
      destruct (Forall2_in_l _ _ _ _ Hf Hin) as ([k2 v2] & Hin2 & E1 & E2). cbn [fst snd] in *.
      apply (perm_in_iff _ _ _ Hp) in Hin2.
      destruct (wf_map_entry _ _ _ W Hin), (wf_map_entry _ _ _ W' Hin2).
      rewrite (assoc_unique m' k k2 v2); auto. apply (veq_trans k k1 k2); auto.
    + destruct (assoc veq m' k) as [v'|] eqn:E'; [|exact I]. exfalso.
      apply assoc_some in E' as (k2 & Hin2 & Hk).
      pose proof (Permutation_in _ Hp Hin2) as Hin2'.
      destruct (Forall2_in_r _ _ _ _ Hf Hin2') as ([k1 v1] & Hin & E1 & E2). cbn [fst snd] in *.
      destruct (wf_map_entry _ _ _ W Hin), (wf_map_entry _ _ _ W' Hin2).
      pose proof (assoc_none _ _ E _ _ Hin) as X.
      rewrite (veq_trans k k2 k1) in X; auto; [discriminate|]. now apply veq_sym.
  - intros H. rewrite veq_map.
    assert (Hfound : forallb (entry_found m') m = true).
    { apply forallb_forall. intros [k v] Hin. unfold entry_found. cbn [fst snd].
      destruct (wf_map_entry _ _ _ W Hin) as [Wk Wv]. specialize (H k Wk).
      rewrite (assoc_unique m k k v) in H; auto; [|now apply veq_refl].
      rewrite get_with_assoc. destruct (assoc veq m' k); [exact H|destruct H]. }
    rewrite Hfound, andb_true_r. apply Nat.eqb_eq.
    (* every entry of one has a partner in the other: the lengths agree *)
    assert (Hle : forall m m', wf (VMap m) -> wf (VMap m') ->
        (forall k, wf k -> same_assoc veq (assoc veq m k) (assoc veq m' k)) -> (length m <= length m')%nat).
    { clear. intros m. induction m as [|[k v] r IH]; intros m' W W' H; [cbn; lia|].
      destruct (wf_map_entry _ _ _ W (or_introl eq_refl)) as [Wk Wv].
      pose proof (H k Wk) as Hk. cbn [assoc] in Hk. rewrite (veq_refl k Wk) in Hk.
      destruct (assoc veq m' k) as [v'|] eqn:E; [|destruct Hk].
      pose proof E as E0. apply assoc_some in E as (k' & Hin & Hkk').
      destruct (in_split _ _ Hin) as (l1 & l2 & ->).
      assert (Wr : wf (VMap r)).
      { apply data_map_inv in W as [A B]. inversion A; inversion B; subst. constructor; auto. }
      assert (W2 : wf (VMap (l1 ++ l2))).
      { apply data_map_inv in W' as [A B]. constructor; [|now apply fop_app_cons in B].
        rewrite Forall_app in *. destruct A as [A1 A2]. inversion A2; auto. }
      destruct (wf_map_entry _ _ _ W' Hin) as [Wk' Wv'].
      assert (length r <= length (l1 ++ l2))%nat; [|rewrite app_length in *; cbn; lia].
      apply IH; auto. intros k0 W0. specialize (H k0 W0). cbn [assoc] in H.
      destruct (veq k0 k) eqn:E1.
      - (* absent from both remainders *)
        assert (X1 : assoc veq r k0 = None).
        { destruct (assoc veq r k0) as [x|] eqn:E2; [|reflexivity]. exfalso.
          apply assoc_some in E2 as (k1 & Hin1 & Hk1).
          apply data_map_inv in W as [A B]. inversion B as [|? ? Hd Hd']; subst.
          rewrite Forall_forall in Hd. specialize (Hd _ Hin1). unfold keys_differ in Hd. cbn [fst] in Hd.
          destruct (wf_map_entry _ _ _ Wr Hin1).
          rewrite (veq_trans k k0 k1) in Hd; auto; [discriminate|now apply veq_sym]. }
        assert (X2 : assoc veq (l1 ++ l2) k0 = None).
        { destruct (assoc veq (l1 ++ l2) k0) as [x|] eqn:E2; [|reflexivity]. exfalso.
          apply assoc_some in E2 as (k1 & Hin1 & Hk1).
          destruct (wf_map_entry _ _ _ W2 Hin1) as [Wk1 Wx].
          assert (Ek : veq k' k1 = true).
          { apply (veq_trans k' k k1); auto; [now apply veq_sym|].
            apply (veq_trans k k0 k1); auto. now apply veq_sym. }
          apply data_map_inv in W' as [A B]. apply fop_mid in B as [B1 B2].
          apply in_app_iff in Hin1 as [Hi|Hi].
          - specialize (B1 _ Hi). unfold keys_differ in B1. cbn [fst] in B1.
            rewrite (veq_sym k' k1) in B1; auto; discriminate.
          - specialize (B2 _ Hi). unfold keys_differ in B2. cbn [fst] in B2. congruence. }
        rewrite X1, X2. exact I.
      - assert (X2 : assoc veq (l1 ++ l2) k0 = assoc veq (l1 ++ (k', v') :: l2) k0).
        { assert (Hne : veq k0 k' = false).
          { destruct (veq k0 k') eqn:E2; [|reflexivity].
            assert (veq k0 k = true) by (apply (veq_trans k0 k' k); auto using veq_sym); congruence. }
          clear - Hne. induction l1 as [|[a b] l IHl]; cbn; [now rewrite Hne|].
          destruct (veq k0 a); auto. }
        rewrite X2. exact H. }
    apply Nat.le_antisymm; apply Hle; auto.
    intros k Wk. specialize (H k Wk).
    destruct (assoc veq m k) as [v|] eqn:E1, (assoc veq m' k) as [v'|] eqn:E2; cbn in *; auto.
    apply assoc_some in E1 as (k1 & Hi1 & _). apply assoc_some in E2 as (k2 & Hi2 & _).
    apply veq_sym; auto; [apply (wf_map_entry _ _ _ W Hi1)|apply (wf_map_entry _ _ _ W' Hi2)].
Qed.

Lemma perm_map_equal m m' : wf (VMap m) -> wf (VMap m') -> Permutation m m' -> veq (VMap m) (VMap m') = true.
Proof.
  intros W W' Hp. apply (matched_map_equal m m' m); auto; [now symmetry|].
  assert (A : forall e, In e m -> entries_match e e).
  { intros [k v] Hin. destruct (wf_map_entry _ _ _ W Hin). split; now apply veq_refl. }
  clear - A. induction m; constructor; [apply A; now left|apply IHm; intros; apply A; now right].
Qed.

Lemma perm_data m m' : wf (VMap m) -> Permutation m m' -> wf (VMap m').
Proof.
  intros W Hp. apply data_map_inv in W as [A B]. constructor.
  - now rewrite <- Hp.
  - assert (Hs : forall e e', In e m -> In e' m -> keys_differ veq e e' -> keys_differ veq e' e).
    { intros e e' H1 H2. rewrite Forall_forall in A. destruct (A _ H1), (A _ H2). unfold keys_differ.
      rewrite veq_sym_eq; auto. }
    clear A. induction Hp as [|x l l' Hp IH|x y l|l l' l'' Hp1 IH1 Hp2 IH2].
    + exact B.
    + inversion B as [|? ? B1 B2]; subst. constructor; [now rewrite <- Hp|].
      apply IH; auto. intros e e' H1 H2. apply Hs; now right.
    + inversion B as [|? ? B1 B2]; subst. inversion B2 as [|? ? B3 B4]; subst.
      inversion B1 as [|? ? B5 B6]; subst.
      constructor; [constructor; [apply Hs; cbn; auto|exact B3]|constructor; auto].
    + assert (B' : ForallOrdPairs (keys_differ veq) l') by auto.
      apply IH2; auto. intros e e' H1 H2. apply Hs; eapply Permutation_in; try eassumption; now symmetry.
Qed.

(* ---------- hashes ---------- *)

Lemma insert_z_perm x l : Permutation (x :: l) (insert_z x l).
Proof.
  induction l as [|y r IH]; cbn; [reflexivity|]. destruct (x <=? y); [reflexivity|].
  rewrite perm_swap. now constructor.
Qed.

Lemma sort_z_perm l : Permutation l (sort_z l).
Proof.
  induction l as [|x r IH]; cbn; [reflexivity|]. rewrite <- insert_z_perm. now constructor.
Qed.

Lemma insert_z_sorted x l : StronglySorted Z.le l -> StronglySorted Z.le (insert_z x l).
Proof.
  induction 1 as [|y r Hr IH Hy]; cbn; [repeat constructor|].
  destruct (Z.leb_spec x y) as [L|L].
  - constructor; [constructor; auto|]. constructor; [lia|].
    rewrite Forall_forall in *. intros z Hz. specialize (Hy z Hz). lia.
  - constructor; [exact IH|]. rewrite <- insert_z_perm. constructor; [lia|exact Hy].
Qed.

Lemma sort_z_sorted l : StronglySorted Z.le (sort_z l).
Proof. induction l; cbn; [constructor|now apply insert_z_sorted]. Qed.

Lemma sorted_unique l l' : StronglySorted Z.le l -> StronglySorted Z.le l' -> Permutation l l' -> l = l'.
Proof.
  intros H. revert l'. induction H as [|x r Hr IH Hx]; intros l' H' Hp.
  - now apply Permutation_nil in Hp.
  - destruct H' as [|y r' Hr' Hy]; [symmetry in Hp; now apply Permutation_nil in Hp|].
    assert (x = y).
    { assert (X : In x (y :: r')) by (eapply Permutation_in; [exact Hp|now left]).
      assert (Y : In y (x :: r)) by (eapply Permutation_in; [symmetry; exact Hp|now left]).
      rewrite Forall_forall in *. destruct X as [->|X]; [reflexivity|]. destruct Y as [->|Y]; [reflexivity|].
      specialize (Hx _ Y). specialize (Hy _ X). lia. }
    subst y. f_equal. apply IH; auto. now apply Permutation_cons_inv in Hp.
Qed.

Lemma sort_z_ext l l' : Permutation l l' -> sort_z l = sort_z l'.
Proof.
  intros H. apply sorted_unique; try apply sort_z_sorted.
  now rewrite <- !sort_z_perm.
Qed.

Theorem veq_hash a : forall b, wf a -> wf b -> veq a b = true -> vhash a = vhash b.
Proof.
  induction a as [ |x|x|x|x|x|s1 n1 z1|x|x IHx|l IHl|m IHm] using value_ind'; intros b Wa Wb H;
    destruct b as [ |y|y|y|y|y|s2 n2 z2|y|y|l'|m']; try discriminate H.
  - reflexivity.
  - cbn [veq] in H. apply Bool.eqb_prop in H. now subst.
  - cbn [veq] in H. apply Z.eqb_eq in H. now subst.
  - cbn [veq] in H. inversion Wa; inversion Wb; subst. apply SFeqb_key in H; auto.
    cbn [vhash]. now apply fkey_hash.
  - cbn [veq] in H. apply bytes_eqb_eq in H. now subst.
  - cbn [veq] in H. apply bytes_eqb_eq in H. now subst.
  - cbn [veq] in H. apply andb_prop in H as [H1 H2]. apply Z.eqb_eq in H1, H2. now subst.
  - cbn [veq] in H. apply bytes_eqb_eq in H. now subst.
  - cbn [veq vhash] in *. inversion Wa; inversion Wb; subst. now rewrite (IHx y).
  - rewrite veq_arr, forall2b_iff in H. cbn [vhash]. f_equal.
    apply data_arr_inv in Wa. apply data_arr_inv in Wb. rewrite Forall_forall in *.
    clear - IHl Wa Wb H. induction H as [|x y r r' Hxy Hr IH]; [reflexivity|]. cbn [map]. f_equal.
    + apply (IHl x); auto; [now left|apply Wa; now left|apply Wb; now left].
    + apply IH; intros; [apply IHl; auto|apply Wa|apply Wb]; now right.
  - destruct (map_equal_matched m m' Wa Wb H) as (q & Hp & Hf).
    cbn [vhash]. f_equal. apply sort_z_ext. rewrite Hp.
    apply Permutation_refl'.
    assert (Hq : forall k v, In (k, v) q -> wf k /\ wf v).
    { intros k v Hin. apply (perm_in_iff _ _ _ Hp) in Hin. apply (wf_map_entry _ _ _ Wb Hin). }
    assert (Hm : forall k v, In (k, v) m -> wf k /\ wf v) by (intros; now apply (wf_map_entry m)).
    rewrite Forall_forall in IHm.
    clear - IHm Hq Hm Hf. induction Hf as [|[k v] [k' v'] r r' [H1 H2] Hr IH]; [reflexivity|].
    cbn [map fst snd] in *. destruct (Hm k v (or_introl eq_refl)), (Hq k' v' (or_introl eq_refl)).
    destruct (IHm (k, v) (or_introl eq_refl)) as [I1 I2]. cbn [fst snd] in *.
    f_equal; [rewrite (I1 k'), (I2 v'); auto|].
    apply IH; intros; [apply IHm; auto|eapply Hq|eapply Hm]; right; eassumption.
Qed.
