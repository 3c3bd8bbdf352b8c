(* Reading a correct expression, with the replacement of names. *)
From Coq Require Import Strings.Ascii Strings.String.
From Coq Require Import ZArith List Bool Lia.
From Coq Require Import Floats.SpecFloat.
From Verif Require Import Int64 Utf8 Text TextSpec HMap Data DataProofs Types InstProofs Construct Print Lexer LexerSpec LexerProofs Syntax SyntaxSpec TokenProofs WriteProofs ParserProofs ReadProofs SyntaxProofs.
From Verif Require Import Graph RecTypes RecTypesSpec Resolve ResolveSpec ResolveProofs Declare DeclareSpec DeclareRead DeclareParse DeclareProofs.
Import ListNotations.
Open Scope Z_scope.

Lemma nice_not_nil t : nice t <-> t <> TNil.
Proof.
  split.
  - intros H ->. destruct (H eq_refl) as (i & v & X). discriminate.
  - intros N H. unfold is_exact in H. destruct t; try discriminate H; [congruence|eauto].
Qed.
Lemma in_get l n q : NoDup (map fst l) -> In (n, q) l -> get_name l n = Some q.
Proof.
  induction l as [|[m r] l IH]; intros N I; [destruct I|]. cbn [get_name map fst] in *. inversion N as [|? ? A B]; subst. destruct I as [[= -> ->]|I]; [now rewrite bytes_same|].
  destruct (bytes_eqb n m) eqn:Q; [|auto]. apply bytes_eqb_eq in Q. subst. exfalso. apply A. apply in_map_iff. now exists (m, q).
Qed.
Lemma not_not T h e q p : correct e -> match e with XNot _ => False | _ => True end -> by_name e = false -> built T h e q -> ~ at_node h q (NNot p).
Proof.
  intros K N S B C. destruct e; try discriminate S; try contradiction N; cbn [built] in B; unfold at_leaf, at_node in *.
  - destruct B as (t & _ & B). congruence.
  - congruence.
  - congruence.
  - congruence.
  - destruct (size_of sz). congruence.
  - destruct B as (x & _ & [B|[(_ & _ & B)|(_ & v & _ & B)]]); congruence.
  - destruct B as (x & y & _ & _ & [B|(_ & _ & _ & B)]); congruence.
  - destruct B as (x & _ & [B|(vs & _ & B)]); congruence.
  - destruct B as (x & _ & [B|(_ & _ & vs & _ & B)]); congruence.
  - destruct B as (x & _ & B); congruence.
  - destruct B as (x & _ & B); congruence.
  - destruct B as (x & _ & B); congruence.
Qed.

Section After.
Variable any : nat.
Variable types : list Z -> option nat.
Variable h0 : heap.
Variable l : list nat.
Hypothesis OK : heap_ok types any h0.
Hypothesis NC : no_chains types h0.
Hypothesis L : Forall (in_heap h0) l.
Variable n : nat.
Variable rs : list nat.
Variable h' : heap.
Variable tr : list heap.
Hypothesis U : update any types n l h0 [] = HOk rs h' tr.
(* all types with names have no references left *)
Hypothesis NR : forall s q, types s = Some q -> resolved h' q.
Notation target := (target types h0).

Lemma near_after p n0 : nth_error h0 p = Some n0 -> exists n, nth_error h' p = Some n /\ near types h0 n0 n.
Proof. intros H. destruct (done any types h0 l OK NC L n rs h' tr U) as (F & I & _). exact (i_near _ _ _ _ _ _ _ I p n0 H (fun X => X)). Qed.
Lemma leaf_after p t : at_leaf h0 p t -> at_leaf h' p t /\ target p = p /\ resolved h' p.
Proof.
  intros H. destruct (near_after p _ H) as (m & Em & Nm). apply (near_plain types h0) in Nm; [|reflexivity]. subst m. split; [exact Em|]. split; [apply (target_plain types h0 p _ H); intros [s X]; discriminate|].
  assert (R : forall q, reaches h' p q -> q = p). { clear H. intros q R. induction R as [|p q m r R IH Eq Q]; [reflexivity|]. rewrite (IH Em) in Eq. rewrite Em in Eq. injection Eq as <-. destruct Q. }
  intros q m Rq Eq. apply R in Rq. subst q. rewrite Em in Eq. injection Eq as <-. intros [s X]. discriminate.
Qed.
Lemma plain_target p nd : at_node h0 p nd -> target p = p.
Proof. intros H. apply (target_plain types h0 p _ H). intros [s X]. discriminate. Qed.
Lemma node_after p nd : at_node h0 p nd -> container (HNode nd) = true -> resolved h' p ->
  nth_error h' p = Some (full types h0 (HNode nd)) /\ Forall (fun k => resolved h' (target k)) (hkids (HNode nd)).
Proof.
  intros H C R. destruct (near_after p _ H) as (m & Em & Nm). pose proof (near_kids _ _ _ _ Nm) as Ks. destruct (near_shape _ _ _ _ Nm) as [Cm _]. rewrite C in Cm.
  assert (X : Forall (fun k => resolved h' k) (hkids m)).
  { apply Forall_forall. intros k Hk q nq Rq Eq. apply (R q nq); [|exact Eq]. eapply reaches_trans; [|exact Rq]. eapply reaches_step; [constructor|exact Em|]. now rewrite (kids_points _ Cm). }
  assert (Y : hkids m = map target (hkids (HNode nd)) /\ Forall (fun k => resolved h' (target k)) (hkids (HNode nd))).
  { assert (Z1 : Forall (in_heap h0) (hkids (HNode nd))) by (apply Forall_forall; intros k Hk; exact (kids_in any types h0 OK p _ k H Hk)).
    revert X Z1. induction Ks as [|k0 k ks0 ks D Ks IH]; intros X Z1; [split; [reflexivity|constructor]|]. inversion X; subst. inversion Z1; subst. destruct IH as [IH1 IH2]; auto.
    assert (Q : k = target k0).
    { destruct D as [->|D]; [|exact D]. destruct (in_heap_get h0 k0) as [nk Ek]; [assumption|]. destruct (alias_dec nk) as [[s ->]|A]; [|symmetry; now apply (target_plain types h0 k0 nk)].
      exfalso. apply (same_aliases any types h0 l OK NC L n rs h' tr U) in Ek. match goal with R : resolved h' k0 |- _ => apply (R k0 _ (reaches_self _ _) Ek); now exists s end. }
    cbn [map]. split; [now rewrite <- Q, <- IH1|]. constructor; [now rewrite <- Q|exact IH2]. }
  destruct Y as [Y1 Y2]. split; [|exact Y2]. rewrite Em. f_equal. unfold full. rewrite <- Y1. rewrite <- (hwith_same m) at 1. apply (near_with types h0); [exact Nm|]. rewrite <- (near_length _ _ _ _ Nm). reflexivity.
Qed.

Variable R0 : list Z -> nat -> Prop.
Hypothesis HR : forall s p, R0 s p -> types s = Some p \/ nth_error h0 p = Some (HAlias s).
Definition named_after (s : list Z) (p : nat) : Prop := types s = Some p.
Lemma name_after s p : R0 s p -> in_heap h0 p -> named_after s (target p).
Proof.
  intros H I. unfold named_after. destruct (HR s p H) as [T|A].
  - destruct (in_heap_get h0 p I) as [m Em]. rewrite (target_plain types h0 p m Em); [exact T|]. exact (NC s p m T Em).
  - destruct (target_alias any types h0 OK p s A) as (q & T & -> & _). exact T.
Qed.
Lemma pairs_in {A} (R R' : A -> nat -> Prop) xs qs : Forall (fun x => forall q, R x q -> in_heap h0 q -> resolved h' (target q) -> R' x (target q)) xs ->
  pairs R xs qs -> Forall (in_heap h0) qs -> Forall (fun q => resolved h' (target q)) qs -> pairs R' xs (map target qs).
Proof.
  rewrite !pairs_forall2. intros H P. revert H. induction P as [|x q xs qs X P IH]; intros H I Z1; cbn [map]; [constructor|]. inversion H; inversion I; inversion Z1; subst. constructor; auto.
Qed.
Lemma values_after qs vs : pairs (is_value h0) qs vs -> map target qs = qs /\ pairs (is_value h') qs vs /\ Forall (fun q => resolved h' (target q)) qs /\ Forall (in_heap h0) qs.
Proof.
  rewrite pairs_forall2. induction 1 as [|q v qs vs [i H] P (IH1 & IH2 & IH3 & IH4)]; [repeat split; constructor|]. destruct (leaf_after q _ H) as (A & B & C). cbn [map]. rewrite B, IH1. split; [reflexivity|].
  split; [split; [now exists i|exact IH2]|]. split; [constructor; [now rewrite B|exact IH3]|]. constructor; [exact (get_in_heap h0 q _ H)|exact IH4].
Qed.
Lemma kids_range p nd k : at_node h0 p nd -> In k (hkids (HNode nd)) -> in_heap h0 k.
Proof. intros H I. exact (kids_in any types h0 OK p _ k H I). Qed.

Lemma struct_target (fs : list (list Z * bool * ex)) qs : length fs = length qs ->
  map (fun e => (fst (fst (fst e)), snd e, snd (fst e))) (combine (map (fun x : list Z * bool * ex * nat => (VStr (fst (fst (fst x))), snd x, snd (fst (fst x)))) (combine fs qs)) (map target (map (fun e : value * nat * bool => snd (fst e)) (map (fun x : list Z * bool * ex * nat => (VStr (fst (fst (fst x))), snd x, snd (fst (fst x)))) (combine fs qs))))) =
  map (fun x : list Z * bool * ex * nat => (VStr (fst (fst (fst x))), snd x, snd (fst (fst x)))) (combine fs (map target qs)).
Proof. revert qs. induction fs as [|f fs IH]; intros [|q qs] Q; try discriminate; [reflexivity|]. cbn. f_equal. apply IH. now injection Q. Qed.
Lemma struct_kids_of (fs : list (list Z * bool * ex)) qs : length fs = length qs ->
  map (fun e : value * nat * bool => snd (fst e)) (map (fun x : list Z * bool * ex * nat => (VStr (fst (fst (fst x))), snd x, snd (fst (fst x)))) (combine fs qs)) = qs.
Proof. intros Q. rewrite map_map. cbn [fst snd]. now apply snd_combine. Qed.

Lemma built_after e : correct e -> forall p, built R0 h0 e p -> in_heap h0 p -> resolved h' (target p) -> built named_after h' e (target p).
Proof.
  induction e using ex_induct; intros C p B I R; cbn [correct] in C; cbn [built] in *.
  - destruct B as (t & W & B). destruct (leaf_after p t B) as (A & -> & _). eauto.
  - destruct (leaf_after p _ B) as (A & -> & _). exact A.
  - destruct (leaf_after p _ B) as (A & -> & _). exact A.
  - destruct (leaf_after p _ B) as (A & -> & _). exact A.
  - destruct (size_of sz). destruct (leaf_after p _ B) as (A & -> & _). exact A.
  - now apply name_after.
  - now apply name_after.
  - destruct B as [T B]. split; [now apply name_after|]. apply IHe; tauto.
  - destruct C as [_ C]. destruct B as (q & B & [D|[(Z1 & D & D')|(Z1 & v & [i D] & D')]]).
    + rewrite (plain_target p _ D) in *. destruct (node_after p _ D eq_refl R) as [N K]. inversion K; subst. exists (target q). split; [|now left]. apply IHe; auto. apply (kids_range p _ q D). now left.
    + destruct (leaf_after p _ D') as (A & -> & _). destruct (leaf_after q _ D) as (A' & Q & R'). exists q. split; [|right; left; now split]. rewrite <- Q. apply IHe; auto; [exact (get_in_heap h0 q _ D)|now rewrite Q].
    + destruct (leaf_after p _ D') as (A & -> & _). destruct (leaf_after q _ D) as (A' & Q & R'). exists q. split; [|right; right; split; [exact Z1|]; exists v; split; [now exists i|exact A]]. rewrite <- Q. apply IHe; auto; [exact (get_in_heap h0 q _ D)|now rewrite Q].
  - destruct C as (_ & C1 & C2). destruct B as (q & r & B1 & B2 & [D|(Z1 & D1 & D2 & D3)]).
    + rewrite (plain_target p _ D) in *. destruct (node_after p _ D eq_refl R) as [N K]. inversion K as [|? ? K1 K2]; subst. inversion K2; subst. exists (target q), (target r).
      split; [apply IHe1; auto; apply (kids_range p _ q D); now left|]. split; [apply IHe2; auto; apply (kids_range p _ r D); right; now left|]. now left.
    + destruct (leaf_after p _ D3) as (A & -> & _). destruct (leaf_after q _ D1) as (A1 & Q1 & R1), (leaf_after r _ D2) as (A2 & Q2 & R2). exists q, r.
      split; [rewrite <- Q1; apply IHe1; auto; [exact (get_in_heap h0 q _ D1)|now rewrite Q1]|]. split; [rewrite <- Q2; apply IHe2; auto; [exact (get_in_heap h0 r _ D2)|now rewrite Q2]|]. now right.
  - destruct C as [_ C]. apply all_forall in C. destruct B as (qs & B & D).
    assert (HH : Forall (fun e => forall q, built R0 h0 e q -> in_heap h0 q -> resolved h' (target q) -> built named_after h' e (target q)) es) by (rewrite Forall_forall in *; auto).
    destruct D as [D|(vs & Vs & D)].
    + rewrite (plain_target p _ D) in *. destruct (node_after p _ D eq_refl R) as [N K]. exists (map target qs). split; [|now left]. eapply pairs_in; eauto. apply Forall_forall. intros k. apply (kids_range p _ k D).
    + destruct (leaf_after p _ D) as (A & -> & _). destruct (values_after qs vs Vs) as (Q & V' & Rq & Iq). exists qs. split; [|right; now exists vs]. rewrite <- Q. eapply pairs_in; eauto.
  - destruct C as [_ C]. apply (all_forall (fun f : list Z * bool * ex => correct (snd f))) in C. destruct B as (qs & B & D).
    assert (HH : Forall (fun f : list Z * bool * ex => forall q, built R0 h0 (snd f) q -> in_heap h0 q -> resolved h' (target q) -> built named_after h' (snd f) (target q)) fs) by (rewrite Forall_forall in *; auto).
    assert (Lq : length fs = length qs) by (apply pairs_forall2, F2_length in B; exact B).
    destruct D as [D|(Da & Db & vs & Vs & D)].
    + rewrite (plain_target p _ D) in *. destruct (node_after p _ D eq_refl R) as [N K]. cbn [hkids] in K. rewrite struct_kids_of in K by exact Lq.
      exists (map target qs). split; [|left; unfold at_node; rewrite N; unfold full; cbn [hkids hwith]; now rewrite struct_target]. eapply (pairs_in (fun f => built R0 h0 (snd f))); eauto. apply Forall_forall. intros k Hk. apply (kids_range p _ k D). cbn [hkids]. now rewrite struct_kids_of.
    + destruct (leaf_after p _ D) as (A & -> & _). destruct (values_after qs vs Vs) as (Q & V' & Rq & Iq). exists qs. split; [|right; split; [exact Da|split; [exact Db|now exists vs]]]. rewrite <- Q. eapply (pairs_in (fun f => built R0 h0 (snd f))); eauto.
  - destruct C as [_ C]. apply all_forall in C. destruct B as (qs & B & D). rewrite (plain_target p _ D) in *. destruct (node_after p _ D eq_refl R) as [N K]. exists (map target qs). split; [|exact N].
    eapply pairs_in; eauto; [rewrite Forall_forall in *; auto|]. apply Forall_forall. intros k. apply (kids_range p _ k D).
  - destruct C as [_ C]. apply all_forall in C. destruct B as (qs & B & D). rewrite (plain_target p _ D) in *. destruct (node_after p _ D eq_refl R) as [N K]. exists (map target qs). split; [|exact N].
    eapply pairs_in; eauto; [rewrite Forall_forall in *; auto|]. apply Forall_forall. intros k. apply (kids_range p _ k D).
  - destruct C as [_ C]. apply all_forall in C. destruct B as (qs & B & D). rewrite (plain_target p _ D) in *. destruct (node_after p _ D eq_refl R) as [N K]. exists (map target qs). split; [|exact N].
    eapply pairs_in; eauto; [rewrite Forall_forall in *; auto|]. apply Forall_forall. intros k. apply (kids_range p _ k D).
  - destruct C as [C NN]. destruct B as (q & B & [D|D]).
    + rewrite (plain_target p _ D) in *. destruct (node_after p _ D eq_refl R) as [N K]. inversion K; subst. exists (target q). split; [|now left]. apply IHe; auto. apply (kids_range p _ q D). now left.
    + assert (T : exists s, types s = Some q).
      { destruct (by_name e) eqn:Be; [|exfalso; exact (not_not _ _ _ _ _ C NN Be B D)].
        destruct e; try discriminate Be; cbn [built] in B; [exists n0|exists n0|exists n0; destruct B as [B _]]; (destruct (HR _ _ B) as [X|X]; [exact X|unfold at_node in D; congruence]). }
      destruct T as [s T]. pose proof (NR s q T) as Rq. destruct (node_after q _ D eq_refl Rq) as [N K]. exists q. split; [|now right]. rewrite <- (plain_target q _ D). apply IHe; auto; [exact (get_in_heap h0 q _ D)|]. now rewrite (plain_target q _ D).
Qed.
End After.

(* ---------- reading and replacing ---------- *)

Section Done.
Variable E : env.
Variable any : nat.
Variable backing : list Z -> option nat.
Variable named : list Z -> bool.
Variable h : heap.
Hypothesis TH : there any backing h.

Lemma old_closed g p q : (forall k n, nth_error h k = Some n -> nth_error g k = Some n) -> (p < length h)%nat -> reaches g p q -> (q < length h)%nat.
Proof.
  intros G I R. induction R as [|p q m r R IH Eq Q]; [exact I|]. specialize (IH I). destruct (nth_error h q) as [m0|] eqn:Em; [|apply nth_error_None in Em; lia].
  rewrite (G q m0 Em) in Eq. injection Eq as <-. destruct TH as (F & _). rewrite Forall_forall in F. pose proof (F m0 (nth_error_In _ _ Em)) as X. unfold node_in_heap in X. rewrite Forall_forall in X. exact (X r Q).
Qed.
Lemma old_resolved g p : (forall k n, nth_error h k = Some n -> nth_error g k = Some n) -> (p < length h)%nat -> resolved g p.
Proof.
  intros G I q n R Eq. pose proof (old_closed g p q G I R) as Lq. destruct (nth_error h q) as [m0|] eqn:Em; [|apply nth_error_None in Em; lia].
  rewrite (G q m0 Em) in Eq. injection Eq as <-. destruct TH as (_ & _ & A & _). specialize (A q m0 Em). intros [s ->]. destruct A.
Qed.

Section Expr.
Variable e : ex.
Hypothesis C : correct e.
Hypothesis SC : scoped named backing e.
Let K (n : list Z) : Prop := In n (declared e) \/ exists p, backing n = Some p.
Let s0 := {| ps_heap := h; ps_names := [] |}.

Lemma start_ok : state_ok any backing s0.
Proof.
  destruct TH as (F & A & N & B & Nn). split.
  - exact F.
  - exact A.
  - intros n p H. cbn in H. destruct (B n p H) as [L X]. split; [exact L|]. intros t Ht. apply nice_not_nil. intros ->. now apply X.
  - intros p r H. split; [|intros t Ht; apply nice_not_nil; intros ->; exact (Nn p r H Ht)]. rewrite Forall_forall in F. pose proof (F _ (nth_error_In _ _ H)) as X. inversion X; subst. assumption.
Qed.
Lemma start_pre : pre any backing named K e s0.
Proof.
  destruct SC as (N & D & U). rewrite Forall_forall in D, U. unfold pre. split; [exact C|]. split; [apply Forall_forall; intros n I|split; [apply Forall_forall; intros n I|split; [exact start_ok|split; [exact N|reflexivity]]]].
  - destruct (U n I) as [A [B|B]]; (split; [exact A|]); [now left|right; destruct (backing n) as [p|]; [now exists p|congruence]].
  - destruct (D n I) as [A B]. split; [exact A|]. split; [exact B|now left].
Qed.
Lemma parsed : exists N p s2, (forall n, (N <= n)%nat -> exists l, a_parse E any backing named n (read_as (written Anywhere e)) s0 = AOk p l s2) /\
  frame K (declared e) s0 s2 /\ state_ok any backing s2 /\ okp s2 p /\ built (stands backing s2) (ps_heap s2) e p.
Proof.
  destruct (all_read E any backing named K e s0 start_pre) as (x & s1 & F & S1 & V & (t & r & W & P) & _). destruct (P LEnd I) as [N Y]. destruct (type_gets any backing K s1 e x S1 V) as (p & s2 & R & F2 & S2 & X2 & O2 & B2).
  exists N, p, s2. split.
  - intros n L. exists LEnd. rewrite <- fd_end, W. unfold a_parse, a_bind.
    change (match a_run E any backing named n (BAny t) (fd r LEnd) s0 with AOk v l s => (ado t0 <- a_next; if is_tok t_end t0 then a_type v else a_panic) l s | APanic => APanic | AStuck => AStuck | ASkip => ASkip end = AOk p LEnd s2).
    rewrite Y by exact L. exact (R LEnd).
  - split; [|auto]. destruct SC as (ND & _). rewrite <- (app_nil_r (declared e)). apply (frame_trans K (declared e) [] s0 s1 s2 F F2). rewrite app_nil_r. split; [exact ND|reflexivity].
Qed.

Theorem declared_read : exists N, forall n m, (N <= n)%nat -> (N <= m)%nat -> exists p names h', declare E any backing named n m (read_as (written Anywhere e)) h = DOk p names h' /\
  map fst names = declared e /\ built (fun s q => In (s, q) names \/ backing s = Some q) h' e p /\
  resolved h' p /\ Forall (fun x => resolved h' (snd x)) names /\ (forall q n, nth_error h q = Some n -> nth_error h' q = Some n).
Proof.
  destruct parsed as (N1 & p & s2 & P & F & S & O & B). destruct (f_heap _ _ _ _ F) as (new & Q & M). cbn [ps_heap s0] in Q.
  pose proof (f_order _ _ _ _ F) as Ord. cbn [ps_names s0 map app] in Ord. set (T := get_type backing (ps_names s2)) in *. set (h2 := ps_heap s2) in *. destruct SC as (ND & DD & _). rewrite Forall_forall in DD.
  pose proof TH as (TF & TA & TN & TB & _).
  assert (Old : forall k n, nth_error h k = Some n -> nth_error h2 k = Some n) by (intros k n0 H; rewrite Q; now apply nth_more).
  assert (New : forall k n, nth_error h2 k = Some n -> (k < length h)%nat /\ nth_error h k = Some n \/ made K n).
  { intros k n0 H. rewrite Q in H. destruct (Nat.lt_ge_cases k (length h)) as [Lk|Lk]; [rewrite nth_error_app1 in H by exact Lk; now left|]. right. rewrite nth_error_app2 in H by exact Lk.
    rewrite Forall_forall in M. exact (M _ (nth_error_In _ _ H)). }
  assert (Nm : forall n q, T n = Some q -> In (n, q) (ps_names s2) /\ In n (declared e) \/ backing n = Some q).
  { intros n0 q H. unfold T, get_type in H. destruct (get_name (ps_names s2) n0) as [q'|] eqn:G; [|now right]. injection H as ->. left. apply get_in in G. split; [exact G|]. rewrite <- Ord. apply in_map_iff. now exists (n0, q). }
  assert (NC : no_chains T h2).
  { intros n0 q nd H Eq. destruct (Nm n0 q H) as [[I D]|Bk].
    - destruct (f_new _ _ _ _ F n0 D) as (q' & nd' & G & Eq' & A). unfold T, get_type in H. rewrite G in H. injection H as ->. fold h2 in Eq'. rewrite Eq in Eq'. injection Eq' as ->. exact A.
    - destruct (TB n0 q Bk) as [Lq _]. destruct (nth_error h q) as [m0|] eqn:Em; [|apply nth_error_None in Em; lia]. rewrite (Old q m0 Em) in Eq. injection Eq as <-. specialize (TN q m0 Em). intros [z ->]. destruct TN. }
  assert (OK : heap_ok T any h2).
  { split; [exact (s_heap _ _ _ S)|]. split; [exact (s_any _ _ _ S)|]. intros q z H. destruct (New q _ H) as [[_ X]|X]; [destruct (TN q _ X)|]. cbn [made] in X.
    assert (Y : exists r, T z = Some r). { unfold T, get_type. destruct X as [X|[r X]]; [|destruct (get_name (ps_names s2) z); eauto]. destruct (f_new _ _ _ _ F z X) as (r & nd & G & _). rewrite G. eauto. }
    destruct Y as [r Y]. exists r. split; [exact Y|]. exact (proj1 (s_names _ _ _ S z r Y)). }
  assert (Nd : NoDup (map fst (ps_names s2))) by (now rewrite Ord).
  assert (L : Forall (in_heap h2) (p :: map snd (ps_names s2))).
  { constructor; [exact (proj1 O)|]. apply Forall_forall. intros q H. apply in_map_iff in H as ([z q'] & <- & H). apply (in_get _ _ _ Nd) in H. apply (s_names _ _ _ S z). unfold get_type. cbn. now rewrite H. }
  assert (VF : values_finite T h2). { exists (fun _ => 0%nat). intros q l r H. exfalso. destruct (New q _ H) as [[_ X]|X]; [exact (TN q _ X)|exact X]. }
  assert (AD : added T h2 (p :: map snd (ps_names s2))).
  { intros z q H. destruct (Nm z q H) as [[I _]|Bk]; [left; right; apply in_map_iff; now exists (z, q)|right]. apply old_resolved; [exact Old|]. exact (proj1 (TB z q Bk)). }
  assert (NSe : no_sensitive h2).
  { intros q r H. destruct (New q _ H) as [[_ X]|X]; [|destruct X]. apply old_resolved; [exact Old|]. rewrite Forall_forall in TF. pose proof (TF _ (nth_error_In _ _ X)) as Y. inversion Y; subst. assumption. }
  destruct (update_returns any T h2 (p :: map snd (ps_names s2)) OK NC L VF) as [N2 U].
  exists (N1 + N2)%nat. intros n m Ln Lm. destruct (P n ltac:(lia)) as [l0 Pn]. destruct (U m ltac:(lia)) as (rs & h' & tr & Um).
  destruct (done any T h2 _ OK NC L m rs h' tr Um) as (_ & _ & _ & Rs & _).
  assert (Tn : map (target T h2) (map snd (ps_names s2)) = map snd (ps_names s2)).
  { rewrite <- (map_id (map snd (ps_names s2))) at 2. apply map_ext_in. intros q H. pose proof L as L'. inversion L' as [|? ? _ L2]; subst. rewrite Forall_forall in L2. destruct (in_heap_get h2 q (L2 q H)) as [nd Eq].
    apply (target_plain T h2 q nd Eq). apply in_map_iff in H as ([z q'] & <- & H). apply (in_get _ _ _ Nd) in H. apply (NC z q' nd); [|exact Eq]. unfold T, get_type. now rewrite H. }
  cbn [map] in Rs. rewrite Tn in Rs.
  assert (Cb : combine (map fst (ps_names s2)) (map snd (ps_names s2)) = ps_names s2). { generalize (ps_names s2). intros ns. induction ns as [|[a b] ns IH]; cbn; [reflexivity|]. now rewrite IH. }
  pose proof (update_resolved any T h2 _ OK NC L m rs h' tr Um AD NSe) as RR. rewrite Rs in RR. inversion RR as [|? ? R1 R2]; subst.
  assert (Same : forall q nd, nth_error h q = Some nd -> nth_error h' q = Some nd).
  { intros q nd H. destruct (near_after any T h2 _ OK NC L m _ h' tr Um q nd (Old q nd H)) as (nd' & Eq & Nr). rewrite Eq. f_equal.
    pose proof (near_kids _ _ _ _ Nr) as Ks. assert (X : hkids nd' = hkids nd).
    { assert (Ik : Forall (fun k => (k < length h)%nat) (hkids nd)). { apply Forall_forall. intros k Hk. rewrite Forall_forall in TF. pose proof (TF _ (nth_error_In _ _ H)) as Y. unfold node_in_heap in Y. rewrite Forall_forall in Y. apply Y. destruct (container nd) eqn:Ct; [now rewrite (kids_points _ Ct)|]. exfalso. destruct nd as [z|[]|z|z]; cbn in Hk, Ct; try discriminate; auto. }
      revert Ik. induction Ks as [|k0 k ks0 ks D Ks IH]; intros Ik; [reflexivity|]. inversion Ik; subst. f_equal; [|auto]. destruct D as [D|D]; [exact D|]. rewrite D.
      destruct (nth_error h k0) as [nk|] eqn:Ek; [|apply nth_error_None in Ek; lia]. apply (target_plain T h2 k0 nk (Old _ _ Ek)). specialize (TN k0 nk Ek). intros [z ->]. destruct TN. }
    rewrite <- (hwith_same nd') at 1. rewrite X. rewrite <- (hwith_same nd) at 2. apply (near_with T h2); [exact Nr|reflexivity]. }
  assert (NR : forall z q, T z = Some q -> resolved h' q).
  { intros z q H. destruct (Nm z q H) as [[I _]|Bk]; [rewrite Forall_forall in R2; apply R2, in_map_iff; now exists (z, q)|]. apply old_resolved; [exact Same|]. exact (proj1 (TB z q Bk)). }
  exists (target T h2 p), (ps_names s2), h'. unfold declare. change {| ps_heap := h; ps_names := [] |} with s0. rewrite Pn. fold T. fold h2. rewrite Um, Cb.
  split; [reflexivity|]. split; [exact Ord|]. split; [|split; [exact R1|split; [|exact Same]]].
  - pose proof (built_after any T h2 _ OK NC L m _ h' tr Um NR (stands backing s2) (fun z q X => X) e C p B (proj1 O) R1) as BB.
    eapply built_mono; [..|exact BB]; [| ]; auto. intros z q H. destruct (Nm z q H) as [[I _]|Bk]; auto.
  - apply Forall_forall. intros [z q] H. cbn [snd]. rewrite Forall_forall in R2. apply R2, in_map_iff. now exists (z, q).
Qed.
End Expr.
End Done.
