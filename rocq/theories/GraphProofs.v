From Coq Require Import ZArith List Bool Lia.
From Verif Require Import Int64 Data DataSpec DataProofs Types InstProofs Graph GraphSpec CompareProofs.
Import ListNotations.
Open Scope nat_scope.

Lemma Forall2_len {A B} (R : A -> B -> Prop) l l' : Forall2 R l l' -> length l = length l'.
Proof. induction 1; cbn; congruence. Qed.

Section Graph.
Variable g : graph.

(* ---------- the recursion ends ---------- *)

Definition path (seen : list nat) : Prop := NoDup seen /\ Forall (fun p => p < length g) seen.

Lemma path_length seen : path seen -> length seen <= length g.
Proof.
  intros [N F]. rewrite <- (seq_length (length g) 0). apply NoDup_incl_length; [exact N|]. intros p Hp. rewrite Forall_forall in F. apply in_seq. specialize (F p Hp). lia.
Qed.
Lemma seen_false seen p : seen_before seen p = false <-> ~ In p seen.
Proof.
  unfold seen_before. rewrite <- not_true_iff_false, existsb_exists. split; intros H; intros X; apply H.
  - exists p. split; [exact X|apply Nat.eqb_refl].
  - destruct X as (x & Hx & E). apply Nat.eqb_eq in E as ->. exact Hx.
Qed.
Lemma path_snoc seen p : path seen -> p < length g -> ~ In p seen -> path (seen ++ [p]).
Proof.
  intros [N F] L H. split.
  - rewrite <- rev_involutive with (l := seen ++ [p]). apply NoDup_rev. rewrite rev_app_distr. cbn. constructor; [now rewrite <- in_rev|now apply NoDup_rev].
  - apply Forall_app. split; [exact F|repeat constructor; exact L].
Qed.

Lemma all2_some f l l' : Forall (fun x => Forall (fun y => exists b, f x y = Some b) l') l -> exists b, all2 f l l' = Some b.
Proof.
  revert l'. induction l as [|x l IH]; intros l' H; [eexists; reflexivity|]. destruct l' as [|y l']; [eexists; reflexivity|].
  inversion H as [|? ? Hx Hl]; subst. inversion Hx as [|? ? [b E] Hx']; subst. cbn. rewrite E. destruct b; [|eauto]. apply IH. eapply Forall_impl; [|exact Hl]. intros a Ha. now inversion Ha.
Qed.
Lemma get_in {V} f (m : list (value * V)) y : get_with f m = Some y -> In y (map snd m).
Proof. unfold get_with. destruct (find _ m) as [[k v]|] eqn:E; [|discriminate]. intros [= <-]. apply find_some in E as [E _]. apply in_map_iff. exists (k, v). auto. Qed.
Lemma entries_some f m m' : Forall (fun e => Forall (fun y => exists b, f (snd e) y = Some b) (map snd m')) m -> exists b, all_entries f m m' = Some b.
Proof.
  intros H. induction H as [|[k x] m Hx Hm IH]; cbn; [eauto|]. destruct (get_with (veq k) m') as [y|] eqn:E; [|eauto]. apply get_in in E. rewrite Forall_forall in Hx. destruct (Hx y E) as [b E2]. cbn [snd] in E2. rewrite E2. destruct b; eauto.
Qed.
Lemma node_equal_some f x y : (forall a b, In a (children x) -> In b (children y) -> exists r, f a b = Some r) -> exists r, node_equal f x y = Some r.
Proof.
  intros H. destruct x as [l|a|m], y as [l'|b|m']; cbn in *; eauto.
  - destruct (Nat.eqb _ _); [|eauto]. apply all2_some. rewrite Forall_forall. intros a Ha. rewrite Forall_forall. auto.
  - destruct (Nat.eqb _ _); [|eauto]. apply entries_some. rewrite Forall_forall. intros e He. rewrite Forall_forall. intros y Hy. apply H; [|exact Hy]. now apply in_map.
Qed.

Lemma closed_child p x a : closed g -> nth_error g p = Some x -> In a (children x) -> points g a.
Proof. unfold closed. rewrite Forall_forall. intros C E. apply nth_error_In in E. specialize (C x E). rewrite Forall_forall in C. auto. Qed.
Lemma points_node p : points g (GRef p) -> exists x, nth_error g p = Some x.
Proof. cbn. intros H. destruct (nth_error g p) eqn:E; [eauto|]. apply nth_error_None in E. lia. Qed.

Theorem geq_returns n : forall seen a b, closed g -> path seen -> points g a -> points g b -> length g < n + length seen -> exists r, geq g n seen a b = Some r.
Proof.
  induction n as [|n IH]; intros seen a b C P Pa Pb L. { apply path_length in P. lia. }
  cbn [geq]. destruct a as [x|p], b as [y|q]; eauto; cbn [points] in Pa.
  - destruct (seen_before seen p); eauto.
  - destruct (Nat.eqb p q); eauto. destruct (seen_before seen p) eqn:E; eauto. apply seen_false in E.
    destruct (points_node p Pa) as [x Ex], (points_node q Pb) as [y Ey]. rewrite Ex, Ey. apply node_equal_some. intros a b Ha Hb.
    apply IH; [exact C|now apply path_snoc|exact (closed_child p _ a C Ex Ha)|exact (closed_child q _ b C Ey Hb)|]. rewrite app_length. cbn. lia.
Qed.

Lemma hashes_some f l : (forall a, In a l -> exists r, f a = Some r) -> exists hs, hashes f l = Some hs.
Proof. induction l as [|x l IH]; intros H; cbn; [eauto|]. destruct (H x (or_introl eq_refl)) as [h ->]. destruct IH as [hs ->]; [intros; apply H; now right|eauto]. Qed.
Lemma node_hash_some f x : (forall a, In a (children x) -> exists r, f a = Some r) -> exists r, node_hash f x = Some r.
Proof.
  intros H. destruct x as [l|a|m]; cbn in *.
  - destruct (hashes_some f l H) as [hs ->]. cbn. eauto.
  - destruct (H a (or_introl eq_refl)) as [h ->]. cbn. eauto.
  - destruct (hashes_some f (map snd m) H) as [hs ->]. cbn. eauto.
Qed.
Theorem ghash_returns n : forall seen a, closed g -> path seen -> points g a -> length g < n + length seen -> exists r, ghash g n seen a = Some r.
Proof.
  induction n as [|n IH]; intros seen a C P Pa L. { apply path_length in P. lia. }
  cbn [ghash]. destruct a as [x|p]; eauto. destruct (seen_before seen p) eqn:E; eauto. apply seen_false in E.
  destruct (points_node p Pa) as [x Ex]. rewrite Ex. apply node_hash_some. intros a Ha. apply IH; [exact C|now apply path_snoc|exact (closed_child p _ a C Ex Ha)|]. rewrite app_length. cbn. lia.
Qed.

Lemma cmp_elems_some f l l' : Forall (points g) l -> (forall a b, In a l -> In b l' -> exists r, f a b = Some r) -> exists r, cmp_elems g f l l' = Some r.
Proof.
  revert l'. induction l as [|x l IH]; intros l' P H; [destruct l'; cbn; eauto|]. destruct l' as [|y l']; cbn [cmp_elems]; eauto. inversion P as [|? ? Px Pl]; subst.
  assert (exists c, gcomparable g x = Some c) as [c ->]. { destruct x as [v|p]; cbn [gcomparable]; eauto. destruct (points_node p Px) as [x ->]. destruct x; eauto. }
  destruct c; eauto. destruct (H x y (or_introl eq_refl) (or_introl eq_refl)) as [r ->]. destruct r as [c|]; eauto. destruct (Z.eqb c 0); eauto. apply IH; auto. intros. apply H; now right.
Qed.
Theorem gcmp_returns n : forall seen a b, closed g -> path seen -> points g a -> points g b -> length g < n + length seen -> exists r, gcmp g n seen a b = Some r.
Proof.
  induction n as [|n IH]; intros seen a b C P Pa Pb L. { apply path_length in P. lia. }
  cbn [gcmp]. destruct a as [x|p], b as [y|q]; [destruct x; eauto|destruct x; eauto|destruct y; eauto|].
  destruct (Nat.eqb p q); eauto. destruct (points_node p Pa) as [x Ex], (points_node q Pb) as [y Ey]. rewrite Ex, Ey.
  destruct x as [l|a|m], y as [l'|b|m']; eauto. destruct (seen_before seen p) eqn:E; eauto. apply seen_false in E. apply cmp_elems_some.
  - apply Forall_forall. intros a Ha. exact (closed_child p _ a C Ex Ha).
  - intros a b Ha Hb. apply IH; [exact C|now apply path_snoc|exact (closed_child p _ a C Ex Ha)|exact (closed_child q _ b C Ey Hb)|]. rewrite app_length. cbn. lia.
Qed.

(* ---------- bisimilar values are equal ---------- *)

Lemma all2_true (R : gval -> gval -> Prop) f l l' r : (forall a b r, R a b -> f a b = Some r -> r = true) -> Forall2 R l l' -> all2 f l l' = Some r -> r = true.
Proof.
  intros H F. induction F as [|x y l l' Rx F IH]; cbn; [congruence|]. destruct (f x y) as [b|] eqn:E; [|discriminate]. rewrite (H x y b Rx E) in *. auto.
Qed.
Lemma entries_true (R : gval -> gval -> Prop) f m m' r : (forall a b r, R a b -> f a b = Some r -> r = true) ->
  Forall (fun e => exists k y, find (fun e' => veq (fst e) (fst e')) m' = Some (k, y) /\ R (snd e) y) m -> all_entries f m m' = Some r -> r = true.
Proof.
  intros H F. induction F as [|[k x] m (k' & y & E & Rx) F IH]; cbn; [congruence|]. cbn [fst snd] in *. unfold get_with. rewrite E. cbn [snd].
  destruct (f x y) as [b|] eqn:E'; [|discriminate]. rewrite (H x y b Rx E') in *. auto.
Qed.
Theorem geq_of_bisimilar (R : gval -> gval -> Prop) n : (forall a b, R a b -> value_alike g R a b) -> forall seen a b r, R a b -> geq g n seen a b = Some r -> r = true.
Proof.
  intros B. induction n as [|n IH]; intros seen a b r Rab E; [discriminate|]. cbn [geq] in E. pose proof (B a b Rab) as A. destruct a as [x|p], b as [y|q]; cbn in A; try contradiction.
  - rewrite A in E. congruence.
  - destruct A as (x & y & Ex & Ey & A). destruct (Nat.eqb p q); [congruence|]. destruct (seen_before seen p); [congruence|]. rewrite Ex, Ey in E.
    destruct x as [l|a|m], y as [l'|b|m']; cbn in *; try contradiction.
    + rewrite (Forall2_len _ _ _ A), Nat.eqb_refl in E. eapply all2_true; eauto.
    + eauto.
    + destruct A as [L A]. rewrite L, Nat.eqb_refl in E. eapply entries_true; eauto.
Qed.

(* ---------- finite values ---------- *)

Lemma stands_ind' (P : gval -> value -> Prop) :
  (forall v, flat_value v -> P (GLeaf v) v) ->
  (forall p l vs, nth_error g p = Some (GArr l) -> Forall2 (stands g) l vs -> Forall2 P l vs -> P (GRef p) (VArr vs)) ->
  (forall p a v, nth_error g p = Some (GSens a) -> stands g a v -> P a v -> P (GRef p) (VSens v)) ->
  (forall p m ws, nth_error g p = Some (GMap m) -> Forall2 (fun e w => fst e = fst w /\ stands g (snd e) (snd w)) m ws ->
     Forall2 (fun e w => fst e = fst w /\ P (snd e) (snd w)) m ws -> P (GRef p) (VMap ws)) ->
  forall a v, stands g a v -> P a v.
Proof.
  intros HL HA HS HM. fix IH 3. intros a v [w Fw|p l vs E F|p b w E S|p m ws E F].
  - exact (HL w Fw).
  - apply (HA p l vs E F). clear E. induction F; constructor; [apply IH; assumption|assumption].
  - exact (HS p b w E S (IH b w S)).
  - apply (HM p m ws E F). clear E. induction F as [|e w m ws [H1 H2] F IHF]; constructor; [split; [exact H1|apply IH; exact H2]|exact IHF].
Qed.

Lemma stands_det a v : stands g a v -> forall w, stands g a w -> v = w.
Proof.
  revert a v. apply (stands_ind' (fun a v => forall w, stands g a w -> v = w)).
  - intros v F w H. inversion H; subst. reflexivity.
  - intros p l vs E F IH w H. inversion H as [|? l' vs' E' F'|? ? ? E'|? ? ? E']; subst; rewrite E in E'; try discriminate. injection E' as <-. f_equal.
    clear - IH F'. revert vs' F'. induction IH as [|x v l vs Hx IH IHl]; intros vs' F'; inversion F'; subst; [reflexivity|]. f_equal; auto.
  - intros p a v E S IH w H. inversion H as [|? ? ? E'|? ? ? E' S'|? ? ? E']; subst; rewrite E in E'; try discriminate. injection E' as <-. f_equal. auto.
  - intros p m ws E F IH w H. inversion H as [|? ? ? E'|? ? ? E'|? m' ws' E' F']; subst; rewrite E in E'; try discriminate. injection E' as <-. f_equal.
    clear - IH F'. revert ws' F'. induction IH as [|e w m ws [K Hx] IH IHl]; intros ws' F'; inversion F' as [|? w' ? ? [K' S'] ?]; subst; [reflexivity|]. f_equal; auto.
    destruct w, w'. cbn in *. f_equal; [congruence|auto].
Qed.

(* the values of the nodes on the path to a are larger than that of a *)
Definition larger (seen : list nat) (v : value) : Prop := forall p w, In p seen -> stands g (GRef p) w -> value_size v < value_size w.

Lemma larger_hit seen p v : larger seen v -> stands g (GRef p) v -> ~ In p seen.
Proof. intros L S H. specialize (L p v H S). lia. Qed.
Lemma larger_snoc seen p v w : larger seen w -> stands g (GRef p) w -> value_size v < value_size w -> larger (seen ++ [p]) v.
Proof.
  intros L S H q u Hq Su. apply in_app_or in Hq as [Hq|[<-|[]]]; [specialize (L q u Hq Su); lia|]. now rewrite (stands_det _ _ Su _ S).
Qed.

Lemma veq_leaf_ref x p w : flat_value x -> stands g (GRef p) w -> veq x w = false.
Proof. intros F S. inversion S; subst; destruct x; try reflexivity; contradiction. Qed.
Lemma veq_ref_leaf x p w : flat_value x -> stands g (GRef p) w -> veq w x = false.
Proof. intros F S. inversion S; subst; destruct x; try reflexivity; contradiction. Qed.

Lemma size_in l v : In v l -> value_size v < value_size (VArr l).
Proof. intros H. cbn. pose proof (list_sum_in' value_size l v H). lia. Qed.
Lemma size_in_map m e : In e m -> value_size (snd e) < value_size (VMap m).
Proof. intros H. cbn. pose proof (list_sum_in' (fun e : value * value => value_size (fst e) + value_size (snd e)) m e H). cbn in *. lia. Qed.

Lemma all2_veq f l vs l' ws : Forall2 (stands g) l vs -> Forall2 (stands g) l' ws -> length vs = length ws ->
  (forall a v b w r, In v vs -> In w ws -> stands g a v -> stands g b w -> f a b = Some r -> r = veq v w) ->
  forall r, all2 f l l' = Some r -> r = veq (VArr vs) (VArr ws).
Proof.
  intros F. revert l' ws. induction F as [|a v l vs S F IH]; intros l' ws F' L H r E; inversion F' as [|b w l'' ws' S' F'']; subst; try discriminate L; [cbn in E; now injection E as <-|].
  cbn [all2] in E. destruct (f a b) as [c|] eqn:X; [|discriminate]. pose proof (H a v b w c (or_introl eq_refl) (or_introl eq_refl) S S' X) as Y.
  change (veq (VArr (v :: vs)) (VArr (w :: ws'))) with (veq v w && veq (VArr vs) (VArr ws')). rewrite <- Y. destruct c; [|cbn; congruence]. cbn [andb].
  apply (IH l'' ws' F''); auto. intros. eapply H; eauto; now right.
Qed.

Lemma find_stands k m ws : Forall2 (fun e w => fst e = fst w /\ stands g (snd e) (snd w)) m ws ->
  match get_with (veq k) m, get_with (veq k) ws with
  | Some a, Some v => stands g a v /\ exists e, In e ws /\ snd e = v
  | None, None => True
  | _, _ => False
  end.
Proof.
  unfold get_with. induction 1 as [|[k1 a] [k2 v] m ws [K S] F IH]; cbn in *; [auto|]. subst k2. destruct (veq k k1); [split; [exact S|exists (k1, v); auto]|].
  destruct (find _ m) as [[? a']|], (find _ ws) as [[? v']|]; auto. destruct IH as [I1 (e & He & E)]. split; [exact I1|]. exists e. auto.
Qed.

Lemma entries_veq f m vs m' ws : Forall2 (fun e w => fst e = fst w /\ stands g (snd e) (snd w)) m vs ->
  Forall2 (fun e w => fst e = fst w /\ stands g (snd e) (snd w)) m' ws -> length vs = length ws ->
  (forall a e b e' r, In e vs -> In e' ws -> stands g a (snd e) -> stands g b (snd e') -> f a b = Some r -> r = veq (snd e) (snd e')) ->
  forall r, all_entries f m m' = Some r -> r = veq (VMap vs) (VMap ws).
Proof.
  intros F F' L H r E. cbn [veq]. rewrite L, Nat.eqb_refl. cbn [andb]. clear L. revert r E.
  induction F as [|[k a] [k' v] m vs [K S] F IH]; intros r E; cbn in *; [congruence|]. subst k'.
  pose proof (find_stands k m' ws F') as X. destruct (get_with (veq k) m') as [b|], (get_with (veq k) ws) as [w|]; try contradiction; [|cbn; congruence].
  destruct X as [S' (e' & He' & <-)]. destruct (f a b) as [c|] eqn:Y; [|discriminate]. pose proof (H a (k, v) b e' c (or_introl eq_refl) He' S S' Y) as Z. cbn [snd] in Z. rewrite <- Z.
  destruct c; [|cbn; congruence]. cbn [andb]. apply IH; auto. intros. eapply H; eauto.
Qed.

Theorem geq_finite n : forall seen a b v w r, stands g a v -> stands g b w -> wf v -> wf w -> larger seen v -> geq g n seen a b = Some r -> r = veq v w.
Proof.
  induction n as [|n IH]; intros seen a b v w r Sa Sb Wv Ww L E; [discriminate|]. cbn [geq] in E.
  destruct a as [x|p], b as [y|q].
  - inversion Sa; inversion Sb; subst. congruence.
  - inversion Sa; subst. rewrite (veq_leaf_ref v q w) by assumption. congruence.
  - pose proof (larger_hit seen p v L Sa) as N. apply seen_false in N. rewrite N in E. inversion Sb; subst. rewrite (veq_ref_leaf w p v) by assumption. congruence.
  - destruct (Nat.eqb p q) eqn:Epq.
    { apply Nat.eqb_eq in Epq as <-. rewrite (stands_det _ _ Sb _ Sa). rewrite veq_refl by assumption. congruence. }
    pose proof (larger_hit seen p v L Sa) as N. apply seen_false in N. rewrite N in E.
    assert (SN : forall u, value_size u < value_size v -> larger (seen ++ [p]) u) by (intros u Hu; now apply (larger_snoc seen p u v)).
    inversion Sa as [|? l vs Ex F|? a v' Ex S|? m vs Ex F]; subst; inversion Sb as [|? l' ws Ey F'|? b w' Ey S'|? m' ws Ey F']; subst; rewrite Ex, Ey in E; cbn [node_equal] in E;
      try (cbn; congruence).
    + apply data_arr_inv in Wv, Ww. rewrite Forall_forall in Wv, Ww. rewrite (Forall2_len _ _ _ F), (Forall2_len _ _ _ F') in E. destruct (Nat.eqb (length vs) (length ws)) eqn:EL.
      * apply Nat.eqb_eq in EL. eapply (all2_veq _ l vs l' ws F F' EL); [|exact E]. intros a v b w r' Hv Hw Sv Sw E'. eapply (IH (seen ++ [p]) a b v w); eauto. apply SN, size_in, Hv.
      * injection E as <-. symmetry. apply not_true_iff_false. intros X. apply Nat.eqb_neq in EL. apply EL. clear - X. cbn in X. revert ws X. induction vs as [|v vs IHv]; intros [|w ws] X; try discriminate; [reflexivity|].
        apply andb_true_iff in X as [_ X]. cbn. f_equal. now apply IHv.
    + cbn. inversion Wv; inversion Ww; subst. eapply (IH (seen ++ [p]) a b v' w'); eauto.
    + apply data_map_inv in Wv as [Wv _], Ww as [Ww _]. rewrite Forall_forall in Wv, Ww. rewrite (Forall2_len _ _ _ F), (Forall2_len _ _ _ F') in E. destruct (Nat.eqb (length vs) (length ws)) eqn:EL.
      * apply Nat.eqb_eq in EL. eapply (entries_veq _ m vs m' ws F F' EL); [|exact E]. intros a e b e' r' He He' Sv Sw E'. eapply (IH (seen ++ [p]) a b (snd e) (snd e')); eauto; [apply Wv, He|apply Ww, He'|]. apply SN, size_in_map, He.
      * injection E as <-. cbn [veq]. rewrite EL. reflexivity.
Qed.

Lemma hashes_vhash f l vs : Forall2 (stands g) l vs -> (forall a v r, In v vs -> stands g a v -> f a = Some r -> r = vhash v) -> forall hs, hashes f l = Some hs -> hs = map vhash vs.
Proof.
  induction 1 as [|a v l vs S F IH]; intros H hs E; cbn in *; [now injection E as <-|]. destruct (f a) as [h|] eqn:X; [|discriminate]. destruct (hashes f l) as [hs'|]; [|discriminate]. injection E as <-.
  f_equal; [apply (H a v h); auto|]. apply IH; auto. intros. eapply H; eauto.
Qed.
Lemma node_hash_finite f p x v : nth_error g p = Some x -> stands g (GRef p) v ->
  (forall a u r, value_size u < value_size v -> stands g a u -> f a = Some r -> r = vhash u) -> forall r, node_hash f x = Some r -> r = vhash v.
Proof.
  intros Ex S H r E. inversion S as [|? l vs Ey F|? a v' Ey S'|? m vs Ey F]; subst; rewrite Ex in Ey; injection Ey as ->; cbn [node_hash] in E.
  - destruct (hashes f l) as [hs|] eqn:X; [|discriminate]. injection E as <-. rewrite (hashes_vhash f l vs F) with (hs := hs); auto. intros. eapply H; eauto. now apply size_in.
  - destruct (f a) as [h|] eqn:X; [|discriminate]. injection E as <-. cbn. rewrite (H a v' h); auto.
  - destruct (hashes f (map snd m)) as [hs|] eqn:X; [|discriminate]. injection E as <-.
    assert (F2 : Forall2 (stands g) (map snd m) (map snd vs)). { clear - F. induction F as [|e w m vs [_ S] F IH]; constructor; auto. }
    rewrite (hashes_vhash f _ _ F2) with (hs := hs) in *; auto.
    + cbn [vhash]. do 2 f_equal. clear - F. induction F as [|e w m vs [K S] F IH]; cbn; [reflexivity|]. rewrite K. f_equal. exact IH.
    + intros a v r Hv Sv Ev. apply in_map_iff in Hv as (e & <- & He). eapply H; eauto. now apply size_in_map.
    + intros a v r Hv Sv Ev. apply in_map_iff in Hv as (e & <- & He). eapply H; eauto. now apply size_in_map.
Qed.
Theorem ghash_finite n : forall seen a v r, stands g a v -> larger seen v -> ghash g n seen a = Some r -> r = vhash v.
Proof.
  induction n as [|n IH]; intros seen a v r S L E; [discriminate|]. cbn [ghash] in E. destruct a as [x|p]; [inversion S; subst; congruence|].
  pose proof (larger_hit seen p v L S) as N. apply seen_false in N. rewrite N in E. destruct (nth_error g p) as [x|] eqn:Ex; [|discriminate].
  eapply node_hash_finite; eauto. intros a u r' Hu Su E'. eapply (IH (seen ++ [p])); eauto. now apply (larger_snoc seen p u v).
Qed.

(* ---------- a finite value equals only what is bisimilar to it ---------- *)

Definition found_equal (a b : gval) : Prop := exists v, stands g a v /\ wf v /\ (a = b \/ exists n seen, larger seen v /\ geq g n seen a b = Some true).

Lemma all2_found n seen l vs l' : Forall2 (stands g) l vs -> Forall wf vs -> Forall (fun v => larger seen v) vs -> length l = length l' -> all2 (geq g n seen) l l' = Some true -> Forall2 found_equal l l'.
Proof.
  intros F. revert l'. induction F as [|a v l vs S F IH]; intros l' W L EL E; destruct l' as [|b l']; try discriminate EL; constructor; inversion W; inversion L; subst; cbn in E; destruct (geq g n seen a b) as [[]|] eqn:X; try discriminate.
  - exists v. split; [exact S|]. split; [assumption|]. right. eauto.
  - apply IH; auto.
Qed.
Lemma entries_found n seen m vs m' : Forall2 (fun e w => fst e = fst w /\ stands g (snd e) (snd w)) m vs -> Forall (fun e => wf (snd e) /\ larger seen (snd e)) vs -> all_entries (geq g n seen) m m' = Some true ->
  Forall (fun e => exists k y, find (fun e' => veq (fst e) (fst e')) m' = Some (k, y) /\ found_equal (snd e) y) m.
Proof.
  induction 1 as [|[k a] [k' v] m vs [K S] F IH]; intros W E; constructor; inversion W as [|? ? [W1 L1] W2]; subst; cbn in *; unfold get_with in E; destruct (find _ m') as [[k2 y]|] eqn:X; try discriminate; cbn [snd] in E;
    destruct (geq g n seen a y) as [[]|] eqn:Y; try discriminate.
  - exists k2, y. split; [reflexivity|]. exists v. split; [exact S|]. split; [exact W1|]. right. eauto.
  - now apply IH.
Qed.
Lemma entries_self (m : list (value * gval)) vs : Forall2 (fun e w => fst e = fst w /\ stands g (snd e) (snd w)) m vs -> wf (VMap vs) ->
  Forall (fun e => exists k y, find (fun e' => veq (fst e) (fst e')) m = Some (k, y) /\ found_equal (snd e) y) m.
Proof.
  intros F W. apply data_map_inv in W as [W D]. apply Forall_forall. intros e He.
  assert (X : find (fun e' => veq (fst e) (fst e')) m = Some e /\ exists w, In w vs /\ stands g (snd e) (snd w)).
  { revert W D. induction F as [|e1 w m vs [K S] F IH]; intros W D; [destruct He|]. inversion W as [|? ? [W1 W2] W3]; subst. inversion D as [|? ? D1 D2]; subst. destruct He as [<-|He].
    - split; [|exists w; split; [now left|exact S]]. cbn. rewrite K, veq_refl by exact W1. reflexivity.
    - destruct (IH He W3 D2) as [X (w' & Hw & S')]. split; [|exists w'; split; [now right|exact S']]. cbn [find].
      assert (exists w'', In w'' vs /\ fst e = fst w'') as (w'' & Hw'' & E'').
      { clear - F He. induction F as [|e1 w m vs [K S] F IH]; [destruct He|]. destruct He as [<-|He]; [exists w; split; [now left|exact K]|]. destruct (IH He) as (x & Hx & E). exists x. split; [now right|exact E]. }
      rewrite Forall_forall in D1, W3. specialize (D1 w'' Hw''). unfold keys_differ in D1. rewrite K, E''. rewrite veq_sym_eq; [|apply (W3 w'' Hw'')|exact W1]. rewrite D1, <- E''. exact X. }
  destruct X as [X (w & Hw & S)]. exists (fst e), (snd e). split; [destruct e; exact X|]. exists (snd w). split; [exact S|]. rewrite Forall_forall in W. split; [apply (W w Hw)|now left].
Qed.
Lemma found_alike a b : found_equal a b -> value_alike g found_equal a b.
Proof.
  intros (v & S & W & C).
  destruct C as [<-|(n & seen & L & E)].
  - destruct a as [x|p]; cbn.
    + inversion S; subst. now apply veq_refl.
    + inversion S as [|? l vs Ex F|? a v' Ex S'|? m vs Ex F]; subst; do 2 eexists; (split; [exact Ex|]); (split; [exact Ex|]); cbn.
      * apply data_arr_inv in W. clear - F W. induction F as [|a v l vs S F IH]; constructor; inversion W; subst; [|auto]. exists v. auto.
      * exists v'. inversion W; subst. auto.
      * split; [reflexivity|]. eapply entries_self; eauto.
  - destruct n as [|n]; [discriminate|]. cbn [geq] in E. destruct a as [x|p].
    + destruct b as [y|q]; [|discriminate]. cbn. congruence.
    + pose proof (larger_hit seen p v L S) as N. apply seen_false in N. rewrite N in E. destruct b as [y|q]; [discriminate|].
      destruct (Nat.eqb p q) eqn:Epq.
      { apply Nat.eqb_eq in Epq as <-. cbn. inversion S as [|? l vs Ex F|? a v' Ex S'|? m vs Ex F]; subst; do 2 eexists; (split; [exact Ex|]); (split; [exact Ex|]); cbn.
        * apply data_arr_inv in W. clear - F W. induction F as [|a v l vs S F IH]; constructor; inversion W; subst; [|auto]. exists v. auto.
        * exists v'. inversion W; subst. auto.
        * split; [reflexivity|]. eapply entries_self; eauto. }
      assert (SN : forall u, value_size u < value_size v -> larger (seen ++ [p]) u) by (intros u Hu; now apply (larger_snoc seen p u v)).
      destruct (nth_error g p) as [x|] eqn:Ex; [|discriminate]. destruct (nth_error g q) as [y|] eqn:Ey; [|discriminate]. cbn. exists x, y. split; [exact Ex|]. split; [exact Ey|].
      inversion S as [|? l vs Ez F|? a v' Ez S'|? m vs Ez F]; subst; rewrite Ex in Ez; injection Ez as ->; destruct y as [l'|b|m']; cbn in E |- *; try discriminate.
      * destruct (Nat.eqb (length l) (length l')) eqn:EL; [|discriminate]. apply Nat.eqb_eq in EL. apply data_arr_inv in W. eapply all2_found; eauto. apply Forall_forall. intros u Hu. apply SN, size_in, Hu.
      * inversion W; subst. exists v'. split; [exact S'|]. split; [assumption|]. right. exists n, (seen ++ [p]). split; [apply SN; cbn; lia|exact E].
      * destruct (Nat.eqb (length m) (length m')) eqn:EL; [|discriminate]. apply Nat.eqb_eq in EL. split; [exact EL|]. apply data_map_inv in W as [W _]. eapply entries_found; eauto. rewrite Forall_forall in *. intros u Hu. split; [apply (W u Hu)|apply SN, size_in_map, Hu].
Qed.

(* ---------- comparing finite values ---------- *)

Lemma comparable_self v : all_comparable v -> wf v -> vcmp v v = Some 0%Z.
Proof.
  induction v using value_ind'; intros A W; inversion A as [? F C|? F]; subst; try discriminate; try contradiction; cbn.
  - reflexivity.
  - destruct b; reflexivity.
  - unfold cmp_int. now rewrite Z.compare_refl.
  - inversion W; subst. f_equal. rewrite cmp_float_key by assumption. now apply kcmp_sign_eq.
  - f_equal. now apply cmp_bytes_eq.
  - f_equal. now apply cmp_bytes_eq.
  - apply data_arr_inv in W. clear A. induction H as [|x l Hx Hl IH]; [reflexivity|]. inversion F as [|? ? Ax Al]; inversion W as [|? ? Wx Wl]; subst. rewrite (Hx Ax Wx).
    assert (comparable x = true) as -> by (inversion Ax; [assumption|reflexivity]). cbn. now apply IH.
Qed.
Lemma gcomparable_ok a v : stands g a v -> gcomparable g a = Some (comparable v).
Proof. intros S. inversion S as [|? ? ? E|? ? ? E|? ? ? E]; subst; cbn; rewrite ?E; reflexivity. Qed.
Lemma cmp_elems_vcmp f l vs l' ws : Forall2 (stands g) l vs -> Forall2 (stands g) l' ws ->
  (forall a v b w r, In v vs -> In w ws -> stands g a v -> stands g b w -> f a b = Some r -> r = vcmp v w) ->
  forall r, cmp_elems g f l l' = Some r -> r = vcmp (VArr vs) (VArr ws).
Proof.
  intros F. revert l' ws. induction F as [|a v l vs S F IH]; intros l' ws F' H r E; inversion F' as [|b w l'' ws' S' F'']; subst; try (cbn in *; congruence).
  cbn [cmp_elems] in E. rewrite (gcomparable_ok a v S) in E.
  change (vcmp (VArr (v :: vs)) (VArr (w :: ws'))) with (if comparable v then match vcmp v w with None => None | Some c => if Z.eqb c 0 then vcmp (VArr vs) (VArr ws') else Some c end else None).
  destruct (comparable v); [|congruence]. destruct (f a b) as [c|] eqn:X; [|discriminate]. rewrite <- (H a v b w c (or_introl eq_refl) (or_introl eq_refl) S S' X). destruct c as [c|]; [|congruence].
  destruct (Z.eqb c 0); [|congruence]. apply (IH l'' ws' F''); auto. intros. eapply H; eauto; now right.
Qed.
Theorem gcmp_finite n : forall seen a b v w r, stands g a v -> stands g b w -> wf v -> all_comparable v -> larger seen v -> gcmp g n seen a b = Some r -> r = vcmp v w.
Proof.
  induction n as [|n IH]; intros seen a b v w r Sa Sb Wv Av L E; [discriminate|]. cbn [gcmp] in E.
  destruct a as [x|p].
  - inversion Sa; subst. destruct b as [y|q].
    + inversion Sb; subst. destruct v; congruence.
    + inversion Sb; subst; destruct v; cbn in *; try contradiction; congruence.
  - inversion Av as [? Fv Cv|vs Ac]; subst; [inversion Sa; subst; contradiction|]. inversion Sa as [|? l ? Ex F| |]; subst. destruct b as [y|q].
    + inversion Sb; subst. destruct w; cbn in *; try contradiction; congruence.
    + destruct (Nat.eqb p q) eqn:Epq.
      { apply Nat.eqb_eq in Epq as <-. rewrite (stands_det _ _ Sb _ Sa). rewrite comparable_self by assumption. congruence. }
      pose proof (larger_hit seen p _ L Sa) as N. apply seen_false in N.
      inversion Sb as [|? l' ws Ey F'|? b w' Ey S'|? m' ws Ey F']; subst; rewrite Ex, Ey in E; try (cbn; congruence). rewrite N in E. apply data_arr_inv in Wv. rewrite Forall_forall in Wv, Ac.
      eapply (cmp_elems_vcmp _ l vs l' ws F F'); [|exact E]. intros a v b w r' Hv Hw Sv Sw E'. eapply (IH (seen ++ [p]) a b v w); eauto. apply (larger_snoc seen p v (VArr vs)); auto. now apply size_in.
Qed.

(* ---------- the calls from outside ---------- *)

Lemma path_nil : path [].
Proof. split; constructor. Qed.


(* more fuel does not change the result *)
Lemma all2_mono f f' l l' r : (forall a b r, f a b = Some r -> f' a b = Some r) -> all2 f l l' = Some r -> all2 f' l l' = Some r.
Proof. intros H. revert l'. induction l as [|x l IH]; intros [|y l']; cbn; auto. destruct (f x y) as [b|] eqn:E; [|discriminate]. rewrite (H _ _ _ E). destruct b; auto. Qed.
Lemma entries_mono f f' m m' r : (forall a b r, f a b = Some r -> f' a b = Some r) -> all_entries f m m' = Some r -> all_entries f' m m' = Some r.
Proof. intros H. induction m as [|[k x] m IH]; cbn; auto. destruct (get_with (veq k) m') as [y|]; auto. destruct (f x y) as [b|] eqn:E; [|discriminate]. rewrite (H _ _ _ E). destruct b; auto. Qed.
Lemma geq_mono n : forall seen a b r, geq g n seen a b = Some r -> geq g (S n) seen a b = Some r.
Proof.
  induction n as [|n IH]; intros seen a b r E; [discriminate|]. remember (S n) as n'. cbn [geq]. subst n'. cbn [geq] in E. destruct a as [x|p], b as [y|q]; auto.
  destruct (Nat.eqb p q); auto. destruct (seen_before seen p); auto. destruct (nth_error g p) as [x|], (nth_error g q) as [y|]; auto.
  destruct x as [l|a|m], y as [l'|b|m']; cbn [node_equal] in *; auto.
  - destruct (Nat.eqb _ _); auto. apply (all2_mono (geq g n (seen ++ [p]))); auto.
  - destruct (Nat.eqb _ _); auto. apply (entries_mono (geq g n (seen ++ [p]))); auto.
Qed.
Lemma hashes_mono f f' l hs : (forall a r, f a = Some r -> f' a = Some r) -> hashes f l = Some hs -> hashes f' l = Some hs.
Proof. intros H. revert hs. induction l as [|x l IH]; intros hs; cbn; auto. destruct (f x) as [h|] eqn:E; [|discriminate]. destruct (hashes f l) as [t|]; [|discriminate]. rewrite (H _ _ E), (IH t eq_refl). auto. Qed.
Lemma node_hash_mono f f' x r : (forall a r, f a = Some r -> f' a = Some r) -> node_hash f x = Some r -> node_hash f' x = Some r.
Proof.
  intros H. destruct x as [l|a|m]; cbn.
  - destruct (hashes f l) as [hs|] eqn:E; [|discriminate]. now rewrite (hashes_mono _ _ _ _ H E).
  - destruct (f a) as [h|] eqn:E; [|discriminate]. now rewrite (H _ _ E).
  - destruct (hashes f (map snd m)) as [hs|] eqn:E; [|discriminate]. now rewrite (hashes_mono _ _ _ _ H E).
Qed.
Lemma ghash_mono n : forall seen a r, ghash g n seen a = Some r -> ghash g (S n) seen a = Some r.
Proof.
  induction n as [|n IH]; intros seen a r E; [discriminate|]. remember (S n) as n'. cbn [ghash]. subst n'. cbn [ghash] in E. destruct a as [x|p]; auto.
  destruct (seen_before seen p); auto. destruct (nth_error g p) as [x|]; auto. apply (node_hash_mono (ghash g n (seen ++ [p]))); auto.
Qed.
Lemma cmp_elems_mono f f' l l' r : (forall a b r, f a b = Some r -> f' a b = Some r) -> cmp_elems g f l l' = Some r -> cmp_elems g f' l l' = Some r.
Proof.
  intros H. revert l'. induction l as [|x l IH]; intros [|y l']; cbn [cmp_elems]; auto. destruct (gcomparable g x) as [[]|]; auto. destruct (f x y) as [c|] eqn:E; [|discriminate]. rewrite (H _ _ _ E).
  destruct c as [c|]; auto. destruct (Z.eqb c 0); auto.
Qed.
Lemma gcmp_mono n : forall seen a b r, gcmp g n seen a b = Some r -> gcmp g (S n) seen a b = Some r.
Proof.
  induction n as [|n IH]; intros seen a b r E; [discriminate|]. remember (S n) as n'. cbn [gcmp]. subst n'. cbn [gcmp] in E. destruct a as [x|p], b as [y|q]; auto.
  destruct (Nat.eqb p q); auto. destruct (nth_error g p) as [x|], (nth_error g q) as [y|]; auto.
  destruct x as [l|a|m], y as [l'|b|m']; auto. destruct (seen_before seen p); auto. apply (cmp_elems_mono (gcmp g n (seen ++ [p]))); auto.
Qed.
Lemma up {A} (f : nat -> option A) k r n : (forall n r, f n = Some r -> f (S n) = Some r) -> f k = Some r -> k <= n -> f n = Some r.
Proof. intros M E L. induction L; auto. Qed.

Theorem equals_returns a b : closed g -> points g a -> points g b -> exists r, forall n, length g < n -> graph_equals g n a b = Some r.
Proof.
  intros C Pa Pb. destruct (geq_returns (S (length g)) [] a b) as [r E]; auto using path_nil; [cbn; lia|]. exists r. intros n Hn.
  apply (up (fun n => graph_equals g n a b) (S (length g))); auto. intros. now apply geq_mono.
Qed.
Theorem compare_returns a b : closed g -> points g a -> points g b -> exists r, forall n, length g < n -> graph_compare g n a b = Some r.
Proof.
  intros C Pa Pb. destruct (gcmp_returns (S (length g)) [] a b) as [r E]; auto using path_nil; [cbn; lia|]. exists r. intros n Hn.
  apply (up (fun n => graph_compare g n a b) (S (length g))); auto. intros. now apply gcmp_mono.
Qed.
Lemma graph_hash_mono n a r : graph_hash g n a = Some r -> graph_hash g (S n) a = Some r.
Proof.
  destruct a as [v|p]; cbn [graph_hash]; [apply ghash_mono|]. destruct (nth_error g p) as [[l|x|m]|]; try apply ghash_mono. apply node_hash_mono. intros. now apply ghash_mono.
Qed.
Theorem hash_returns a : closed g -> points g a -> exists r, forall n, length g < n -> graph_hash g n a = Some r.
Proof.
  intros C P. assert (exists r, graph_hash g (S (length g)) a = Some r) as [r E].
  { assert (D : forall b, points g b -> exists r, ghash g (S (length g)) [] b = Some r) by (intros; apply ghash_returns; auto using path_nil; cbn; lia).
    destruct a as [v|p]; [cbn [graph_hash]; auto|]. destruct (points_node p P) as [x Ex]. unfold graph_hash. rewrite Ex. destruct x as [l|b|m]; auto.
    apply node_hash_some. intros a Ha. apply D. eapply closed_child; eauto. }
  exists r. intros n Hn. apply (up (fun n => graph_hash g n a) (S (length g))); auto. intros. now apply graph_hash_mono.
Qed.

Theorem bisimilar_equal a b n : closed g -> points g a -> points g b -> bisimilar g a b -> length g < n -> graph_equals g n a b = Some true.
Proof.
  intros C Pa Pb (R & B & Rab) L. destruct (equals_returns a b C Pa Pb) as (r & H). rewrite (H n L). f_equal. eapply geq_of_bisimilar; eauto.
Qed.

Theorem finite_equal a b v w n : closed g -> points g a -> points g b -> stands g a v -> stands g b w -> data veq v -> data veq w ->
  length g < n -> graph_equals g n a b = Some (veq v w).
Proof.
  intros C Pa Pb Sa Sb Wv Ww L. destruct (equals_returns a b C Pa Pb) as (r & H). rewrite (H n L). f_equal.
  eapply (geq_finite n []); eauto. intros p u [].
Qed.
Theorem finite_symmetric a b v w n : closed g -> points g a -> points g b -> stands g a v -> stands g b w -> data veq v -> data veq w ->
  length g < n -> graph_equals g n a b = graph_equals g n b a.
Proof.
  intros C Pa Pb Sa Sb Wv Ww L. rewrite (finite_equal a b v w), (finite_equal b a w v) by assumption. f_equal. now apply veq_sym_eq.
Qed.
Theorem finite_hash a v n : closed g -> points g a -> stands g a v -> length g < n -> graph_hash g n a = Some (vhash v).
Proof.
  intros C Pa S L. destruct (hash_returns a C Pa) as (r & H). specialize (H n L). rewrite H. f_equal.
  assert (G : forall b u r, stands g b u -> ghash g n [] b = Some r -> r = vhash u) by (intros; eapply ghash_finite; eauto; intros p w []).
  destruct a as [x|p]; cbn [graph_hash] in H; [eauto|]. destruct (nth_error g p) as [x|] eqn:Ex; [|eauto]. destruct x; eauto. eapply node_hash_finite; eauto.
Qed.
Theorem finite_sound a b v n : stands g a v -> data veq v -> graph_equals g n a b = Some true -> bisimilar g a b.
Proof.
  intros S W E. exists found_equal. split; [apply found_alike|]. exists v. split; [exact S|]. split; [exact W|]. right. exists n, []. split; [intros p u []|exact E].
Qed.
Theorem finite_compare a b v w n : closed g -> points g a -> points g b -> stands g a v -> stands g b w -> data veq v -> all_comparable v ->
  length g < n -> graph_compare g n a b = Some (vcmp v w).
Proof.
  intros C Pa Pb Sa Sb Wv Av L. destruct (compare_returns a b C Pa Pb) as (r & H). rewrite (H n L). f_equal.
  eapply (gcmp_finite n []); eauto. intros p u [].
Qed.
End Graph.
