From Coq Require Import ZArith List Bool Lia.
From Verif Require Import Int64 Data DataSpec DataProofs Types InstProofs Text Graph GraphSpec GraphProofs Print PrintSpec.
Import ListNotations.
Open Scope Z_scope.

Section Print.
Variables (P : printers) (ind : list Z).

Lemma same_ind (Q : value -> value -> Prop) :
  (forall v w, Q (VSens v) (VSens w)) -> (forall v, flat_value v -> Q v v) ->
  (forall l l', Forall2 same_but_secrets l l' -> Forall2 Q l l' -> Q (VArr l) (VArr l')) ->
  (forall m m', Forall2 (fun e e' => Q (fst e) (fst e') /\ Q (snd e) (snd e')) m m' -> Q (VMap m) (VMap m')) ->
  forall v w, same_but_secrets v w -> Q v w.
Proof.
  intros HS HF HA HM. fix IH 3. intros v w [a b|a Fa|l l' F|m m' F].
  - apply HS.
  - now apply HF.
  - apply HA; [exact F|]. induction F; constructor; [apply IH; assumption|assumption].
  - apply HM. induction F as [|e e' m m' [H1 H2] F IHF]; constructor; [split; apply IH; assumption|exact IHF].
Qed.

Lemma value_text_same v w : same_but_secrets v w -> forall k, value_text P ind k v = value_text P ind k w.
Proof.
  revert v w. apply (same_ind (fun v w => forall k, value_text P ind k v = value_text P ind k w)); auto.
  - intros l l' _ F k. cbn [value_text]. apply (f_equal (braces ind k)). induction F as [|x y l l' H F IH]; cbn; [reflexivity|]. now rewrite H, IH.
  - intros m m' F k. cbn [value_text]. apply (f_equal (braces ind k)). induction F as [|x y l l' [H1 H2] F IH]; cbn; [reflexivity|]. now rewrite H1, H2, IH.
Qed.

Lemma texts_same (A : nat -> Prop) f f' l : Forall (within_nodes A) l -> (forall a, within_nodes A a -> f a = f' a) -> texts f l = texts f' l.
Proof. intros F H. induction F as [|x l Hx F IH]; cbn; [reflexivity|]. now rewrite (H x Hx), IH. Qed.

Theorem text_same A g g' n : same_public A g g' -> forall erp seen k a, within_nodes A a -> text P ind g n erp seen k a = text P ind g' n erp seen k a.
Proof.
  intros S. induction n as [|n IH]; intros erp seen k a Ha; [reflexivity|]. cbn [text]. destruct a as [v|p]; [reflexivity|]. cbn in Ha.
  destruct (S p Ha) as (x & y & -> & -> & N). inversion N as [? ?|l F|m m' F]; subst; [reflexivity| |].
  - destruct (erp && seen_before seen p)%bool; [reflexivity|]. f_equal. eapply texts_same; eauto.
  - destruct (erp && seen_before seen p)%bool; [reflexivity|].
    assert (E : map snd m' = map snd m). { clear - F. induction F as [|e e' m m' (_ & E & _) F IH]; cbn; [reflexivity|]. now rewrite E, IH. }
    rewrite E. rewrite (texts_same A (text P ind g n erp (seen ++ [p]) (Datatypes.S k)) (text P ind g' n erp (seen ++ [p]) (Datatypes.S k))).
    + destruct (texts _ _) as [ts|]; [|reflexivity]. cbn [option_map]. do 2 f_equal. clear - F. revert ts. induction F as [|e e' m m' (K & _ & _) F IH]; intros [|t ts]; cbn; auto.
      now rewrite (value_text_same _ _ K), IH.
    + clear - F. induction F as [|e e' m m' (_ & _ & W) F IH]; constructor; auto.
    + intros a Wa. now apply IH.
Qed.

Theorem string_same A g g' n a : same_public A g g' -> within_nodes A a -> string_of P ind g n a = string_of P ind g' n a.
Proof.
  intros S Ha. destruct a as [v|p]; [reflexivity|]. unfold string_of. rewrite (text_same A g g' n S true [] 0%nat (GRef p) Ha). cbn in Ha.
  destruct (S p Ha) as (x & y & -> & -> & N). inversion N; subst; reflexivity.
Qed.

(* ---------- String returns ---------- *)

Lemma texts_some f l : (forall a, In a l -> exists t, f a = Some t) -> exists ts, texts f l = Some ts.
Proof. induction l as [|x l IH]; intros H; cbn; [eauto|]. destruct (H x (or_introl eq_refl)) as [h ->]. destruct IH as [hs ->]; [intros; apply H; now right|eauto]. Qed.

Lemma text_returns g n : closed g -> forall seen k a, path g seen -> points g a -> (length g < n + length seen)%nat -> exists t, text P ind g n true seen k a = Some t.
Proof.
  intros C. induction n as [|n IH]; intros seen k a Ps Pa L. { apply path_length in Ps. lia. }
  cbn [text]. destruct a as [v|p]; [eauto|]. destruct (points_node g p Pa) as [x Ex]. rewrite Ex. cbn [andb].
  assert (D : seen_before seen p = false -> forall a, In a (children x) -> exists t, text P ind g n true (seen ++ [p]) (S k) a = Some t).
  { intros E a Ha. apply seen_false in E. apply IH; [now apply path_snoc|exact (closed_child g p x a C Ex Ha)|]. rewrite app_length. cbn. lia. }
  destruct x as [l|a|m]; [|eauto|]; destruct (seen_before seen p); eauto; cbn [children] in D; destruct (texts_some _ _ (D eq_refl)) as [ts ->]; cbn [option_map]; eauto.
Qed.

Lemma texts_mono f f' l ts : (forall a t, f a = Some t -> f' a = Some t) -> texts f l = Some ts -> texts f' l = Some ts.
Proof. intros H. revert ts. induction l as [|x l IH]; intros ts; cbn; auto. destruct (f x) as [t|] eqn:E; [|discriminate]. destruct (texts f l) as [r|]; [|discriminate]. rewrite (H _ _ E), (IH r eq_refl). auto. Qed.
Lemma text_mono g n erp : forall seen k a t, text P ind g n erp seen k a = Some t -> text P ind g (S n) erp seen k a = Some t.
Proof.
  induction n as [|n IH]; intros seen k a t E; [discriminate|]. remember (S n) as n'. cbn [text]. subst n'. cbn [text] in E. destruct a as [x|p]; auto.
  destruct (nth_error g p) as [x|]; auto. destruct x as [l|a|m]; auto; destruct (erp && seen_before seen p)%bool; auto.
  - destruct (texts _ l) as [ts|] eqn:X; [|discriminate]. rewrite (texts_mono _ (text P ind g (S n) erp (seen ++ [p]) (S k)) l ts (fun a t => IH _ _ a t) X). exact E.
  - destruct (texts _ (map snd m)) as [ts|] eqn:X; [|discriminate]. rewrite (texts_mono _ (text P ind g (S n) erp (seen ++ [p]) (S k)) _ ts (fun a t => IH _ _ a t) X). exact E.
Qed.

Theorem string_returns g a : closed g -> points g a -> exists t, forall n, (length g < n)%nat -> string_of P ind g n a = Some t.
Proof.
  intros C Pa. destruct a as [v|p]; [unfold string_of; destruct v; eauto|]. destruct (points_node g p Pa) as [x Ex]. unfold string_of. rewrite Ex.
  destruct (text_returns g (S (length g)) C [] 0%nat (GRef p)) as [t Et]; [apply path_nil|exact Pa|cbn; lia|].
  assert (D : forall n, (length g < n)%nat -> text P ind g n true [] 0 (GRef p) = Some t).
  { intros n Hn. apply (up (fun n => text P ind g n true [] 0 (GRef p)) (S (length g))); auto. intros. now apply text_mono. }
  destruct x as [l|b|m]; eauto; exists (finish t); intros n Hn; now rewrite (D n Hn).
Qed.

(* ---------- the text of a finite value ---------- *)

Lemma text_finite g n erp : forall seen k a v t, stands g a v -> larger g seen v -> text P ind g n erp seen k a = Some t -> t = value_text P ind k v.
Proof.
  induction n as [|n IH]; intros seen k a v t S L E; [discriminate|]. cbn [text] in E. destruct a as [x|p].
  - inversion S; subst. destruct v; try contradiction; cbn in *; congruence.
  - pose proof (larger_hit g seen p v L S) as N. apply seen_false in N. rewrite N, andb_false_r in E.
    assert (SN : forall u, (value_size u < value_size v)%nat -> larger g (seen ++ [p]) u) by (intros u Hu; now apply (larger_snoc g seen p u v)).
    assert (T : forall l vs, Forall2 (stands g) l vs -> (forall u, In u vs -> (value_size u < value_size v)%nat) -> forall ts, texts (text P ind g n erp (seen ++ [p]) (Datatypes.S k)) l = Some ts -> ts = map (value_text P ind (Datatypes.S k)) vs).
    { intros l vs F. induction F as [|a u l vs Sa F IHF]; intros Hs ts X; cbn in X; [now injection X as <-|].
      destruct (text _ _ _ _ _ _ _ a) as [h|] eqn:Y; [|discriminate]. destruct (texts _ l) as [r|]; [|discriminate]. injection X as <-. cbn. f_equal.
      - eapply IH; eauto. apply SN, Hs. now left.
      - apply IHF; auto. intros. apply Hs. now right. }
    inversion S as [|? l vs Ex F|? b v' Ex S'|? m vs Ex F]; subst; rewrite Ex in E.
    + destruct (texts _ l) as [ts|] eqn:X; [|discriminate]. injection E as <-. cbn. rewrite (T l vs F (size_in vs) ts X). reflexivity.
    + now injection E as <-.
    + destruct (texts _ (map snd m)) as [ts|] eqn:X; [|discriminate]. injection E as <-. cbn.
      assert (F2 : Forall2 (stands g) (map snd m) (map snd vs)). { clear - F. induction F as [|e w m vs [_ S] F IH]; constructor; auto. }
      rewrite (T _ _ F2) with (ts := ts); auto.
      * apply (f_equal (braces ind k)). clear - F. induction F as [|e w m vs [K S] F IH]; cbn [map combine fst snd]; [reflexivity|]. now rewrite K, IH.
      * intros u Hu. apply in_map_iff in Hu as (e & <- & He). now apply size_in_map.
Qed.
End Print.

(* ---------- without the protection ---------- *)

Lemma text_loops P ind n : forall seen k, text P ind [GArr [GRef 0]] n false seen k (GRef 0) = None.
Proof. induction n as [|n IH]; intros seen k; [reflexivity|]. cbn. now rewrite IH. Qed.

Theorem string_finite P ind g a v n : closed g -> points g a -> stands g a v -> (length g < n)%nat -> (forall w, v <> VSens w) -> (forall s, v <> VStr s) -> v <> VNil ->
  exists b, string_of P ind g n a = Some b /\ (b = finish (value_text P ind 0 v) \/ (flat_value v /\ b = value_text P ind 0 v)).
Proof.
  intros C Pa S Hn NS NT NN. destruct a as [x|p].
  - inversion S; subst. exists (value_text P ind 0 v). unfold string_of. destruct v; try contradiction; try (now destruct (NN eq_refl)); try (exfalso; eapply NT; reflexivity); cbn; auto.
  - destruct (string_returns P ind g (GRef p) C Pa) as [t Et]. specialize (Et n Hn). exists t. split; [exact Et|left].
    unfold string_of in Et. destruct (points_node g p Pa) as [x Ex]. rewrite Ex in Et.
    destruct (text P ind g n true [] 0 (GRef p)) as [b|] eqn:X.
    + apply (text_finite P ind g n true [] 0 (GRef p) v) in X; auto; [|now intros ? ? Hin].
      subst b. inversion S as [|? l vs Ex' F|? b v' Ex' S'|? m vs Ex' F]; subst; rewrite Ex in Ex'; injection Ex' as ->; cbn [option_map] in Et; try (now destruct (NS v' eq_refl)); congruence.
    + inversion S as [|? l vs Ex' F|? b v' Ex' S'|? m vs Ex' F]; subst; rewrite Ex in Ex'; injection Ex' as ->; cbn [option_map] in Et; try (now destruct (NS v' eq_refl)); congruence.
Qed.
