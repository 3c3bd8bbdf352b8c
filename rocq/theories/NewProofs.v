(* New makes what it should. *)
From Coq Require Import Strings.Ascii Strings.String.
From Coq Require Import ZArith List Bool Lia.
From Coq Require Import Floats.SpecFloat.
From Verif Require Import Int64 Data Types Assign Print Convert ConvertProofs NewSpec.
Import ListNotations.
Open Scope Z_scope.

Lemma truncates f z : float_to_int f = z <-> truncated f z.
Proof.
  destruct f as [s|s| |s m e]; cbn [float_to_int truncated]; try (split; congruence).
  set (a := if 0 <=? e then Zpos m * 2 ^ e else Zpos m / 2 ^ (- e)).
  assert (A : 0 <= a /\ a * 2 ^ Z.max 0 (- e) <= Zpos m * 2 ^ Z.max 0 e < (a + 1) * 2 ^ Z.max 0 (- e)).
  { unfold a. destruct (Z.leb_spec 0 e) as [L|L].
    - rewrite (Z.max_l 0 (- e)), (Z.max_r 0 e) by lia. pose proof (Z.pow_nonneg 2 e). change (2 ^ 0) with 1. split; nia.
    - rewrite (Z.max_r 0 (- e)), (Z.max_l 0 e) by lia. pose proof (Z.pow_pos_nonneg 2 (- e) ltac:(lia) ltac:(lia)) as Q. change (2 ^ 0) with 1. pose proof (Z.div_mod (Zpos m) (2 ^ (- e)) ltac:(lia)) as D. pose proof (Z.mod_pos_bound (Zpos m) (2 ^ (- e)) Q) as M. pose proof (Z.div_pos (Zpos m) (2 ^ (- e)) ltac:(lia) Q). split; [lia|]. split; nia. }
  clearbody a. destruct A as (A0 & A1 & A2).
  assert (U : forall b, 0 <= b -> b * 2 ^ Z.max 0 (- e) <= Zpos m * 2 ^ Z.max 0 e < (b + 1) * 2 ^ Z.max 0 (- e) -> b = a).
  { intros b B0 [B1 B2]. pose proof (Z.pow_pos_nonneg 2 (Z.max 0 (- e)) ltac:(lia) ltac:(lia)) as Q. nia. }
  assert (I : forall t, in64b t = true <-> in64 t) by (intros t; unfold in64b, in64; lia).
  split.
  - intros H. exists a. split; [exact A0|]. split; [auto|]. cbn zeta. destruct (in64b _) eqn:B; subst z; split; intros X; auto; [apply I in B; contradiction|apply I in X; congruence].
  - intros (b & B0 & B1 & B2). apply U in B1; auto. subst b. cbn zeta in B2. destruct B2 as [B2 B3]. destruct (in64b _) eqn:B; [symmetry; apply B2; now apply I|]. symmetry. apply B3. intros X. apply I in X. congruence.
Qed.

Section New.
Variables (W : world) (C : conv) (n : nat) (p : ptr).
Notation checked := (checked W n p).
Lemma checked_iff t x v : checked t x = Some v <-> x = v /\ instance W n p t v = Some true.
Proof. unfold Convert.checked. split; [destruct (instance W n p t x) as [[|]|] eqn:E; intros H; try discriminate; injection H as <-; auto|]. intros [-> ->]. reflexivity. Qed.
Lemma one_arg_iff a v : one_arg a = Some v <-> arguments a = [v].
Proof. destruct a as [x|[|x [|y l]]]; cbn; split; intros H; congruence. Qed.
Lemma words_iff l s : existsb (fun w => w_fold W w s) (map lit l) = true <-> is_word W l s.
Proof.
  unfold is_word. rewrite existsb_exists, Exists_exists. split.
  - intros (w & Hw & E). apply in_map_iff in Hw as (x & <- & Hx). eauto.
  - intros (x & Hx & E). exists (lit x). split; [now apply in_map|exact E].
Qed.
Ltac from M E Ef a := let l := fresh "l" in let f := fresh "f" in remember (arguments a) as l eqn:E; match type of M with makes _ _ ?fam _ _ => remember fam as f eqn:Ef end; destruct M; try discriminate Ef; symmetry in E.
Lemma bool_iff t a v : new_boolean W n p t a = Some v <-> makes W C FBool (arguments a) v /\ instance W n p t v = Some true.
Proof.
  unfold new_boolean. change [[116; 114; 117; 101]; [121; 101; 115]; [121]] with (map lit yes_words). change [[102; 97; 108; 115; 101]; [110; 111]; [110]] with (map lit no_words). split.
  - destruct (one_arg a) as [x|] eqn:O; [|discriminate]. apply one_arg_iff in O. rewrite O. destruct x; try discriminate; intros H.
    + apply checked_iff in H as [<- H]. split; [constructor|exact H].
    + apply checked_iff in H as [<- H]. split; [|exact H]. destruct (Z.eqb_spec z 0); [subst; constructor|now constructor].
    + apply checked_iff in H as [<- H]. split; [|exact H]. destruct f as [s|s| |s m e].
      * change (negb _) with false. constructor.
      * replace (negb _) with true by (destruct s; reflexivity). constructor. congruence.
      * change (negb _) with true. constructor. congruence.
      * replace (negb _) with true by (destruct s; reflexivity). constructor. congruence.
    + destruct (existsb _ (map lit yes_words)) eqn:Y; cbn [orb] in H.
      * apply checked_iff in H as [<- H]. split; [|exact H]. constructor. now apply words_iff.
      * destruct (existsb _ (map lit no_words)) eqn:N; [|discriminate]. apply checked_iff in H as [<- H]. split; [|exact H]. constructor; [now apply words_iff|]. rewrite <- words_iff. congruence.
  - intros [M I]. from M E Ef a; apply one_arg_iff in E; rewrite E.
    + now apply checked_iff.
    + now apply checked_iff.
    + apply checked_iff. split; [|exact I]. destruct (Z.eqb_spec z 0); [contradiction|reflexivity].
    + apply checked_iff. split; [|exact I]. destruct s; reflexivity.
    + apply checked_iff. split; [|exact I]. destruct f as [s|s| |s m e]; try (destruct s; reflexivity); [|reflexivity]. now destruct (H s).
    + apply words_iff in H. rewrite H. now apply checked_iff.
    + apply words_iff in H. rewrite H. destruct (existsb _ (map lit yes_words)) eqn:Y; [apply words_iff in Y; contradiction|]. now apply checked_iff.
Qed.
Lemma int_of_iff x r z : int_from C x r = Some z <-> int_of C x r z.
Proof.
  split.
  - destruct x; cbn [int_from]; intros H; try discriminate; try (injection H as <-; constructor).
    + destruct b; injection H as <-; constructor.
    + apply truncates. reflexivity.
    + now constructor.
  - intros H. inversion H; subst; cbn [int_from]; auto. f_equal. now apply truncates.
Qed.

Ltac out H := apply checked_iff in H as [<- H]; (split; [|exact H]).
Ltac inn := apply checked_iff; split; [reflexivity|assumption].
Lemma int_iff t a v : new_int W C n p t a = Some v <-> makes W C FInt (arguments a) v /\ instance W n p t v = Some true.
Proof.
  unfold new_int. split.
  - intros H. destruct (match a with AVal _ => _ | AArgs _ => _ end) as [z|] eqn:O; [|discriminate]. out H. destruct a as [x|[|x [|y [|w l]]]]; try discriminate; cbn [arguments].
    + now apply int_decimal, int_of_iff.
    + now apply int_decimal, int_of_iff.
    + destruct y; try discriminate. destruct (existsb (Z.eqb _) _) eqn:R; [|discriminate]. apply int_radix; [|now apply int_of_iff]. apply existsb_exists in R as (r & Hr & E). apply Z.eqb_eq in E. now subst.
    + destruct y; discriminate.
  - intros [M I]. remember (arguments a) as l eqn:E. remember FInt as f eqn:Ef. destruct M; try discriminate Ef.
    + apply int_of_iff in H. destruct a as [x|l]; cbn [arguments] in E; [injection E as <-|subst l]; rewrite H; inn.
    + apply int_of_iff in H0. destruct a as [x|l]; cbn [arguments] in E; [discriminate|subst l]. rewrite H0. replace (existsb (Z.eqb r) [2; 8; 10; 16]) with true; [inn|]. symmetry. apply existsb_exists. exists r. split; [exact H|apply Z.eqb_refl].
Qed.
Ltac one a O := destruct (one_arg a) as [x|] eqn:O; [apply one_arg_iff in O; rewrite O|discriminate].
Lemma float_iff t a v : new_float W C n p t a = Some v <-> makes W C FFloat (arguments a) v /\ instance W n p t v = Some true.
Proof.
  unfold new_float. split.
  - one a Oa. intros H. destruct x; cbn [float_from] in H; try discriminate.
    + destruct b; out H; constructor.
    + out H; constructor.
    + out H; constructor.
    + destruct (c_parse_float C s) eqn:Q; [|discriminate]. out H. now constructor.
    + out H; constructor.
  - intros [M I]. from M E Ef a; apply one_arg_iff in E; rewrite E; cbn [float_from]; rewrite ?H; inn.
Qed.
Lemma string_iff t a v : new_string W C n p t a = Some v <-> makes W C FString (arguments a) v /\ instance W n p t v = Some true.
Proof.
  unfold new_string. cbn zeta. set (of_value := fun v => match v with VStr s => checked t (VStr s) | _ => checked t (VStr (c_string C v)) end).
  assert (V : forall x, of_value x = Some v -> makes W C FString [x] v /\ instance W n p t v = Some true).
  { intros x H. unfold of_value in H. destruct x; out H; try (apply string_other; congruence); constructor. }
  split.
  - destruct a as [x|[|x [|y [|w l]]]]; try discriminate; cbn [arguments]; [apply V|apply V| |destruct y; discriminate]. destruct y; try discriminate. destruct (c_format C x s) eqn:Q; [|discriminate]. intros H. out H. now constructor.
  - intros [M I]. from M E Ef a.
    + destruct a as [x|l]; cbn [arguments] in E; [injection E as ->|subst l]; unfold of_value; inn.
    + assert (O : of_value v = Some (VStr (c_string C v))) by (unfold of_value; destruct v; try inn; now destruct (H s)). destruct a as [x|l]; cbn [arguments] in E; [injection E as ->|subst l]; exact O.
    + destruct a as [x|l]; cbn [arguments] in E; [discriminate|subst l]. rewrite H. inn.
Qed.
Lemma bytes_iff l s : to_bytes l = Some s <-> l = map VInt s /\ Forall (fun b => 0 <= b < 256) s.
Proof.
  revert s. induction l as [|x l IH]; intros s; cbn [to_bytes].
  - split; [intros [= <-]; split; constructor|]. intros [H _]. destruct s; [reflexivity|discriminate].
  - split.
    + destruct x; try discriminate. destruct ((0 <=? z) && (z <=? 255)) eqn:B; [|discriminate]. destruct (to_bytes l) as [q|]; [|discriminate]. intros [= <-]. destruct (proj1 (IH q) eq_refl) as [-> F]. split; [reflexivity|]. constructor; [lia|exact F].
    + intros [H F]. destruct s as [|z s]; [discriminate|]. injection H as -> H. inversion F; subst. replace ((0 <=? z) && (z <=? 255)) with true by lia. rewrite (proj2 (IH s)) by auto. reflexivity.
Qed.
Lemma binary_iff t a v : new_binary W C n p t a = Some v <-> makes W C FBinary (arguments a) v /\ instance W n p t v = Some true.
Proof.
  unfold new_binary. cbn zeta.
  set (from := fun v enc => match v with VBin s => checked t (VBin s) | VArr l => match to_bytes l with Some s => checked t (VBin s) | None => None end | VStr s => match binary_from_encoded (c_utf8 C) s enc with Some b => checked t (VBin b) | None => None end | _ => None end).
  assert (V : forall x, from x EncB = Some v -> makes W C FBinary [x] v /\ instance W n p t v = Some true).
  { intros x H. unfold from in H. destruct x; try discriminate.
    - cbn [binary_from_encoded] in H. destruct (b64_decode false true s) eqn:Q; [|discriminate]. out H. now constructor.
    - out H. constructor.
    - destruct (to_bytes l) eqn:Q; [|discriminate]. out H. apply bytes_iff in Q as [-> Q]. now constructor. }
  split.
  - destruct a as [x|[|x [|y l]]]; cbn [arguments]; [apply V|discriminate| |].
    + intros H. apply V. destruct x; exact H.
    + destruct x; try discriminate. destruct y; try discriminate. destruct l; [|discriminate]. destruct (c_encoding C s0) as [enc|] eqn:Q; [|discriminate]. intros H. change (match binary_from_encoded (c_utf8 C) s enc with Some b => checked t (VBin b) | None => None end = Some v) in H. destruct (binary_from_encoded (c_utf8 C) s enc) eqn:Q2; [|discriminate]. out H. econstructor; eauto.
  - intros [M I]. from M E Ef a.
    + destruct a as [y|l]; cbn [arguments] in E; [injection E as ->|subst l]; unfold from; inn.
    + assert (B : to_bytes (map VInt l) = Some l) by now apply bytes_iff. destruct a as [y|l']; cbn [arguments] in E; [injection E as ->|subst l']; unfold from; rewrite B; inn.
    + destruct a as [y|l]; cbn [arguments] in E; [injection E as ->|subst l]; unfold from; cbn [binary_from_encoded]; rewrite H; inn.
    + destruct a as [y|l]; cbn [arguments] in E; [discriminate|subst l]. rewrite H. unfold from. rewrite H0. inn.
Qed.
Lemma time_iff t a v : new_time W C n p t a = Some v <-> makes W C FTime (arguments a) v /\ instance W n p t v = Some true.
Proof.
  unfold new_time. split.
  - one a Oa. intros H. destruct x; try discriminate.
    + out H; constructor.
    + destruct (c_time_of_float C f) as [s ns] eqn:Q. out H. now constructor.
    + destruct (c_time_of_string C s) as [[[s' ns] z]|] eqn:Q; [|discriminate]. out H. now constructor.
    + out H; constructor.
  - intros [M I]. from M E Ef a; apply one_arg_iff in E; rewrite E; rewrite ?H; inn.
Qed.
Lemma array_iff t a v : new_array W C n p t a = Some v <-> makes W C FArray (arguments a) v /\ instance W n p t v = Some true.
Proof.
  unfold new_array. split.
  - one a Oa. intros H. destruct x; try discriminate; out H; constructor.
  - intros [M I]. from M E Ef a; apply one_arg_iff in E; rewrite E; inn.
Qed.
Lemma pairs_flat l : Nat.even (length l) = true -> flat_map (fun e : value * value => [fst e; snd e]) (pairs l) = l.
Proof.
  remember (length l) as k eqn:K. revert l K. induction k as [k IH] using lt_wf_ind. intros l K Ev. destruct l as [|x [|y l]]; [reflexivity|subst; discriminate|]. cbn [pairs flat_map fst snd app]. f_equal. f_equal. subst k. apply (IH (length l)); auto. cbn [length]. lia.
Qed.
Lemma flat_pairs m : pairs (flat_map (fun e : value * value => [fst e; snd e]) m) = m /\ Nat.even (length (flat_map (fun e : value * value => [fst e; snd e]) m)) = true.
Proof. induction m as [|[k v] m [IH1 IH2]]; [split; reflexivity|]. cbn [flat_map fst snd app pairs length]. rewrite IH1. split; [reflexivity|exact IH2]. Qed.
Lemma map_iff t a v : new_map W n p t a = Some v <-> makes W C FMap (arguments a) v /\ instance W n p t v = Some true.
Proof.
  unfold new_map. split.
  - one a Oa. intros H. destruct x; try discriminate.
    + destruct (Nat.even (length l)) eqn:Ev; [|discriminate]. out H. rewrite <- (pairs_flat l Ev) at 1. constructor.
    + out H. constructor.
  - intros [M I]. from M E Ef a; apply one_arg_iff in E; rewrite E; [inn|]. destruct (flat_pairs m) as [E1 E2]. rewrite E2, E1. inn.
Qed.
Lemma sensitive_iff a v : new_sensitive a = Some v <-> makes W C FSensitive (arguments a) v.
Proof.
  unfold new_sensitive. split.
  - one a Oa. intros H. destruct x; injection H as <-; try (constructor; congruence).
  - intros M. from M E Ef a; apply one_arg_iff in E; rewrite E; [reflexivity|]. destruct v; try reflexivity. now destruct (H v).
Qed.
Lemma other_iff t a v : new_other W n p t a = Some v <-> makes W C FOther (arguments a) v /\ instance W n p t v = Some true.
Proof.
  unfold new_other. split.
  - one a Oa. intros H. out H. constructor.
  - intros [M I]. from M E Ef a; apply one_arg_iff in E; rewrite E; inn.
Qed.

Theorem new_iff t a v : new W C n p t a = Some v <-> makes W C (family_of t) (arguments a) v /\ (family_of t = FSensitive \/ instance W n p t v = Some true).
Proof.
  assert (O : forall f (X : Prop), f <> FSensitive -> (X <-> makes W C f (arguments a) v /\ instance W n p t v = Some true) -> (X <-> makes W C f (arguments a) v /\ (f = FSensitive \/ instance W n p t v = Some true))).
  { intros f X N H. rewrite H. split; intros [M I]; (split; [exact M|]); [now right|]. destruct I; [contradiction|assumption]. }
  assert (Mt : forall l, makes W C FType l v -> False) by (intros l M; inversion M).
  unfold new. destruct t as [ | | | |x y i| |x y i| | |x y|s|s|x y| | |q w|q t| |q e x y|q ts b| |q kt vt x y|q ad es|q ts|q vs|q ts|q ts|q t|t]; cbn [family_of];
    try (apply O; [discriminate|]; first [apply other_iff|apply bool_iff|apply int_iff|apply float_iff|apply string_iff|apply binary_iff|apply time_iff|apply array_iff|apply map_iff]).
  - destruct w; apply O; try discriminate; first [apply other_iff|apply bool_iff|apply int_iff|apply float_iff|apply string_iff|apply binary_iff|apply time_iff|apply array_iff|apply map_iff].
  - rewrite sensitive_iff. tauto.
  - split; [discriminate|]. intros [M _]. destruct (Mt _ M).
Qed.

Lemma int_of_one x r z z' : int_of C x r z -> int_of C x r z' -> z = z'.
Proof. rewrite <- !int_of_iff. congruence. Qed.
Theorem makes_one f l v w : makes W C f l v -> makes W C f l w -> v = w.
Proof.
  intros M M'. destruct M; inversion M'; subst; try reflexivity; try congruence; try contradiction;
    try match goal with H : _ <> VStr _ |- _ => now destruct H end; try match goal with H : forall _, _ <> _ |- _ => now destruct (H _ eq_refl) end.
  - f_equal. eapply int_of_one; eauto.
  - f_equal. eapply int_of_one; eauto.
  - f_equal. match goal with H : map VInt _ = map VInt _ |- _ => revert H end. clear. revert l0. induction l as [|x l IH]; intros [|y l'] H; try discriminate; [reflexivity|]. injection H as -> H. f_equal. now apply IH.
  - f_equal. match goal with H : flat_map _ _ = flat_map _ _ |- _ => apply (f_equal pairs) in H; rewrite !(proj1 (flat_pairs _)) in H; congruence end.
Qed.
End New.
