(* The indented text of an array or a map is read by the parser. *)
From Coq Require Import Strings.Ascii Strings.String.
From Coq Require Import ZArith List Bool Lia.
From Coq Require Import Floats.SpecFloat.
From Verif Require Import Int64 Utf8 Utf8Proofs Text TextSpec TextProofs HMap Data DataProofs Types InstProofs Construct Graph GraphSpec Print PrintSpec PrintProofs Lexer LexerSpec LexerProofs LexBlank LexGrammarSpec LexGrammarProofs Syntax SyntaxSpec TokenProofs WriteProofs ParserProofs CoreProofs ReadBack.
Import ListNotations.
Open Scope Z_scope.

(* ---------- tokens with spaces between them ---------- *)

Section Spaces.
Variable Q : Z -> bool.
Inductive spaced : list pt -> list Z -> Prop :=
  | sp_end : spaced [] []
  | sp_tok bs p ts cs : Forall space bs -> tok_ok Q p -> tok_fits p cs -> spaced ts cs -> spaced (p :: ts) (bs ++ chars Q p ++ cs).
Lemma space_char c : space c -> char c.
Proof. unfold space, char, Utf8.scalar, rune_error. cbn [In]. lia. Qed.
Lemma spaced_chars ts cs : spaced ts cs -> Forall char cs /\ (length ts <= length cs)%nat.
Proof.
  induction 1 as [|bs p ts cs B K F S [IH L]]; [split; [constructor|cbn; lia]|]. destruct (tok_chars Q p K) as [C N]. split.
  - apply Forall_app; split; [eapply Forall_impl; [|exact B]; exact space_char|]. apply Forall_app; auto.
  - rewrite !app_length. destruct (chars Q p); [congruence|]. cbn [length]. lia.
Qed.
Lemma lex_space w (W : Forall char w) c r rest : space c -> rd w r (c :: rest) -> exists r', rd w r' rest /\ lex r = lex r'.
Proof.
  intros Sp Hr. destruct (g_next_cons w W r c rest Hr) as (r' & E & Hr'). exists r'. split; [exact Hr'|]. pose proof E as E'. unfold rd_next in E'. destruct (next r) as [[c' q]|] eqn:En; [|discriminate]. injection E' as -> ->.
  assert (N0 : c <> 0) by (unfold space in Sp; cbn in Sp; lia).
  apply next_left in En as (Es & L & L'). specialize (L' N0). unfold lex. rewrite Es. change (2 + length (r_s r))%nat with (S (S (length (r_s r)))). remember (S (length (r_s r))) as k eqn:Ek. cbn [next_token]. rewrite E. cbn [bind].
  rewrite (proj2 (Z.eqb_neq c 0) N0), (proj2 (space_iff c) Sp). cbn iota.
  destruct (next_token_mono k (S k) ltac:(lia) r') as [X|X]; [|exact X]. pose proof (next_token_advances k r') as A. rewrite X in A. exfalso. apply A. unfold left in *. rewrite Es in *. lia.
Qed.
Lemma lex_spaces w (W : Forall char w) bs rest : Forall space bs -> forall r, rd w r (bs ++ rest) -> exists r', rd w r' rest /\ lex r = lex r'.
Proof.
  induction 1 as [|c bs S B IH]; intros r Hr; [exists r; auto|]. destruct (lex_space w W c r _ S Hr) as (r1 & H1 & E1). destruct (IH r1 H1) as (r2 & H2 & E2). exists r2. split; [exact H2|congruence].
Qed.
Lemma lex_spaced w (W : Forall char w) ts cs : spaced ts cs -> forall r n, rd w r cs -> (length ts < n)%nat -> lex_all n r = feed ts LEnd.
Proof.
  induction 1 as [|bs p ts cs B K F S IH]; intros r n Hr Hn; (destruct n as [|n]; [cbn in Hn; lia|]); cbn [lex_all feed].
  - destruct (lex_end w W r Hr) as [r' ->]. reflexivity.
  - destruct (lex_spaces w W bs _ B r Hr) as (r1 & H1 & ->). destruct (lex_tok Q w p r1 cs W K F H1) as (r' & -> & Hr'). rewrite (tok_not_end Q) by exact K. f_equal. apply IH; auto. cbn in Hn. lia.
Qed.
Theorem tokens_spaced ts cs : spaced ts cs -> tokens (encode cs) = feed ts LEnd.
Proof.
  intros S. destruct (spaced_chars ts cs S) as [C L]. unfold tokens. assert (R : rd cs (new_reader (encode cs)) cs) by (exists 0%nat; rewrite new_after; split; [reflexivity|]; split; [reflexivity|lia]).
  apply (lex_spaced cs C ts cs S); [exact R|]. pose proof (rd_fuel _ C _ _ R) as F. cbn [new_reader r_s] in F. lia.
Qed.
(* what ends every token *)
Definition apart (rest : list Z) : Prop := match rest with [] => True | c :: _ => existsb (Z.eqb c) [41; 125; 93; 44; 58; 63; 124; 38; 94; 91] = true \/ space c end.
Lemma apart_fits p rest : tok_ok Q p -> apart rest -> tok_fits p rest.
Proof.
  intros K H. destruct rest as [|c rest]; [now apply (separated_fits Q)|]. destruct H as [H|H]; [now apply (separated_fits Q)|].
  assert (D : is_digit c = false /\ is_id c = false /\ is_letter c = false /\ c <> 46 /\ c <> 101 /\ c <> 69 /\ c <> 120 /\ c <> 88).
  { unfold space in H. cbn [In] in H. unfold is_id, is_id_start, is_letter, is_digit, between. lia. }
  destruct p; cbn in *; auto.
  - repeat split; try tauto.
  - destruct K as [expo K]. exists expo. split; [exact K|]. destruct expo; cbn; repeat split; tauto.
  - tauto.
  - tauto.
Qed.
End Spaces.

Section Indent.
Variable E : env.
Variable P : printers.
Variable ind : list Z.
Hypothesis Lib : same_library E P.
Hypothesis Blanks : Forall (fun c => TextSpec.blank c = true) ind.
Notation Q := (e_print E).
Notation all := (all_chars Q).

Lemma nl_spaces k : Forall space (nl ind k) /\ (nl ind k = [] \/ exists t, nl ind k = 10 :: t /\ Forall (fun c => TextSpec.blank c = true) t).
Proof.
  unfold nl. rewrite new_line_break. cbn [app]. unfold line_break. cbn [i_indent i_level]. destruct (Nat.eqb (length ind) 0); [split; [constructor|now left]|].
  assert (F : Forall (fun c => TextSpec.blank c = true) (concat (repeat ind k))) by (induction k; cbn [repeat concat]; [constructor|apply Forall_app; auto]).
  split; [|right; eauto]. constructor; [cbn; auto|]. eapply Forall_impl; [|exact F]. unfold TextSpec.blank, space. cbn. lia.
Qed.
Lemma nl_encode k : encode (nl ind k) = nl ind k.
Proof. apply encode_ascii. eapply Forall_impl; [|apply nl_spaces]. unfold space. cbn. lia. Qed.

(* the text as characters *)
Fixpoint vchars (k : nat) (v : value) : list Z :=
  match v with
  | VArr l => braces ind k (map (vchars (S k)) l)
  | VMap m => braces ind k (map (fun e => entry_text ind (vchars (S k) (fst e)) (vchars (S k) (snd e))) m)
  | _ => all (vtoks E v)
  end.
Lemma encode_items k l : forall b, encode (items ind k b l) = items ind k b (map encode l).
Proof.
  induction l as [|x l IH]; intros b; [reflexivity|]. cbn [items map]. rewrite !encode_app, nl_encode, IH. destruct b; reflexivity.
Qed.
Lemma encode_braces k l : encode (braces ind k l) = braces ind k (map encode l).
Proof. unfold braces. rewrite !encode_app, nl_encode, encode_items. reflexivity. Qed.
Lemma encode_entry x y : encode (entry_text ind x y) = entry_text ind (encode x) (encode y).
Proof. unfold entry_text. rewrite !encode_app. destruct (Nat.ltb 0 (length ind)); reflexivity. Qed.
Lemma vchars_text v : readable_value E v -> forall k, Print.value_text P ind k v = encode (vchars k v).
Proof.
  induction v as [ |b|z|f|s|s|s1 n1 z1|s|x IHx|l IHl|m IHm] using value_ind'; intros H k; try contradiction H.
  - rewrite <- (value_text_exact E P Lib (VBool b) H k) at 1 || idtac. cbn [Print.value_text vchars]. destruct b; reflexivity.
  - pose proof (value_text_exact E P Lib (VInt z) H k) as X. rewrite (WriteProofs.value_text E) in X by exact H. exact X.
  - pose proof (value_text_exact E P Lib (VFloat f) H k) as X. rewrite (WriteProofs.value_text E) in X by exact H. exact X.
  - pose proof (value_text_exact E P Lib (VStr s) H k) as X. rewrite (WriteProofs.value_text E) in X by exact H. exact X.
  - cbn [Print.value_text vchars]. rewrite encode_braces, map_map. f_equal. destruct H as [_ H]. apply fold_and in H. rewrite Forall_forall in H, IHl. apply map_ext_in. auto.
  - cbn [Print.value_text vchars]. rewrite encode_braces, map_map. f_equal. destruct H as [H _]. apply fold_and in H. rewrite Forall_forall in H, IHm. apply map_ext_in. intros e He. specialize (IHm e He). specialize (H e He).
    rewrite encode_entry. now rewrite (proj1 IHm), (proj2 IHm) by tauto.
Qed.

(* ---------- its tokens ---------- *)

Definition spreads (ts : list pt) (x : list Z) : Prop :=
  forall bs r cs, Forall space bs -> spaced Q r cs -> apart cs -> spaced Q (ts ++ r) (bs ++ x ++ cs).
Lemma spreads_one p x : tok_ok Q p -> x = chars Q p -> spreads [p] x.
Proof. intros K -> bs r cs B S A. cbn [app]. apply sp_tok; auto. now apply (apart_fits Q). Qed.
Lemma sp_ch c bs r cs : tok_ok Q (PCh c) -> Forall space bs -> spaced Q r cs -> spaced Q (PCh c :: r) (bs ++ [c] ++ cs).
Proof. intros K B S. apply (sp_tok Q bs (PCh c)); auto. exact I. Qed.
Lemma apart_space bs cs : Forall space bs -> apart cs -> apart (bs ++ cs).
Proof. intros B A. destruct B; [exact A|]. cbn. now right. Qed.
Lemma spreads_items {A} k (g : A -> list pt) (h : A -> list Z) l : (forall x, In x l -> spreads (g x) (h x)) ->
  forall r cs, spaced Q r cs -> apart cs -> spaced Q (tjoin 44 (map g l) ++ r) (items ind k true (map h l) ++ cs).
Proof.
  intros H r cs Sp A0. induction l as [|x l IH]; [exact Sp|]. destruct (nl_spaces (S k)) as [NS _].
  assert (H' : forall x, In x l -> spreads (g x) (h x)) by (intros; apply H; now right). specialize (IH H').
  destruct l as [|y l].
  - cbn [map tjoin items app]. rewrite app_nil_r, <- app_assoc. apply H; auto. now left.
  - change (tjoin 44 (map g (x :: y :: l))) with (g x ++ PCh 44 :: tjoin 44 (map g (y :: l))). rewrite <- app_assoc.
    change (items ind k true (map h (x :: y :: l))) with (nl ind (S k) ++ h x ++ lit "," ++ items ind k true (map h (y :: l))). rewrite <- !app_assoc.
    apply H; [now left|exact NS| |left; reflexivity]. change (lit ",") with [44]. apply (sp_ch 44 []); [reflexivity|constructor|exact IH].
Qed.
Lemma spreads_braces {A} k (g : A -> list pt) (h : A -> list Z) l : (forall x, In x l -> spreads (g x) (h x)) ->
  spreads (PCh 123 :: tjoin 44 (map g l) ++ [PCh 125]) (braces ind k (map h l)).
Proof.
  intros H bs r cs B S A0. destruct (nl_spaces k) as [NS _]. unfold braces. cbn [app]. rewrite <- !app_assoc. change (lit "{") with [123]. apply sp_ch; [reflexivity|exact B|].
  apply spreads_items; [exact H| |]; cbn [app].
  - change (lit "}") with [125]. apply sp_ch; [reflexivity|exact NS|exact S].
  - apply apart_space; [exact NS|]. left. reflexivity.
Qed.
Lemma spreads_value v : readable_value E v -> forall k, spreads (vtoks E v) (vchars k v).
Proof.
  induction v as [ |b|z|f|s|s|s1 n1 z1|s|x IHx|l IHl|m IHm] using value_ind'; cbn [readable_value]; intros H k; try contradiction; cbn [vtoks vchars].
  - apply spreads_one; [destruct b; cbn; auto|]. cbn [all_chars flat_map]. now rewrite app_nil_r.
  - apply spreads_one; [exact H|]. cbn [all_chars flat_map]. now rewrite app_nil_r.
  - apply spreads_one; [destruct H as [expo H]; exists expo; apply H|]. cbn [all_chars flat_map]. now rewrite app_nil_r.
  - apply spreads_one; [now apply ok_str|]. cbn [all_chars flat_map]. now rewrite app_nil_r.
  - destruct H as [_ H]. apply fold_and in H. rewrite Forall_forall in H, IHl. apply spreads_braces. auto.
  - destruct H as [H _]. apply fold_and in H. rewrite Forall_forall in H, IHm. apply (spreads_braces k (fun e => vtoks E (fst e) ++ PCh 58 :: vtoks E (snd e))). intros e He. specialize (H e He). specialize (IHm e He).
    intros bs r cs B S A. unfold entry_text. rewrite <- !app_assoc. apply (proj1 IHm); [tauto|exact B| |left; reflexivity]. change (lit ":") with [58]. cbn [app]. apply (sp_ch 58 []); [reflexivity|constructor|].
    apply (proj2 IHm); [tauto| |exact S|exact A]. destruct (Nat.ltb 0 (length ind)); repeat constructor.
Qed.

(* ---------- nothing is stripped ---------- *)

(* no blank before a line break or the end; [b]: a blank is before the text *)
Fixpoint trim (b : bool) (cs : list Z) : bool :=
  match cs with
  | [] => negb b
  | c :: r => if TextSpec.blank c then trim true r else if c =? 10 then negb b && trim false r else trim false r
  end.
Lemma strip_trim cs : forall wb, trim (Nat.ltb 0 (length wb)) cs = true -> strip_loop cs wb = wb ++ cs.
Proof.
  induction cs as [|c cs IH]; intros wb T; cbn [trim strip_loop] in *.
  - destruct wb; [reflexivity|discriminate].
  - destruct (TextSpec.blank c); [rewrite IH; [now rewrite <- app_assoc|]; rewrite app_length; cbn [length]; replace (length wb + 1)%nat with (S (length wb)) by lia; exact T|].
    destruct (Z.eqb_spec c 10) as [->|].
    + apply andb_true_iff in T as [T1 T2]. destruct wb; [|discriminate]. cbn [app]. f_equal. now apply IH.
    + f_equal. f_equal. now apply IH.
Qed.
(* a text that ends visibly and has no line breaks, after blanks or not *)
Definition solid (x : list Z) : Prop := forall b cs, trim b (x ++ cs) = trim false cs.
Lemma solid_plain l x : plain l -> TextSpec.blank x = false -> x <> 10 -> solid (l ++ [x]).
Proof.
  intros Pl B N. induction Pl as [|c l Nc Pl IH]; intros b cs; cbn [app trim].
  - rewrite B. destruct (Z.eqb_spec x 10); [contradiction|reflexivity].
  - destruct (Z.eqb_spec c 10); [contradiction|]. destruct (TextSpec.blank c); apply IH.
Qed.
Lemma solid_ends x : plain x -> x <> [] -> (forall l c, x = l ++ [c] -> TextSpec.blank c = false) -> solid x.
Proof.
  intros Pl N H. destruct (exists_last N) as (l & c & ->). apply Forall_app in Pl as [Pl Pc]. inversion Pc; subst. apply solid_plain; auto. now apply (H l).
Qed.
Lemma not_blank c : (45 < c)%Z -> TextSpec.blank c = false.
Proof. unfold TextSpec.blank. lia. Qed.
Lemma last_digit (ds : list Z) : forallb is_digit ds = true -> forall l c, ds = l ++ [c] -> TextSpec.blank c = false.
Proof. intros D l c ->. rewrite forallb_app in D. apply andb_true_iff in D as [_ D]. cbn in D. apply not_blank. unfold is_digit, between in D. lia. Qed.
Lemma last_of {A} (a b : list A) l c : b <> [] -> a ++ b = l ++ [c] -> exists l', b = l' ++ [c].
Proof. intros N E0. destruct (exists_last N) as (l' & d & ->). rewrite app_assoc in E0. apply app_inj_tail in E0 as [_ ->]. eauto. Qed.
Lemma solid_leaf v : readable_value E v -> (forall l, v <> VArr l) -> (forall m, v <> VMap m) -> solid (all (vtoks E v)).
Proof.
  intros R NA NM. pose proof (vtoks_plain E v R) as Pl. destruct v; try contradiction R; try (exfalso; eapply NA; reflexivity); try (exfalso; eapply NM; reflexivity); cbn [vtoks] in *; unfold all_chars in *; cbn [flat_map chars] in *; rewrite app_nil_r in *.
  - destruct b; (apply solid_ends; [exact Pl|discriminate|]); intros l c E0.
    + change (lit "true") with ([116; 114; 117] ++ [101]) in E0. apply app_inj_tail in E0 as [_ <-]. reflexivity.
    + change (lit "false") with ([102; 97; 108; 115] ++ [101]) in E0. apply app_inj_tail in E0 as [_ <-]. reflexivity.
  - destruct (itoa_shape z R) as (ds & N & D & Ez). apply solid_ends; [exact Pl|destruct Ez as [-> | ->]; congruence|]. intros l c E0.
    destruct Ez as [Ez|Ez]; rewrite Ez in E0; [now apply (last_digit ds D l)|]. change (45 :: ds) with ([45] ++ ds) in E0. apply last_of in E0 as (l' & E0); [|exact N]. now apply (last_digit ds D l').
  - destruct R as [expo [(sg & ip & fp & ex & Es & Hs & Ni & Di & Hf & He) _]]. rewrite Es in *. apply solid_ends; [exact Pl|destruct sg, ip; cbn; congruence|]. intros l c E0.
    assert (He' : ex = [] \/ exists e s ds, ex = e :: s :: ds /\ ds <> [] /\ forallb is_digit ds = true).
    { destruct expo; [right|left; tauto]. destruct He as (c0 & ds & -> & _ & N & D). exists 69, c0, ds. auto. }
    destruct He' as [->|(e & s & ds & -> & N & D)].
    + rewrite app_nil_r in E0. destruct Hf as [->|(ds & -> & N & D)].
      * rewrite app_nil_r in E0. apply last_of in E0 as (l' & E0); [|exact Ni]. now apply (last_digit ip Di l').
      * change (46 :: ds) with ([46] ++ ds) in E0. rewrite !app_assoc in E0. apply last_of in E0 as (l' & E0); [|exact N]. now apply (last_digit ds D l').
    + change (e :: s :: ds) with ([e; s] ++ ds) in E0. rewrite !app_assoc in E0. apply last_of in E0 as (l' & E0); [|exact N]. now apply (last_digit ds D l').
  - unfold quote in *. apply solid_ends; [exact Pl|discriminate|]. intros l c E0. rewrite app_assoc in E0. apply app_inj_tail in E0 as [_ <-]. reflexivity.
Qed.
Lemma trim_nl k cs : trim false (nl ind k ++ cs) = true <-> trim (match nl ind k with [] | [_] => false | _ => true end) cs = true.
Proof.
  destruct (nl_spaces k) as [_ [->|(t & -> & B)]]; [reflexivity|]. cbn [app trim]. change (TextSpec.blank 10) with false. change (10 =? 10) with true. cbn [negb andb].
  assert (G : forall b, trim b (t ++ cs) = trim (match t with [] => b | _ => true end) cs).
  { clear - B. induction B as [|c t Bc B IH]; intros b; [reflexivity|]. cbn [app trim]. rewrite Bc, IH. now destruct t. }
  rewrite G. destruct t; reflexivity.
Qed.
Definition visible (x : list Z) : Prop := forall b cs, trim false cs = true -> trim b (x ++ cs) = true.
Lemma visible_char c : TextSpec.blank c = false -> c <> 10 -> visible [c].
Proof. intros B N b cs T. cbn [app trim]. rewrite B. destruct (Z.eqb_spec c 10); [contradiction|exact T]. Qed.
Lemma visible_app x y : visible x -> visible y -> visible (x ++ y).
Proof. intros X Y b cs T. rewrite <- app_assoc. apply X. now apply Y. Qed.
Lemma after_nl k x cs : visible x -> trim false cs = true -> trim false (nl ind k ++ x ++ cs) = true.
Proof. intros X T. apply trim_nl. now apply X. Qed.
Lemma trim_items k l : Forall visible l -> forall b cs, trim false cs = true -> trim false (items ind k b l ++ cs) = true.
Proof.
  induction 1 as [|x l X F IH]; intros b cs T; [exact T|]. cbn [items]. rewrite <- !app_assoc.
  assert (Z : trim false (nl ind (S k) ++ x ++ items ind k false l ++ cs) = true) by (apply after_nl; auto). destruct b; [exact Z|]. now apply (visible_char 44).
Qed.
Lemma visible_braces k l : Forall visible l -> visible (braces ind k l).
Proof.
  intros F b cs T. unfold braces. rewrite <- !app_assoc. apply (visible_char 123); [reflexivity|discriminate|]. apply trim_items; [exact F|]. apply after_nl; [now apply (visible_char 125)|exact T].
Qed.
Lemma visible_value v : readable_value E v -> forall k, visible (vchars k v).
Proof.
  induction v as [ |b|z|f|s|s|s1 n1 z1|s|x IHx|l IHl|m IHm] using value_ind'; intros H k; try contradiction H;
    try (intros b0 cs T; cbn [vchars]; rewrite (solid_leaf _ H) by discriminate; exact T).
  - destruct H as [_ H]. apply fold_and in H. cbn [vchars]. apply visible_braces. rewrite Forall_forall in H, IHl. apply Forall_forall. intros x Hx. apply in_map_iff in Hx as (v & <- & Hv). auto.
  - destruct H as [H _]. apply fold_and in H. cbn [vchars]. apply visible_braces. rewrite Forall_forall in H, IHm. apply Forall_forall. intros x Hx. apply in_map_iff in Hx as (e & <- & He). specialize (H e He). specialize (IHm e He).
    unfold entry_text. apply visible_app; [apply IHm; tauto|]. change (lit ":") with [58]. intros b cs T. rewrite <- !app_assoc. apply (visible_char 58); [reflexivity|discriminate|].
    destruct (Nat.ltb 0 (length ind)); cbn [app]; [|now apply IHm]. change (lit " ") with [32]. cbn [app trim]. change (TextSpec.blank 32) with true. cbv iota. now apply IHm.
Qed.

Theorem indented_read v : collection v -> readable_value E v -> parse_type E (finish (Print.value_text P ind 0 v)) = POk (TExact 0 v) LEnd.
Proof.
  intros C R. rewrite vchars_text by exact R.
  assert (S : spaced Q (vtoks E v) (vchars 0 v)). { pose proof (spreads_value v R 0%nat [] [] [] ltac:(constructor) (sp_end Q) I) as S. now rewrite !app_nil_r in S. }
  pose proof (spaced_chars Q _ _ S) as [K _].
  assert (F : finish (encode (vchars 0 v)) = encode (vchars 0 v)).
  { unfold finish, to_string. cbn [fst]. rewrite string_loop_strip; [|eapply Forall_impl; [|exact K]; intros c [Hc _]; exact Hc|reflexivity|lia]. cbn [app]. f_equal. apply strip_trim. cbn [length Nat.ltb Nat.leb].
    pose proof (visible_value v R 0%nat false [] eq_refl) as T. now rewrite app_nil_r in T. }
  rewrite F. pose proof (type_read E (TExact 0 v) R) as X. apply (parse_with E _ (parse_fuel (type_string E (TExact 0 v)))).
  rewrite (tokens_spaced Q _ _ S). unfold parse_type in X. change (type_string E (TExact 0 v)) with (exact_text E v) in X |- *. rewrite (WriteProofs.value_text E) in X by exact R. unfold enc in X.
  assert (Kl : lexable Q (vtoks E v)). { rewrite <- (app_nil_r (vtoks E v)). apply joins_value; [exact R|exact I|exact I]. }
  rewrite (tokens_feed Q _ Kl) in X. rewrite (WriteProofs.value_text E) by exact R. exact X.
Qed.
End Indent.

Theorem indented_string_read E P ind g a v n : same_library E P -> Forall (fun c => TextSpec.blank c = true) ind -> closed g -> points g a -> stands g a v -> (length g < n)%nat -> collection v -> readable_value E v ->
  exists b, string_of P ind g n a = Some b /\ parse_type E b = POk (TExact 0 v) LEnd.
Proof.
  intros S B C Pa St L K R. destruct (string_finite P ind g a v n C Pa St L) as (b & Eb & H); try (intros; destruct v; cbn in K; (contradiction || discriminate)).
  exists b. split; [exact Eb|]. destruct H as [-> |[F _]]; [now apply indented_read|]. destruct v; contradiction.
Qed.
