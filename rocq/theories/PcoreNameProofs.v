From Coq Require Import Strings.Ascii Strings.String.
From Coq Require Import ZArith List Bool Lia.
From Verif Require Import Int64 Utf8 Utf8Proofs Text TextSpec TextProofs HMap Data Types Print Lexer LexerSpec LexerProofs Syntax SyntaxSpec TokenProofs Pcore PcoreSpec PcoreLex PcoreName PcoreNameSpec.
Import ListNotations.
Open Scope Z_scope.
Local Notation length := List.length.

(* ---------- what the lexer delivers ---------- *)
(* every result has the property, and the reader is of the same text *)
Definition all {A} (s : list Z) (P : A -> Prop) (m : res A) : Prop := match m with Ok a r => P a /\ r_s r = s | _ => True end.
Lemma all_bind {A B} s (P : A -> Prop) (Q : B -> Prop) m f : all s P m -> (forall a r, P a -> r_s r = s -> all s Q (f a r)) -> all s Q (Lexer.bind m f).
Proof. unfold all, Lexer.bind. destruct m; auto. intros [H1 H2] F. now apply F. Qed.
Lemma all_weak {A} s (P Q : A -> Prop) m : all s P m -> (forall a, P a -> Q a) -> all s Q m.
Proof. unfold all. destruct m; auto. intros [H1 H2] F. auto. Qed.
Lemma decode_large s c n : decode_rune s = (c, n) -> 128 <= hd 0 s -> 128 <= c.
Proof.
  unfold decode_rune. destruct s as [|b0 r]; cbn [hd]; [lia|]. intros H L. destruct (Z.ltb_spec b0 128); [lia|].
  unfold rune_error in H. unfold between in *. 
  repeat match type of H with
  | context [if ?b then _ else _] => destruct b eqn:?
  | context [match ?x with [] => _ | _ :: _ => _ end] => destruct x
  end; injection H as <- <-; lia.
Qed.
Definition from (s : list Z) (c : Z) : Prop := c < 128 -> c = 0 \/ In c s.
Lemma next_from r : all (r_s r) (from (r_s r)) (rd_next r).
Proof.
  unfold rd_next, next. destruct (Nat.leb_spec (length (r_s r)) (r_p r)).
  { destruct (Nat.eqb _ _); cbn; split; auto; intros _; now left. }
  assert (K : In (hd 0 (skipn (r_p r) (r_s r))) (r_s r)).
  { rewrite <- (firstn_skipn (r_p r) (r_s r)) at 2. apply in_or_app. right. pose proof (skipn_length (r_p r) (r_s r)). destruct (skipn (r_p r) (r_s r)); [cbn in *; lia|now left]. }
  cbn zeta. destruct (Z.ltb_spec (hd 0 (skipn (r_p r) (r_s r))) 128).
  - destruct (_ =? 10); cbn; split; auto; intros _; now right.
  - destruct (decode_rune _) as [c n] eqn:D. apply decode_large in D; [|lia]. destruct (c =? rune_error); cbn; auto. split; auto. intros X. lia.
Qed.
Lemma peek_any r : all (r_s r) (fun _ => True) (rd_peek r).
Proof. unfold rd_peek. destruct (peek r); cbn; auto. Qed.
Ltac nx := eapply all_bind; [first [match goal with H : r_s ?r = ?s |- all ?s _ (rd_next ?r) => rewrite <- H; apply next_from end|apply next_from]|intros ? ? ? ?].
Lemma peek_all {A} s r (Q : A -> Prop) f : r_s r = s -> (forall c, all s Q (f c r)) -> all s Q (Lexer.bind (rd_peek r) f).
Proof. intros <- F. unfold rd_peek. destruct (peek r); cbn [Lexer.bind]; [apply F|exact I]. Qed.
Lemma peek2_all {A} s r (Q : A -> Prop) f : r_s r = s -> (forall c, all s Q (f c r)) -> all s Q (Lexer.bind (rd_peek2 r) f).
Proof. intros <- F. unfold rd_peek2. destruct (peek2 r); cbn [Lexer.bind]; [apply F|exact I]. Qed.
Lemma next_all {A} s r (Q : A -> Prop) f : r_s r = s -> (forall c r', from s c -> r_s r' = s -> all s Q (f c r')) -> all s Q (Lexer.bind (rd_next r) f).
Proof. intros <- F. eapply all_bind; [apply next_from|]. intros c r' H E. now apply F. Qed.
Ltac go := repeat first
  [ exact I
  | match goal with
    | |- all _ _ (Ok _ _) => split; [|assumption]
    | |- all _ _ Panic => exact I
    | |- all _ _ Stuck => exact I
    | |- all _ _ (Lexer.bind (rd_next _) _) => apply next_all; [assumption|intros ? ? ? ?]
    | |- all _ _ (Lexer.bind (rd_peek _) _) => apply peek_all; [assumption|intros ?]
    | |- all _ _ (Lexer.bind (rd_peek2 _) _) => apply peek2_all; [assumption|intros ?]
    | |- all _ _ (if ?b then _ else _) => destruct b eqn:?
    | |- all _ _ (match escape ?a ?b with _ => _ end) => destruct (escape a b)
    end ].
Section Text.
Variable s : list Z.
Lemma all_unsigned fuel : forall r buf, r_s r = s -> all s (fun _ => True) (unsigned_integer fuel r buf).
Proof. induction fuel as [|fuel IH]; intros r buf E; [exact I|]. cbn [unsigned_integer]. go; try exact I. now apply IH. Qed.
Lemma all_exponent fuel r buf : r_s r = s -> all s (fun _ => True) (exponent fuel r buf).
Proof. intros E. unfold exponent. go; now apply all_unsigned. Qed.
Lemma all_hex fuel : forall r buf, r_s r = s -> all s (fun _ => True) (hex_integer fuel r buf).
Proof. induction fuel as [|fuel IH]; intros r buf E; [exact I|]. cbn [hex_integer]. go; try exact I. now apply IH. Qed.
Lemma all_number fuel : forall fz t r buf, r_s r = s -> t <> k_name -> all s (fun bt => snd bt <> k_name) (number_loop fuel fz t r buf).
Proof.
  induction fuel as [|fuel IH]; intros fz t r buf E T; [exact I|]. cbn [number_loop]. go; try exact T; try (apply IH; assumption).
  - eapply all_bind; [now apply all_exponent|]. intros b r2 _ E2. split; [cbn; discriminate|exact E2].
  - eapply all_bind; [now apply all_hex|]. intros b r2 _ E2. split; [exact T|exact E2].
  - apply IH; [assumption|discriminate].
Qed.
Lemma all_regexp fuel : forall r buf, r_s r = s -> all s (fun _ => True) (consume_regexp fuel r buf).
Proof. induction fuel as [|fuel IH]; intros r buf E; [exact I|]. cbn [consume_regexp]. go; try exact I; now apply IH. Qed.
Lemma all_string fuel : forall r q buf, r_s r = s -> all s (fun _ => True) (consume_string fuel r q buf).
Proof. induction fuel as [|fuel IH]; intros r q buf E; [exact I|]. cbn [consume_string]. go; try exact I; now apply IH. Qed.
Lemma all_comment fuel : forall r, r_s r = s -> all s (fun _ => True) (line_comment fuel r).
Proof. induction fuel as [|fuel IH]; intros r E; [exact I|]. cbn [line_comment]. go; try exact I; now apply IH. Qed.
Lemma all_name up fuel : forall r buf, r_s r = s -> all s (fun b => exists l, b = buf ++ l /\ name_rest up l) (name_loop up fuel r buf).
Proof.
  induction fuel as [|fuel IH]; intros r buf E; [exact I|]. cbn [name_loop].
  assert (N : exists l, buf = buf ++ l /\ name_rest up l) by (exists []; rewrite app_nil_r; split; [reflexivity|constructor]).
  go; try exact N.
  - eapply all_weak; [apply IH; assumption|]. cbn beta. intros b (l & -> & L).
    match goal with H : (if up then is_upper ?x else _) = true, H1 : (?x1 =? 58) = true, H2 : (?c =? 58) = true |- context [write_rune ?c ++ _] => idtac | _ => idtac end.
    repeat match goal with H : (_ =? 58) = true |- _ => apply Z.eqb_eq in H; subst end.
    match goal with H : (if up then is_upper ?x else _) = true |- _ => exists (58 :: 58 :: x :: l);
      assert (X : (if up then upper x else lower x \/ x = 95) /\ write_rune x = [x]);
      [unfold is_upper, is_lower, Utf8.between, upper, lower, write_rune in *; destruct (Z.ltb_spec x 128); [split; [destruct up; lia|reflexivity]|destruct up; lia]|destruct X as [X1 X2]; rewrite X2] end.
    change (write_rune 58) with [58]. rewrite <- !app_assoc. cbn [app]. split; [reflexivity|]. now constructor.
  - eapply all_weak; [apply IH; assumption|]. cbn beta. intros b (l & -> & L).
    match goal with H : (?x =? 95) || _ = true |- _ => exists (x :: l); assert (X : word_char x /\ write_rune x = [x]);
      [unfold is_letter, is_digit, Utf8.between, word_char, upper, lower, write_rune in *; destruct (Z.ltb_spec x 128); [split; [lia|reflexivity]|lia]|destruct X as [X1 X2]; rewrite X2] end.
    rewrite <- app_assoc. split; [reflexivity|]. now constructor.
Qed.
Definition good (t : token) : Prop := t_type t = k_name -> name_text true (t_value t).
Hypothesis N6 : ~ In k_name s.
Lemma all_next fuel : forall r, r_s r = s -> all s good (pc_next fuel r).
Proof.
  induction fuel as [|fuel IH]; intros r E; [exact I|]. cbn [pc_next]. apply next_all; [assumption|]. intros c r1 C E1.
  assert (C6 : c <> k_name) by (intros ->; destruct C as [C|C]; [reflexivity|discriminate C|exact (N6 C)]).
  go; try (intros X; discriminate X); try (now apply IH).
  - eapply all_bind; [now apply all_comment|]. intros u r2 _ E2. now apply IH.
  - eapply all_bind; [now apply all_string|]. intros b r2 _ E2. split; [intros X; discriminate X|exact E2].
  - eapply all_bind; [now apply all_regexp|]. intros b r2 _ E2. split; [intros X; discriminate X|exact E2].
  - intros X. now destruct C6.
  - eapply all_bind; [apply all_number; [assumption|discriminate]|]. intros b r3 B E3. split; [intros X; now destruct B|exact E3].
  - unfold pc_build. go.
    + eapply all_bind; [apply all_number; [assumption|discriminate]|]. intros b r3 B E3. split; [intros X; now destruct B|exact E3].
    + eapply all_bind; [apply all_name; assumption|]. intros b r3 (l & -> & B) E3. split; [|exact E3]. intros _. cbn [t_value].
      assert (U : upper c /\ write_rune c = [c]) by (unfold is_upper, Utf8.between, upper, write_rune in *; destruct (Z.ltb_spec c 128); [split; [lia|reflexivity]|lia]).
      destruct U as [U1 U2]. rewrite U2. cbn. auto.
    + eapply all_bind; [apply all_name; assumption|]. intros b r3 B E3. split; [intros X; discriminate X|exact E3].
    + intros X. now destruct C6.
Qed.
Lemma delivers_good n : forall r t, r_s r = s -> delivers (pc_lex_all n r) t -> good t.
Proof.
  induction n as [|n IH]; intros r t E; [contradiction|]. cbn [pc_lex_all]. unfold pc_lex. pose proof (all_next (2 + length (r_s r)) r E) as H. destruct (pc_next _ r) as [t0 r0| |]; [|contradiction|contradiction].
  destruct H as [H1 H2]. destruct (t_type t0 =? t_end); [contradiction|]. cbn [delivers]. intros [->|D]; [exact H1|]. exact (IH r0 t H2 D).
Qed.
End Text.
Theorem names_are_names s t : ~ In k_name s -> delivers (pc_tokens s) t -> t_type t = k_name -> name_text true (t_value t).
Proof. intros N D. exact (delivers_good s N _ (new_reader s) t eq_refl D). Qed.

(* ---------- the translation ---------- *)
(* one character after the other *)
Fixpoint translated (l : list Z) : list Z :=
  match l with
  | [] => []
  | c :: r => match r with
              | c1 :: c2 :: r' => if (c =? 58) && (c1 =? 58) then 46 :: c2 + 32 :: translated r' else c :: translated r
              | _ => c :: translated r
              end
  end.
Lemma upper_lower c : upper c -> lower_byte c = [c + 32].
Proof. unfold upper, lower_byte. intros H. destruct (Z.leb_spec 65 c), (Z.leb_spec c 90); cbn [andb]; try lia; reflexivity. Qed.
Lemma translated_char c r : word_char c -> translated (c :: r) = c :: translated r.
Proof. intros H. cbn [translated]. destruct r as [|c1 [|c2 r]]; auto. unfold word_char, upper, lower in H. destruct (Z.eqb_spec c 58); [lia|reflexivity]. Qed.
Lemma split_char part c r : word_char c -> split_colons part (c :: r) = split_colons (c :: part) r.
Proof. intros H. cbn [split_colons]. destruct r as [|c1 r]; auto. unfold word_char, upper, lower in H. destruct (Z.eqb_spec c 58); [lia|reflexivity]. Qed.
Lemma upper_word c : upper c -> word_char c.
Proof. unfold word_char. tauto. Qed.
Lemma join_cons n r : r <> [] -> join_dots (n :: r) = n ++ 46 :: join_dots r.
Proof. destruct r; [congruence|reflexivity]. Qed.
Lemma split_some l : name_rest true l -> forall c part, upper c ->
  exists ns, lower_parts (split_colons (part ++ [c]) l) = Some ns /\ ns <> [] /\ join_dots ns = (c + 32 :: rev part) ++ translated l.
Proof.
  induction 1 as [|d l D F IH|d l D F IH]; intros c part C.
  - cbn [split_colons translated]. rewrite rev_app_distr. cbn [rev app lower_parts]. rewrite upper_lower by exact C. eexists. split; [reflexivity|]. split; [discriminate|]. cbn. now rewrite app_nil_r.
  - rewrite split_char, translated_char by exact D. destruct (IH c (d :: part) C) as (ns & E & N & J). cbn [app] in E. exists ns. split; [exact E|]. split; [exact N|]. rewrite J. cbn [rev app]. now rewrite <- app_assoc.
  - change (split_colons (part ++ [c]) (58 :: 58 :: d :: l)) with (rev (part ++ [c]) :: split_colons [] (d :: l)). rewrite split_char by now apply upper_word.
    destruct (IH d [] D) as (ns & E & N & J). cbn [app] in E. rewrite rev_app_distr. cbn [rev app lower_parts]. rewrite E, upper_lower by exact C. eexists. split; [reflexivity|]. split; [discriminate|].
    rewrite join_cons by exact N. rewrite J. cbn [app rev]. change (translated (58 :: 58 :: d :: l)) with (46 :: d + 32 :: translated l). reflexivity.
Qed.
Theorem to_dgo_name_some c l : upper c -> name_rest true l -> to_dgo_name (c :: l) = Some (c + 32 :: translated l).
Proof.
  intros C L. unfold to_dgo_name. rewrite split_char by now apply upper_word. destruct (split_some l L c [] C) as (ns & E & _ & J). cbn [app] in E. rewrite E. f_equal. exact J.
Qed.
Lemma word_no_dot c : word_char c -> c <> 46.
Proof. unfold word_char, upper, lower. lia. Qed.
Lemma translated_injective l : name_rest true l -> forall l', name_rest true l' -> translated l = translated l' -> l = l'.
Proof.
  induction 1 as [|d l D F IH|d l D F IH]; intros l' L'; inversion L' as [|e k Ek Fk Eq|e k Ek Fk Eq]; subst; try rewrite !translated_char by assumption;
    repeat match goal with |- context [translated (58 :: 58 :: ?x :: ?y)] => change (translated (58 :: 58 :: x :: y)) with (46 :: x + 32 :: translated y) end; intros X; try discriminate X; auto.
  - injection X as -> X. f_equal. now apply IH.
  - injection X as X _. now apply word_no_dot in D.
  - rewrite translated_char in X by exact Ek. injection X as X _. symmetry in X. now apply word_no_dot in Ek.
  - injection X as X Y. assert (d = e) as -> by lia. do 3 f_equal. now apply IH.
Qed.
Theorem names_translate s t : ~ In k_name s -> delivers (pc_tokens s) t -> t_type t = k_name -> exists d, to_dgo_name (t_value t) = Some d.
Proof.
  intros N D T. apply names_are_names in D; auto. destruct (t_value t) as [|c l]; [contradiction|]. destruct D as [C L]. rewrite to_dgo_name_some by assumption. eauto.
Qed.
Theorem names_differ s s' t t' d : ~ In k_name s -> ~ In k_name s' -> delivers (pc_tokens s) t -> delivers (pc_tokens s') t' -> t_type t = k_name -> t_type t' = k_name ->
  to_dgo_name (t_value t) = Some d -> to_dgo_name (t_value t') = Some d -> t_value t = t_value t'.
Proof.
  intros N N' D D' T T'. apply names_are_names in D; auto. apply names_are_names in D'; auto. destruct (t_value t) as [|c l]; [contradiction|]. destruct (t_value t') as [|c' l']; [contradiction|].
  destruct D as [C L], D' as [C' L']. rewrite !to_dgo_name_some by assumption. intros X Y. rewrite <- Y in X. injection X as X1 X2. f_equal; [lia|]. now apply translated_injective.
Qed.
Lemma no_colon_translated l : name_rest true l -> ~ In 58 l -> translated l = l /\ forallb is_id l = true.
Proof.
  induction 1 as [|d l D F IH|d l D F IH]; intros N.
  - auto.
  - destruct IH as [A B]; [intros X; apply N; now right|]. rewrite translated_char by exact D. rewrite A. split; [reflexivity|]. cbn [forallb]. rewrite B.
    unfold is_id, is_id_start, is_letter, is_digit, Utf8.between, word_char, upper, lower in *. lia.
  - destruct N. now left.
Qed.
Lemma small_encode l : forallb (fun c => between 0 c 127) l = true -> encode l = l.
Proof.
  induction l as [|c l IH]; cbn [forallb]; intros H; [reflexivity|]. apply andb_true_iff in H as [A B]. change (encode (c :: l)) with (encode_rune c ++ encode l). rewrite IH by exact B.
  unfold encode_rune. unfold between in A. destruct (Z.ltb_spec c 128); [reflexivity|lia].
Qed.
Theorem simple_names_are_read s t : ~ In k_name s -> delivers (pc_tokens s) t -> t_type t = k_name -> ~ In 58 (t_value t) ->
  exists d, to_dgo_name (t_value t) = Some d /\ tokens d = LTok (mk_token d t_identifier) LEnd.
Proof.
  intros N D T X. apply names_are_names in D; auto. destruct (t_value t) as [|c l]; [contradiction|]. destruct D as [C L]. rewrite to_dgo_name_some by assumption. eexists. split; [reflexivity|].
  destruct (no_colon_translated l L) as [A B]; [intros Y; apply X; now right|]. rewrite A.
  assert (I : identifier_text (c + 32 :: l)) by (split; [unfold is_id_start, is_letter, Utf8.between, upper in *; lia|exact B]).
  pose proof (tokens_feed (fun _ => true) [PId (c + 32 :: l)]) as F. cbn [lexable tok_ok tok_fits all_chars flat_map chars feed tok app] in F. rewrite app_nil_r in F.
  rewrite small_encode in F by now apply identifier_small. apply F. repeat split; apply I.
Qed.
