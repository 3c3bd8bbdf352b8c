(* Properties C36, C61 and C62. Only statements, [exact], assumptions and examples. *)
From Coq Require Import Strings.String.
From Coq Require Import ZArith List Bool Lia.
From Verif Require Import Int64 Utf8 Text TextSpec Print Lexer LexerSpec LexerProofs SlashProofs.
Import ListNotations.
Open Scope Z_scope.

(* C36. Partial: for strings of characters that strconv.Quote does not escape, tabs, line feeds and carriage returns.
   (P tells which characters beyond ASCII are printable.) Other strings: see the refutations. *)
Theorem C36_quoted_literal_partial :
  forall P pre cs rest, Forall char (pre ++ quote P cs ++ rest) -> Forall (literal_char P) cs ->
  reads_as pre (quote P cs) rest (mk_token (encode cs) t_string).
Proof. exact quoted_reads. Qed.
Print Assumptions C36_quoted_literal_partial.
Theorem C36_quoted_text_partial :
  forall P cs, Forall (literal_char P) cs -> tokens (encode (quote P cs)) = LTok (mk_token (encode cs) t_string) LEnd.
Proof. exact quoted_token. Qed.
Print Assumptions C36_quoted_text_partial.
(* Between backquotes every text stands for itself. *)
Theorem C36_raw_literal :
  forall pre cs rest, Forall char (pre ++ ([96] ++ cs ++ [96]) ++ rest) -> ~ In 96 cs -> ~ In 0 cs ->
  reads_as pre ([96] ++ cs ++ [96]) rest (mk_token (encode cs) t_string).
Proof. exact raw_reads. Qed.
Print Assumptions C36_raw_literal.
(* Patterns without backslashes and control characters *)
Theorem C36_pattern_literal_partial :
  forall pre cs rest, Forall char (pre ++ slash_quote cs ++ rest) -> Forall pattern_char cs ->
  reads_as pre (slash_quote cs) rest (mk_token (encode cs) t_regexp).
Proof. exact regexp_reads. Qed.
Print Assumptions C36_pattern_literal_partial.

(* All patterns, control characters included, are spelled between slashes, and the text tells the pattern, to a reader that knows
   the escapes. *)
Theorem C36_pattern_spelled : forall cs, Forall (fun c => 0 <= c) cs -> exists s, slash_quote cs = 47 :: s ++ [47] /\ spelled cs s.
Proof. exact slash_spelled. Qed.
Print Assumptions C36_pattern_spelled.
Theorem C36_spelling_unambiguous : forall cs s, spelled cs s -> forall cs', spelled cs' s -> cs = cs'.
Proof. exact spelled_unique. Qed.
Print Assumptions C36_spelling_unambiguous.

(* Characters that are not printable, like U+00A0 (no-break space) in the Go library, are written with escapes like \u00a0, which the
   lexer does not know. *)
Theorem C36_not_printable_refuted :
  forall P c, In c [160; 173; 7; 27; 127] -> P 160 = false -> P 173 = false -> tokens (encode (quote P [c])) = LPanic.
Proof.
  intros P c H E1 E2. cbn [In] in H. destruct H as [<-|[<-|[<-|[<-|[<-|[]]]]]]; unfold quote, quote_char, printable; cbn [flat_map Z.eqb Pos.eqb orb Z.ltb Z.compare Pos.compare Pos.compare_cont between]; rewrite ?E1, ?E2; vm_compute; reflexivity.
Qed.
Print Assumptions C36_not_printable_refuted.
(* The replacement character cannot be read at all. *)
Theorem C36_replacement_refuted : forall P, P 65533 = true -> quote P [65533] = [34; 65533; 34] /\ tokens (encode (quote P [65533])) = LPanic.
Proof. intros P E. unfold quote, quote_char, printable. cbn [flat_map Z.eqb Pos.eqb orb Z.ltb Z.compare Pos.compare Pos.compare_cont]. rewrite E. split; vm_compute; reflexivity. Qed.
Print Assumptions C36_replacement_refuted.
(* The pattern \d is written as /\\d/, and read as \\d: another pattern. *)
Theorem C36_pattern_refuted : slash_quote (lit "\d") = lit "/\\d/" /\ tokens (lit "/\\d/") = LTok (mk_token (lit "\\d") t_regexp) LEnd.
Proof. vm_compute. auto. Qed.
Print Assumptions C36_pattern_refuted.

(* C61. The lexer ends on every text, whatever its bytes, and each token but the last is made of at least one byte. *)
Theorem C61_lexer_ends : forall s, complete (tokens s).
Proof. exact tokens_complete. Qed.
Print Assumptions C61_lexer_ends.
Theorem C61_lexer_advances :
  forall r, match lex r with
            | Ok t r' => r_s r' = r_s r /\ (left r' <= left r)%nat /\ (t_type t <> t_end -> (left r' < left r)%nat)
            | Panic => True
            | Stuck => False
            end.
Proof. exact lex_advances. Qed.
Print Assumptions C61_lexer_advances.
(* The control characters 1 to 7 are mistaken for tokens with a text: the character 1 is an integer, an empty one, whose
   value is 0, and 5 an identifier. *)
Theorem C61_control_character_refuted :
  tokens [1] = LTok (mk_token [] t_integer) LEnd /\ token_int [] = 0 /\ tokens [5] = LTok (mk_token [] t_identifier) LEnd.
Proof. vm_compute. auto. Qed.
Print Assumptions C61_control_character_refuted.

(* C62. Integers that are printed in decimal are read back. *)
Theorem C62_integer_literal :
  forall pre z rest, Forall char (pre ++ itoa z ++ rest) -> in64 z -> ends_number rest -> reads_as pre (itoa z) rest (mk_token (itoa z) t_integer).
Proof. exact integer_reads. Qed.
Print Assumptions C62_integer_literal.
Theorem C62_integer_value : forall z, in64 z -> token_int (itoa z) = z.
Proof. exact token_int_itoa. Qed.
Print Assumptions C62_integer_value.
(* tokenInt ignores errors: what is no octal number is zero, what is out of range is the nearest integer. *)
Theorem C62_bad_literal_refuted :
  tokens (lit "08") = LTok (mk_token (lit "08") t_integer) LEnd /\ token_int (lit "08") = 0 /\
  tokens (lit "9223372036854775808") = LTok (mk_token (lit "9223372036854775808") t_integer) LEnd /\ token_int (lit "9223372036854775808") = max_int64.
Proof. vm_compute. auto. Qed.
Print Assumptions C62_bad_literal_refuted.

Example C36_ex :
  let cs := [34; 92; 10; 233; 128512] in
  Forall (literal_char (fun _ => true)) cs /\ quote (fun _ => true) cs = [34; 92; 34; 92; 92; 92; 110; 233; 128512; 34] /\
  Forall char (lit "[]" ++ quote (fun _ => true) cs ++ lit "|x") /\
  (exists r, after_chars (lit "[]" ++ quote (fun _ => true) cs ++ lit "|x") 2 r /\ lex r <> Panic).
Proof.
  assert (C : forall l, forallb (fun c => (0 <=? c) && (c <? 55296) || ((57344 <=? c) && (c <=? 1114111) && negb (c =? 65533)))%bool l = true -> Forall char l).
  { intros l H. apply Forall_forall. intros c Hc. rewrite forallb_forall in H. specialize (H c Hc). unfold char, scalar, rune_error. lia. }
  intros cs. split; [|split; [reflexivity|split]].
  - assert (Forall char cs) by (apply C; reflexivity). apply Forall_forall. intros c Hc. split; [now apply (proj1 (Forall_forall char cs))|]. cbn in Hc. destruct Hc as [<-|[<-|[<-|[<-|[<-|[]]]]]]; cbn; auto.
  - apply C. reflexivity.
  - eexists. split; [eexists; vm_compute; reflexivity|]. vm_compute. discriminate.
Qed.
Example C36_pattern_ex : Forall pattern_char (lit "^a/b*$") /\ slash_quote (lit "^a/b*$") = lit "/^a\/b*$/".
Proof. split; [|reflexivity]. apply Forall_forall. intros c Hc. vm_compute in Hc. unfold pattern_char, char, scalar, rune_error. repeat (destruct Hc as [<-|Hc]; [lia|]). contradiction. Qed.
Example C36_spelled_ex : slash_quote [27; 47; 9; 0; 65] = lit "/\u{1B}\/\t\u{0}A/" /\ spelled [27; 65] (lit "\u{1B}A").
Proof.
  split; [vm_compute; reflexivity|]. change (lit "\u{1B}A") with ([92; 117; 123] ++ [49; 66] ++ 125 :: [65]). apply spelled_code; [lia|cbn; lia| |apply spelled_plain; [lia|lia|lia|constructor]].
  unfold hex_numeral, upper_hex. split; [discriminate|]. split; [repeat constructor; lia|]. split; [intros H; discriminate H|reflexivity].
Qed.
Example C61_ex : tokens (lit "map[string]1..0x1F ""a") = LTok (mk_token (lit "map") t_identifier) (LTok (mk_token [] 91) (LTok (mk_token (lit "string") t_identifier)
  (LTok (mk_token [] 93) (LTok (mk_token (lit "1") t_integer) (LTok (mk_token (lit "..") t_dotdot) (LTok (mk_token (lit "0x1F") t_integer) LPanic)))))).
Proof. vm_compute. reflexivity. Qed.
Example C62_ex : in64 (-9223372036854775808) /\ itoa (-9223372036854775808) = lit "-9223372036854775808" /\ ends_number (lit "..5") /\ token_int (lit "0x1F") = 31.
Proof. split; [unfold in64, min_int64, max_int64; lia|]. split; [vm_compute; reflexivity|]. split; [vm_compute; repeat split; discriminate|vm_compute; reflexivity]. Qed.
