(* Properties C35 and C50. Only statements, [exact], assumptions and examples. *)
From Coq Require Import ZArith List Bool Lia.
From Verif Require Import Utf8 Text TextSpec Utf8Proofs TextProofs.
Import ListNotations.
Open Scope Z_scope.

(* C35: after n calls of Next the reader of the text cs has returned its first n characters (zeros after
   the end), Peek and Peek2 return the next two and Pos, Line and Column are where they should be. Partial: the
   text does not contain the replacement character U+FFFD; Column is too large by one after the
   first line. *)
Theorem C35_reader_partial :
  forall cs n, Forall char cs ->
  exists r, nexts n (new_reader (encode cs)) = Some (firstn n (cs ++ repeat 0 n), r) /\
  (exists r', next r = Some (nth n cs 0, r')) /\
  peek r = Some (nth n cs 0) /\ peek2 r = Some (nth (S n) cs 0) /\
  rewind r = new_reader (encode cs) /\
  line r = S (newlines (firstn n cs)) /\
  ((n <= length cs)%nat -> pos r = length (encode (firstn n cs)) /\
    column r = (S (since_newline 0 (firstn n cs)) + if Nat.eqb (newlines (firstn n cs)) 0 then 0 else 1)%nat) /\
  ((length cs < n)%nat -> pos r = S (length (encode cs))).
Proof. exact reader_reads_text. Qed.
Print Assumptions C35_reader_partial.

(* for arbitrary bytes: a character that starts at the position is returned and skipped, and without one Next panics *)
Theorem C35_next_on_bytes :
  forall s p l k, Forall byte s -> (p < length s)%nat ->
  match next (mk_reader p l k s) with
  | Some (c, r) => char c /\ exists t, skipn p s = encode_rune c ++ t /\ r_p r = (p + length (encode_rune c))%nat /\ r_s r = s
  | None => ~ exists c t, char c /\ skipn p s = encode_rune c ++ t
  end.
Proof. exact next_reads_character. Qed.
Print Assumptions C35_next_on_bytes.

(* reader.go:35-38: a valid text that contains U+FFFD *)
Theorem C35_replacement_character_refuted :
  scalar rune_error /\ next (new_reader (encode [rune_error])) = None.
Proof. split; [unfold scalar, rune_error; lia|reflexivity]. Qed.
Print Assumptions C35_replacement_character_refuted.

(* reader.go:30-32: the column of the first character of the second line is 2 *)
Theorem C35_column_refuted :
  exists r, nexts 2 (new_reader [97; 10; 98]) = Some ([97; 10], r) /\ line r = 2%nat /\ peek r = Some 98 /\ column r = 2%nat /\
  column (new_reader [97; 10; 98]) = 1%nat.
Proof. eexists. split; [reflexivity|]. vm_compute. auto. Qed.
Print Assumptions C35_column_refuted.

Example C35_example :
  Forall char [114; 246; 8364; 128512] /\ nexts 6 (new_reader (encode [114; 246; 8364; 128512])) =
  Some ([114; 246; 8364; 128512; 0; 0], mk_reader 11 0 5 (encode [114; 246; 8364; 128512])).
Proof. split; [repeat constructor; unfold scalar, rune_error; lia|reflexivity]. Qed.

(* C50: String() returns the lines of the text without the blanks at their ends, and nothing else. Partial: the
   buffer contains valid UTF-8. *)
Theorem C50_string_strips_partial :
  forall cs, Forall scalar cs -> exists t, to_string (encode cs) = (encode t, []) /\ stripped_lines cs t.
Proof. exact indenter_string. Qed.
Print Assumptions C50_string_strips_partial.

(* this determines the result *)
Theorem C50_stripped_unique :
  forall s t t', stripped_lines s t -> stripped_lines s t' -> t = t'.
Proof. exact stripped_lines_unique. Qed.
Print Assumptions C50_stripped_unique.

(* AppendIndented appends the text with the indentation after each newline *)
Theorem C50_append_indented :
  forall i s b, append_indented i s b = b ++ flat_map (broken i) s.
Proof. exact append_indented_breaks. Qed.
Print Assumptions C50_append_indented.

(* indenter.go:56,72: bytes that are not UTF-8 are replaced by U+FFFD *)
Theorem C50_invalid_bytes_refuted : to_string [97; 255; 98] = ([97; 239; 191; 189; 98], []).
Proof. reflexivity. Qed.
Print Assumptions C50_invalid_bytes_refuted.

(* indenter.go:56: String() empties the buffer, the second call returns nothing *)
Theorem C50_string_twice_refuted :
  let (s, b) := to_string [97] in s = [97] /\ fst (to_string b) = [].
Proof. split; reflexivity. Qed.
Print Assumptions C50_string_twice_refuted.

Example C50_example :
  to_string (encode [97; 32; 32; 10; 32; 8364; 9]) = (encode [97; 10; 32; 8364], []) /\
  append_indented (mk_indenter 2 [32]) [97; 10; 98; 10] [] = [97; 10; 32; 32; 98; 10; 32; 32].
Proof. split; reflexivity. Qed.
