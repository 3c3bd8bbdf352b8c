(* What the lexer should do with literals, stated without reference to how it reads them. *)
From Coq Require Import ZArith List Bool.
From Verif Require Import Int64 Utf8 Text TextSpec Print Lexer.
Import ListNotations.
Open Scope Z_scope.

(* r is the reader of the text w after n characters have been read *)
Definition after_chars (w : list Z) (n : nat) (r : reader) : Prop := exists cs, nexts n (new_reader (encode w)) = Some (cs, r).

(* from where pre has been read, the lexer reads exactly the characters l and delivers t *)
Definition reads_as (pre l rest : list Z) (t : token) : Prop :=
  forall r, after_chars (pre ++ l ++ rest) (length pre) r ->
  exists r', lex r = Ok t r' /\ after_chars (pre ++ l ++ rest) (length (pre ++ l)) r'.

(* characters that Quote writes as they are, and the ones with an escape that the lexer knows *)
Definition literal_char (is_print : Z -> bool) (c : Z) : Prop := char c /\ (printable is_print c = true \/ c = 9 \/ c = 10 \/ c = 13).
(* characters of a pattern *)
Definition pattern_char (c : Z) : Prop := char c /\ 32 <= c /\ c <> 92.

(* no token is missing for want of fuel *)
Fixpoint complete (l : lexed) : Prop := match l with LEnd | LPanic => True | LStuck => False | LTok _ l => complete l end.

(* the character after a number does not belong to it *)
Definition ends_number (rest : list Z) : Prop :=
  match rest with
  | [] => True
  | c :: r => is_digit c = false /\ c <> 101 /\ c <> 69 /\ c <> 120 /\ c <> 88 /\ (c = 46 -> hd 0 r = 46)
  end.
Definition ends_identifier (rest : list Z) : Prop := match rest with [] => True | c :: _ => is_id c = false end.
Definition identifier_text (l : list Z) : Prop := match l with [] => False | c :: r => is_id_start c = true /\ forallb is_id r = true end.

(* the number of bytes that are left to be read *)
Definition left (r : reader) : nat := length (r_s r) - r_p r.

(* how a pattern is spelled between slashes *)
Definition upper_value (c : Z) : Z := if c <? 58 then c - 48 else c - 55.
Definition upper_hex (c : Z) : Prop := 48 <= c <= 57 \/ 65 <= c <= 70.
(* a hexadecimal number without a zero in front *)
Definition hex_numeral (h : list Z) (n : Z) : Prop :=
  h <> [] /\ Forall upper_hex h /\ (hd 0 h = 48 -> h = [48]) /\ fold_left (fun a c => 16 * a + upper_value c) h 0 = n.
Inductive spelled : list Z -> list Z -> Prop :=
  | spelled_nil : spelled [] []
  | spelled_plain c cs s : 32 <= c -> c <> 47 -> c <> 92 -> spelled cs s -> spelled (c :: cs) (c :: s)
  | spelled_escape e c cs s : In (e, c) [(116, 9); (110, 10); (114, 13); (47, 47); (92, 92)] -> spelled cs s -> spelled (c :: cs) (92 :: e :: s)
  | spelled_code c h cs s : 0 <= c < 32 -> ~ In c [9; 10; 13] -> hex_numeral h c -> spelled cs s -> spelled (c :: cs) ([92; 117; 123] ++ h ++ 125 :: s).
