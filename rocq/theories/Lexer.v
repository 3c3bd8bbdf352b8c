(* The lexer of /repo/parser/lexer.go on the string reader of Text.v, and what the stringer writes for strings,
   patterns and integers. *)
From Coq Require Import Strings.Ascii Strings.String.
From Coq Require Import ZArith List Bool.
From Verif Require Import Int64 Utf8 Text Print.
Import ListNotations.
Open Scope Z_scope.

(* What a function of the lexer does: a result and the reader after it, a panic, or no result with the given fuel *)
Inductive res (A : Type) := Ok (x : A) (r : reader) | Panic | Stuck.
Arguments Ok {A}. Arguments Panic {A}. Arguments Stuck {A}.
Definition bind {A B} (m : res A) (f : A -> reader -> res B) : res B :=
  match m with Ok x r => f x r | Panic => Panic | Stuck => Stuck end.
(* sr.Next, sr.Peek and sr.Peek2 (util/reader.go:22-94), which panic on bytes that are not UTF-8 *)
Definition rd_next (r : reader) : res Z := match next r with Some (c, r') => Ok c r' | None => Panic end.
Definition rd_peek (r : reader) : res Z := match peek r with Some c => Ok c r | None => Panic end.
Definition rd_peek2 (r : reader) : res Z := match peek2 r with Some c => Ok c r | None => Panic end.
Notation "'do' c , r <- m ; f" := (bind m (fun c r => f)) (at level 200, c name, r name, m at level 100, f at level 200).

(* lexer.go:67-70 Token, with the types of lexer.go:16-25; other tokens have their character as type *)
Record token := mk_token { t_value : list Z; t_type : Z }.
Definition t_end := 0. Definition t_integer := 1. Definition t_float := 2. Definition t_string := 3.
Definition t_regexp := 4. Definition t_identifier := 5. Definition t_dotdot := 6. Definition t_dotdotdot := 7.

(* charTypes (lexer.go:41-64) as the functions lexer.go:173-215 use it *)
Definition is_digit (c : Z) : bool := between 48 c 57.
Definition is_letter (c : Z) : bool := between 65 c 90 || between 97 c 122.
Definition is_hex (c : Z) : bool := is_digit c || between 65 c 70 || between 97 c 102.
Definition is_id_start (c : Z) : bool := is_letter c || (c =? 36) || (c =? 95).
Definition is_id (c : Z) : bool := is_id_start c || is_digit c.
Definition is_expression_end (c : Z) : bool := existsb (Z.eqb c) [0; 41; 125; 93; 44; 58; 63; 124; 38; 94; 46].

(* consumeUnsignedInteger, lexer.go:158-171 *)
Fixpoint unsigned_integer (fuel : nat) (r : reader) (buf : list Z) : res (list Z) :=
  match fuel with
  | O => Stuck
  | S fuel =>
      do c, r <- rd_peek r;
      if (c =? 46) || is_letter c then Panic
      else if is_digit c then do c', r <- rd_next r; unsigned_integer fuel r (buf ++ write_rune c)
      else Ok buf r
  end.

(* consumeExponent, lexer.go:217-236; the loop of the code is left in its first round *)
Definition exponent (fuel : nat) (r : reader) (buf : list Z) : res (list Z) :=
  do c, r <- rd_next r;
  let finish c r buf := if is_digit c then unsigned_integer fuel r (buf ++ write_rune c) else Panic in
  if c =? 0 then Panic
  else if (c =? 43) || (c =? 45) then let buf := buf ++ write_rune c in do c, r <- rd_next r; finish c r buf
  else finish c r buf.

(* consumeHexInteger, lexer.go:238-242 *)
Fixpoint hex_integer (fuel : nat) (r : reader) (buf : list Z) : res (list Z) :=
  match fuel with
  | O => Stuck
  | S fuel =>
      do c, r <- rd_peek r;
      if is_hex c then do c', r <- rd_next r; hex_integer fuel r (buf ++ write_rune c') else Ok buf r
  end.

(* the loop of ConsumeNumber, lexer.go:249-292. The recursive call in line 278 starts over with firstZero = false
   and t = float after it has written the digit. *)
Fixpoint number_loop (fuel : nat) (first_zero : bool) (t : Z) (r : reader) (buf : list Z) : res (list Z * Z) :=
  match fuel with
  | O => Stuck
  | S fuel =>
      do c, r <- rd_peek r;
      if c =? 0 then Ok (buf, t) r
      else if c =? 48 then do c', r <- rd_next r; number_loop fuel first_zero t r (buf ++ write_rune c)
      else if (c =? 101) || (c =? 69) then
        do c', r <- rd_next r; do b, r <- exponent fuel r (buf ++ write_rune c); Ok (b, t_float) r
      else if (c =? 120) || (c =? 88) then
        if first_zero then
          do c', r <- rd_next r;
          let buf := buf ++ write_rune c in
          do c, r <- rd_next r;
          if is_hex c then do b, r <- hex_integer fuel r (buf ++ write_rune c); Ok (b, t) r else Panic
        else Panic
      else if c =? 46 then
        do c2, r <- rd_peek2 r;
        if c2 =? 46 then Ok (buf, t) r
        else if negb (t =? t_float) then
          do c', r <- rd_next r;
          let buf := buf ++ write_rune c in
          do c, r <- rd_next r;
          if is_digit c then number_loop fuel false t_float r (buf ++ write_rune c) else Panic
        else Panic
      else if negb (is_digit c) then Ok (buf, t) r
      else do c', r <- rd_next r; number_loop fuel first_zero t r (buf ++ write_rune c)
  end.
(* ConsumeNumber, lexer.go:245-293 *)
Definition consume_number (fuel : nat) (r : reader) (start : Z) (buf : list Z) (t : Z) : res (list Z * Z) :=
  number_loop fuel (negb (t =? t_float) && (start =? 48)) t r (buf ++ write_rune start).

(* ConsumeRegexp, lexer.go:297-320 *)
Fixpoint consume_regexp (fuel : nat) (r : reader) (buf : list Z) : res (list Z) :=
  match fuel with
  | O => Stuck
  | S fuel =>
      do c, r <- rd_next r;
      if c =? 47 then Ok buf r
      else if c =? 92 then
        do c, r <- rd_next r;
        if c =? 0 then Panic
        else consume_regexp fuel r (buf ++ (if c =? 47 then [] else write_rune 92) ++ write_rune c)
      else if (c =? 0) || (c =? 10) then Panic
      else consume_regexp fuel r (buf ++ write_rune c)
  end.

(* consumeEscape, lexer.go:344-361: what is written *)
Definition escape (c stop : Z) : option (list Z) :=
  if c =? 0 then None
  else if c =? 110 then Some (write_rune 10)
  else if c =? 114 then Some (write_rune 13)
  else if c =? 116 then Some (write_rune 9)
  else if c =? 92 then Some (write_rune c)
  else if c =? stop then Some (write_rune c) else None.
(* ConsumeString, lexer.go:324-342 *)
Fixpoint consume_string (fuel : nat) (r : reader) (stop : Z) (buf : list Z) : res (list Z) :=
  match fuel with
  | O => Stuck
  | S fuel =>
      do c, r <- rd_next r;
      if c =? stop then Ok buf r
      else if c =? 0 then Panic
      else if c =? 92 then
        do c, r <- rd_next r;
        match escape c stop with Some s => consume_string fuel r stop (buf ++ s) | None => Panic end
      else if c =? 10 then Panic
      else consume_string fuel r stop (buf ++ write_rune c)
  end.
(* consumeRawString, lexer.go:363-375 *)
Fixpoint raw_string (fuel : nat) (r : reader) (buf : list Z) : res (list Z) :=
  match fuel with
  | O => Stuck
  | S fuel =>
      do c, r <- rd_next r;
      if c =? 96 then Ok buf r else if c =? 0 then Panic else raw_string fuel r (buf ++ write_rune c)
  end.
(* consumeIdentifier, lexer.go:377-382, after the first character *)
Fixpoint identifier_loop (fuel : nat) (r : reader) (buf : list Z) : res (list Z) :=
  match fuel with
  | O => Stuck
  | S fuel =>
      do c, r <- rd_peek r;
      if is_id c then do c', r <- rd_next r; identifier_loop fuel r (buf ++ write_rune c') else Ok buf r
  end.

(* buildToken, lexer.go:143-156 *)
Definition build_token (fuel : nat) (c : Z) (r : reader) : res token :=
  if is_digit c then do bt, r <- consume_number fuel r c [] t_integer; Ok (mk_token (fst bt) (snd bt)) r
  else if is_id_start c then do b, r <- identifier_loop fuel r (write_rune c); Ok (mk_token b t_identifier) r
  else Ok (mk_token [] c) r.

(* nextToken, lexer.go:98-141 *)
Fixpoint next_token (fuel : nat) (r : reader) : res token :=
  match fuel with
  | O => Stuck
  | S fuel =>
      do c, r <- rd_next r;
      if c =? 0 then Ok (mk_token [] t_end) r
      else if (c =? 32) || (c =? 9) || (c =? 10) then next_token fuel r
      else if c =? 96 then do b, r <- raw_string fuel r []; Ok (mk_token b t_string) r
      else if c =? 34 then do b, r <- consume_string fuel r c []; Ok (mk_token b t_string) r
      else if c =? 47 then do b, r <- consume_regexp fuel r []; Ok (mk_token b t_regexp) r
      else if c =? 46 then
        do c1, r <- rd_peek r;
        if c1 =? 46 then
          do c', r <- rd_next r;
          do c2, r <- rd_peek r;
          if c2 =? 46 then do c', r <- rd_next r; Ok (mk_token (lit "...") t_dotdotdot) r
          else Ok (mk_token (lit "..") t_dotdot) r
        else Ok (mk_token [] c) r
      else if (c =? 45) || (c =? 43) then
        do n, r <- rd_next r;
        if is_digit n then
          do bt, r <- consume_number fuel r n (if c =? 45 then write_rune c else []) t_integer;
          Ok (mk_token (fst bt) (snd bt)) r
        else Panic
      else build_token fuel c r
  end.

(* The loops of the lexer read a byte in each round, until the zeros at the end. *)
Definition lex (r : reader) : res token := next_token (2 + length (r_s r)) r.

(* The tokens of a text, up to the first end or panic. The parser gets them one by one (parser.go:204-222), without
   an effect on the lexer. *)
Inductive lexed := LEnd | LPanic | LStuck | LTok (t : token) (l : lexed).
Fixpoint lex_all (n : nat) (r : reader) : lexed :=
  match n with
  | O => LStuck
  | S n => match lex r with
           | Ok t r => if t_type t =? t_end then LEnd else LTok t (lex_all n r)
           | Panic => LPanic
           | Stuck => LStuck
           end
  end.
Definition tokens (s : list Z) : lexed := lex_all (2 + length s) (new_reader s).

(* ---------- what the stringer writes ---------- *)

(* hexadecimal digits, as written by fmt and strconv *)
Definition hex_digit (upper : bool) (d : Z) : Z := if d <? 10 then 48 + d else (if upper then 55 else 87) + d.
Fixpoint hex_n (n : nat) (z : Z) : list Z := match n with O => [] | S n => hex_n n (z / 16) ++ [hex_digit false (z mod 16)] end.

(* strconv.Quote (Go library) of a text that is given by its code points: appendEscapedRune with double quotes. IsPrint of
   characters beyond ASCII is a parameter. *)
Section Quote.
Variable is_print : Z -> bool.
Definition printable (c : Z) : bool := if c <? 128 then between 32 c 126 else is_print c.
Definition quote_char (c : Z) : list Z :=
  if (c =? 34) || (c =? 92) then [92; c]
  else if printable c then [c]
  else if c =? 7 then [92; 97] else if c =? 8 then [92; 98] else if c =? 12 then [92; 102]
  else if c =? 10 then [92; 110] else if c =? 13 then [92; 114] else if c =? 9 then [92; 116]
  else if c =? 11 then [92; 118]
  else if (c <? 32) || (c =? 127) then [92; 120] ++ hex_n 2 c
  else if c <? 65536 then [92; 117] ++ hex_n 4 c else [92; 85] ++ hex_n 8 c.
Definition quote (cs : list Z) : list Z := [34] ++ flat_map quote_char cs ++ [34].
End Quote.

(* internal.RegexpSlashQuote (internal/regexp.go:138-161), on code points *)
Definition slash_char (c : Z) : list Z :=
  if c =? 9 then [92; 116] else if c =? 10 then [92; 110] else if c =? 13 then [92; 114]
  else if c =? 47 then [92; 47] else if c =? 92 then [92; 92]
  else if c <? 32 then [92; 117; 123] ++ (if c <? 16 then [] else [hex_digit true (c / 16)]) ++ [hex_digit true (c mod 16); 125]
  else [c].
Definition slash_quote (cs : list Z) : list Z := [47] ++ flat_map slash_char cs ++ [47].

(* ---------- tokenInt, parser.go:791-794 ---------- *)

(* strconv.ParseInt (Go library) with base 0 and 64 bits on what the lexer delivers as integer: an optional '-', a prefix
   0x, 0X or 0, digits. The error is ignored, so that a text that is not a number is 0 and one that is out of range is
   the nearest number. *)
Definition digit_value (c : Z) : Z := if is_digit c then c - 48 else if between 97 c 102 then c - 87 else if between 65 c 70 then c - 55 else 16.
Fixpoint digits_value (base : Z) (acc : Z) (s : list Z) : option Z :=
  match s with
  | [] => Some acc
  | c :: r => if digit_value c <? base then digits_value base (acc * base + digit_value c) r else None
  end.
Definition parse_unsigned (s : list Z) : option Z :=
  match s with
  | [] => None
  | [48] => Some 0
  | 48 :: x :: r => if (x =? 120) || (x =? 88) then match r with [] => None | _ => digits_value 16 0 r end else digits_value 8 0 (x :: r)
  | _ => digits_value 10 0 s
  end.
Definition token_int (s : list Z) : Z :=
  match s with
  | 45 :: r => match parse_unsigned r with Some z => Z.max Int64.min_int64 (- z) | None => 0 end
  | _ => match parse_unsigned s with Some z => Z.min Int64.max_int64 z | None => 0 end
  end.
