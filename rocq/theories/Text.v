(* The string reader and the indenter of /repo/util. A string is the list of its bytes. A panic is
   the result None. *)
From Coq Require Import ZArith List Bool.
From Verif Require Import Utf8.
Import ListNotations.
Open Scope Z_scope.

(* util/reader.go:9-14 StringReader *)
Record reader := mk_reader { r_p : nat; r_l : nat; r_c : nat; r_s : list Z }.

(* util/reader.go:17-19 NewStringReader *)
Definition new_reader (s : list Z) : reader := mk_reader 0 0 0 s.

(* util/reader.go:22-48 Next. DecodeRuneInString of a single byte character gives that byte
   (Utf8.decode_rune), the branch of the code for c < RuneSelf is kept. *)
Definition next (r : reader) : option (Z * reader) :=
  if Nat.leb (length (r_s r)) (r_p r) then
    if Nat.eqb (r_p r) (length (r_s r)) then Some (0, mk_reader (S (r_p r)) (r_l r) (S (r_c r)) (r_s r))
    else Some (0, r)
  else
    let rest := skipn (r_p r) (r_s r) in
    let c := hd 0 rest in
    if c <? 128 then
      if c =? 10 then Some (c, mk_reader (S (r_p r)) (S (r_l r)) 1 (r_s r))
      else Some (c, mk_reader (S (r_p r)) (r_l r) (S (r_c r)) (r_s r))
    else
      let (c, size) := decode_rune rest in
      if c =? rune_error then None
      else Some (c, mk_reader (r_p r + size) (r_l r) (S (r_c r)) (r_s r)).

(* util/reader.go:51-63 Peek *)
Definition peek (r : reader) : option Z :=
  if Nat.leb (length (r_s r)) (r_p r) then Some 0
  else
    let rest := skipn (r_p r) (r_s r) in
    let c := hd 0 rest in
    if 128 <=? c then
      let (c, _) := decode_rune rest in
      if c =? rune_error then None else Some c
    else Some c.

(* util/reader.go:66-94 Peek2 *)
Definition peek2 (r : reader) : option Z :=
  if Nat.leb (length (r_s r)) (r_p r) then Some 0
  else
    let rest := skipn (r_p r) (r_s r) in
    let c := hd 0 rest in
    let second (sz : nat) :=
      let np := (r_p r + sz)%nat in
      if Nat.leb (length (r_s r)) np then Some 0
      else
        let rest := skipn np (r_s r) in
        let c := hd 0 rest in
        if 128 <=? c then
          let (c, _) := decode_rune rest in
          if c =? rune_error then None else Some c
        else Some c in
    if 128 <=? c then
      let (c, sz) := decode_rune rest in
      if c =? rune_error then None else second sz
    else second 1%nat.

(* util/reader.go:97-109 Column, Line, Pos *)
Definition column (r : reader) : nat := S (r_c r).
Definition line (r : reader) : nat := S (r_l r).
Definition pos (r : reader) : nat := r_p r.

(* util/reader.go:112-116 Rewind *)
Definition rewind (r : reader) : reader := mk_reader 0 0 0 (r_s r).

(* n calls of Next (not code of /repo) *)
Fixpoint nexts (n : nat) (r : reader) : option (list Z * reader) :=
  match n with
  | O => Some ([], r)
  | S n => match next r with
           | None => None
           | Some (c, r') => match nexts n r' with None => None | Some (cs, r'') => Some (c :: cs, r'') end
           end
  end.

(* ---------- the indenter ---------- *)

(* util/indenter.go:13-17 indenter, without the buffer. The buffer is shared by an indenter and those that
   Indent() makes of it (indenter.go:135-139), it is passed explicitly. *)
Record indenter := mk_indenter { i_level : nat; i_indent : list Z }.

(* util/write.go:37-50 WriteRune: the bytes that are written *)
Definition write_rune (c : Z) : list Z := if c <? 128 then [c] else encode_rune c.

(* util/indenter.go:55-73, the loop of String: b is what is left in the buffer, wb and n are the buffers with
   deferred blanks and with the result. bytes.Buffer.ReadRune returns the next rune and its
   width, for an invalid encoding RuneError and 1. The loop ends as each step reads a byte. *)
Fixpoint string_loop (fuel : nat) (b wb n : list Z) : list Z :=
  match fuel with
  | O => n
  | S fuel =>
    match b with
    | [] => n
    | _ =>
      let (r, size) := decode_rune b in
      let b := skipn size b in
      if (r =? 32) || (r =? 9) then string_loop fuel b (wb ++ [r]) n
      else if r =? 10 then string_loop fuel b [] (n ++ write_rune r)
      else string_loop fuel b [] (n ++ wb ++ write_rune r)
    end
  end.

(* util/indenter.go:52-75 String: the result and what is left in the buffer *)
Definition to_string (b : list Z) : list Z * list Z := (string_loop (length b) b [] [], []).

(* util/indenter.go:85-91 AppendRune, Append *)
Definition append_rune (b : list Z) (c : Z) : list Z := b ++ write_rune c.
Definition append (b s : list Z) : list Z := b ++ s.

(* util/indenter.go:149-156 NewLine *)
Fixpoint write_times (n : nat) (s b : list Z) : list Z :=
  match n with O => b | S n => write_times n s (b ++ s) end.
Definition new_line (i : indenter) (b : list Z) : list Z :=
  if Nat.ltb 0 (length (i_indent i)) then write_times (i_level i) (i_indent i) (b ++ [10]) else b.

(* util/indenter.go:135-139 Indent *)
Definition indent (i : indenter) : indenter := mk_indenter (S (i_level i)) (i_indent i).

(* strings.IndexByte, the position of the first byte c (Go library) *)
Fixpoint index_byte (s : list Z) (c : Z) : option nat :=
  match s with
  | [] => None
  | x :: r => if x =? c then Some 0%nat else match index_byte r c with Some n => Some (S n) | None => None end
  end.

(* util/indenter.go:104-119 AppendIndented *)
Fixpoint append_indented_loop (fuel : nat) (i : indenter) (s b : list Z) : list Z :=
  match fuel with
  | O => b
  | S fuel =>
    match index_byte s 10 with
    | Some ni =>
      let b := if Nat.ltb 0 ni then b ++ firstn ni s else b in
      let b := new_line i b in
      let ni := S ni in
      if Nat.leb (length s) ni then b else append_indented_loop fuel i (skipn ni s) b
    | None => if Nat.ltb 0 (length s) then b ++ s else b
    end
  end.
Definition append_indented (i : indenter) (s b : list Z) : list Z := append_indented_loop (S (length s)) i s b.
