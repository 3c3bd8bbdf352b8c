(* UTF-8 as decoded by the Go runtime: for ... range over a string and
   unicode/utf8.DecodeRuneInString. Bytes and code points are integers. *)
From Coq Require Import ZArith List Bool.
Import ListNotations.
Open Scope Z_scope.

(* unicode/utf8.RuneError, used in /repo/util/reader.go:30,59 *)
Definition rune_error : Z := 65533.

Definition between (lo x hi : Z) : bool := (lo <=? x) && (x <=? hi).

(* One step of decoding: code point and width. Width 1 with rune_error means an invalid
   encoding. Used by for-range loops (/repo/util/string.go:33) and by
   utf8.DecodeRuneInString (/repo/util/reader.go:29,58). Part of the Go runtime: trusted. *)
Definition decode_rune (s : list Z) : Z * nat :=
  match s with
  | [] => (rune_error, 0%nat)
  | b0 :: r =>
    if b0 <? 128 then (b0, 1%nat)
    else if between 194 b0 223 then
      match r with
      | b1 :: _ => if between 128 b1 191 then ((b0 - 192) * 64 + (b1 - 128), 2%nat) else (rune_error, 1%nat)
      | _ => (rune_error, 1%nat)
      end
    else if between 224 b0 239 then
      let lo := if b0 =? 224 then 160 else 128 in
      let hi := if b0 =? 237 then 159 else 191 in
      match r with
      | b1 :: b2 :: _ =>
        if between lo b1 hi && between 128 b2 191
        then ((b0 - 224) * 4096 + (b1 - 128) * 64 + (b2 - 128), 3%nat)
        else (rune_error, 1%nat)
      | _ => (rune_error, 1%nat)
      end
    else if between 240 b0 244 then
      let lo := if b0 =? 240 then 144 else 128 in
      let hi := if b0 =? 244 then 143 else 191 in
      match r with
      | b1 :: b2 :: b3 :: _ =>
        if between lo b1 hi && between 128 b2 191 && between 128 b3 191
        then ((b0 - 240) * 262144 + (b1 - 128) * 4096 + (b2 - 128) * 64 + (b3 - 128), 4%nat)
        else (rune_error, 1%nat)
      | _ => (rune_error, 1%nat)
      end
    else (rune_error, 1%nat)
  end.

(* string(rune), utf8.EncodeRune, for valid code points; used by util.WriteRune
   (/repo/util/write.go:37-50). Part of the Go runtime: trusted. *)
Definition encode_rune (c : Z) : list Z :=
  if c <? 128 then [c]
  else if c <? 2048 then [192 + c / 64; 128 + c mod 64]
  else if c <? 65536 then [224 + c / 4096; 128 + (c / 64) mod 64; 128 + c mod 64]
  else [240 + c / 262144; 128 + (c / 4096) mod 64; 128 + (c / 64) mod 64; 128 + c mod 64].

(* Unicode scalar values; definition of the Unicode standard (not code of /repo) *)
Definition scalar (c : Z) : Prop := 0 <= c < 55296 \/ 57344 <= c <= 1114111.

(* the UTF-8 text of a list of code points *)
Definition encode (cs : list Z) : list Z := flat_map encode_rune cs.
