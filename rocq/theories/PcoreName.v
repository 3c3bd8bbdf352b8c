(* The names of types in the Puppet type language and in dgo: /repo/streamer/pcore/parser.go. *)
From Coq Require Import ZArith List Bool.
From Verif Require Import Text.
Import ListNotations.
Open Scope Z_scope.

(* strings.Split of the Go library with the separator ::, used in parser.go:813; [part] is the part so far, in reverse *)
Fixpoint split_colons (part s : list Z) : list (list Z) :=
  match s with
  | c :: r =>
      match r with
      | c1 :: r' => if (c =? 58) && (c1 =? 58) then rev part :: split_colons [] r' else split_colons (c :: part) r
      | [] => split_colons (c :: part) r
      end
  | [] => [rev part]
  end.
(* strings.ToLower of the Go library for one byte, used in parser.go:816: a byte that is no character of its own is replaced by U+FFFD *)
Definition lower_byte (c : Z) : list Z := if (65 <=? c) && (c <=? 90) then [c + 32] else if c <? 128 then [c] else [239; 191; 189].
(* the loop of toDgoName, parser.go:814-817; n[:1] panics if n is empty (None) *)
Fixpoint lower_parts (ns : list (list Z)) : option (list (list Z)) :=
  match ns with
  | [] => Some []
  | [] :: _ => None
  | (c :: n) :: r => match lower_parts r with Some r' => Some ((lower_byte c ++ n) :: r') | None => None end
  end.
(* strings.Join of the Go library with a dot, used in parser.go:818 *)
Fixpoint join_dots (ns : list (list Z)) : list Z :=
  match ns with
  | [] => []
  | [n] => n
  | n :: r => n ++ 46 :: join_dots r
  end.
(* toDgoName, parser.go:812-819 *)
Definition to_dgo_name (s : list Z) : option (list Z) := match lower_parts (split_colons [] s) with Some ns => Some (join_dots ns) | None => None end.
