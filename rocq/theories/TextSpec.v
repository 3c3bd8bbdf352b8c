(* What reading and writing text should do, stated without reference to the code. *)
From Coq Require Import ZArith List Bool Lia.
From Verif Require Import Utf8 Text.
Import ListNotations.
Open Scope Z_scope.

(* a Unicode character, except for the replacement character *)
Definition char (c : Z) : Prop := scalar c /\ c <> rune_error.

(* bytes *)
Definition byte (b : Z) : Prop := 0 <= b < 256.

Definition newlines (cs : list Z) : nat := length (filter (Z.eqb 10) cs).

(* the number of characters after the last newline *)
Fixpoint since_newline (acc : nat) (cs : list Z) : nat :=
  match cs with
  | [] => acc
  | c :: r => since_newline (if c =? 10 then 0%nat else S acc) r
  end.

(* ---------- text without blanks at the ends of lines ---------- *)

Definition blank (c : Z) : bool := (c =? 32) || (c =? 9).

(* the lines of a text: at least one, one more than there are newlines *)
Fixpoint lines (s : list Z) : list (list Z) :=
  match s with
  | [] => [[]]
  | c :: r =>
    if c =? 10 then [] :: lines r
    else match lines r with
         | l :: ls => (c :: l) :: ls
         | [] => [[c]]
         end
  end.

Fixpoint unlines (ls : list (list Z)) : list Z :=
  match ls with
  | [] => []
  | [l] => l
  | l :: r => l ++ 10 :: unlines r
  end.

(* t is s without the blanks at its end *)
Definition stripped (s t : list Z) : Prop :=
  exists bs, s = t ++ bs /\ forallb blank bs = true /\ (forall t' c, t = t' ++ [c] -> blank c = false).

(* every line of s without the blanks at its end *)
Definition stripped_lines (s t : list Z) : Prop :=
  exists ts, t = unlines ts /\ Forall2 stripped (lines s) ts.

(* a newline followed by the indentation; nothing when there is no indentation *)
Definition line_break (i : indenter) : list Z :=
  if Nat.eqb (length (i_indent i)) 0 then [] else 10 :: concat (repeat (i_indent i) (i_level i)).

Definition broken (i : indenter) (c : Z) : list Z := if c =? 10 then line_break i else [c].

