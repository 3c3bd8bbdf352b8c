(* The iteration of an array by a callback that changes arrays: /repo/internal/array.go. *)
From Coq Require Import ZArith List Bool.
From Verif Require Import HMap Slices.
Import ListNotations.

Section ArrEach.
Variable V : Type.
Variable eqc : V -> option V -> bool.
Variables fz th : V -> V.
Variable grow : nat -> nat -> nat.

(* What a callback does to arrays: operations of Slices.v, one after the other. None: one of them panics, and the panic goes through the iteration. *)
Fixpoint callback (w : heap V) (os : list (op V)) : option (heap V) :=
  match os with
  | [] => Some w
  | o :: r => let (w', x) := step V eqc fz th grow w o in match x with RPanic _ => None | _ => callback w' r end
  end.

(* a := v.slice; for i := range a { actor(a[i]) }: Each (array.go:999-1004), EachWithIndex (1006-1011), and likewise All (857-865), Any (867-875), Find (1024-1032),
   Map (1140-1147), One (1149-1161), Reduce (1163-1170), Reject (1235-1245) and Select (1251-1261) as long as they do not return early. The slice [s] is the one that
   the array had at the beginning. [n] elements from [i] on are to come. The callback decides by all that it has been given, the last first; None is the Go nil. *)
Fixpoint each_from (n i : nat) (f : list (option V) -> list (op V)) (s : slice) (w : heap V) (seen : list (option V)) : option (heap V * list (option V)) :=
  match n with
  | O => Some (w, rev seen)
  | S n =>
      let seen := nth i (cells V (bufs V w) s) None :: seen in
      match callback w (f seen) with None => None | Some w => each_from n (S i) f s w seen end
  end.
Definition each_array (a : nat) (f : list (option V) -> list (op V)) (w : heap V) : option (heap V * list (option V)) :=
  match nth_error (arrays V w) a with
  | None => None
  | Some x => each_from (slen (aslice x)) 0 f (aslice x) w []
  end.
End ArrEach.
