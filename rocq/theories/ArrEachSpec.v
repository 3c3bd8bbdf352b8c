(* What is expected of an iteration of a list by a callback that changes lists. *)
From Coq Require Import ZArith List Bool.
From Verif Require Import HMap Slices SlicesSpec.
Import ListNotations.

Section Spec.
Variable V : Type.
Variable eqc : V -> option V -> bool.
Variables fz th : V -> V.

(* Operations that leave array [a] alone or append to it *)
Definition appends (a : nat) (o : op V) : Prop :=
  match o with
  | OAdd _ _ _ | OAddAll _ _ _ | OAddValues _ _ _ => True
  | _ => target V o <> Some a
  end.

(* Operations on lists, as long as none panics and the list [a] has at most [room] elements *)
Fixpoint callback_room (a room : nat) (w : sworld V) (os : list (op V)) : option (sworld V) :=
  match os with
  | [] => Some w
  | o :: r =>
      let (w', x) := sstep V eqc fz th w o in
      match x, nth_error w' a with
      | RPanic _, _ => None
      | _, Some (_, l) => if Nat.leb (length l) room then callback_room a room w' r else None
      | _, None => None
      end
  end.
(* What is given to the callback at position [i] is the element that is there now, and nothing if the list has become shorter. *)
Fixpoint each_room (a room n i : nat) (f : list (option V) -> list (op V)) (w : sworld V) (seen : list (option V)) : option (sworld V * list (option V)) :=
  match n with
  | O => Some (w, rev seen)
  | S n =>
      match nth_error w a with
      | None => None
      | Some (_, l) =>
          let seen := nth_error l i :: seen in
          match callback_room a room w (f seen) with None => None | Some w => each_room a room n (S i) f w seen end
      end
  end.

(* All callbacks: the first operation that makes the list [a] longer than [room] leaves behind what the list was before it, and that is visited from then on. *)
Fixpoint callback_exact (a room : nat) (w : sworld V) (behind : option (list V)) (os : list (op V)) : option (sworld V * option (list V)) :=
  match os with
  | [] => Some (w, behind)
  | o :: r =>
      let (w', x) := sstep V eqc fz th w o in
      match x with
      | RPanic _ => None
      | _ =>
          let behind' := match behind, nth_error w a, nth_error w' a with
                       | None, Some (_, l), Some (_, l') => if Nat.leb (length l') room then None else Some l
                       | _, _, _ => behind
                       end in
          callback_exact a room w' behind' r
      end
  end.
Fixpoint each_exact (a room n i : nat) (f : list (option V) -> list (op V)) (w : sworld V) (behind : option (list V)) (seen : list (option V)) : option (sworld V * list (option V)) :=
  match n with
  | O => Some (w, rev seen)
  | S n =>
      let l := match behind, nth_error w a with Some l, _ => l | None, Some (_, l) => l | None, None => [] end in
      let seen := nth_error l i :: seen in
      match callback_exact a room w behind (f seen) with None => None | Some (w, behind) => each_exact a room n (S i) f w behind seen end
  end.
End Spec.
