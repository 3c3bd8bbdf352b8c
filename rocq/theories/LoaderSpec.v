(* What callers of a loader may rely on. *)
From Coq Require Import ZArith List Bool.
From Verif Require Import Data DataSpec Loader.
Import ListNotations.

(* the finder returns data values *)
Definition proper (a : action) : Prop :=
  match a with
  | AFound _ (FVal v) => data veq v
  | AFound _ (FMulti m) => Forall (fun e => data veq (snd e)) m
  | _ => True
  end.

(* goroutine i does not make another call *)
Definition no_call (i : nat) (a : action) : Prop :=
  match a with AGet j _ | ANamespace j _ => j <> i | _ => True end.

Definition made_by (i : nat) (e : event) : bool :=
  match e with EGot j _ _ | ESpace j _ _ | ESelf j | EPanic j => Nat.eqb j i end.
(* what the calls of goroutine i have returned, the last first *)
Definition outcomes (i : nat) (s : state) : list event := filter (made_by i) (l_log s).

(* the action does not start a call *)
Definition continues (a : action) : Prop :=
  match a with AGet _ _ | ANamespace _ _ => False | _ => True end.
