(* Which calls a property about shared memory is about. *)
From Verif Require Import Share.

(* no ReflectTo into a pointer for the value i *)
Definition unpointed (i : nat) (c : op) : Prop := match c with ReflectPtr j => j <> i | _ => True end.
