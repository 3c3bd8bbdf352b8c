(* What errors are expected to do, stated on their texts. *)
From Coq Require Import ZArith List Bool.
From Verif Require Import Int64 Data Types TypesSpec TypeEqSpec Syntax ErrorVal.
Import ListNotations.
Open Scope Z_scope.

(* the text of an operand that is an error *)
Definition said (E : env) (show : value -> list Z) (o : operand) : option (list Z) :=
  match o with OGo g => Some (g_msg g) | OErr e => Some (message E show e) | OVal _ => None end.
Definition is_wrapped (e : everr) : Prop := exists g, e = EWrap g.
(* both were made of Go errors, or neither *)
Definition same_origin (a b : everr) : Prop :=
  match a, b with
  | EWrap _, EWrap _ => True
  | EWrap _, _ | _, EWrap _ => False
  | _, _ => True
  end.
(* the types in the error have properties that make Equals of types an equivalence and their hash codes agree (see C09, C58) *)
Definition with_types (P : ty -> Prop) (e : everr) : Prop :=
  match e with EWrap _ => True | EType t u | EKey t u => P t /\ P u | ESize t _ => P t end.

(* the errors that an error is or is caused by *)
Inductive caused_by : gerr -> gerr -> Prop :=
| cb_self e : caused_by e e
| cb_next i m c e : caused_by c e -> caused_by (GErr i m (Some c)) e.
(* the identity of an error determines it *)
Definition one_object (e f : gerr) : Prop := g_id e = g_id f -> e = f.

(* a program that asks for no pointer to an error *)
Definition no_pointer (o : eop) : Prop := match o with EoToPointer _ => False | _ => True end.
