(* When a function can be used for another. *)
From Coq Require Import ZArith List Bool.
From Verif Require Import Int64 Data DataSpec Types TypesSpec Func.
Import ListNotations.
Open Scope Z_scope.

(* a list of values that a tuple describes *)
Definition arguments_fit (W : world) (f : fty) (l : list value) : Prop := has_type W (TTuple 0 (f_args f) (f_variadic f)) (VArr l).
Definition results_fit (W : world) (f : fty) (l : list value) : Prop := has_type W (TTuple 0 (f_rets f) (f_rets_variadic f)) (VArr l).
(* lists of data as they occur in programs *)
Definition proper (l : list value) : Prop := data veq (VArr l) /\ fits (VArr l).

(* a function of type b does where one of type a is wanted: it takes the arguments it gets there and what
   it returns is expected there *)
Definition substitutable (W : world) (a b : fty) : Prop :=
  (forall l, proper l -> arguments_fit W a l -> arguments_fit W b l) /\
  (forall l, proper l -> results_fit W b l -> results_fit W a l).

(* the fragment of types for which Assignable is sound, and distinct objects in a and b (TypesSpec.v) *)
Definition target_tuple (L : allowed) (A : ptr -> Prop) (ts : list ty) (v : bool) : Prop :=
  let t := TTuple 0 ts v in target_ok L t /\ flat_alternatives t /\ Forall (objects A) ts.
Definition source_tuple (L : allowed) (A : ptr -> Prop) (ts : list ty) (v : bool) : Prop :=
  let t := TTuple 0 ts v in source_ok L t /\ single_alternatives t /\ Forall (objects (fun q => ~ A q)) ts.
Definition within (L : allowed) (A : ptr -> Prop) (a b : fty) : Prop :=
  target_tuple L A (f_args a) (f_variadic a) /\ source_tuple L A (f_args b) (f_variadic b) /\
  target_tuple L A (f_rets a) (f_rets_variadic a) /\ source_tuple L A (f_rets b) (f_rets_variadic b).
