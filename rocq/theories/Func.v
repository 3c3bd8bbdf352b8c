(* Function types: /repo/internal/function.go. *)
From Coq Require Import ZArith List Bool.
From Verif Require Import Int64 Data Types Assign.
Import ListNotations.
Open Scope Z_scope.

(* functionType, function.go:12-16: two tuple types, each a list of types and whether it is variadic. The
   types of arguments and results are no function types here. An exactFunctionType (function.go:18-29)
   gives tuples likewise, through In() and Out() (function.go:155-158, 171-174). *)
Record fty := FTy { f_args : list ty; f_variadic : bool; f_rets : list ty; f_rets_variadic : bool }.

(* FunctionType, function.go:197-205: a variadic tuple of results must be equal to DefaultTupleType, which is
   variadic with the one type any (array.go:351-352). None: panic *)
Definition new_function (args : list ty) (variadic : bool) (rets : list ty) (rets_variadic : bool) : option fty :=
  if rets_variadic && negb match rets with [TAny] => true | _ => false end then None
  else Some (FTy args variadic rets rets_variadic).

Section World.
Variable W : world.

(* functionTypeAssignable, function.go:215-222, for two function types. The guard that Assignable (compare.go:62-66)
   has made holds the two function types, which occur nowhere in their arguments and results; they are left
   out of it. That a type is assignable to itself without a look (compare.go:53) is left out. *)
Definition function_assignable (n : nat) (a b : fty) : M bool :=
  with_guard (fun _ => Some {| aSeen := []; bSeen := []; seenInA := false; seenInB := false |})
    (andm (ret (Bool.eqb (f_variadic a) (f_variadic b)))
      (andm (tuple_assignable_tuple (asgn W n true) (f_args a) (f_variadic a) (f_args b) (f_variadic b))
            (tuple_assignable_tuple (asgn W n true) (f_rets a) (f_rets_variadic a) (f_rets b) (f_rets_variadic b)))).

(* a.Assignable(b), function.go:207-209; also a.Instance(f) for a function f of type b, function.go:250-256 *)
Definition func_assignable (n : nat) (p : ptr) (a b : fty) : option bool := outcome (function_assignable n a b (start p)).
End World.
