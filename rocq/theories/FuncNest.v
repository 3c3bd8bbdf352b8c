(* Function types whose arguments and results are function types in turn: /repo/internal/function.go. *)
From Coq Require Import ZArith List Bool.
From Verif Require Import Int64 Data Types Assign Func.
Import ListNotations.
Open Scope Z_scope.

(* The type of an argument or of a result: a type of Types.v, or a functionType (function.go:12-16) with two tuple types, each a list of types
   and whether it is variadic. Other types of function types, such as arrays or alternatives of functions, are left out. *)
Inductive nty := NTy (t : ty) | NFn (args : list nty) (variadic : bool) (rets : list nty) (rets_variadic : bool).

(* t.Assignable(f) of another type t for a function type f: any.go:17-19; ternary.go:49-63, 151-167, 271-283, 380-400 and not.go:68-69, which ask the
   operands; f is no dgo.ReverseAssignable, so that CheckAssignableTo (type.go:15-23), with which the others end, yields false. Operands are asked until
   the answer is known; they have no effects here. *)
Fixpoint takes_functions (t : ty) : bool :=
  match t with
  | TAny => true
  | TAllOf _ ts => forallb takes_functions ts
  | TAllOfValue _ vs => match vs with [] => true | _ => false end
  | TAnyOf _ ts => existsb takes_functions ts
  | TOneOf _ ts => Nat.eqb (length (filter takes_functions ts)) 1
  | TNot _ t => negb (takes_functions t)
  | _ => false
  end.
(* f.Assignable(t) of a function type f for another type t, function.go:221 with CheckAssignableTo and the methods AssignableTo of ternary.go:66-74,
   170-178, 285-293, 403-411, whose operands are no function types *)
Fixpoint goes_to_function (t : ty) : bool :=
  match t with
  | TAllOf _ ts => forallb goes_to_function ts
  | TAllOfValue _ vs => match vs with [] => true | _ => false end
  | TAnyOf _ ts | TOneOf _ ts => match ts with [] => false | _ => forallb goes_to_function ts end
  | _ => false
  end.

Section World.
Variable W : world.

(* Assignable(guard, a, b), compare.go:52-74, with functionTypeAssignable, function.go:215-222. As in Func.v the function types are not entered in the
   guard, as no function type occurs in itself, and that a type is assignable to itself without a look is left out for them. *)
Fixpoint nested (n : nat) (a b : nty) : M bool :=
  match n with
  | O => fail
  | S n =>
      match a, b with
      | NTy t, NTy u => asgn W n true t u
      | NTy t, NFn _ _ _ _ => ret (takes_functions t)
      | NFn _ _ _ _, NTy u => ret (goes_to_function u)
      | NFn args v rets rv, NFn args' v' rets' rv' =>
          andm (ret (Bool.eqb v v'))
            (andm (tuple_assignable_tuple (nested n) args v args' v') (tuple_assignable_tuple (nested n) rets rv rets' rv'))
      end
  end.
(* a.Assignable(b), function.go:207-209 *)
Definition nested_assignable (n : nat) (p : ptr) (a b : nty) : option bool :=
  outcome (with_guard (fun _ => Some {| aSeen := []; bSeen := []; seenInA := false; seenInB := false |}) (nested n a b) (start p)).
End World.
