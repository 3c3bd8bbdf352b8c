(* What function types mean whose arguments and results are function types in turn. *)
From Coq Require Import ZArith List Bool.
From Verif Require Import Int64 Data DataSpec Types TypesSpec FuncSpec FuncNest.
Import ListNotations.
Open Scope Z_scope.

(* the values: data, and the functions of a program, whatever they are *)
Inductive nval (F : Type) := DVal (v : value) | FVal (f : F).
Arguments DVal {F}. Arguments FVal {F}.

(* a type of data that a function belongs to *)
Fixpoint function_in (t : ty) : Prop :=
  match t with
  | TAny => True
  | TAllOf _ ts => fold_right and True (map function_in ts)
  | TAllOfValue _ vs => vs = []
  | TAnyOf _ ts => fold_right or False (map function_in ts)
  | TOneOf _ ts => exists l1 P l2, map function_in ts = l1 ++ P :: l2 /\ P /\ Forall (fun Q : Prop => ~ Q) (l1 ++ l2)
  | TNot _ t => ~ function_in t
  | _ => False
  end.

Section Functions.
Variable W : world.
(* the functions; whether a call with these arguments is possible, and what it may return *)
Variable F : Type.
Variable takes : F -> list (nval F) -> Prop.
Variable gives : F -> list (nval F) -> list (nval F) -> Prop.

(* a list of values that a tuple describes *)
Definition listed (Ps : list (nval F -> Prop)) (variadic : bool) (xs : list (nval F)) : Prop :=
  if variadic then exists Qs P l1 l2, Ps = Qs ++ [P] /\ xs = l1 ++ l2 /\ Forall2 (fun (Q : nval F -> Prop) x => Q x) Qs l1 /\ Forall P l2
  else Forall2 (fun (Q : nval F -> Prop) x => Q x) Ps xs.

(* a function of a function type can be called with all arguments that are described, and returns what is described *)
Fixpoint member (t : nty) (x : nval F) {struct t} : Prop :=
  match t with
  | NTy t => match x with DVal v => data veq v /\ fits v /\ has_type W t v | FVal _ => function_in t end
  | NFn args variadic rets rets_variadic =>
      exists f, x = FVal f /\
        forall xs, listed (map member args) variadic xs -> takes f xs /\ forall ys, gives f xs ys -> listed (map member rets) rets_variadic ys
  end.
End Functions.

(* The fragment: types of data for which Assignable is sound (TypesSpec.v), with objects of which A tells to which side they belong; if functions
   belong to such a type that is assigned, it is any. No variadic functions; with [args] = false the arguments of functions are not restricted. *)
Inductive wanted (L : allowed) (A : ptr -> Prop) (args : bool) : nty -> Prop :=
| wanted_ty t : target_ok L t -> flat_alternatives t -> objects A t -> wanted L A args (NTy t)
| wanted_fn ts v rets : (args = true -> v = false) -> (args = true -> Forall (wanted L A args) ts) -> Forall (wanted L A args) rets ->
    wanted L A args (NFn ts v rets false).
Inductive given (L : allowed) (A : ptr -> Prop) (args : bool) : nty -> Prop :=
| given_ty t : source_ok L t -> single_alternatives t -> objects (fun q => ~ A q) t -> t = TAny \/ ~ function_in t -> given L A args (NTy t)
| given_fn ts v rets : (args = true -> v = false) -> (args = true -> Forall (given L A args) ts) -> Forall (given L A args) rets ->
    given L A args (NFn ts v rets false).
(* the functions have the same arguments, as have those that they return *)
Inductive same_arguments : nty -> nty -> Prop :=
| same_ty t b : same_arguments (NTy t) b
| same_other a t : same_arguments a (NTy t)
| same_fn args v rets rv rets' rv' : Forall2 same_arguments rets rets' -> same_arguments (NFn args v rets rv) (NFn args v rets' rv').
(* a and b differ only where a type is meant to be replaced by a smaller one: in results, in arguments of arguments and so on; [pos] is
   false within arguments *)
Inductive differ_in_place (W : world) : bool -> nty -> nty -> Prop :=
| in_place_same pos t u : (forall v, has_type W t v <-> has_type W u v) -> (function_in t <-> function_in u) -> differ_in_place W pos (NTy t) (NTy u)
| in_place_ty t b : differ_in_place W true (NTy t) b
| in_place_fn pos args v rets rv args' v' rets' rv' : Forall2 (differ_in_place W (negb pos)) args args' -> Forall2 (differ_in_place W pos) rets rets' ->
    differ_in_place W pos (NFn args v rets rv) (NFn args' v' rets' rv').
