(* Generic of types, /repo/internal/type.go:74-83. *)
From Coq Require Import ZArith List Bool.
From Verif Require Import Int64 Data Types Assign Construct.
Import ListNotations.
Open Scope Z_scope.

Section World.
Variable W : world.

(* the loop of commonGeneric, ternary.go:484-501: [gen x] is Generic(fc(x)), [prev] the variable prev, None is a
   nil type. The loop calls prev.Assignable(rt) twice in a row with the same result; the model calls it
   once. Assignable with a nil argument is not modelled. [n] bounds the depth of Assignable. *)
Fixpoint common_generic {A} (n : nat) (gen : A -> M (option ty)) (prev : option ty) (l : list A) : M (option ty) :=
  match l with
  | [] => ret prev
  | x :: r =>
      bind (gen x) (fun rt =>
        match prev, rt with
        | None, _ => common_generic n gen rt r
        | Some q, Some u => bind (asgn W n false q u) (fun b => if b then common_generic n gen prev r else ret (Some TAny))
        | Some _, None => fail
        end)
  end.

(* Generic, type.go:78-83, with the Generic methods array.go:307, 532, boolean.go:89, float.go:141, integer.go:161,
   map.go:1217, mapstruct.go:231, regexp.go:74, string.go:256 (also ciStringType), 380, ternary.go:90, 180, time.go:71.
   All other types have no Generic method, among them exactBinaryType, sizedArrayType and sizedMapType.
   None is a nil type (the Generic of an allOfType without types). [m] bounds the depth of the recursion, [n] that
   of Assignable. *)
Fixpoint generic (n m : nat) (t : ty) : M (option ty) :=
  match m with
  | O => fail
  | S m' =>
    let gen := generic n m' in
    match t with
    | TExact _ (VBool _) => ret (Some TBool)
    | TExact _ (VInt _) => ret (Some TInt)
    | TExact _ (VFloat _) => ret (Some TFloat)
    | TExact _ (VStr _) => ret (Some TString)
    | TExact _ (VTime _ _ _) => ret (Some TTime)
    | TExact _ (VRegexp _) => ret (Some TRegexp)
    (* array.go:307-309; the element type is no allOfValueType without values *)
    | TExact _ (VArr _) =>
        bind (bind (element_type t) gen) (fun e => fresh (fun p => Some (TArrSized p (or_any e) 0 max_int64)))
    (* map.go:1217-1228 *)
    | TExact _ (VMap _) =>
        bind (bind (key_type t) gen) (fun k =>
        bind (bind (value_type t) gen) (fun v =>
          if is_any (or_any k) && is_any (or_any v) then ret (Some TMap)
          else fresh (fun p => Some (TMapSized p (or_any k) (or_any v) 0 max_int64))))
    | TCiStr _ | TPattern _ => ret (Some TString)
    (* array.go:532-534 *)
    | TTuple _ _ _ => bind (bind (element_type t) gen) (fun e => fresh (fun p => new_array_type p e 0 max_int64))
    (* mapstruct.go:231-233 *)
    | TStruct _ _ _ =>
        bind (bind (key_type t) gen) (fun k =>
        bind (bind (value_type t) gen) (fun v => fresh (fun p => Some (new_map_type p k v 0 max_int64))))
    | TAllOf _ ts => common_generic n gen None ts
    | TAllOfValue _ vs => common_generic n (fun v => bind (new_type v) gen) None vs
    | _ => ret (Some t)
    end
  end.

(* Generic(t) called from outside *)
Definition generic_of (n : nat) (p : ptr) (t : ty) : option (option ty) := option_map fst (generic n n t (start p)).
End World.
