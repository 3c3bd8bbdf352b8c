(* What the types made of a list of arguments should mean: types first, then a minimum, then a maximum. *)
From Coq Require Import ZArith List Bool.
From Verif Require Import Int64 HMap Data DataSpec Types TypesSpec TypeArgs.
Import ListNotations.
Open Scope Z_scope.

(* The optional size: a minimum and a maximum *)
Inductive size_args : list arg -> Z -> Z -> Prop :=
| SizeNone : size_args [] 0 max_int64
| SizeMin min : size_args [AInt min] min max_int64
| SizeMinMax min max : size_args [AInt min; AInt max] min max.

(* An array type: an optional element type, then the size *)
Inductive array_args : list arg -> ty -> Z -> Z -> Prop :=
| ArraySize sz min max : size_args sz min max -> array_args sz TAny min max
| ArrayElem t sz min max : size_args sz min max -> array_args (AType t :: sz) t min max.

(* A map type: the types of keys and values, or neither, then the size *)
Inductive map_args : list arg -> ty -> ty -> Z -> Z -> Prop :=
| MapSize sz min max : size_args sz min max -> map_args sz TAny TAny min max
| MapTypes k v sz min max : size_args sz min max -> map_args (AType k :: AType v :: sz) k v min max.

(* Legal arguments of the five functions *)
Definition array_legal (args : list arg) : Prop := exists e min max, array_args args e min max.
Definition map_legal (args : list arg) : Prop := exists k v min max, map_args args k v min max.
Definition size_legal (args : list arg) : Prop := exists min max, size_args args min max.
Definition string_legal (args : list arg) : Prop := size_legal args \/ exists s, args = [AStr s].
Definition sensitive_legal (args : list arg) : Prop := args = [] \/ exists t, args = [AType t].

(* The integers of arguments have 64 bits, and their types are well formed *)
Definition arg_ok (a : arg) : Prop := match a with AInt z => in64 z | AType t => type_ok t | _ => True end.

(* A function refuses exactly the arguments that are not legal. It says that there are too many if they are more than the most it takes, and otherwise
   which one is illegal: with the arguments up to that one, none of this number are legal. *)
Definition refuses (legal : list arg -> Prop) (most : nat) (args : list arg) (r : made_type) : Prop :=
  match r with
  | Made _ | Broken => legal args
  | IllegalCount => (most < length args)%nat /\ ~ legal args
  | IllegalArgument i => (i < length args <= most)%nat /\
      forall args', length args' = length args -> firstn (S i) args' = firstn (S i) args -> ~ legal args'
  end.
