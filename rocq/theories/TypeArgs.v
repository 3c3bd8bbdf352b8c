(* The functions of /repo/internal that make types of a list of arguments. *)
From Coq Require Import ZArith List Bool.
From Verif Require Import Int64 HMap Data Types Construct.
Import ListNotations.
Open Scope Z_scope.

(* Value(args[i]) (value.go:35-46): what the functions tell apart by a type switch. An integer (intVal, integer.go:298) has 64 bits; int is int64. *)
Inductive arg := AType (t : ty) | AInt (z : Z) | AStr (s : list Z) | AOther (v : value).

(* The result: a type, or the panic of illegalArgument (type.go:85-92) with the number of the argument, of illegalArgumentCount (type.go:94-110),
   or of the constructor. The texts of the panics are left out. *)
Inductive made_type := Made (t : ty) | IllegalArgument (i : nat) | IllegalCount | Broken.
Definition made_of (t : option ty) : made_type := match t with Some t => Made t | None => Broken end.

(* array.go:46-55 arrayTypeOne *)
Definition array_type_one (p : ptr) (a0 : arg) : made_type :=
  match a0 with
  | AType t => made_of (new_array_type p (Some t) 0 max_int64)
  | AInt z => made_of (new_array_type p None z max_int64)
  | _ => IllegalArgument 0
  end.
(* array.go:57-70 arrayTypeTwo *)
Definition array_type_two (p : ptr) (a0 a1 : arg) : made_type :=
  match a1 with
  | AInt z1 =>
      match a0 with
      | AType t => made_of (new_array_type p (Some t) z1 max_int64)
      | AInt z => made_of (new_array_type p None z z1)
      | _ => IllegalArgument 0
      end
  | _ => IllegalArgument 1
  end.
(* array.go:72-86 arrayTypeThree *)
Definition array_type_three (p : ptr) (a0 a1 a2 : arg) : made_type :=
  match a0 with
  | AType t =>
      match a1 with
      | AInt z1 => match a2 with AInt z2 => made_of (new_array_type p (Some t) z1 z2) | _ => IllegalArgument 2 end
      | _ => IllegalArgument 1
      end
  | _ => IllegalArgument 0
  end.
(* array.go:89-102 ArrayType *)
Definition array_type (p : ptr) (args : list arg) : made_type :=
  match args with
  | [] => Made TArray
  | [a0] => array_type_one p a0
  | [a0; a1] => array_type_two p a0 a1
  | [a0; a1; a2] => array_type_three p a0 a1 a2
  | _ => IllegalCount
  end.

(* map.go:910-918 mapTypeOne *)
Definition map_type_one (p : ptr) (a0 : arg) : made_type :=
  match a0 with AInt z => Made (new_map_type p None None z max_int64) | _ => IllegalArgument 0 end.
(* map.go:920-938 mapTypeTwo *)
Definition map_type_two (p : ptr) (a0 a1 : arg) : made_type :=
  match a0 with
  | AType k => match a1 with AType v => Made (new_map_type p (Some k) (Some v) 0 max_int64) | _ => IllegalArgument 1 end
  | AInt z => match a1 with AInt z1 => Made (new_map_type p None None z z1) | _ => IllegalArgument 1 end
  | _ => IllegalArgument 0
  end.
(* map.go:940-955 mapTypeThree *)
Definition map_type_three (p : ptr) (a0 a1 a2 : arg) : made_type :=
  match a0 with
  | AType k =>
      match a1 with
      | AType v => match a2 with AInt z => Made (new_map_type p (Some k) (Some v) z max_int64) | _ => IllegalArgument 2 end
      | _ => IllegalArgument 1
      end
  | _ => IllegalArgument 0
  end.
(* map.go:957-976 mapTypeFour *)
Definition map_type_four (p : ptr) (a0 a1 a2 a3 : arg) : made_type :=
  match a0 with
  | AType k =>
      match a1 with
      | AType v =>
          match a2 with
          | AInt z => match a3 with AInt z1 => Made (new_map_type p (Some k) (Some v) z z1) | _ => IllegalArgument 3 end
          | _ => IllegalArgument 2
          end
      | _ => IllegalArgument 1
      end
  | _ => IllegalArgument 0
  end.
(* map.go:979-994 MapType *)
Definition map_type (p : ptr) (args : list arg) : made_type :=
  match args with
  | [] => Made TMap
  | [a0] => map_type_one p a0
  | [a0; a1] => map_type_two p a0 a1
  | [a0; a1; a2] => map_type_three p a0 a1 a2
  | [a0; a1; a2; a3] => map_type_four p a0 a1 a2 a3
  | _ => IllegalCount
  end.

(* string.go:338-361 StringType; a0.Type() of a string is its exact type *)
Definition string_type (p : ptr) (args : list arg) : made_type :=
  match args with
  | [] => Made TString
  | [a0] =>
      match a0 with
      | AStr s => Made (TExact p (VStr s))
      | AInt z => Made (sized_string_type z max_int64)
      | _ => IllegalArgument 0
      end
  | [a0; a1] =>
      match a0 with
      | AInt z => match a1 with AInt z1 => Made (sized_string_type z z1) | _ => IllegalArgument 1 end
      | _ => IllegalArgument 0
      end
  | _ => IllegalCount
  end.
(* binary.go:37-57 BinaryType *)
Definition binary_type (args : list arg) : made_type :=
  match args with
  | [] => Made (TBinary 0 max_int64)
  | [a0] => match a0 with AInt z => Made (sized_binary_type z max_int64) | _ => IllegalArgument 0 end
  | [a0; a1] =>
      match a0 with
      | AInt z => match a1 with AInt z1 => Made (sized_binary_type z z1) | _ => IllegalArgument 1 end
      | _ => IllegalArgument 0
      end
  | _ => IllegalCount
  end.
(* sensitive.go:23-34 SensitiveType *)
Definition sensitive_type_args (p : ptr) (args : list arg) : made_type :=
  match args with
  | [] => Made default_sensitive
  | [a0] => match a0 with AType t => Made (sensitive_type p (Some t)) | _ => IllegalArgument 0 end
  | _ => IllegalCount
  end.
