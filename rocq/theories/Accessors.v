(* What types say about themselves: Min, Max, Unbounded and Inclusive, Len, Element and Variadic, ElementType, KeyType and ValueType,
   TypeIdentifier.String, typ.ExactValue and typ.AsType. The types are those of Types.v. *)
From Coq Require Import Strings.Ascii Strings.String.
From Coq Require Import ZArith List Bool.
From Coq Require Import Floats.SpecFloat.
From Verif Require Import Int64 Data Types Construct Assign Print.
Import ListNotations.
Open Scope Z_scope.

(* Min() and Max() of a dgo.SizedType. Strings: string.go:142-148, 224-230, 260-266 (also of ciStringType, which embeds an exactStringType,
   string.go:38-40), 402-408, 506-512; binaries: binary.go:116-122, 154-160; arrays and maps: Assign.array_bounds (array.go:154-160, 245-251,
   315-321, 607-637) and Assign.map_bounds (map.go:1096-1102, 1171-1177, 1253-1259, mapstruct.go:300-317). None: no sized type. *)
Definition bounds (t : ty) : option (Z * Z) :=
  match t with
  | TString | TPattern _ => Some (0, max_int64)
  | TDgoString => Some (1, max_int64)
  | TStrSized min max | TBinary min max => Some (min, max)
  | TCiStr s | TExact _ (VStr s) | TExact _ (VBin s) => Some (length_z s, length_z s)
  | _ => match array_bounds t with Some b => Some b | None => Assign.map_bounds t end
  end.

(* Unbounded(): string.go:150, 252, 280, 434, 534, binary.go:146, 174, array.go:182, 279, 343, 658, map.go:1139, 1203, 1305, mapstruct.go:353 *)
Definition unbounded (t : ty) : option bool :=
  match t with
  | TString | TPattern _ | TArray | TMap => Some true
  | TDgoString | TCiStr _ => Some false
  | TStrSized min max | TBinary min max | TArrSized _ _ min max | TMapSized _ _ _ min max => Some ((min =? 0) && (max =? max_int64))
  | TExact _ (VStr _) | TExact _ (VBin _) | TExact _ (VArr _) | TExact _ (VMap _) => Some false
  | TTuple _ _ variadic => Some variadic
  | TStruct _ additional es => Some (additional && (count_required es =? 0))
  | _ => None
  end.

(* Min(), Max() and Inclusive() of a dgo.IntegerType, integer.go:129-139, 165-179, 222-236 *)
Definition int_bounds (t : ty) : option (Z * Z * bool) :=
  match t with
  | TInt => Some (min_int64, max_int64, true)
  | TIntRange min max incl => Some (min, max, incl)
  | TExact _ (VInt z) => Some (z, z, true)
  | _ => None
  end.
(* those of a dgo.FloatType, float.go:109-119, 145-159, 194-213 *)
Definition float_bounds (t : ty) : option (spec_float * spec_float * bool) :=
  match t with
  | TFloat => Some (min_float, max_float, true)
  | TFloatRange min max incl => Some (min, max, incl)
  | TExact _ (VFloat f) => Some (f, f, true)
  | _ => None
  end.

(* Len() and Element(i) of a dgo.TupleType as a list, and Variadic(): array.go:283-285, 311-313, 347-349, 478-480, 603-605, 662-664 *)
Definition tuple_parts (p : ptr) (t : ty) : option (list ty * bool) :=
  match t with
  | TExact _ (VArr l) => Some (map (type_of p) l, false)
  | TTuple _ ts variadic => Some (ts, variadic)
  | _ => None
  end.

(* ElementType(), KeyType() and ValueType(), Assign.element_type, key_type and value_type, with the address of a new type.
   None: not the type of an array or map, or no answer. *)
Definition run_type (p : ptr) (m : M ty) : option ty := option_map fst (m (start p)).
Definition element (p : ptr) (t : ty) : option ty :=
  match array_bounds t with Some _ => run_type p (element_type t) | None => None end.
Definition key (p : ptr) (t : ty) : option ty := match Assign.map_bounds t with Some _ => run_type p (key_type t) | None => None end.
Definition val (p : ptr) (t : ty) : option ty := match Assign.map_bounds t with Some _ => run_type p (value_type t) | None => None end.

(* tiLabels, typeidentifier.go:147-191, with the numbers of the constants of typeidentifier.go:9-144. String (typeidentifier.go:193-198) panics for
   other identifiers: 30 is exactStart, which no type has, and 40 is TiNamedExact. *)
Definition ti_labels : list (Z * list Z) :=
  [(0, lit "alias"); (41, lit "nil"); (3, lit "any"); (17, lit "type"); (7, lit "bool"); (33, lit "bool"); (14, lit "int"); (37, lit "int");
   (15, lit "int range"); (11, lit "float"); (35, lit "float"); (12, lit "float range"); (6, lit "binary"); (32, lit "binary"); (24, lit "string");
   (43, lit "string"); (26, lit "string"); (25, lit "pattern"); (8, lit "string"); (22, lit "regexp"); (42, lit "regexp"); (28, lit "time");
   (44, lit "time"); (19, lit "native"); (5, lit "slice"); (31, lit "slice"); (29, lit "tuple"); (16, lit "map"); (38, lit "map");
   (39, lit "map entry"); (27, lit "struct"); (20, lit "not"); (1, lit "all of"); (2, lit "all of"); (4, lit "any of"); (21, lit "one of");
   (10, lit "error"); (34, lit "error"); (9, lit "dgo"); (23, lit "sensitive"); (13, lit "function"); (36, lit "function"); (18, lit "named")].
Definition ti_label (id : Z) : option (list Z) := option_map snd (find (fun e => fst e =? id) ti_labels).

(* TypeIdentifier() of the exact type of a named value, named.go:248-250 *)
Definition named_exact_id : Z := 40.

(* a value or a type, which is a value too *)
Inductive item := IValue (v : value) | IType (t : ty).
(* the types with a method ExactValue: the exact types, string.go:284 (also of ciStringType), string.go:438, ternary.go:244-246; typ.ExactValue,
   utils.go:10-12 with type.go:67-72 *)
Definition exact_item (x : item) : item :=
  match x with
  | IType (TExact _ v) => IValue v
  | IType (TCiStr s) => IValue (VStr s)
  | IType (TPattern r) => IValue (VRegexp r)
  | IType (TAllOfValue _ vs) => IValue (VArr vs)
  | _ => x
  end.
(* typ.AsType, utils.go:16-21 *)
Definition as_type (p : ptr) (x : item) : ty := match x with IType t => t | IValue v => type_of p v end.
