(* The constructors of types of /repo/internal, with the simplifications that they make.

   The result None is a panic. [p] is the address of the object that the constructor allocates.
   Arguments that are not types, which some constructors also accept (AsType(Value(x)),
   type.go:56-65, returns a type as it is), are left out. *)
From Coq Require Import ZArith List Bool.
From Coq Require Import Floats.SpecFloat.
From Verif Require Import Int64 HMap Data Types.
Import ListNotations.
Open Scope Z_scope.

(* the package variables EmptyTupleType, DefaultTupleType (array.go:352-355), notAnyType (ternary.go:248) and
   DefaultSensitiveType (sensitive.go:20), at the addresses 0 to 3 *)
Definition empty_tuple : ty := TTuple 0 [] false.
Definition default_tuple : ty := TTuple 1 [TAny] true.
Definition not_any : ty := TNot 2 TAny.
Definition default_sensitive : ty := TSens 3 TAny.

(* dgo.TypeIdentifier of the types (typeidentifier.go:7-145; TypeIdentifier methods, e.g. any.go:47) *)
Definition type_ident (t : ty) : Z :=
  match t with
  | TAny => 3
  | TNil => 41
  | TBool => 7
  | TInt => 14
  | TIntRange _ _ _ => 15
  | TFloat => 11
  | TFloatRange _ _ _ => 12
  | TString => 24
  | TDgoString => 9
  | TStrSized _ _ => 26
  | TCiStr _ => 8
  | TPattern _ => 25
  | TBinary _ _ => 6
  | TTime => 28
  | TRegexp => 22
  | TExact _ v => exact_id v
  | TSens _ _ => 23
  | TArray => 5
  | TArrSized _ _ _ _ => 5
  | TTuple _ _ _ => 29
  | TMap => 16
  | TMapSized _ _ _ _ _ => 16
  | TStruct _ _ _ => 27
  | TAllOf _ _ => 1
  | TAllOfValue _ _ => 2
  | TAnyOf _ _ => 4
  | TOneOf _ _ => 21
  | TNot _ _ => 20
  | TMeta _ => 17
  end.

(* dgo.IsExact, typeidentifier.go:201-203; exactStart is 30 *)
Definition is_exact (t : ty) : bool := 30 <? type_ident t.

(* t.(dgo.ExactType).ExactValue(), e.g. integer.go:193; nilType has no ExactValue method, the type
   assertion panics *)
Definition exact_value (t : ty) : option value :=
  match t with TExact _ v => Some v | _ => None end.

Fixpoint exact_values (ts : list ty) : option (list value) :=
  match ts with
  | [] => Some []
  | t :: r => match exact_value t, exact_values r with Some v, Some l => Some (v :: l) | _, _ => None end
  end.

(* integer.go:37-53 IntegerType *)
Definition integer_type (p : ptr) (min max : Z) (incl : bool) : option ty :=
  if min =? max then (if incl then Some (TExact p (VInt min)) else None)
  else
    let (min, max) := if max <? min then (max, min) else (min, max) in
    if (min =? min_int64) && (max =? max_int64) then Some TInt
    else Some (TIntRange min max incl).

(* integer.go:56-68 IntEnumType *)
Definition int_enum_type (p : ptr) (ints : list Z) : ty :=
  match ints with
  | [] => TNot p TAny
  | [i] => TExact p (VInt i)
  | _ => TAnyOf p (map (fun i => TExact p (VInt i)) ints)
  end.

(* math.MaxFloat64 *)
Definition max_float : spec_float := S754_finite false 9007199254740991 971.
Definition min_float : spec_float := S754_finite true 9007199254740991 971.

(* float.go:39-55 FloatType *)
Definition float_type (p : ptr) (min max : spec_float) (incl : bool) : option ty :=
  if SFeqb min max then (if incl then Some (TExact p (VFloat min)) else None)
  else
    let (min, max) := if SFltb max min then (max, min) else (min, max) in
    if SFeqb min min_float && SFeqb max max_float then Some TFloat
    else Some (TFloatRange min max incl).

(* string.go:163-175 EnumType *)
Definition enum_type (p : ptr) (ss : list (list Z)) : ty :=
  match ss with
  | [] => TNot p TAny
  | [s] => TExact p (VStr s)
  | _ => TAnyOf p (map (fun s => TExact p (VStr s)) ss)
  end.

(* string.go:288-300 CiStringType *)
Definition ci_string_type (W : world) (s : list Z) : ty := TCiStr (w_lower W s).

(* string.go:179-191 CiEnumType *)
Definition ci_enum_type (W : world) (p : ptr) (ss : list (list Z)) : ty :=
  match ss with
  | [] => TNot p TAny
  | [s] => ci_string_type W s
  | _ => TAnyOf p (map (ci_string_type W) ss)
  end.

(* string.go:444-457 SizedStringType *)
Definition sized_string_type (min max : Z) : ty :=
  let min := if min <? 0 then 0 else min in
  let (min, max) := if max <? min then (max, min) else (min, max) in
  if (min =? 0) && (max =? max_int64) then TString else TStrSized min max.

(* binary.go:61-74 SizedBinaryType; DefaultBinaryType is the binaryType with the bounds 0 and MaxInt64
   (binary.go:33) *)
Definition sized_binary_type (min max : Z) : ty :=
  let min := if min <? 0 then 0 else min in
  let (min, max) := if max <? min then (max, min) else (min, max) in
  TBinary min max.

(* array.go:104-127 newArrayType; a nil element type is None *)
Definition new_array_type (p : ptr) (elem : option ty) (min max : Z) : option ty :=
  let min := if min <? 0 then 0 else min in
  let max := if max <? 0 then 0 else max in
  let (min, max) := if max <? min then (max, min) else (min, max) in
  let e := or_any elem in
  if (min =? 0) && (max =? max_int64) && is_any e then Some TArray
  else if (min =? 1) && (min =? max) && is_exact e then
    match exact_value e with Some v => Some (TExact p (VArr [v])) | None => None end
  else Some (TArrSized p e min max).

(* array.go:373-397 newTupleType *)
Definition new_tuple_type (p : ptr) (ts : list ty) (variadic : bool) : option ty :=
  match ts with
  | [] => Some empty_tuple
  | _ =>
    if variadic && Nat.eqb (length ts) 1 && forallb is_any ts then Some default_tuple
    else if negb variadic && forallb is_exact ts then
      match exact_values ts with Some l => Some (TExact p (VArr l)) | None => None end
    else Some (TTuple p ts variadic)
  end.
(* array.go:358-360 TupleType, 362-368 VariadicTupleType *)
Definition tuple_type (p : ptr) (ts : list ty) : option ty := new_tuple_type p ts false.
Definition variadic_tuple_type (p : ptr) (ts : list ty) : option ty :=
  match ts with [] => None | _ => new_tuple_type p ts true end.

(* map.go:996-1021 newMapType *)
Definition new_map_type (p : ptr) (kt vt : option ty) (min max : Z) : ty :=
  let min := if min <? 0 then 0 else min in
  let max := if max <? 0 then 0 else max in
  let (min, max) := if max <? min then (max, min) else (min, max) in
  let k := or_any kt in
  let v := or_any vt in
  if (min =? 0) && (max =? max_int64) && (is_any k && is_any v) then TMap
  else TMapSized p k v min max.

(* m.Put(key, value) of createExactMap, on the entries of the map: the value is replaced when the key is
   there, otherwise the entry becomes the last (see C01) *)
Fixpoint put_entry (m : list (value * value)) (k v : value) : list (value * value) :=
  match m with
  | [] => [(k, v)]
  | (k', v') :: r => if veq k k' then (k', v) :: r else (k', v') :: put_entry r k v
  end.

(* mapstruct.go:59-66 createExactMap *)
Fixpoint exact_map (es : list (ty * ty * bool)) (m : list (value * value)) : option (list (value * value)) :=
  match es with
  | [] => Some m
  | (kt, vt, _) :: r =>
      match exact_value kt, exact_value vt with
      | Some k, Some v => exact_map r (put_entry m k v)
      | _, _ => None
      end
  end.

(* mapstruct.go:69-75 StructMapType with StructMapTypeUnresolved (30-57) and checkExactKeys (142-149).
   The nil type passes checkExactKeys as a key but the first use of the type panics (mapstruct.go:259);
   in the model the constructor panics. *)
Definition struct_map_type (p : ptr) (additional : bool) (es : list (ty * ty * bool)) : option ty :=
  if negb additional && forallb (fun e : ty * ty * bool => snd e && is_exact (fst (fst e)) && is_exact (snd (fst e))) es then
    match exact_map es [] with Some m => Some (TExact p (VMap m)) | None => None end
  else if forallb (fun e : ty * ty * bool => is_exact (fst (fst e))) es then
    match exact_values (map (fun e : ty * ty * bool => fst (fst e)) es) with
    | Some ks => Some (TStruct p additional (combine (combine ks (map (fun e : ty * ty * bool => snd (fst e)) es)) (map snd es)))
    | None => None
    end
  else None.

(* ternary.go:29-43 AllOfType *)
Definition all_of_type (p : ptr) (ts : list ty) : ty :=
  match ts with [] => TAny | [t] => t | _ => TAllOf p ts end.
(* ternary.go:251-265 AnyOfType *)
Definition any_of_type (p : ptr) (ts : list ty) : ty :=
  match ts with [] => not_any | [t] => t | _ => TAnyOf p ts end.
(* ternary.go:360-374 OneOfType *)
Definition one_of_type (p : ptr) (ts : list ty) : ty :=
  match ts with [] => not_any | [t] => t | _ => TOneOf p ts end.
(* not.go:17-23 NotType *)
Definition not_type (p : ptr) (t : ty) : ty := match t with TNot _ s => s | _ => TNot p t end.
(* sensitive.go:23-34 SensitiveType with one argument and with none *)
Definition sensitive_type (p : ptr) (t : option ty) : ty :=
  match t with None => default_sensitive | Some t => TSens p t end.
