(* The Go type of a dgo type and the dgo type of a Go type: the methods ReflectType, and TypeFromReflected, of /repo/internal.

   The Go types are those of Reflect.v, the dgo types those of Types.v. *)
From Coq Require Import ZArith List Bool.
From Coq Require Import Floats.SpecFloat.
From Verif Require Import Int64 Data Arr Types Construct Convert Reflect.
Import ListNotations.
Open Scope Z_scope.

(* ---------- ReflectType ---------- *)

(* commonReflectTo, ternary.go:503-519. The element types are computed one by one: the loop can end before it looks at all of
   them. None is the nil reflect.Type; a method call on it panics. *)
Fixpoint common_reflect (prev : option gty) (l : list (res (option gty))) : res (option gty) :=
  match l with
  | [] => Done prev
  | rt :: r =>
      rbind rt (fun rt =>
        match prev with
        | None => common_reflect rt r
        | Some p =>
            match rt with
            | None => Panic
            | Some g =>
                if assignable_to g p then common_reflect prev r
                else if assignable_to p g then common_reflect rt r
                else Done (Some RAny)
            end
        end)
  end.
(* reflect.SliceOf and reflect.MapOf (package reflect) panic for a nil type, and MapOf for keys that cannot be compared *)
Definition slice_of (e : option gty) : res (option gty) := match e with Some e => Done (Some (RSlice e)) | None => Panic end.
Definition map_of_types (k e : option gty) : res (option gty) :=
  match k, e with Some k, Some e => rbind (map_of k e) (fun g => Done (Some g)) | _, _ => Panic end.
Definition value_reflect (v : value) : res (option gty) := rbind (reflect_type v) (fun g => Done (Some g)).

(* ReflectType: any.go:34, nil.go:74, boolean.go:69, integer.go:145, 242, float.go:129, 219, string.go:134, 240, 414, 518, binary.go:130,
   time.go:55, regexp.go:58, the exact types as in Reflect.v, sensitive.go:75, array.go:166, 263, 635 with ElementType 482-500, map.go:1108, 1183,
   mapstruct.go:323 with KeyType 285-294 and ValueType 443-452, ternary.go:124, 228, 336, 459, not.go:86. A ciStringType has the method
   of the exactStringType in it. The Go type of a meta type is the interface dgo.Type (meta.go:109), which is not modelled: the outcome is Native. *)
Fixpoint reflect_ty (t : ty) : res (option gty) :=
  match t with
  | TAny | TNil | TNot _ _ => Done (Some RAny)
  | TBool => Done (Some RBool)
  | TInt | TIntRange _ _ _ => Done (Some (RInt KInt64))
  | TFloat | TFloatRange _ _ _ => Done (Some RFloat64)
  | TString | TDgoString | TStrSized _ _ | TCiStr _ | TPattern _ => Done (Some RString)
  | TBinary _ _ => Done (Some (RSlice (RInt KUint8)))
  | TTime => Done (Some RTime)
  | TRegexp => Done (Some (RPtr RRegexp))
  | TExact _ v => value_reflect v
  | TSens _ _ => Done (Some RSens)
  | TArray => slice_of (Some RAny)
  | TArrSized _ e _ _ => rbind (reflect_ty e) slice_of
  | TTuple _ ts _ =>
      rbind (match map (fun t => (t, reflect_ty t)) ts with
             | [] => Done (Some RAny)
             | [p] => snd p
             (* Unique looks at the types only *)
             | ps => match unique (ty * res (option gty)) (fun p q => type_eq (fst p) (fst q)) (fun p => thash (fst p)) ps with
                     | None => Panic
                     | Some [p] => snd p
                     | Some us => common_reflect None (map snd us)
                     end
             end) slice_of
  | TMap => map_of_types (Some RAny) (Some RAny)
  | TMapSized _ k v _ _ => rbind (reflect_ty k) (fun k => rbind (reflect_ty v) (fun v => map_of_types k v))
  | TStruct _ _ es =>
      match es with
      | [] => map_of_types (Some RAny) (Some RAny)
      | _ =>
          rbind (common_reflect None (map (fun e : value * ty * bool => value_reflect (fst (fst e))) es)) (fun k =>
          rbind (common_reflect None (map (fun e : value * ty * bool => reflect_ty (snd (fst e))) es)) (fun v => map_of_types k v))
      end
  | TAllOf _ ts | TAnyOf _ ts | TOneOf _ ts => common_reflect None (map reflect_ty ts)
  | TAllOfValue _ vs => common_reflect None (map value_reflect vs)
  | TMeta _ => Native
  end.

(* ---------- TypeFromReflected ---------- *)

(* math.MaxFloat32 *)
Definition max_float32 : spec_float := S754_finite false 9007198717870080 75.
Definition min_float32 : spec_float := S754_finite true 9007198717870080 75.
(* the constructors do not panic here *)
Definition made (o : option ty) : ty := match o with Some t => t | None => not_any end.

(* primitivePTypes, type.go:113-128 *)
Definition int_type_from (k : go_int) : ty :=
  match k with
  | KInt | KInt64 => TInt
  | KInt8 => made (integer_type 0%nat (-128) 127 true)
  | KInt16 => made (integer_type 0%nat (-32768) 32767 true)
  | KInt32 => made (integer_type 0%nat (-2147483648) 2147483647 true)
  | KUint | KUint64 => made (integer_type 0%nat 0 9223372036854775807 true)
  | KUint8 => made (integer_type 0%nat 0 255 true)
  | KUint16 => made (integer_type 0%nat 0 65535 true)
  | KUint32 => made (integer_type 0%nat 0 4294967295 true)
  end.

(* TypeFromReflected, type.go:26-56, with wellKnownTypes (value.go:166-170). The structs regexp.Regexp and the interfaces dgo.Value and dgo.Sensitive,
   which have a name, give a nativeType: no value of Data.v is an instance of it (native.go:64-72, toReflected 169-177), as of the type
   not[any] that stands for it here. Addresses do not matter for instances: all new objects get 0. *)
Fixpoint type_from (g : gty) : ty :=
  match g with
  | RTime => TTime
  | RPtr RRegexp => TRegexp
  | RSlice e => made (new_array_type 0%nat (Some (type_from e)) 0 max_int64)
  | RMap k e => new_map_type 0%nat (Some (type_from k)) (Some (type_from e)) 0 max_int64
  | RPtr e => one_of_type 0%nat [type_from e; TNil]
  | RAny => TAny
  | RString => TString
  | RInt k => int_type_from k
  | RFloat32 => made (float_type 0%nat min_float32 max_float32 true)
  | RFloat64 => TFloat
  | RBool => TBool
  | RRegexp | RValue | RSens => not_any
  end.
