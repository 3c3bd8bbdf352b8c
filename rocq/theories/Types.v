(* Types of /repo/internal that do not refer to themselves: type expressions, their equality,
   hash codes and instances.

   Not modelled: function types, native types, named types, error types, entry types, aliases
   and values that are types (so a meta type has no instances among the values of the model).
   Go values that are not dgo values, which Instance also accepts, are left out as in Data.v. *)
From Coq Require Import ZArith List Bool.
From Coq Require Import Floats.SpecFloat.
From Verif Require Import Int64 Utf8 HMap Data Arr.
Import ListNotations.
Open Scope Z_scope.

(* the address of a Go object *)
Definition ptr := nat.
Bind Scope nat_scope with ptr.

(* The types: any.go:10, nil.go:11, boolean.go:12, integer.go:12-27 (defaultIntegerType, integerType),
   float.go:15-30, string.go:15-51 (defaultStringType, defaultDgoStringType, sizedStringType, ciStringType,
   patternType by its source), binary.go:15-18, time.go:11, regexp.go:14, the exact types exact.go:7-13
   with the value they hold, sensitive.go:14, array.go:20-43 (defaultArrayType, sizedArrayType,
   tupleType), map.go:18-45 (defaultMapType, sizedMapType), mapstruct.go:13-19 (the three slices keys,
   values, required are one list; a key type is exact, mapstruct.go:142-149, and is represented by the
   value that it holds), ternary.go:9-17, not.go:9, meta.go:12.
   The types that are pointers to something that contains types or values carry their address. *)
Inductive ty :=
| TAny
| TNil
| TBool
| TInt
| TIntRange (min max : Z) (incl : bool)
| TFloat
| TFloatRange (min max : spec_float) (incl : bool)
| TString
| TDgoString
| TStrSized (min max : Z)
| TCiStr (s : list Z)
| TPattern (s : list Z)
| TBinary (min max : Z)
| TTime
| TRegexp
| TExact (p : ptr) (v : value)
| TSens (p : ptr) (t : ty)
| TArray
| TArrSized (p : ptr) (elem : ty) (min max : Z)
| TTuple (p : ptr) (ts : list ty) (variadic : bool)
| TMap
| TMapSized (p : ptr) (k v : ty) (min max : Z)
| TStruct (p : ptr) (additional : bool) (es : list (value * ty * bool))
| TAllOf (p : ptr) (ts : list ty)
| TAllOfValue (p : ptr) (vs : list value)
| TAnyOf (p : ptr) (ts : list ty)
| TOneOf (p : ptr) (ts : list ty)
| TNot (p : ptr) (t : ty)
| TMeta (t : option ty).

(* What the code asks other libraries about strings: whether the dgo parser accepts the string
   (string.go:107-128; Parse is a variable that the package parser sets), strings.ToLower and
   strings.EqualFold, and whether the regexp with the given source matches
   (regexp.MatchString). *)
Record world := {
  w_parses : list Z -> bool;
  w_lower : list Z -> list Z;
  w_fold : list Z -> list Z -> bool;
  w_match : list Z -> list Z -> bool
}.

Definition length_z {A} (l : list A) : Z := Z.of_nat (length l).

Definition is_nil (v : value) : bool := match v with VNil => true | _ => false end.

(* ---------- the type of a value ---------- *)

(* Assignable (compare.go:52-74) between types that are the Generic of the type of a value
   (gen_value below). These are built without ternary types and without tuples, structs and exact
   arrays or maps, so Assignable follows the structure of the two types: any.go:17, nil.go:57,
   boolean.go:37, integer.go:197, float.go:177, string.go:198, exact.go:15, time.go:27, regexp.go:30,
   sensitive.go:40-45, array.go:190-198, map.go:1027-1033, 1146-1152.
   Generic types are compared with the model of Assignable itself in Generic.v. *)
Fixpoint gen_assignable (a b : ty) : bool :=
  match a, b with
  | TAny, _ => true
  | TNil, TNil | TBool, TBool | TInt, TInt | TFloat, TFloat | TString, TString
  | TTime, TTime | TRegexp, TRegexp => true
  | TExact _ v, TExact _ w => veq v w
  | TSens _ s, TSens _ t => gen_assignable s t
  | TArrSized _ s _ _, TArrSized _ t _ _ => gen_assignable s t
  | TMap, TMap => true
  | TMap, TMapSized _ _ _ _ _ => true
  | TMapSized _ k v _ _, TMapSized _ k' v' _ _ => gen_assignable k k' && gen_assignable v v'
  | TMapSized _ k v _ _, TMap => gen_assignable k TAny && gen_assignable v TAny
  | _, _ => false
  end.

(* commonGeneric (ternary.go:484-501) on the generic types of the elements; the second test of the
   loop repeats the first, so the first type is the only candidate. None: s is empty. *)
Definition common {A} (assignable : A -> A -> bool) (any : A) (s : list A) : option A :=
  match s with
  | [] => None
  | prev :: r => if forallb (assignable prev) r then Some prev else Some any
  end.

Definition or_any (o : option ty) : ty := match o with Some t => t | None => TAny end.
Definition is_any (t : ty) : bool := match t with TAny => true | _ => false end.

(* Generic(v.Type()): Generic (type.go:78-83) of the exact types boolean.go:89, integer.go:161,
   float.go:141, string.go:256, time.go:71, regexp.go:74, of exactArrayType (array.go:307-309 with
   ElementType, array.go:287-296), of exactMapType (map.go:1217-1228 with KeyType and
   ValueType); nilType, exactBinaryType and sensitiveType have no Generic method and are returned as
   they are; sensitive.Type (sensitive.go:165-167) applies Generic itself. New objects get address
   p: the objects made in one call have different content, see the comment at same_type. *)
Fixpoint gen_value (p : ptr) (v : value) : ty :=
  match v with
  | VNil => TNil
  | VBool _ => TBool
  | VInt _ => TInt
  | VFloat _ => TFloat
  | VStr _ => TString
  | VBin _ => TExact p v
  | VTime _ _ _ => TTime
  | VRegexp _ => TRegexp
  | VSens x => TSens p (gen_value p x)
  | VArr l => TArrSized p (or_any (common gen_assignable TAny (map (gen_value p) l))) 0 max_int64
  | VMap m =>
      let kt := or_any (common gen_assignable TAny (map (fun e => gen_value p (fst e)) m)) in
      let vt := or_any (common gen_assignable TAny (map (fun e => gen_value p (snd e)) m)) in
      if is_any kt && is_any vt then TMap else TMapSized p kt vt 0 max_int64
  end.

(* v.Type(): nil.go:47, boolean.go:169, integer.go:368, float.go:240, string.go:613, binary.go:395,
   time.go:182, regexp.go:130, sensitive.go:165-167, array.go:1378-1382, map.go:841-845 *)
Definition type_of (p : ptr) (v : value) : ty :=
  match v with
  | VNil => TNil
  | VSens x => TSens p (gen_value p x)
  | _ => TExact p v
  end.

(* ---------- instances ---------- *)

Section World.
Variable W : world.

(* integerType.IsInstance (integer.go:119-127) *)
Definition int_in (min max : Z) (incl : bool) (z : Z) : bool :=
  (min <=? z) && (if incl then z <=? max else z <? max).

(* floatType.IsInstance (float.go:99-107) *)
Definition float_in (min max : spec_float) (incl : bool) (f : spec_float) : bool :=
  SFleb min f && (if incl then SFleb f max else SFltb f max).

(* sizedStringType.IsInstance (string.go:501-504), binaryType.IsInstance (binary.go:111-114) *)
Definition size_in (min max : Z) (l : Z) : bool := (min <=? l) && (l <=? max).

(* defaultDgoStringType.Instance (string.go:107-128) on a string *)
Definition dgo_string (s : list Z) : bool := (0 <? length_z s) && w_parses W s.

(* the loop of oneOfType.DeepInstance (ternary.go:436-449) *)
Fixpoint exactly_one (found : bool) (l : list bool) : bool :=
  match l with
  | [] => found
  | true :: r => if found then false else exactly_one true r
  | false :: r => exactly_one found r
  end.

(* Instance with everything that concerns cycles left out: any.go:29, nil.go:70, boolean.go:50,
   integer.go:112, 214, float.go:94, 198, string.go:107, 214, 309, 388, 491, binary.go:101, time.go:43,
   regexp.go:46, exact.go:30, 73, sensitive.go:66, array.go:149, 237 (allInstance 1459), tupleInstance
   (array.go:564-601), map.go:1162, 1071-1090, mapstruct.go:251-271, ternary.go:106, 210, 318, 436, not.go:74,
   meta.go:64. [av] is what happens for an allOfValueType.
   This is a specification: the code is modelled by instance in Assign.v. *)
Fixpoint inst_with (av : list value -> value -> bool) (t : ty) (v : value) {struct t} : bool :=
  match t with
  | TAny => true
  | TNil => is_nil v
  | TBool => match v with VBool _ => true | _ => false end
  | TInt => match v with VInt _ => true | _ => false end
  | TIntRange min max incl => match v with VInt z => int_in min max incl z | _ => false end
  | TFloat => match v with VFloat _ => true | _ => false end
  | TFloatRange min max incl => match v with VFloat f => float_in min max incl f | _ => false end
  | TString => match v with VStr _ => true | _ => false end
  | TDgoString => match v with VStr s => dgo_string s | _ => false end
  | TStrSized min max => match v with VStr s => size_in min max (length_z s) | _ => false end
  | TCiStr c => match v with VStr s => w_fold W c s | _ => false end
  | TPattern r => match v with VStr s => w_match W r s | _ => false end
  | TBinary min max => match v with VBin s => size_in min max (length_z s) | _ => false end
  | TTime => match v with VTime _ _ _ => true | _ => false end
  | TRegexp => match v with VRegexp _ => true | _ => false end
  | TExact _ w => veq w v
  | TSens _ s => match v with VSens x => inst_with av s x | _ => false end
  | TArray => match v with VArr _ => true | _ => false end
  | TArrSized _ e min max =>
      match v with
      | VArr l => size_in min max (length_z l) && forallb (inst_with av e) l
      | _ => false
      end
  | TTuple _ ts variadic =>
      match v with
      | VArr l =>
          (fix go (ts : list ty) (l : list value) : bool :=
             match ts, l with
             | [], [] => true
             | [], _ :: _ => false
             | [t], _ => if variadic then forallb (inst_with av t) l
                         else match l with [x] => inst_with av t x | _ => false end
             | t :: ts', x :: l' => inst_with av t x && go ts' l'
             | _ :: _, [] => false
             end) ts l
      | _ => false
      end
  | TMap => match v with VMap _ => true | _ => false end
  | TMapSized _ kt vt min max =>
      match v with
      | VMap m => size_in min max (length_z m) &&
                  forallb (fun e => inst_with av kt (fst e) && inst_with av vt (snd e)) m
      | _ => false
      end
  | TStruct _ additional es =>
      match v with
      | VMap m =>
          (fix go (oc : Z) (es : list (value * ty * bool)) : bool :=
             match es with
             | [] => additional || (oc =? length_z m)
             | (k, t, required) :: r =>
                 match get_with (veq k) m with
                 | Some x => inst_with av t x && go (oc + 1) r
                 | None => if required then false else go oc r
                 end
             end) 0 es
      | _ => false
      end
  | TAllOf _ ts => forallb (fun t => inst_with av t v) ts
  | TAllOfValue _ vs => av vs v
  | TAnyOf _ ts => existsb (fun t => inst_with av t v) ts
  | TOneOf _ ts => exactly_one false (map (fun t => inst_with av t v) ts)
  | TNot _ s => negb (inst_with av s v)
  | TMeta _ => false
  end.

(* the types of values contain no allOfValueType *)
Definition inst_simple : ty -> value -> bool := inst_with (fun _ _ => false).

(* Instance on types of the model *)
Definition inst : ty -> value -> bool :=
  inst_with (fun vs v => forallb (fun x => inst_simple (type_of 0%nat x) v) vs).

End World.

(* ---------- equality and hash codes ---------- *)

Definition bool_or_false (o : option bool) : bool := match o with Some b => b | None => false end.

Fixpoint pairwise {A B} (f : A -> B -> bool) (l : list A) (l' : list B) : bool :=
  match l, l' with
  | [], [] => true
  | x :: r, y :: r' => f x y && pairwise f r r'
  | _, _ => false
  end.

Fixpoint bools_eqb (a b : list bool) : bool :=
  match a, b with
  | [], [] => true
  | x :: a', y :: b' => Bool.eqb x y && bools_eqb a' b'
  | _, _ => false
  end.

(* Equals of types: any.go:21, nil.go:62, boolean.go:42, integer.go:91-96, 205, float.go:73-78, 185,
   string.go:89, 206, 373-378, 473-478, exact.go:19-24, 62-67 (veq is false for values of different kinds),
   binary.go:83, time.go:35, regexp.go:38, sensitive.go:51-56, array.go:141, 208-213, 510-530 (tupleEquals
   accepts the exact type of an array, whose Element(i) is the type of its i'th element), map.go:1154, 1039-1044,
   mapstruct.go:221-229 (the keys are exact types), ternary.go:80-88, 188-196, 299-304, 417-422 with sameValues
   530-538, not.go:25-30, meta.go:46-54.
   [n] bounds the depth of the recursion; type_eq passes a bound that suffices, see
   TypeEqProofs.v. The identity shortcut a == b (compare.go:112) is left out: a type without NaN is equal
   to itself anyway. *)
Fixpoint teqn (n : nat) (a b : ty) : bool :=
  match n with
  | O => false
  | S n' =>
    match a, b with
    | TAny, TAny | TNil, TNil | TBool, TBool | TInt, TInt | TFloat, TFloat | TString, TString
    | TDgoString, TDgoString | TTime, TTime | TRegexp, TRegexp | TArray, TArray | TMap, TMap => true
    | TIntRange x y i, TIntRange x' y' i' => (x =? x') && (y =? y') && Bool.eqb i i'
    | TFloatRange x y i, TFloatRange x' y' i' => SFeqb x x' && SFeqb y y' && Bool.eqb i i'
    | TStrSized x y, TStrSized x' y' => (x =? x') && (y =? y')
    | TCiStr s, TCiStr s' => bytes_eqb s s'
    | TPattern s, TPattern s' => bytes_eqb s s'
    | TBinary x y, TBinary x' y' => (x =? x') && (y =? y')
    | TExact _ v, TExact _ v' => veq v v'
    | TSens _ t, TSens _ t' => teqn n' t t'
    | TArrSized _ e x y, TArrSized _ e' x' y' => (x =? x') && (y =? y') && teqn n' e e'
    | TTuple _ ts v, TTuple _ ts' v' => Bool.eqb v v' && pairwise (teqn n') ts ts'
    | TTuple _ ts v, TExact _ (VArr l) => negb v && pairwise (fun t x => teqn n' t (type_of 0%nat x)) ts l
    | TMapSized _ k v x y, TMapSized _ k' v' x' y' =>
        (x =? x') && (y =? y') && teqn n' k k' && teqn n' v v'
    | TStruct _ ad es, TStruct _ ad' es' =>
        Bool.eqb ad ad' && bools_eqb (map snd es) (map snd es') &&
        pairwise (fun e e' => veq (fst (fst e)) (fst (fst e'))) es es' &&
        pairwise (fun e e' => teqn n' (snd (fst e)) (snd (fst e'))) es es'
    | TAllOf _ ts, TAllOf _ ts' => bool_or_false (same_values ty (teqn n') ts ts')
    | TAllOf _ ts, TAllOfValue _ vs => bool_or_false (same_values ty (teqn n') ts (map (type_of 0%nat) vs))
    | TAllOfValue _ vs, TAllOf _ ts => bool_or_false (same_values ty (teqn n') ts (map (type_of 0%nat) vs))
    | TAllOfValue _ vs, TAllOfValue _ vs' => bool_or_false (same_values value veq vs vs')
    | TAnyOf _ ts, TAnyOf _ ts' => bool_or_false (same_values ty (teqn n') ts ts')
    | TOneOf _ ts, TOneOf _ ts' => bool_or_false (same_values ty (teqn n') ts ts')
    | TNot _ t, TNot _ t' => teqn n' t t'
    | TMeta None, TMeta None => true
    | TMeta (Some t), TMeta (Some t') => teqn n' t t'
    | _, _ => false
    end
  end.

(* a size that decreases along all recursive calls; a model device *)
Fixpoint value_size (v : value) : nat :=
  match v with
  | VSens x => S (value_size x)
  | VArr l => S (S (list_sum (map value_size l)))
  | VMap m => S (S (list_sum (map (fun e => value_size (fst e) + value_size (snd e)) m)))
  | _ => 1%nat
  end%nat.

Fixpoint type_size (t : ty) : nat :=
  match t with
  | TExact _ v => value_size v
  | TSens _ t => S (type_size t)
  | TArrSized _ e _ _ => S (type_size e)
  | TTuple _ ts _ => S (S (list_sum (map type_size ts)))
  | TMapSized _ k v _ _ => S (type_size k + type_size v)
  | TStruct _ _ es => S (S (list_sum (map (fun e => value_size (fst (fst e)) + type_size (snd (fst e))) es)))
  | TAllOf _ ts => S (list_sum (map type_size ts))
  | TAllOfValue _ vs => S (list_sum (map value_size vs))
  | TAnyOf _ ts => S (list_sum (map type_size ts))
  | TOneOf _ ts => S (list_sum (map type_size ts))
  | TNot _ t => S (type_size t)
  | TMeta None => 1
  | TMeta (Some t) => S (type_size t)
  | _ => 1
  end%nat.

Definition type_eq (a b : ty) : bool := teqn (S (type_size a + type_size b)) a b.

(* dgo.TypeIdentifier of the exact types (typeidentifier.go:7-145, TypeIdentifier methods such as
   integer.go:189) *)
Definition exact_id (v : value) : Z :=
  match v with
  | VNil => 41
  | VBool _ => 33
  | VInt _ => 37
  | VFloat _ => 35
  | VStr _ => 43
  | VBin _ => 32
  | VTime _ _ _ => 44
  | VRegexp _ => 42
  | VSens _ => 23
  | VArr _ => 31
  | VMap _ => 38
  end.

(* if t.min > 0 { h = h*31 + t.min }; if t.max < math.MaxInt64 { h = h*31 + t.max } *)
Definition hash_bounds (h min max : Z) : Z :=
  let h := if 0 <? min then w64 (h * 31 + min) else h in
  if max <? max_int64 then w64 (h * 31 + max) else h.

(* 2^63, the float that math.MaxInt64 is converted to in float.go:84 *)
Definition float_two63 : spec_float := S754_finite false 4503599627370496 11.
(* float.go:80-92 *)
Definition hash_float_bounds (h : Z) (min max : spec_float) : Z :=
  let h := if SFltb (S754_zero false) min then w64 (h * 31 + float_to_int min) else h in
  if SFltb max float_two63 then w64 (h * 31 + float_to_int max) else h.

(* boolsHash, mapstruct.go:484-494 *)
Definition bools_hash (l : list bool) : Z := fold_left (fun h (b : bool) => w64 (h * (if b then 3 else 2))) l 1.

(* HashCode of types: any.go:25, nil.go:66, boolean.go:46, integer.go:98-110, 210, float.go:80-92, 190,
   string.go:93, 210, 384, 480-489, exact.go:26, 69 (ciStringType is an exact type), binary.go:90-99, time.go:39,
   regexp.go:42, sensitive.go:62-64, array.go:145, 219-231, tupleHashCode (array.go:544-554), map.go:1158, 1050-1065 (which
   adds the hash of the key type where that of the value type was meant, map.go:1062), mapstruct.go:239-245,
   ternary.go:98, 202, 310, 428, not.go:32, meta.go:56-62. Without cycles the seen lists have
   no effect. *)
Fixpoint thash (t : ty) : Z :=
  match t with
  | TAny => 3
  | TNil => 42
  | TBool => 7
  | TInt => 14
  | TIntRange min max incl => let h := hash_bounds 15 min max in if incl then w64 (h * 3) else h
  | TFloat => 11
  | TFloatRange min max incl => let h := hash_float_bounds 12 min max in if incl then w64 (h * 3) else h
  | TString => 24
  | TDgoString => 9
  | TStrSized min max => hash_bounds 26 min max
  | TCiStr s => w64 (string_hash s * 7 + 8)
  | TPattern s => string_hash s
  | TBinary min max => hash_bounds 6 min max
  | TTime => 28
  | TRegexp => 22
  | TExact _ v => w64 (vhash v * 7 + exact_id v)
  | TSens _ t => w64 (23 * 31 + thash t)
  | TArray => 5
  | TArrSized _ e min max =>
      let h := hash_bounds 5 min max in
      if is_any e then h else w64 (h * 31 + thash e)
  | TTuple _ ts variadic =>
      fold_left (fun h x => w64 (h * 31 + x)) (map thash ts) (if variadic then 7 else 1)
  | TMap => 16
  | TMapSized _ k v min max =>
      let h := hash_bounds 16 min max in
      let h := if is_any k then h else w64 (h * 31 + thash k) in
      if is_any v then h else w64 (h * 31 + thash k)
  | TStruct _ ad es =>
      let h := w64 (bools_hash (map snd es) * 31
                    + hash_list (map (fun e => w64 (vhash (fst (fst e)) * 7 + exact_id (fst (fst e)))) es) * 31
                    + hash_list (map (fun e => thash (snd (fst e))) es)) in
      if ad then w64 (h * 3) else h
  | TAllOf _ ts => w64 (hash_list (map thash ts) * 7 + 1)
  | TAllOfValue _ vs => w64 (hash_list (map vhash vs) * 7 + 2)
  | TAnyOf _ ts => w64 (hash_list (map thash ts) * 7 + 4)
  | TOneOf _ ts => w64 (hash_list (map thash ts) * 7 + 21)
  | TNot _ t => w64 (1579 + thash t)
  | TMeta None => w64 (17 * 1321)
  | TMeta (Some t) => w64 (17 * 1321 + thash t)
  end.
