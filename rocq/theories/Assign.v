(* Assignable and Instance of /repo/internal with their recursion guard.

   A computation works on a state: the guard that the function was called with (compare.go:15-45), the
   address of the next object to be allocated, and a flag that tells whether the guard was hit
   somewhere. The flag is not part of the code, the theorems use it. None means that the bound on the
   depth of the recursion was exhausted. *)
From Coq Require Import ZArith List Bool.
From Coq Require Import Floats.SpecFloat.
From Verif Require Import Int64 HMap Data Arr Types.
Import ListNotations.
Open Scope Z_scope.

(* ---------- identity of objects ---------- *)

Definition float_eq_dec (a b : spec_float) : {a = b} + {a <> b}.
Proof. repeat decide equality. Defined.

Definition value_eq_dec : forall a b : value, {a = b} + {a <> b}.
Proof.
  fix F 1. intros a b.
  decide equality; try apply Bool.bool_dec; try apply Z.eq_dec; try apply float_eq_dec;
    try (apply list_eq_dec; apply Z.eq_dec).
  - apply list_eq_dec. exact F.
  - apply list_eq_dec. intros [x y] [x' y'].
    destruct (F x x') as [->|N]; [|right; congruence].
    destruct (F y y') as [->|N]; [left; reflexivity | right; congruence].
Defined.

Definition type_eq_dec : forall a b : ty, {a = b} + {a <> b}.
Proof.
  fix F 1. intros a b.
  decide equality; try apply Bool.bool_dec; try apply Z.eq_dec; try apply Nat.eq_dec; try apply float_eq_dec;
    try apply value_eq_dec; try (apply list_eq_dec; apply Z.eq_dec);
    try (apply list_eq_dec; apply value_eq_dec); try (apply list_eq_dec; exact F).
  - apply list_eq_dec. intros [[k t] r] [[k' t'] r'].
    destruct (value_eq_dec k k') as [->|N]; [|right; congruence].
    destruct (F t t') as [->|N]; [|right; congruence].
    destruct (Bool.bool_dec r r') as [->|N]; [left; reflexivity | right; congruence].
  - destruct t as [x|], t0 as [y|].
    + destruct (F x y) as [->|N]; [left; reflexivity | right; congruence].
    + right; discriminate.
    + right; discriminate.
    + left; reflexivity.
Defined.

(* a == b for two types (compare.go:53, util/slice.go:15-22). An address determines an object, so two
   type expressions with their addresses are the same object exactly when they are equal. Types that
   are not pointers (e.g. defaultStringType) are equal when they are of the same Go type. Types that are
   pointers but carry no address in the model (integerType, sizedStringType, ...) contain no
   types, and their Assignable returns true for an equal type unless a NaN is involved. *)
Definition same_type (a b : ty) : bool := if type_eq_dec a b then true else false.

(* what the slices aSeen and bSeen hold. The elements are the types and values on the path from the
   root to the current one. As a value is different from the values it contains, equality of values
   stands for identity. [NE t] is the deepExactType that is embedded in the exact type t (array.go:37-40,
   map.go:23-26): a different Go value than t. *)
Inductive node := NT (t : ty) | NE (t : ty) | NV (v : value).
Definition same_node (a b : node) : bool :=
  match a, b with
  | NT x, NT y => same_type x y
  | NE x, NE y => same_type x y
  | NV x, NV y => if value_eq_dec x y then true else false
  | _, _ => false
  end.

(* ---------- the guard, compare.go:15-45 ---------- *)

Record guard := { aSeen : list node; bSeen : list node; seenInA : bool; seenInB : bool }.

(* util.RecursionHit, util/slice.go:15-22 *)
Definition recursion_hit (seen : list node) (x : node) : bool := existsb (same_node x) seen.

(* compare.go:26-41 Append: the receiver after the call, and the new guard. The slices made by append
   may share a backing array with those of an earlier sibling, which is not in use any more. *)
Definition guard_append (s : guard) (a b : node) : guard * guard :=
  let sa := seenInA s || recursion_hit (aSeen s) a in
  let sb := seenInB s || recursion_hit (bSeen s) b in
  ({| aSeen := aSeen s; bSeen := bSeen s; seenInA := sa; seenInB := sb |},
   {| aSeen := if sa then aSeen s else aSeen s ++ [a];
      bSeen := if sb then bSeen s else bSeen s ++ [b];
      seenInA := sa; seenInB := sb |}).

(* compare.go:43-45 Swap *)
Definition guard_swap (s : guard) : guard :=
  {| aSeen := bSeen s; bSeen := aSeen s; seenInA := seenInB s; seenInB := seenInA s |}.

(* compare.go:22-24 Hit *)
Definition guard_hit (s : guard) : bool := seenInA s && seenInB s.

(* ---------- computations ---------- *)

Record st := { s_guard : option guard; s_next : ptr; s_hit : bool }.
Definition M (A : Type) := st -> option (A * st).
Definition ret {A} (x : A) : M A := fun s => Some (x, s).
Definition fail {A} : M A := fun _ => None.
Definition bind {A B} (m : M A) (f : A -> M B) : M B :=
  fun s => match m s with None => None | Some (x, s') => f x s' end.
(* Go's && and || *)
Definition andm (m n : M bool) : M bool := bind m (fun b => if b then n else ret false).
Definition orm (m n : M bool) : M bool := bind m (fun b => if b then ret true else n).
Definition notm (m : M bool) : M bool := bind m (fun b => ret (negb b)).

(* for i := range l { if !f(l[i]) { return false } }; return true *)
Fixpoint all_m {A} (f : A -> M bool) (l : list A) : M bool :=
  match l with
  | [] => ret true
  | x :: r => andm (f x) (all_m f r)
  end.
(* for i := range l { if f(l[i]) { return true } }; return false *)
Fixpoint any_m {A} (f : A -> M bool) (l : list A) : M bool :=
  match l with
  | [] => ret false
  | x :: r => orm (f x) (any_m f r)
  end.

Definition set_guard (s : st) (g : option guard) : st :=
  {| s_guard := g; s_next := s_next s; s_hit := s_hit s |}.

(* a call with another guard object: the guard of the caller is unaffected *)
Definition with_guard {A} (f : option guard -> option guard) (m : M A) : M A :=
  fun s => match m (set_guard s (f (s_guard s))) with
           | None => None
           | Some (x, s') => Some (x, set_guard s' (s_guard s))
           end.
Definition with_nil {A} (m : M A) : M A := with_guard (fun _ => None) m.
(* if guard != nil { guard = guard.Swap() }, type.go:17-19 *)
Definition swapped {A} (m : M A) : M A := with_guard (option_map guard_swap) m.

(* compare.go:62-73, 83-95: the guard is extended when both may be recursive *)
Definition enter (a b : node) (both : bool) (m : M bool) : M bool :=
  fun s =>
    if both then
      match s_guard s with
      | None =>
          with_guard (fun _ => Some {| aSeen := [a]; bSeen := [b]; seenInA := false; seenInB := false |}) m s
      | Some g =>
          let (g', c) := guard_append g a b in
          let s' := set_guard s (Some g') in
          if guard_hit c then Some (true, {| s_guard := Some g'; s_next := s_next s; s_hit := true |})
          else with_guard (fun _ => Some c) m s'
      end
    else m s.

(* a new object that holds [f p] *)
Definition fresh {A} (f : ptr -> A) : M A :=
  fun s => Some (f (s_next s), {| s_guard := s_guard s; s_next := S (s_next s); s_hit := s_hit s |}).

(* ---------- Instance ---------- *)

Section World.
Variable W : world.

(* whether the type implements dgo.DeepInstance: exact.go:73 (exactArrayType and exactMapType), array.go:237,
   560, map.go:1071, mapstruct.go:251, ternary.go:106, 210, 318, 436 *)
Definition deep_instance (t : ty) : bool :=
  match t with
  | TExact _ (VArr _) | TExact _ (VMap _) => true
  | TArrSized _ _ _ _ | TTuple _ _ _ | TMapSized _ _ _ _ _ | TStruct _ _ _ => true
  | TAllOf _ _ | TAllOfValue _ _ | TAnyOf _ _ | TOneOf _ _ => true
  | _ => false
  end.

(* whether the value implements deepEqual (array.go:1017, map.go:467, sensitive.go:119) *)
Definition deep_value (v : value) : bool :=
  match v with VArr _ | VMap _ | VSens _ => true | _ => false end.

(* tupleInstance, array.go:564-601, with [f] for Instance(guard, ...). The loops over i read t.Element(i) and
   s[i]; None: index out of range. *)
Fixpoint zip_m {A B} (f : A -> B -> M bool) (l : list A) (l' : list B) : M bool :=
  match l, l' with
  | [], _ => ret true
  | _ :: _, [] => fail
  | x :: r, y :: r' => andm (f x y) (zip_m f r r')
  end.

Definition tuple_instance (f : ty -> value -> M bool) (ts : list ty) (variadic : bool) (s : list value) : M bool :=
  if variadic then
    let tn := Nat.pred (length ts) in
    if (length s <? tn)%nat then ret false
    else match nth_error ts tn with
         | None => fail
         | Some vt => andm (zip_m f (firstn tn ts) s) (all_m (f vt) (skipn tn s))
         end
  else if Nat.eqb (length s) (length ts) then zip_m f ts s else ret false.

(* mapstruct.go:251-271 structType.DeepInstance *)
Fixpoint struct_instance (f : ty -> value -> M bool) (additional : bool) (es : list (value * ty * bool))
    (m : list (value * value)) (oc : Z) : M bool :=
  match es with
  | [] => ret (additional || (oc =? length_z m))
  | (k, t, required) :: r =>
      match get_with (veq k) m with
      | Some ov => bind (f t ov) (fun b => if b then struct_instance f additional r m (oc + 1) else ret false)
      | None => if required then ret false else struct_instance f additional r m oc
      end
  end.

(* the loop ternary.go:436-449, also of oneOfType.DeepAssignable up to its break; returns at the second
   match *)
Fixpoint one_m {A} (f : A -> M bool) (found : bool) (l : list A) : M bool :=
  match l with
  | [] => ret found
  | x :: r => bind (f x) (fun b => if b then (if found then ret false else one_m f true r) else one_m f found r)
  end.

(* One unfolding of Instance. [R true t v] is the function Instance(guard, t, v) (compare.go:77-96), [R false t v]
   the method t.Instance(v), which starts without a guard (e.g. array.go:233). *)
Definition deep_instance_of (R : bool -> ty -> value -> M bool) (t : ty) (v : value) : M bool :=
  match t with
  (* exact.go:73-75 *)
  | TExact _ w => ret (veq w v)
  (* array.go:237-243, allInstance array.go:1459-1469 *)
  | TArrSized _ e min max =>
      match v with
      | VArr l => if size_in min max (length_z l) then
                    (if is_any e then ret true else all_m (R true e) l)
                  else ret false
      | _ => ret false
      end
  (* array.go:560-601 *)
  | TTuple _ ts variadic =>
      match v with
      | VArr l => tuple_instance (R true) ts variadic l
      | _ => ret false
      end
  (* map.go:1071-1090 *)
  | TMapSized _ kt vt min max =>
      match v with
      | VMap m =>
          if size_in min max (length_z m) then
            if is_any kt then
              if is_any vt then ret true
              else all_m (fun e : value * value => R true vt (snd e)) m
            else if is_any vt then all_m (fun e : value * value => R false kt (fst e)) m
            else all_m (fun e : value * value => andm (R true kt (fst e)) (R true vt (snd e))) m
          else ret false
      | _ => ret false
      end
  | TStruct _ additional es =>
      match v with
      | VMap m => struct_instance (R true) additional es m 0
      | _ => ret false
      end
  (* ternary.go:106-114 *)
  | TAllOf _ ts => all_m (fun t => R true t v) ts
  (* ternary.go:210-218 *)
  | TAllOfValue _ vs => all_m (fun x => bind (fresh (fun p => type_of p x)) (fun t => R true t v)) vs
  (* ternary.go:318-326 *)
  | TAnyOf _ ts => any_m (fun t => R true t v) ts
  (* ternary.go:436-449 *)
  | TOneOf _ ts => one_m (fun t => R true t v) false ts
  | _ => ret false
  end.

(* the Instance methods of the other types *)
Definition flat_instance_of (R : bool -> ty -> value -> M bool) (t : ty) (v : value) : M bool :=
  match t with
  (* sensitive.go:66-71 *)
  | TSens _ s => match v with VSens x => R false s x | _ => ret false end
  (* not.go:74-76 *)
  | TNot _ s => notm (R false s v)
  (* the types that contain no types: as listed at inst_with *)
  | _ => ret (inst_simple W t v)
  end.

Fixpoint instn (n : nat) (fn : bool) (t : ty) (v : value) : M bool :=
  match n with
  | O => fail
  | S n' =>
    if deep_instance t then
      if fn then enter (NT t) (NV v) (deep_value v) (deep_instance_of (instn n') t v)
      else with_nil (instn n' true t v)
    else with_nil (flat_instance_of (instn n') t v)
  end.

(* ---------- Assignable ---------- *)

(* whether the type implements dgo.DeepAssignable: exact.go:58 (exactArrayType, exactMapType), sensitive.go:40,
   array.go:190, 403, map.go:1027, mapstruct.go:168, ternary.go:49, 151, 271, 380 *)
Definition deep_assignable (t : ty) : bool :=
  match t with
  | TSens _ _ => true
  | _ => deep_instance t
  end.

Definition new_type (v : value) : M ty := fresh (fun p => type_of p v).
Fixpoint new_types (vs : list value) : M (list ty) :=
  match vs with
  | [] => ret []
  | v :: r => bind (new_type v) (fun t => bind (new_types r) (fun ts => ret (t :: ts)))
  end.

(* Below, [R true a b] is the function Assignable(guard, a, b) (compare.go:52-74), [R false a b] the method
   a.Assignable(b), and [I t v] the function Instance(guard, t, v). *)

(* CheckAssignableTo(guard, other, a), type.go:15-23, with AssignableTo of ternary.go:66-74, 170-178, 285-293,
   403-411 *)
Definition check_assignable_to (R : bool -> ty -> ty -> M bool) (other a : ty) : M bool :=
  match other with
  | TAllOf _ ts => swapped (all_m (R true a) ts)
  | TAllOfValue _ vs => swapped (all_m (fun v => bind (new_type v) (R true a)) vs)
  | TAnyOf _ ts | TOneOf _ ts =>
      swapped (andm (all_m (R true a) ts) (ret (match ts with [] => false | _ => true end)))
  | _ => ret false
  end.

(* Min() and Max() of array types: array.go:153-159, 245-251, 319-325, 611-633 *)
Definition array_bounds (t : ty) : option (Z * Z) :=
  match t with
  | TArray => Some (0, max_int64)
  | TArrSized _ _ min max => Some (min, max)
  | TExact _ (VArr l) => Some (length_z l, length_z l)
  | TTuple _ ts variadic =>
      Some (if variadic then (length_z ts - 1, max_int64) else (length_z ts, length_z ts))
  | _ => None
  end.

(* ElementType() of array types: array.go:137, 200, 287-296, 482-500 *)
Definition element_type (t : ty) : M ty :=
  match t with
  | TArrSized _ e _ _ => ret e
  | TExact _ (VArr l) =>
      match l with
      | [] => ret TAny
      | [x] => new_type x
      | _ => fresh (fun p => TAllOfValue p l)
      end
  | TTuple _ ts _ =>
      match ts with
      | [] => ret TAny
      | [t] => ret t
      | _ => match unique ty type_eq thash ts with
             | None => fail
             | Some [t] => ret t
             | Some u => fresh (fun p => TAllOf p u)
             end
      end
  | _ => ret TAny
  end.

(* the number of required entries, mapstruct.go:308-317 *)
Definition count_required (es : list (value * ty * bool)) : Z :=
  length_z (filter (fun e : value * ty * bool => snd e) es).

(* Min() and Max() of map types: map.go:1171-1177, 1096-1102, 1253-1259, mapstruct.go:300-317 *)
Definition map_bounds (t : ty) : option (Z * Z) :=
  match t with
  | TMap => Some (0, max_int64)
  | TMapSized _ _ _ min max => Some (min, max)
  | TExact _ (VMap m) => Some (length_z m, length_z m)
  | TStruct _ additional es =>
      Some (count_required es,
            if Nat.eqb (length es) 0 || additional then max_int64 else length_z es)
  | _ => None
  end.

(* KeyType(): map.go:1093, 1167, 1241-1247, mapstruct.go:285-294; the allOfType of a struct is its keys array *)
Definition key_type (t : ty) : M ty :=
  match t with
  | TMapSized _ k _ _ _ => ret k
  | TExact _ (VMap m) =>
      match m with [] => ret TAny | _ => fresh (fun p => TAllOfValue p (map fst m)) end
  | TStruct _ _ es =>
      match es with
      | [] => ret TAny
      | [e] => fresh (fun p => TExact p (fst (fst e)))
      | _ => fresh (fun p => TAllOf p (map (fun e => TExact p (fst (fst e))) es))
      end
  | _ => ret TAny
  end.

(* ValueType(): map.go:1135, 1191, 1291-1297, mapstruct.go:443-452 *)
Definition value_type (t : ty) : M ty :=
  match t with
  | TMapSized _ _ v _ _ => ret v
  | TExact _ (VMap m) =>
      match m with [] => ret TAny | _ => fresh (fun p => TAllOfValue p (map snd m)) end
  | TStruct _ _ es =>
      match es with
      | [] => ret TAny
      | [e] => ret (snd (fst e))
      | _ => fresh (fun p => TAllOf p (map (fun e => snd (fst e)) es))
      end
  | _ => ret TAny
  end.

(* array.go:407-445 tupleAssignableTuple for two tuple types; [te_rest] and [oe_rest] are tv and ov *)
Fixpoint tuple_loop {A} (R : A -> A -> M bool) (n : nat) (ts os : list A) (tv ov : option A) : M bool :=
  match n with
  | O => ret true
  | S n' =>
      let te := match ts with t :: _ => Some t | [] => tv end in
      let oe := match os with o :: _ => Some o | [] => ov end in
      match te, oe with
      | Some t, Some o => andm (R t o) (tuple_loop R n' (tl ts) (tl os) tv ov)
      | _, _ => ret false
      end
  end.

Definition tuple_head {A} (ts : list A) (variadic : bool) : list A :=
  if variadic then firstn (Nat.pred (length ts)) ts else ts.
Definition tuple_rest {A} (ts : list A) (variadic : bool) : option A :=
  if variadic then nth_error ts (Nat.pred (length ts)) else None.

Definition tuple_assignable_tuple {A} (R : A -> A -> M bool) (ts : list A) (v : bool) (os : list A) (w : bool) : M bool :=
  let tmin := if v then length_z ts - 1 else length_z ts in
  let tmax := if v then max_int64 else length_z ts in
  let omin := if w then length_z os - 1 else length_z os in
  let omax := if w then max_int64 else length_z os in
  if (omin <? tmin) || (tmax <? omax) then ret false
  else
    let th := tuple_head ts v in
    let oh := tuple_head os w in
    tuple_loop R (Nat.max (length th) (length oh)) th oh (tuple_rest ts v) (tuple_rest os w).

(* array.go:447-462 tupleAssignableArray; the last test is on t.Element(n) with n = Len()-1 when t is
   variadic *)
Definition tuple_assignable_array (R : ty -> ty -> M bool) (ts : list ty) (v : bool) (et : ty) (omin omax : Z) : M bool :=
  let tmin := if v then length_z ts - 1 else length_z ts in
  let tmax := if v then max_int64 else length_z ts in
  if (tmin <=? omin) && (omax <=? tmax) then
    andm (all_m (fun t => R t et) (tuple_head ts v))
         (if v then match tuple_rest ts v with None => fail | Some t => R t et end else ret true)
  else ret false.

(* mapstruct.go:180-199: one step of the loop nextKey. None: the key is not found in the other
   type. *)
Fixpoint struct_find (k : value) (os : list (value * ty * bool)) : option (ty * bool) :=
  match os with
  | [] => None
  | (k', t, r) :: os' => if veq k k' then Some (t, r) else struct_find k os'
  end.

(* mapstruct.go:168-200, the case *structType *)
Fixpoint struct_assignable (R : ty -> ty -> M bool) (ad : bool) (es : list (value * ty * bool))
    (oad : bool) (os : list (value * ty * bool)) (oc : Z) : M bool :=
  match es with
  | [] => ret (ad || (oc =? length_z os))
  | (k, t, rq) :: r =>
      match struct_find k os with
      | Some (o, orq) =>
          if rq && negb orq then ret false
          else bind (R t o) (fun b => if b then struct_assignable R ad r oad os (oc + 1) else ret false)
      | None => if rq || oad then ret false else struct_assignable R ad r oad os oc
      end
  end.

(* ternary.go:545-585 lessRestrictive. [scan want] is one of the two inner loops: it looks for a type in
   b whose matched flag is [want] and that is assignable to ta; it returns its position. *)
Fixpoint scan (R : ty -> M bool) (want : bool) (bts : list ty) (matched : list bool) (i : nat) : M (option nat) :=
  match bts, matched with
  | tb :: bts', m :: matched' =>
      if Bool.eqb m want then
        bind (R tb) (fun b => if b then ret (Some i) else scan R want bts' matched' (S i))
      else scan R want bts' matched' (S i)
  | _, _ => ret None
  end.

(* the loop nextA; None: return false *)
Fixpoint match_all (R : ty -> ty -> M bool) (ats bts : list ty) (matched : list bool) : M (option (list bool)) :=
  match ats with
  | [] => ret (Some matched)
  | ta :: r =>
      bind (scan (R ta) false bts matched 0) (fun o =>
        match o with
        | Some i => match_all R r bts (upd matched i true)
        | None => bind (scan (R ta) true bts matched 0) (fun o' =>
                    match o' with
                    | Some _ => match_all R r bts matched
                    | None => ret None
                    end)
        end)
  end.

(* the last loop: extra entries in b *)
Fixpoint no_lessening (R : ty -> ty -> M bool) (ats bts : list ty) (matched : list bool) : M bool :=
  match bts, matched with
  | tb :: bts', m :: matched' =>
      if m then no_lessening R ats bts' matched'
      else andm (notm (any_m (R tb) ats)) (no_lessening R ats bts' matched')
  | _, _ => ret true
  end.

Definition less_restrictive (R : ty -> ty -> M bool) (ats bts : list ty) : M bool :=
  bind (match_all R ats bts (map (fun _ => false) bts)) (fun o =>
    match o with
    | None => ret false
    | Some matched => swapped (no_lessening R ats bts matched)
    end).

(* the DeepAssignable methods *)
Definition deep_assignable_to (R : bool -> ty -> ty -> M bool) (I : ty -> value -> M bool) (a b : ty) : M bool :=
  let check := check_assignable_to R b a in
  match a with
  (* exact.go:58-60 *)
  | TExact _ v => orm (ret (match b with TExact _ w => veq v w | _ => false end)) check
  (* sensitive.go:40-45 *)
  | TSens _ t => match b with TSens _ o => R true t o | _ => check end
  (* array.go:190-198 *)
  | TArrSized _ e min max =>
      match b with
      | TArray => ret false
      | _ =>
        match array_bounds b with
        | Some (bmin, bmax) =>
            if (min <=? bmin) && (bmax <=? max) then bind (element_type b) (R false e) else ret false
        | None => check
        end
      end
  (* array.go:464-476 *)
  | TTuple _ ts v =>
      match b with
      | TArray => ret false
      | TExact _ (VArr l) => I a (VArr l)
      | TTuple _ os w => tuple_assignable_tuple (R true) ts v os w
      | TArrSized _ e bmin bmax => tuple_assignable_array (R true) ts v e bmin bmax
      | _ => check
      end
  (* map.go:1027-1033 *)
  | TMapSized _ kt vt min max =>
      match map_bounds b with
      | Some (bmin, bmax) =>
          if (min <=? bmin) && (bmax <=? max) then
            andm (bind (key_type b) (R true kt)) (bind (value_type b) (R true vt))
          else ret false
      | None => check
      end
  (* mapstruct.go:168-206 *)
  | TStruct _ ad es =>
      match b with
      | TStruct _ oad os => struct_assignable (R true) ad es oad os 0
      | TExact _ (VMap m) => I a (VMap m)
      | _ => check
      end
  (* ternary.go:49-63 *)
  | TAllOf _ ts =>
      match b with
      | TAllOf _ os => less_restrictive (R true) ts os
      | TAllOfValue _ vs => bind (new_types vs) (fun os => less_restrictive (R true) ts os)
      | _ => orm (all_m (fun t => R true t b) ts) check
      end
  (* ternary.go:151-167 *)
  | TAllOfValue _ vs =>
      match b with
      | TAllOfValue _ ws => ret (bool_or_false (contains_all value veq vs ws))
      | TAllOf _ os => bind (new_types vs) (fun ts => less_restrictive (R true) ts os)
      | _ => all_m (fun v => bind (new_type v) (fun t => R true t b)) vs
      end
  (* ternary.go:271-283 *)
  | TAnyOf _ ts =>
      match ts with
      | [] => ret (match b with TAnyOf _ _ => true | _ => false end)
      | _ => orm (any_m (fun t => R true t b) ts) check
      end
  (* ternary.go:380-400 *)
  | TOneOf _ ts =>
      match ts with
      | [] => ret (match b with TOneOf _ _ => true | _ => false end)
      | _ => orm (one_m (fun t => R true t b) false ts) check
      end
  | _ => ret false
  end.

(* the Assignable methods of the types without DeepAssignable *)
Definition flat_assignable_to (R : bool -> ty -> ty -> M bool) (a b : ty) : M bool :=
  let check := check_assignable_to R b a in
  match a with
  (* any.go:17-19 *)
  | TAny => ret true
  (* nil.go:57-60 *)
  | TNil => match b with TNil => ret true | _ => check end
  (* boolean.go:37-40 *)
  | TBool => match b with TBool | TExact _ (VBool _) => ret true | _ => check end
  (* integer.go:197-203 *)
  | TInt => match b with TInt | TIntRange _ _ _ | TExact _ (VInt _) => ret true | _ => check end
  (* integer.go:70-89 *)
  | TIntRange min max incl =>
      match b with
      | TExact _ (VInt z) => ret (int_in min max incl z)
      | TIntRange omin omax oincl =>
          if omin <? min then ret false
          else
            let mm := if incl then max else w64 (max - 1) in
            let om := if oincl then omax else w64 (omax - 1) in
            ret (om <=? mm)
      | _ => check
      end
  (* float.go:177-183 *)
  | TFloat => match b with TFloat | TFloatRange _ _ _ | TExact _ (VFloat _) => ret true | _ => ret false end
  (* float.go:57-71 *)
  | TFloatRange min max incl =>
      match b with
      | TExact _ (VFloat f) => ret (float_in min max incl f)
      | TFloatRange omin omax oincl =>
          if SFltb omin min then ret false
          else if incl || Bool.eqb incl oincl then ret (SFleb omax max)
          else ret (SFltb omax max)
      | _ => check
      end
  (* string.go:198-204 *)
  | TString =>
      match b with
      | TString | TDgoString | TExact _ (VStr _) | TCiStr _ | TStrSized _ _ | TPattern _ => ret true
      | _ => check
      end
  (* string.go:97-105 *)
  | TDgoString =>
      match b with
      | TDgoString => ret true
      | TExact _ (VStr s) => ret (dgo_string W s)
      | _ => check
      end
  (* string.go:459-471 *)
  | TStrSized min max =>
      match b with
      | TDgoString => ret (min <=? 1)
      | TExact _ (VStr s) => ret (size_in min max (length_z s))
      | TCiStr s => ret (size_in min max (length_z s))
      | TStrSized omin omax => ret ((min <=? omin) && (omax <=? max))
      | _ => check
      end
  (* string.go:302-307 *)
  | TCiStr c =>
      match b with
      | TExact _ (VStr s) => ret (w_fold W c s)
      | TCiStr s => orm (ret (bytes_eqb c s)) check
      | _ => check
      end
  (* string.go:363-371 *)
  | TPattern r =>
      match b with
      | TExact _ (VStr s) => ret (w_match W r s)
      | TPattern s => ret (bytes_eqb r s)
      | _ => check
      end
  (* binary.go:76-81 *)
  | TBinary min max =>
      match b with
      | TBinary omin omax => ret ((min <=? omin) && (omax <=? max))
      | TExact _ (VBin s) => ret ((min <=? length_z s) && (length_z s <=? max))
      | _ => check
      end
  (* time.go:27-33 *)
  | TTime => match b with TTime | TExact _ (VTime _ _ _) => ret true | _ => check end
  (* regexp.go:30-36 *)
  | TRegexp => match b with TRegexp | TExact _ (VRegexp _) => ret true | _ => check end
  (* exact.go:15-17 *)
  | TExact _ v => orm (ret (match b with TExact _ w => veq v w | _ => false end)) check
  (* array.go:129-135 *)
  | TArray =>
      match b with
      | TArray | TTuple _ _ _ | TExact _ (VArr _) | TArrSized _ _ _ _ => ret true
      | _ => check
      end
  (* map.go:1146-1152 *)
  | TMap => match b with TMap | TMapSized _ _ _ _ _ | TExact _ (VMap _) => ret true | _ => check end
  (* not.go:36-72 *)
  | TNot _ t =>
      match b with
      | TNot _ o => R false o t
      | TAnyOf _ os => any_m (R false a) os
      | TAllOf _ os => all_m (R false a) os
      | TOneOf _ os => one_m (R false a) false os
      | _ => notm (R false t b)
      end
  (* meta.go:31-40 *)
  | TMeta t =>
      match b with
      | TMeta o =>
          ret (match t, o with
               | None, None => true
               | Some x, Some y => type_eq x y
               | _, _ => false
               end)
      | _ => check
      end
  | _ => ret false
  end.

(* Assignable(guard, a, b), compare.go:52-74, and the methods a.Assignable(b) (those with DeepAssignable call
   Assignable(nil, a, b), e.g. array.go:186) *)
Fixpoint asgn (n : nat) (fn : bool) (a b : ty) : M bool :=
  match n with
  | O => fail
  | S n' =>
    if fn then
      if same_type a b then ret true
      else if deep_assignable a then
        enter (NT a) (NT b) (deep_assignable b) (deep_assignable_to (asgn n') (instn n' true) a b)
      else with_nil (flat_assignable_to (asgn n') a b)
    else if deep_assignable a then
      match a with
      (* exact.go:42-44: the receiver is the embedded deepExactType *)
      | TExact _ _ =>
          with_nil (enter (NE a) (NT b) (deep_assignable b) (deep_assignable_to (asgn n') (instn n' true) a b))
      | _ => with_nil (asgn n' true a b)
      end
    else with_nil (flat_assignable_to (asgn n') a b)
  end.

(* ---------- calls from outside ---------- *)

(* no guard; new objects get addresses from [p] on *)
Definition start (p : ptr) : st := {| s_guard := None; s_next := p; s_hit := false |}.

Definition outcome (o : option (bool * st)) : option bool := option_map fst o.

(* t.Instance(v) *)
Definition instance (n : nat) (p : ptr) (t : ty) (v : value) : option bool := outcome (instn n false t v (start p)).
(* a.Assignable(b) *)
Definition assignable (n : nat) (p : ptr) (a b : ty) : option bool := outcome (asgn n false a b (start p)).

End World.
