(* Native values: /repo/internal/native.go, with ValueFromReflected (/repo/internal/value.go:98-143) as far as it concerns the
   fields of structs.

   Go values of the kinds that become natives, and of the kinds that are found inside them, in a heap. Left out: maps, []byte,
   []dgo.Value, time.Time, regexp.Regexp, errors, dgo values other than strings, slices that show a part of an array only, and
   the conversion of values that are reached through fields that are not exported by other code than HashCode. *)
From Coq Require Import ZArith List Bool.
From Coq Require Import Floats.SpecFloat.
From Verif Require Import Int64 Data.
Import ListNotations.
Open Scope Z_scope.

(* A Go value with the number of its type. The types of a struct: its number, and for each field whether it is exported. Pointers and
   slices have the number of a cell of the heap; the cell of a slice is an NvArr. *)
Inductive nval :=
| NvBool (b : bool) | NvInt (z : Z) | NvFloat (f : spec_float) | NvStr (s : list Z) (* the predeclared types bool, int, float64, string *)
| NvDef (t : nat) (z : Z)                     (* a defined type of the kind int *)
| NvChan (t : nat) (p : Z) | NvFunc (t : nat) (p : Z) (* with their addresses, 0 for nil *)
| NvArr (t : nat) (l : list nval)
| NvStruct (t : nat) (fs : list (bool * nval))
| NvSlice (t : nat) (p : option nat) | NvPtr (t : nat) (p : option nat)
| NvAny (x : option nval)                     (* interface{} *)
| NvIface (t : nat) (x : option nval)         (* an interface with methods *)
| NvVal (p : nat)                             (* a dgo.Value that is a string: a pointer to an hstring *)
| NvHstr (s : list Z) (hash : Z).             (* hstring, string.go:45-48: the text and the hash code, 0 if not known *)

(* What a function of Go gives: a result or a panic. Out: the fuel is used up. *)
Inductive out (A : Type) := Done (x : A) | Panic | Out.
Arguments Done {A}. Arguments Panic {A}. Arguments Out {A}.
Definition obind {A B} (m : out A) (f : A -> out B) : out B := match m with Done x => f x | Panic => Panic | Out => Out end.
Fixpoint omap {A B} (f : A -> out B) (l : list A) : out (list B) :=
  match l with
  | [] => Done []
  | x :: r => obind (f x) (fun y => obind (omap f r) (fun ys => Done (y :: ys)))
  end.

Definition heap := list nval.
Definition cell (h : heap) (p : nat) : option nval := nth_error h p.

(* ---------- Equals ---------- *)

(* the pairs of addresses that reflect.DeepEqual has met *)
Definition pairs := list (nat * nat).
Definition met (seen : pairs) (p q : nat) : bool := existsb (fun e => Nat.eqb (fst e) p && Nat.eqb (snd e) q) seen.
(* the fields of the same struct type are exported alike *)
Fixpoint same_flags (fs gs : list (bool * nval)) : bool :=
  match fs, gs with [], [] => true | (e, _) :: r, (e', _) :: r' => Bool.eqb e e' && same_flags r r' | _, _ => false end.

Section Lists.
Variable f : pairs -> nval -> nval -> option (bool * pairs).
(* arrays, slices and structs are compared from the left until there is a difference (package reflect) *)
Fixpoint deq_list (seen : pairs) (l l' : list nval) : option (bool * pairs) :=
  match l, l' with
  | [], [] => Some (true, seen)
  | x :: r, y :: r' => match f seen x y with Some (true, s) => deq_list s r r' | o => o end
  | _, _ => Some (false, seen)
  end.
End Lists.

Section Heap.
Variable h : heap.

(* two pointers or slices: equal addresses, or a pair that was met before, or equal contents (package reflect) *)
Definition deq_ref (f : pairs -> nval -> nval -> option (bool * pairs)) (seen : pairs) (p q : option nat) : option (bool * pairs) :=
  match p, q with
  | None, None => Some (true, seen)
  | Some p, Some q =>
      if Nat.eqb p q || met seen p q then Some (true, seen)
      else match cell h p, cell h q with Some x, Some y => f ((p, q) :: seen) x y | _, _ => None end
  | _, _ => Some (false, seen)
  end.

(* reflect.DeepEqual (package reflect). None: the fuel is used up, or an address is not one of the heap. The types are compared everywhere;
   this makes a difference at the top and in interfaces only. *)
Fixpoint deq (n : nat) (seen : pairs) (a b : nval) : option (bool * pairs) :=
  match n with
  | O => None
  | S n =>
      let leaf c := Some (c, seen) in
      match a, b with
      | NvBool x, NvBool y => leaf (Bool.eqb x y)
      | NvInt x, NvInt y => leaf (x =? y)
      | NvFloat x, NvFloat y => leaf (SFeqb x y)
      | NvStr x, NvStr y => leaf (bytes_eqb x y)
      | NvDef t x, NvDef t' y => leaf (Nat.eqb t t' && (x =? y))
      | NvChan t p, NvChan t' q => leaf (Nat.eqb t t' && (p =? q))
      | NvFunc t p, NvFunc t' q => leaf (Nat.eqb t t' && (p =? 0) && (q =? 0))
      | NvArr t l, NvArr t' l' => if Nat.eqb t t' then deq_list (deq n) seen l l' else leaf false
      | NvStruct t fs, NvStruct t' gs =>
          if Nat.eqb t t' && same_flags fs gs then deq_list (deq n) seen (map snd fs) (map snd gs) else leaf false
      | NvSlice t p, NvSlice t' q => if Nat.eqb t t' then deq_ref (deq n) seen p q else leaf false
      | NvPtr t p, NvPtr t' q => if Nat.eqb t t' then deq_ref (deq n) seen p q else leaf false
      | NvAny None, NvAny None => leaf true
      | NvAny (Some x), NvAny (Some y) => deq n seen x y
      | NvIface t None, NvIface t' None => leaf (Nat.eqb t t')
      | NvIface t (Some x), NvIface t' (Some y) => if Nat.eqb t t' then deq n seen x y else leaf false
      | NvVal p, NvVal q => deq_ref (deq n) seen (Some p) (Some q)
      | NvHstr s k, NvHstr s' k' => leaf (bytes_eqb s s' && (k =? k'))
      | _, _ => leaf false
      end
  end.

(* what Equals is asked about: a native, a Go value, or another dgo value *)
Inductive noperand := NoNative (v : nval) | NoGo (v : nval) | NoValue.
(* native.Equals, native.go:82-92, with toReflected, 169-177. Values of different kinds are of different types. *)
Definition native_eq (n : nat) (a : nval) (o : noperand) : option bool :=
  match o with
  | NoNative b | NoGo b => option_map fst (deq n [] a b)
  | NoValue => Some false
  end.

(* ---------- HashCode ---------- *)

(* What ValueFromReflected makes: a value with this hash code, an array, or a native; the flag says whether the Go value can be had
   with Interface(), which is not so for what is reached through a field that is not exported (package reflect). *)
Inductive cval := CKnown (z : Z) | CArr (l : list cval) | CNat (ex : bool) (v : nval).
Definition is_nat (c : cval) : bool := match c with CNat _ _ => true | _ => false end.
(* p ^ (p >> 32) of an address *)
Definition mix (p : Z) : Z := Z.lxor p (Z.shiftr p 32).

(* ValueFromReflected, value.go:98-143; the frozen array of a slice, array.go:719-755, asks the elements for frozen copies, which is
   a panic for natives (native.go:104-106) *)
Fixpoint conv (n : nat) (ex : bool) (v : nval) : out cval :=
  match n with
  | O => Out
  | S n =>
      let known x := Done (if ex then CKnown (vhash x) else CNat ex v) in
      match v with
      | NvBool b => known (VBool b)
      | NvInt z => known (VInt z)
      | NvFloat f => known (VFloat f)
      | NvStr s => known (VStr s)
      | NvFunc _ p => Done (CKnown p)
      | NvSlice _ None | NvPtr _ None | NvAny None => Done (CKnown (vhash VNil))
      | NvSlice _ (Some p) =>
          match cell h p with
          | Some (NvArr _ l) =>
              obind (omap (conv n ex) l) (fun cs => if existsb is_nat cs then Panic else Done (CArr cs))
          | _ => Out
          end
      | NvPtr _ (Some p) =>
          match cell h p with
          | Some (NvStruct _ _) => Done (CNat ex v)
          | Some x => conv n ex x
          | None => Out
          end
      | NvAny (Some x) => conv n ex x
      | NvIface _ None => known VNil
      | NvVal p =>
          match cell h p with
          | Some (NvHstr s _) => known (VStr s)
          | _ => Out
          end
      | NvDef _ _ | NvChan _ _ | NvArr _ _ | NvStruct _ _ | NvIface _ (Some _) => Done (CNat ex v)
      | NvHstr s _ => Done (CKnown (vhash (VStr s))) (* there are no such variables; it is reached as NvVal only *)
      end
  end.

(* HashCode of a frozen array, array.go:1094-1101; it has no natives *)
Fixpoint arr_hash (c : cval) : Z :=
  match c with CKnown z => z | CArr l => hash_list (map arr_hash l) | CNat _ _ => 0 end.

Section Fields.
Variable f : bool -> nval -> out Z.
Variable n : nat.
(* structHash, native.go:131-138 *)
Fixpoint struct_hash (ex : bool) (acc : Z) (fs : list (bool * nval)) : out Z :=
  match fs with
  | [] => Done acc
  | (e, v) :: r =>
      obind (conv n (ex && e) v) (fun c =>
      obind (match c with CNat x w => f x w | _ => Done (arr_hash c) end) (fun z =>
      struct_hash ex (w64 (acc * 31 + z)) r))
  end.
End Fields.

(* native.HashCode, native.go:112-129 *)
Fixpoint native_hash (n : nat) (ex : bool) (v : nval) : out Z :=
  match n with
  | O => Out
  | S n =>
      match v with
      | NvPtr _ (Some p) =>
          match cell h p with
          | Some (NvStruct _ fs) => struct_hash (native_hash n) n ex 1 fs
          | Some _ => Done (mix (Z.of_nat p))
          | None => Out
          end
      | NvPtr _ None => Done (mix 0)
      | NvChan _ p => Done (mix p)
      | NvStruct _ fs => obind (struct_hash (native_hash n) n ex 1 fs) (fun z => Done (w64 (z * 3)))
      | _ => Done 1234
      end
  end.

(* ---------- what HashCode writes ---------- *)

(* the strings whose hash codes native.HashCode asks for, string.go:591-596: the exported fields that are strings, also of the
   structs that fields are or point to; strings in slices and interfaces are left out *)
Fixpoint asked (n : nat) (v : nval) : list nat :=
  match n with
  | O => []
  | S n =>
      let fields fs := flat_map (fun e : bool * nval => if fst e then asked n (snd e) else []) fs in
      match v with
      | NvVal p => [p]
      | NvPtr _ (Some p) => match cell h p with Some (NvStruct _ fs) => fields fs | _ => [] end
      | NvStruct _ fs => fields fs
      | _ => []
      end
  end.
End Heap.

Definition warm (v : nval) : nval := match v with NvHstr s _ => NvHstr s (string_hash s) | v => v end.
Fixpoint update (h : heap) (p : nat) : heap :=
  match h, p with [], _ => [] | x :: r, O => warm x :: r | x :: r, S p => x :: update r p end.
(* the heap after a call of HashCode, native.go:112-138 *)
Definition after_hash (n : nat) (h : heap) (v : nval) : heap := fold_left update (asked h n v) h.

(* ---------- types ---------- *)

(* A Go type: its name, if it is a defined type (two types with the same name are the same), the number of its underlying type, whether
   that is an interface, and the methods it has, or asks for. *)
Record gtype := { gt_name : option nat; gt_under : nat; gt_iface : bool; gt_methods : list nat }.
Definition name_eqb (a b : option nat) : bool :=
  match a, b with Some x, Some y => Nat.eqb x y | None, None => true | _, _ => false end.
(* identity of types (Go language) *)
Definition gt_eqb (a b : gtype) : bool := name_eqb (gt_name a) (gt_name b) && Nat.eqb (gt_under a) (gt_under b).
(* Type.AssignableTo (package reflect): identical types, or an interface that the type implements, or the same underlying type and one of
   them is not a defined type. The rule for channels with a direction is left out. *)
Definition go_assignable (a b : gtype) : bool :=
  gt_eqb a b
  || (gt_iface b && forallb (fun m => existsb (Nat.eqb m) (gt_methods a)) (gt_methods b))
  || (Nat.eqb (gt_under a) (gt_under b) && (name_eqb (gt_name a) None || name_eqb (gt_name b) None)).

(* nativeType, native.go:14-16: DefaultNativeType has no reflect.Type *)
Definition ntype := option gtype.
(* nativeType.Assignable, native.go:28-39, of native types; CheckAssignableTo says no to other types that are no wrappers *)
Definition nt_assignable (a b : ntype) : bool :=
  match a, b with None, _ => true | Some _, None => false | Some x, Some y => go_assignable y x end.
(* nativeType.Equals, native.go:41-46 *)
Definition nt_eq (a b : ntype) : bool :=
  match a, b with None, None => true | Some x, Some y => gt_eqb x y | _, _ => false end.
(* nativeType.HashCode, native.go:48-50; TiNative is 19 (typeidentifier.go:7-145). Type.Name of a type that is not defined is empty
   (package reflect). *)
Definition nt_hash (names : nat -> list Z) (a : ntype) : out Z :=
  match a with
  | None => Panic
  | Some x => Done (w64 (string_hash (match gt_name x with Some i => names i | None => [] end) * 31 + 19))
  end.
(* What Instance is asked about: a native or a Go value with its type, a nil of Go, or another dgo value *)
Inductive ntoperand := NtNative (t : gtype) | NtGo (t : gtype) | NtNil | NtValue.
(* nativeType.Instance, native.go:64-72; Type of the zero reflect.Value is a panic (package reflect) *)
Definition nt_instance (a : ntype) (o : ntoperand) : out bool :=
  match o with
  | NtNative t | NtGo t => Done (match a with None => true | Some x => go_assignable t x end)
  | NtNil => match a with None => Done true | Some _ => Panic end
  | NtValue => Done false
  end.
(* native.Type, native.go:161-163 *)
Definition native_type (t : gtype) : ntype := Some t.

(* ---------- ReflectTo ---------- *)

(* a variable of Go: of the type t, or of the type *t for some type t. Pointer types are not defined types here. *)
Inductive dest := DVar (t : gtype) | DPtr (t : gtype).
(* The type of the value of a native: t, or *t where t is a struct. *)
Inductive nsource := SVal (t : gtype) | SPtr (t : gtype).
(* native.ReflectTo, native.go:140-149, after value.go:156-164. What is stored: the value itself, or a pointer to a copy. Value.Set
   panics if the type is not assignable (package reflect). A pointer has the methods of what it points to. *)
Inductive stored := StValue | StPointer.
Definition ptr_assignable (t : gtype) (d : gtype) : bool := gt_iface d && forallb (fun m => existsb (Nat.eqb m) (gt_methods t)) (gt_methods d).
Definition native_reflect_to (s : nsource) (d : dest) : out stored :=
  match d, s with
  | DPtr t, SVal u => if gt_eqb u t then Done StPointer else Panic
  | DPtr _, SPtr _ => Panic
  | DVar t, SVal u => if go_assignable u t then Done StValue else Panic
  | DVar t, SPtr u => if ptr_assignable u t then Done StValue else Panic
  end.
