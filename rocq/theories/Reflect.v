(* Conversion of Go values to dgo values and back: /repo/internal/value.go and the ReflectTo methods.

   Go values are trees: a pointer is modelled by what it points to. Left out: defined types other than the ones named below,
   structs, arrays with a fixed length, channels, functions, complex numbers, uintptr, errors, json.Number; fields that
   are not exported. *)
From Coq Require Import ZArith List Bool.
From Coq Require Import Floats.SpecFloat.
From Verif Require Import Int64 Data Convert.
Import ListNotations.
Open Scope Z_scope.

(* Go types: bool, the integers, float32, float64, string, time.Time, regexp.Regexp, slices, maps, pointers, interface{},
   dgo.Value, dgo.Sensitive *)
Inductive gty :=
| RBool | RInt (k : go_int) | RFloat32 | RFloat64 | RString | RTime | RRegexp
| RSlice (e : gty) | RMap (k e : gty) | RPtr (e : gty) | RAny | RValue | RSens.

(* Go values. XNil is the nil of slices, maps, pointers and interfaces; XAny is an interface{} with its dynamic type, for a
   dgo value RValue; XDgo is a dgo value in a variable of the type dgo.Value or dgo.Sensitive. The entries of a map are in
   the order in which MapKeys gives them. *)
Inductive gval :=
| XNil | XBool (b : bool) | XInt (z : Z) | XFloat (f : spec_float) | XString (s : list Z) | XTime (sec nsec zone : Z) | XRegexp (s : list Z)
| XSlice (l : list gval) | XMap (m : list (gval * gval)) | XPtr (x : gval) | XAny (t : gty) (x : gval) | XDgo (v : value).

(* The outcome: a result; a panic; a result that is, or holds, a native value (native.go:23-26) *)
Inductive res (A : Type) := Done (x : A) | Panic | Native.
Arguments Done {A}. Arguments Panic {A}. Arguments Native {A}.
Definition rbind {A B} (m : res A) (f : A -> res B) : res B :=
  match m with Done x => f x | Panic => Panic | Native => Native end.
(* a panic of the second part ends the whole even if the first has a native value *)
Definition rpair {A B} (a : res A) (b : res B) : res (A * B) :=
  match a, b with
  | Done x, Done y => Done (x, y)
  | Panic, _ | _, Panic => Panic
  | _, _ => Native
  end.
Fixpoint rlist {A} (l : list (res A)) : res (list A) :=
  match l with
  | [] => Done []
  | x :: r => rbind (rpair x (rlist r)) (fun p => Done (fst p :: snd p))
  end.

(* go types are compared for identity; all types here are without a name of their own or predeclared (Go language) *)
Definition go_int_eqb (a b : go_int) : bool :=
  match a, b with
  | KInt, KInt | KInt64, KInt64 | KInt32, KInt32 | KInt16, KInt16 | KInt8, KInt8
  | KUint, KUint | KUint64, KUint64 | KUint32, KUint32 | KUint16, KUint16 | KUint8, KUint8 => true
  | _, _ => false
  end.
Fixpoint gty_eqb (a b : gty) : bool :=
  match a, b with
  | RBool, RBool | RFloat32, RFloat32 | RFloat64, RFloat64 | RString, RString | RTime, RTime | RRegexp, RRegexp
  | RAny, RAny | RValue, RValue | RSens, RSens => true
  | RInt k, RInt k' => go_int_eqb k k'
  | RSlice e, RSlice e' | RPtr e, RPtr e' => gty_eqb e e'
  | RMap k e, RMap k' e' => gty_eqb k k' && gty_eqb e e'
  | _, _ => false
  end.
(* Type.AssignableTo (package reflect): identical types, or an interface that the type implements *)
Definition assignable_to (a b : gty) : bool :=
  gty_eqb a b || match b with RAny => true | RValue => gty_eqb a RSens | _ => false end.
(* types whose values can be compared (Go language); reflect.MapOf panics for other keys *)
Definition comparable (t : gty) : bool := match t with RSlice _ | RMap _ _ => false | _ => true end.

(* equality of Go values of the same type (Go language). Pointers are those to different variables. *)
Fixpoint go_eq (a b : gval) : bool :=
  match a, b with
  | XNil, XNil => true
  | XBool x, XBool y => Bool.eqb x y
  | XInt x, XInt y => x =? y
  | XFloat x, XFloat y => SFeqb x y
  | XString x, XString y => bytes_eqb x y
  | XTime s n z, XTime s' n' z' => (s =? s') && (n =? n') && (z =? z')
  | XAny t x, XAny t' y => gty_eqb t t' && go_eq x y
  | _, _ => false
  end.
(* whether a lookup with a key that is in the map finds it: not for NaN *)
Fixpoint finds_itself (x : gval) : bool :=
  match x with XFloat f => SFeqb f f | XAny _ x => finds_itself x | _ => true end.

(* ---------- from Go ---------- *)

Section From.
(* sort.Slice on the entries of a Go map, which come in any order (map.go:288-307) *)
Variable arrange : list (value * value) -> list (value * value).

(* the bytes of a []byte *)
Definition byte_of (x : gval) : Z := match x with XInt z => z | _ => 0 end.

(* ValueFromReflected (value.go:98-141) of a value of the type t with value (49-83), ArrayFromReflected with frozen
   (array.go:719-755), FromReflectedMap with frozen (map.go:276-324), ToInt (integer.go:376-412) and ToFloat (float.go:321-334).
   MapIndex gives no value for a NaN. The nil of a []dgo.Value remains a Go nil (array.go:732-737), which is no
   value: the outcome is a panic, the one that comes when the array is used. *)
Fixpoint from_go (t : gty) (x : gval) {struct x} : res value :=
  match t, x with
  | (RSlice _ | RMap _ _ | RPtr _ | RAny | RValue | RSens), XNil => Done VNil
  | RBool, XBool b => Done (VBool b)
  | RInt k, XInt z => match to_int k z with Some z => Done (VInt z) | None => Panic end
  | (RFloat32 | RFloat64), XFloat f => Done (VFloat f)
  | RString, XString s => Done (VStr s)
  | RTime, XTime s n z => Done (VTime s n z)
  | RSlice e, XSlice l =>
      match e with
      | RInt KUint8 => Done (VBin (map byte_of l))
      | RValue => rbind (rlist (map (fun x => match x with XDgo v => Done v | _ => Panic end) l)) (fun vs => Done (VArr vs))
      | _ => rbind (rlist (map (from_go e) l)) (fun vs => Done (VArr vs))
      end
  | RMap k e, XMap m =>
      rbind (rlist (map (fun p => rpair (from_go k (fst p)) (if finds_itself (fst p) then from_go e (snd p) else Done VNil)) m))
        (fun es => Done (VMap (arrange es)))
  | RAny, XAny t x => from_go t x
  | (RValue | RSens), XDgo v => Done v
  | RPtr RRegexp, XPtr (XRegexp s) => Done (VRegexp s)
  | RPtr RTime, XPtr _ => Native
  | RPtr e, XPtr x => from_go e x
  | _, _ => Native
  end.
End From.

(* ---------- to Go ---------- *)

(* the zero value of a type (Go language); times are counted from the zero time *)
Definition zero (t : gty) : gval :=
  match t with
  | RBool => XBool false
  | RInt _ => XInt 0
  | RFloat32 | RFloat64 => XFloat (S754_zero false)
  | RString => XString []
  | RTime => XTime 0 0 0
  | RRegexp => XRegexp []
  | _ => XNil
  end.

(* the conversion of float64 to float32 and back (Go language, IEEE 754) *)
Definition round32 (f : spec_float) : spec_float :=
  match f with
  | S754_finite s m e =>
      match binary_normalize 24 128 (if s then Zneg m else Zpos m) e s with
      | S754_finite s m e => binary_normalize 53 1024 (if s then Zneg m else Zpos m) e s
      | g => g
      end
  | _ => f
  end.

(* commonReflectTo (ternary.go:503-519) from the second element on. The loop ends before it looks at further elements. *)
Fixpoint common_loop (prev : gty) (l : list (res gty)) : res gty :=
  match l with
  | [] => Done prev
  | rt :: r =>
      rbind rt (fun rt =>
        if assignable_to rt prev then common_loop prev r
        else if assignable_to prev rt then common_loop rt r
        else Done RAny)
  end.
Definition common (l : list (res gty)) : res gty :=
  match l with [] => Done RAny | rt :: r => rbind rt (fun rt => common_loop rt r) end.
Definition map_of (k e : gty) : res gty := if comparable k then Done (RMap k e) else Panic.

(* v.Type().ReflectType(): nil.go:74, boolean.go:101, integer.go:185, float.go:165, string.go:272, binary.go:166, time.go:83, regexp.go:82,
   sensitive.go:75, array.go:287-296, 327-329, ternary.go:228-230, map.go:1241-1247, 1265-1267, 1291-1297. The element type of
   an array with one element is that of the element. *)
Fixpoint reflect_type (v : value) : res gty :=
  match v with
  | VNil => Done RAny
  | VBool _ => Done RBool
  | VInt _ => Done (RInt KInt64)
  | VFloat _ => Done RFloat64
  | VStr _ => Done RString
  | VBin _ => Done (RSlice (RInt KUint8))
  | VTime _ _ _ => Done RTime
  | VRegexp _ => Done (RPtr RRegexp)
  | VSens _ => Done RSens
  | VArr l => rbind (common (map reflect_type l)) (fun e => Done (RSlice e))
  | VMap m =>
      rbind (common (map (fun p => reflect_type (fst p)) m)) (fun k =>
      rbind (common (map (fun p => reflect_type (snd p)) m)) (fun e => map_of k e))
  end.

(* SetMapIndex (package reflect): an interface with a value that cannot be compared is refused *)
Definition hashable (x : gval) : bool := match x with XAny t _ => comparable t | _ => true end.
Fixpoint set_map_index (m : list (gval * gval)) (k x : gval) : list (gval * gval) :=
  match m with
  | [] => [(k, x)]
  | (k', x') :: r => if go_eq k k' then (k', x) :: r else (k', x') :: set_map_index r k x
  end.
Fixpoint set_all (m : list (gval * gval)) (l : list (gval * gval)) : res (list (gval * gval)) :=
  match l with
  | [] => Done m
  | (k, x) :: r => if hashable k then set_all (set_map_index m k x) r else Panic
  end.

(* The variable has the type t: Set of a value of the type s (package reflect) *)
Definition set (t s : gty) (x : gval) : res gval :=
  if gty_eqb t s then Done x else match t with RAny => Done (XAny s x) | _ => Panic end.

(* ReflectTo (value.go:156-164) with nil.go:39-41, boolean.go:150-160, integer.go:306-354, float.go:290-305, string.go:598-607, binary.go:378-389,
   time.go:169-176, regexp.go:117-124, array.go:1172-1199, map.go:678-704. A sensitive value has no such method. *)
Fixpoint to_go (v : value) (t : gty) {struct v} : res gval :=
  match t with
  | RValue => Done (XDgo v)
  | RSens => match v with VSens _ => Done (XDgo v) | _ => Panic end
  | _ =>
    match v with
    | VNil => Done (zero t)
    | VBool b => match t with RAny => Done (XAny RBool (XBool b)) | RPtr _ => set t (RPtr RBool) (XPtr (XBool b)) | RBool => Done (XBool b) | _ => Panic end
    | VInt z =>
        match t with
        | RInt k => Done (XInt (reflect_to k z))
        | RPtr (RInt k) => Done (XPtr (XInt (reflect_to k z)))
        | RPtr _ => set t (RPtr (RInt KInt64)) (XPtr (XInt z))
        | _ => set t (RInt KInt64) (XInt z)
        end
    | VFloat f =>
        match t with
        | RAny => Done (XAny RFloat64 (XFloat f))
        | RPtr RFloat32 => Done (XPtr (XFloat (round32 f)))
        | RPtr _ => set t (RPtr RFloat64) (XPtr (XFloat f))
        | RFloat32 => Done (XFloat (round32 f))
        | RFloat64 => Done (XFloat f)
        | _ => Panic
        end
    | VStr s => match t with RAny => Done (XAny RString (XString s)) | RPtr _ => set t (RPtr RString) (XPtr (XString s)) | RString => Done (XString s) | _ => Panic end
    | VBin s =>
        let bs := XSlice (map XInt s) in
        match t with
        | RPtr _ => set t (RPtr (RSlice (RInt KUint8))) (XPtr bs)
        | _ => set t (RSlice (RInt KUint8)) bs
        end
    | VTime s n z => match t with RPtr _ | RAny => set t (RPtr RTime) (XPtr (XTime s n z)) | _ => set t RTime (XTime s n z) end
    | VRegexp s => match t with RPtr _ | RAny => set t (RPtr RRegexp) (XPtr (XRegexp s)) | _ => set t RRegexp (XRegexp s) end
    | VSens _ => match t with RAny => Done (XAny RValue (XDgo v)) | _ => Panic end
    | VArr l =>
        let vt := match t with RPtr e => e | _ => t end in
        rbind (match vt with RAny => reflect_type v | _ => Done vt end) (fun vt =>
          match vt with
          | RSlice e =>
              rbind (rlist (map (fun a => to_go a e) l)) (fun xs =>
                match t with RPtr _ => set t (RPtr vt) (XPtr (XSlice xs)) | _ => set t vt (XSlice xs) end)
          | _ => Panic
          end)
    | VMap m =>
        let ht := match t with RPtr e => e | _ => t end in
        rbind (match ht with RAny => reflect_type v | _ => Done ht end) (fun ht =>
          match ht with
          | RMap k e =>
              rbind (rlist (map (fun p => rpair (to_go (fst p) k) (to_go (snd p) e)) m)) (fun es =>
              rbind (set_all [] es) (fun xs =>
                match t with RPtr _ => set t (RPtr ht) (XPtr (XMap xs)) | _ => set t ht (XMap xs) end))
          | _ => Panic
          end)
    end
  end.
