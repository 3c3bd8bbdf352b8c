(* Which Go values and dgo values survive a conversion there and back, stated on the values. *)
From Coq Require Import ZArith List Bool.
From Coq Require Import Floats.SpecFloat.
From Coq Require Import Sorting.Permutation.
From Verif Require Import Int64 Data Convert ConvertSpec Reflect.
Import ListNotations.
Open Scope Z_scope.

(* ---------- Go values ---------- *)

Definition is_nan (f : spec_float) : bool := match f with S754_nan => true | _ => false end.

(* x is a value of the Go type t. The keys of a map are different. *)
Fixpoint typed (t : gty) (x : gval) {struct x} : Prop :=
  match t, x with
  | (RSlice _ | RMap _ _ | RPtr _ | RAny | RValue | RSens), XNil => True
  | RBool, XBool _ | RFloat64, XFloat _ | RString, XString _ | RTime, XTime _ _ _ | RRegexp, XRegexp _ => True
  | RInt k, XInt z => number_of k z
  | RFloat32, XFloat f => round32 f = f
  | RSlice e, XSlice l => fold_right and True (map (typed e) l)
  | RMap k e, XMap m =>
      fold_right and True (map (fun p => typed k (fst p) /\ typed e (snd p)) m) /\
      ForallOrdPairs (fun p q => go_eq (fst p) (fst q) = false) m
  | RPtr e, XPtr x => typed e x
  | RAny, XAny t x => typed t x
  | RValue, XDgo _ => True
  | RSens, XDgo (VSens _) => True
  | _, _ => False
  end.

(* types that can be keys and whose values survive *)
Definition key_type (t : gty) : bool := match t with RBool | RInt _ | RFloat32 | RFloat64 | RString | RTime => true | _ => false end.
(* types that a pointer may point to *)
Definition pointed_type (t : gty) : bool :=
  match t with RBool | RInt _ | RFloat32 | RFloat64 | RString | RRegexp | RSlice _ | RMap _ _ => true | _ => false end.
(* types without interface{}, pointers to pointers, to interfaces and to times, and bare regular expressions *)
Fixpoint kept_type (t : gty) : bool :=
  match t with
  | RBool | RInt _ | RFloat32 | RFloat64 | RString | RTime | RValue | RSens => true
  | RSlice e => kept_type e
  | RMap k e => key_type k && kept_type e
  | RPtr RRegexp => true
  | RPtr e => pointed_type e && kept_type e
  | RAny | RRegexp => false
  end.
(* No unsigned integer is the largest one with 64 bits, no pointer points to nil, no interface is nil, no key is NaN. *)
Fixpoint kept (t : gty) (x : gval) {struct x} : Prop :=
  match t, x with
  | RInt (KUint | KUint64), XInt z => z <> 18446744073709551615
  | RSlice e, XSlice l => fold_right and True (map (kept e) l)
  | RMap k e, XMap m =>
      fold_right and True (map (fun p => kept k (fst p) /\ kept e (snd p) /\ match fst p with XFloat f => is_nan f = false | _ => True end) m)
  | RPtr e, XPtr x => kept e x /\ x <> XNil
  | (RValue | RSens), XNil => False
  | _, _ => True
  end.

(* The same Go value: only the order of the entries of maps, which Go does not define, may be another. *)
Inductive same_go : gval -> gval -> Prop :=
| same_leaf x : (match x with XSlice _ | XMap _ | XPtr _ => False | _ => True end) -> same_go x x
| same_slice l l' : Forall2 same_go l l' -> same_go (XSlice l) (XSlice l')
| same_map m m1 m' : Forall2 (fun p q => fst p = fst q /\ same_go (snd p) (snd q)) m m1 -> Permutation m1 m' -> same_go (XMap m) (XMap m')
| same_ptr x y : same_go x y -> same_go (XPtr x) (XPtr y).

(* ---------- dgo values ---------- *)

(* the same value, except for the order of the entries of maps *)
Inductive rearranged : value -> value -> Prop :=
| re_leaf v : (match v with VArr _ | VMap _ => False | _ => True end) -> rearranged v v
| re_arr l l' : Forall2 rearranged l l' -> rearranged (VArr l) (VArr l')
| re_map m m1 m' : Forall2 (fun p q => fst p = fst q /\ rearranged (snd p) (snd q)) m m1 -> Permutation m1 m' -> rearranged (VMap m) (VMap m').

(* a key that Go can use as well *)
Definition simple_key (v : value) : bool :=
  match v with VBool _ | VInt _ | VStr _ => true | VFloat f => negb (is_nan f) | _ => false end.
(* integers have 64 bits, there are no times, all keys are simple and different; what is inside of a sensitive value does not matter *)
Fixpoint portable (v : value) : Prop :=
  match v with
  | VInt z => in64 z
  | VTime _ _ _ => False
  | VArr l => fold_right and True (map portable l)
  | VMap m =>
      fold_right and True (map (fun p => simple_key (fst p) = true /\ portable (fst p) /\ portable (snd p)) m) /\
      ForallOrdPairs (fun p q => veq (fst p) (fst q) = false) m
  | _ => True
  end.

(* types that keep all of a value: no integers and floats with less bits, no unsigned integers *)
Definition wide_key (t : gty) : bool := match t with RBool | RInt (KInt | KInt64) | RFloat64 | RString | RAny => true | _ => false end.
Definition wide_pointed (t : gty) : bool :=
  match t with RBool | RInt _ | RFloat64 | RString | RRegexp | RSlice _ | RMap _ _ => true | _ => false end.
Fixpoint wide (t : gty) : bool :=
  match t with
  | RBool | RInt (KInt | KInt64) | RFloat64 | RString | RAny | RValue | RSens => true
  | RSlice (RInt KUint8) => true
  | RSlice e => wide e
  | RMap k e => wide_key k && wide e
  | RPtr RRegexp => true
  | RPtr e => wide_pointed e && wide e
  | _ => false
  end.
(* nil is not given to a variable that has no nil, and an array not to a []byte *)
Fixpoint suits (t : gty) (v : value) {struct v} : Prop :=
  match v with
  | VNil => match t with RBool | RInt _ | RFloat64 | RString => False | _ => True end
  | VArr l => match t with RSlice (RInt KUint8) | RPtr (RSlice (RInt KUint8)) => False | RSlice e | RPtr (RSlice e) => fold_right and True (map (suits e) l) | _ => True end
  | VMap m => match t with RMap k e | RPtr (RMap k e) => fold_right and True (map (fun p => suits e (snd p)) m) | _ => True end
  | _ => True
  end.

(* values that Go compares as they are: no floats, where 0 and -0 are equal and NaN is not equal to itself, and no pointers *)
Fixpoint compared (x : gval) : Prop :=
  match x with XNil | XBool _ | XInt _ | XString _ | XTime _ _ _ => True | XAny _ x => compared x | _ => False end.
(* the sign of a float; NaN has none *)
Definition sign_of (f : spec_float) : option bool :=
  match f with S754_zero s | S754_infinity s | S754_finite s _ _ => Some s | S754_nan => None end.
