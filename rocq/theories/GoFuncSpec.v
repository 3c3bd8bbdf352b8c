(* What a Go function gets as arguments, stated on the values. *)
From Coq Require Import ZArith List Bool.
From Coq Require Import Floats.SpecFloat.
From Coq Require Import Sorting.Permutation.
From Verif Require Import Int64 Data Types Convert ConvertSpec Reflect ReflectSpec GoFunc.
Import ListNotations.
Open Scope Z_scope.

(* variables of these types can be nil *)
Definition nilable (t : gty) : Prop := match t with RSlice _ | RMap _ _ | RPtr _ | RAny | RValue | RSens => True | _ => False end.

(* A variable of the Go type t with the content x says what the dgo value v says. A float32 is the nearest one. *)
Inductive carries : gty -> value -> gval -> Prop :=
| ca_nil t : nilable t -> carries t VNil XNil
| ca_bool b : carries RBool (VBool b) (XBool b)
| ca_int k z : number_of k z -> carries (RInt k) (VInt z) (XInt z)
| ca_float f : carries RFloat64 (VFloat f) (XFloat f)
| ca_float32 f : carries RFloat32 (VFloat f) (XFloat (round32 f))
| ca_string s : carries RString (VStr s) (XString s)
| ca_time s n z : carries RTime (VTime s n z) (XTime s n z)
| ca_regexp s : carries RRegexp (VRegexp s) (XRegexp s)
| ca_bytes s : carries (RSlice (RInt KUint8)) (VBin s) (XSlice (map XInt s))
| ca_slice e l xs : Forall2 (carries e) l xs -> carries (RSlice e) (VArr l) (XSlice xs)
| ca_map k e m xs :
    Forall2 (fun p q => carries k (fst p) (fst q) /\ carries e (snd p) (snd q)) m xs ->
    ForallOrdPairs (fun p q => go_eq (fst p) (fst q) = false) xs -> carries (RMap k e) (VMap m) (XMap xs)
| ca_ptr e v x : carries e v x -> carries (RPtr e) v (XPtr x)
| ca_any t v x : carries t v x -> carries RAny v (XAny t x)
| ca_dgo v : carries RValue v (XDgo v)
| ca_sens v : carries RSens (VSens v) (XDgo (VSens v)).
Fixpoint carries_all (ts : list gty) (vs : list value) (xs : list gval) : Prop :=
  match ts, vs, xs with
  | [], [], [] => True
  | t :: ts, v :: vs, x :: xs => carries t v x /\ carries_all ts vs xs
  | _, _, _ => False
  end.

(* the last parameter of a variadic function is a slice *)
Definition go_signature (f : go_func) : Prop := gf_variadic f = true -> exists ts e, gf_in f = ts ++ [RSlice e].
(* The parameters of the function have the contents xs for the arguments vs. *)
Definition passed (f : go_func) (vs : list value) (xs : list gval) : Prop :=
  if gf_variadic f then
    exists ts e vs1 vs2 xs1 xs2, gf_in f = ts ++ [RSlice e] /\ vs = vs1 ++ vs2 /\ xs = xs1 ++ [XSlice xs2] /\ carries_all ts vs1 xs1 /\ Forall2 (carries e) vs2 xs2
  else carries_all (gf_in f) vs xs.

(* types of keys that keep different keys different *)
Definition sent_key (t : gty) : bool := match t with RBool | RInt _ | RFloat64 | RString | RAny => true | _ => false end.
(* no pointers to pointers or to interface{} *)
Fixpoint callable (t : gty) : bool :=
  match t with
  | RSlice e => callable e
  | RMap k e => sent_key k && callable e
  | RPtr (RPtr _ | RAny) => false
  | RPtr e => callable e
  | _ => true
  end.
(* integers have 64 bits, the keys of maps are booleans, integers, floats other than NaN, and strings, all different *)
Fixpoint sendable (v : value) : Prop :=
  match v with
  | VInt z => in64 z
  | VArr l => fold_right and True (map sendable l)
  | VMap m =>
      fold_right and True (map (fun p => simple_key (fst p) = true /\ sendable (fst p) /\ sendable (snd p)) m) /\
      ForallOrdPairs (fun p q => veq (fst p) (fst q) = false) m
  | _ => True
  end.

(* The dgo value v says what a Go variable of the type t with the content x says. The entries of a Go map have no order. *)
Inductive tells : gty -> gval -> value -> Prop :=
| te_nil t : nilable t -> tells t XNil VNil
| te_bool b : tells RBool (XBool b) (VBool b)
| te_int k z : tells (RInt k) (XInt z) (VInt z)
| te_float f : tells RFloat64 (XFloat f) (VFloat f)
| te_float32 f : tells RFloat32 (XFloat f) (VFloat f)
| te_string s : tells RString (XString s) (VStr s)
| te_time s n z : tells RTime (XTime s n z) (VTime s n z)
| te_regexp s : tells RRegexp (XRegexp s) (VRegexp s)
| te_bytes s : tells (RSlice (RInt KUint8)) (XSlice (map XInt s)) (VBin s)
| te_slice e xs l : e <> RInt KUint8 -> Forall2 (tells e) xs l -> tells (RSlice e) (XSlice xs) (VArr l)
| te_map k e xs m m' : Forall2 (fun q p => tells k (fst q) (fst p) /\ tells e (snd q) (snd p)) xs m -> Permutation m m' -> tells (RMap k e) (XMap xs) (VMap m')
| te_ptr e x v : tells e x v -> tells (RPtr e) (XPtr x) v
| te_any t x v : tells t x v -> tells RAny (XAny t x) v
| te_dgo v : tells RValue (XDgo v) v
| te_sens v : tells RSens (XDgo v) v.
Fixpoint tells_all (ts : list gty) (xs : list gval) (vs : list value) : Prop :=
  match ts, xs, vs with
  | [], [], [] => True
  | t :: ts, x :: xs, v :: vs => tells t x v /\ tells_all ts xs vs
  | _, _, _ => False
  end.
Fixpoint nan_key (x : gval) : bool := match x with XFloat f => is_nan f | XAny _ x => nan_key x | _ => false end.
(* integers have at most 63 bits, no key is NaN *)
Fixpoint moderate (x : gval) : Prop :=
  match x with
  | XInt z => z <= max_int64
  | XSlice l => fold_right and True (map moderate l)
  | XMap m => fold_right and True (map (fun p => nan_key (fst p) = false /\ moderate (fst p) /\ moderate (snd p)) m)
  | XPtr x | XAny _ x => moderate x
  | _ => True
  end.

(* Results that come back as the Go nil: nil, pointers that lead to nil, and interfaces with such a pointer, but not the value Nil itself. *)
Fixpoint ends_nil (x : gval) : bool :=
  match x with XNil | XDgo VNil => true | XPtr x | XAny _ x => ends_nil x | _ => false end.
Definition back_as_nil (x : gval) : bool :=
  match x with XDgo _ | XAny _ (XDgo _) => false | x => ends_nil x end.
