(* Which values belong to the types made of Go types, and can be assigned to variables of the Go types of types; stated on the values. *)
From Coq Require Import ZArith List Bool.
From Coq Require Import Floats.SpecFloat.
From Verif Require Import Int64 Data Types Convert Reflect ReflectSpec TypesSpec.
Import ListNotations.
Open Scope Z_scope.

(* ---------- Go values ---------- *)

(* the Go value becomes nil *)
Fixpoint nil_go (x : gval) : bool :=
  match x with XNil => true | XPtr x | XAny _ x => nil_go x | XDgo VNil => true | _ => false end.
(* nil belongs to the type made of the Go type. Of the pointers these are the ones to a type without nil. *)
Fixpoint takes_nil (t : gty) : bool :=
  match t with
  | RAny => true
  | RPtr RRegexp => false
  | RPtr e => negb (takes_nil e)
  | _ => false
  end.
(* the largest float32 *)
Definition largest32 : spec_float := S754_finite false 9007198717870080 75.
Definition lowest32 : spec_float := S754_finite true 9007198717870080 75.
(* What the Go value becomes belongs to the type made of its Go type: not []byte, nil slices, maps and regular expressions, dgo values, unsigned integers from
   2^63 on, float32 that are infinite or NaN, and nil behind an even number of pointers. *)
Fixpoint belongs (t : gty) (x : gval) {struct x} : Prop :=
  match t with
  | RBool | RInt (KInt | KInt64 | KInt32 | KInt16 | KInt8 | KUint32 | KUint16 | KUint8) | RFloat64 | RString | RTime | RAny => True
  | RInt (KUint | KUint64) => match x with XInt z => z <= 9223372036854775807 | _ => False end
  | RFloat32 => match x with XFloat f => SFleb lowest32 f = true /\ SFleb f largest32 = true | _ => False end
  | RSlice (RInt KUint8) | RRegexp | RValue | RSens => False
  | RSlice e => match x with XSlice l => fold_right and True (map (belongs e) l) | _ => False end
  | RMap k e =>
      match x with
      | XMap m => fold_right and True (map (fun p => belongs k (fst p) /\ (if finds_itself (fst p) then belongs e (snd p) else takes_nil e = true)) m)
      | _ => False
      end
  | RPtr RRegexp => match x with XNil => False | _ => True end
  | RPtr e => if nil_go x then takes_nil e = false else match x with XPtr y => belongs e y | _ => False end
  end.

(* ---------- dgo values ---------- *)

(* The value can be assigned to a variable of the Go type as it is. A []byte is for binaries. *)
Inductive holds : gty -> value -> Prop :=
| h_any v : holds RAny v
| h_bool b : holds RBool (VBool b)
| h_int z : holds (RInt KInt64) (VInt z)
| h_float f : holds RFloat64 (VFloat f)
| h_str s : holds RString (VStr s)
| h_bin s : holds (RSlice (RInt KUint8)) (VBin s)
| h_time s n z : holds RTime (VTime s n z)
| h_regexp s : holds (RPtr RRegexp) (VRegexp s)
| h_sens v : holds RSens (VSens v)
| h_arr e l : e <> RInt KUint8 -> Forall (holds e) l -> holds (RSlice e) (VArr l)
| h_map k e m : Forall (fun p => holds k (fst p) /\ holds e (snd p)) m -> holds (RMap k e) (VMap m).

(* types of simple keys *)
Fixpoint key_kind (t : ty) : Prop :=
  match t with
  | TAny | TNil | TBool | TInt | TIntRange _ _ _ | TFloat | TFloatRange _ _ _ | TString | TDgoString | TStrSized _ _ | TCiStr _ | TPattern _ | TNot _ _ => True
  | TExact _ v => simple_key v = true
  | TAllOf _ ts | TAnyOf _ ts | TOneOf _ ts => ts <> [] /\ fold_right and True (map key_kind ts)
  | _ => False
  end.
(* Struct types are closed, alternatives are not empty, keys are simple, there are no times and no meta types. *)
Definition storable_node (t : ty) : Prop :=
  match t with
  | TTime | TMeta _ => False
  | TExact _ v => portable v
  | TStruct _ ad es => (ad = true -> es = []) /\ Forall (fun e : value * ty * bool => simple_key (fst (fst e)) = true) es
  | TAllOf _ ts | TAnyOf _ ts | TOneOf _ ts => ts <> []
  | TAllOfValue _ vs => vs <> [] /\ Forall portable vs
  | TMapSized _ k _ _ _ => key_kind k
  | _ => True
  end.
Definition storable : ty -> Prop := ty_all storable_node.

(* no binaries, no dgo.Sensitive in the Go type *)
Fixpoint open_type (t : gty) : Prop :=
  match t with
  | RSlice (RInt KUint8) | RSens | RRegexp | RValue => False
  | RSlice e => open_type e
  | RMap k e => open_type k /\ open_type e
  | _ => True
  end.
