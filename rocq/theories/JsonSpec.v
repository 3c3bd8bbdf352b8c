(* The grammar of JSON (RFC 8259, section 2 to 5) on tokens. *)
From Coq Require Import ZArith List Floats.SpecFloat.
From Verif Require Import Int64 Utf8 TextSpec Data Stream Json.
Import ListNotations.

Inductive json_value : list token -> Prop :=
  | jv_string s : json_value [JString s]
  | jv_int z : json_value [JInt z]
  | jv_float f : json_value [JFloat f]
  | jv_bool b : json_value [JBool b]
  | jv_null : json_value [JNull]
  | jv_empty_array : json_value [JOpenArray; JCloseArray]
  | jv_array ts : json_elements ts -> json_value (JOpenArray :: ts ++ [JCloseArray])
  | jv_empty_object : json_value [JOpenObject; JCloseObject]
  | jv_object ts : json_members ts -> json_value (JOpenObject :: ts ++ [JCloseObject])
with json_elements : list token -> Prop :=
  | je_one ts : json_value ts -> json_elements ts
  | je_more ts r : json_value ts -> json_elements r -> json_elements (ts ++ JComma :: r)
with json_members : list token -> Prop :=
  | jm_one k ts : json_value ts -> json_members (JString k :: JColon :: ts)
  | jm_more k ts r : json_value ts -> json_members r -> json_members (JString k :: JColon :: ts ++ JComma :: r).

(* a string of code points *)
Definition utf8 (s : list Z) : Prop := exists cs, Forall scalar cs /\ s = encode cs.
Definition finite_float (f : spec_float) : Prop := match f with S754_infinity _ | S754_nan => False | _ => True end.
(* a nil, boolean, integer, float or string that JSON can tell from others: no float that is written as an integer, no string
   that is not UTF-8 *)
Definition json_scalar (whole : spec_float -> option Z) (v : value) : Prop :=
  match v with
  | VNil | VBool _ => True
  | VInt z => in64 z
  | VFloat f => finite_float f /\ whole f = None
  | VStr s => utf8 s
  | _ => False
  end.

(* the number of values that are sent, not counting references *)
Fixpoint calls (e : ev) : nat :=
  match e with
  | EAdd _ => 1
  | ERef _ => 0
  | EArr l | EMap l => S (fold_right Nat.add O (map calls l))
  end.

Definition json_leaf (whole : spec_float -> option Z) (x : sval) : Prop := match x with SVal v => json_scalar whole v | SRef _ => True end.
(* An object that JSON can tell from others: no type, and no map that begins with the reference key. The bytes of binaries are
   bytes, and the text of times is UTF-8. *)
Definition json_object (W : codec) (D : dialect) (whole : spec_float -> option Z) (x : snode) : Prop :=
  match x with
  | SArr l => Forall (json_leaf whole) l
  | SMap m => Forall (fun e => json_leaf whole (fst e) /\ json_leaf whole (snd e)) m /\ (forall k v r, m = (SVal (VStr k), v) :: r -> k <> d_ref D)
  | SSens x => json_leaf whole x
  | SBin b => Forall byte b
  | STime sec nsec zone => utf8 (w_format W sec nsec zone)
  | SType _ _ => False
  end.
(* the words of the dialect are UTF-8, and it has the reference key that the JSON consumer uses *)
Definition json_dialect (D : dialect) : Prop :=
  utf8 (d_type D) /\ utf8 (d_value D) /\ utf8 (d_binary D) /\ utf8 (d_map D) /\ utf8 (d_sensitive D) /\ utf8 (d_time D) /\
  d_ref D = d_ref dgo_dialect /\ d_type D <> d_ref D.
