(* What is meant by a data value, and what the properties of Equals, HashCode and CompareTo
   require. No definition here mentions how equality or hashing is computed. *)
From Coq Require Import ZArith List Bool.
From Coq Require Import Floats.SpecFloat.
From Verif Require Import Int64 Data.
Import ListNotations.
Open Scope Z_scope.

Section Spec.
Variable eq : value -> value -> bool.

(* a pair of entries with different keys *)
Definition keys_differ (e e' : value * value) : Prop :=
  eq (fst e) (fst e') = false.

(* a data value: no NaN anywhere, the keys of every map are pairwise different *)
Inductive data : value -> Prop :=
| data_nil : data VNil
| data_bool b : data (VBool b)
| data_int z : data (VInt z)
| data_float f : f <> S754_nan -> data (VFloat f)
| data_str s : data (VStr s)
| data_bin s : data (VBin s)
| data_time s n z : data (VTime s n z)
| data_regexp s : data (VRegexp s)
| data_sens v : data v -> data (VSens v)
| data_arr l : Forall data l -> data (VArr l)
| data_map m :
    Forall (fun e => data (fst e) /\ data (snd e)) m ->
    ForallOrdPairs keys_differ m ->
    data (VMap m).

(* the value associated with a key equal to k *)
Fixpoint assoc (m : list (value * value)) (k : value) : option value :=
  match m with
  | [] => None
  | (k', v) :: r => if eq k k' then Some v else assoc r k
  end.

(* both absent, or both present and equal *)
Definition same_assoc (o o' : option value) : Prop :=
  match o, o' with
  | None, None => True
  | Some v, Some v' => eq v v' = true
  | _, _ => False
  end.
End Spec.

(* values that are mutually comparable: nil and the values of one kind *)
Inductive kind := KBool | KInt | KFloat | KStr | KBin | KArr (k : kind).

Inductive of_kind : kind -> value -> Prop :=
| ok_nil k : of_kind k VNil
| ok_bool b : of_kind KBool (VBool b)
| ok_int z : of_kind KInt (VInt z)
| ok_float f : f <> S754_nan -> of_kind KFloat (VFloat f)
| ok_str s : of_kind KStr (VStr s)
| ok_bin s : of_kind KBin (VBin s)
| ok_arr k l : Forall (of_kind k) l -> of_kind (KArr k) (VArr l).

(* the lexicographic order of two lists with respect to an order on the elements *)
Inductive lex_less (lt eq : value -> value -> Prop) : list value -> list value -> Prop :=
| lex_nil y r : lex_less lt eq [] (y :: r)
| lex_head x y r r' : lt x y -> lex_less lt eq (x :: r) (y :: r')
| lex_tail x y r r' : eq x y -> lex_less lt eq r r' -> lex_less lt eq (x :: r) (y :: r').

(* the same for sequences of bytes *)
Inductive lex_less_bytes : list Z -> list Z -> Prop :=
| lexb_nil y r : lex_less_bytes [] (y :: r)
| lexb_head x y r r' : x < y -> lex_less_bytes (x :: r) (y :: r')
| lexb_tail x r r' : lex_less_bytes r r' -> lex_less_bytes (x :: r) (x :: r').

(* 64 bit integers and floats *)
Definition num (v : value) : Prop :=
  (exists z, v = VInt z /\ in64 z) \/ (exists f, v = VFloat f /\ f <> S754_nan).

(* floats and the integers in the range where each of them is a float *)
Definition small_num (v : value) : Prop :=
  (exists z, v = VInt z /\ - 2 ^ 53 <= z <= 2 ^ 53) \/ (exists f, v = VFloat f /\ f <> S754_nan).
