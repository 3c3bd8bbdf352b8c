(* Properties C06-C08, C11, C12 and the use of data values as map keys (C01).
   Only statements, [exact], assumptions and examples. *)
From Coq Require Import ZArith List Bool Permutation.
From Coq Require Import Floats.SpecFloat.
From Verif Require Import Int64 Data DataSpec DataProofs FloatInt CompareProofs.
From Verif Require Import HMap HMapSpec HMapCor.
Import ListNotations.
Open Scope Z_scope.

(* C06: Equals is reflexive, symmetric and transitive on all data values. *)
Theorem C06_equals_equivalence :
  (forall a, data veq a -> veq a a = true) /\
  (forall a b, data veq a -> data veq b -> veq a b = true -> veq b a = true) /\
  (forall a b c, data veq a -> data veq b -> data veq c ->
     veq a b = true -> veq b c = true -> veq a c = true).
Proof. exact (conj veq_refl (conj veq_sym veq_trans)). Qed.
Print Assumptions C06_equals_equivalence.

(* C07: equal data values have equal hash codes. *)
Theorem C07_equal_values_equal_hash :
  forall a b, data veq a -> data veq b -> veq a b = true -> vhash a = vhash b.
Proof. exact veq_hash. Qed.
Print Assumptions C07_equal_values_equal_hash.

(* C08: two maps are equal exactly when every key is absent from both or associated with
   equal values in both. *)
Theorem C08_map_equality :
  forall m m', data veq (VMap m) -> data veq (VMap m') ->
  (veq (VMap m) (VMap m') = true <->
   forall k, data veq k -> same_assoc veq (assoc veq m k) (assoc veq m' k)).
Proof. exact map_equal_iff. Qed.
Print Assumptions C08_map_equality.

(* C08: a map with the same entries in another order is a data value and equal. *)
Theorem C08_order_ignored :
  forall m m', data veq (VMap m) -> Permutation m m' ->
  data veq (VMap m') /\ veq (VMap m) (VMap m') = true /\ vhash (VMap m) = vhash (VMap m').
Proof. exact perm_equal_hash. Qed.
Print Assumptions C08_order_ignored.

(* C08: a map with a key associated with nil is not equal to a map without the key. *)
Theorem C08_nil_is_not_absent :
  forall m m' k, data veq (VMap m) -> data veq (VMap m') -> data veq k ->
  assoc veq m k = Some VNil -> assoc veq m' k = None ->
  veq (VMap m) (VMap m') = false /\ veq (VMap m') (VMap m) = false.
Proof. exact nil_not_absent. Qed.
Print Assumptions C08_nil_is_not_absent.

(* C11: on nil and the values of one kind CompareTo always answers, is antisymmetric,
   transitive, and zero exactly on equal values. *)
Theorem C11_total_order :
  forall k,
  (forall a b, of_kind k a -> of_kind k b -> exists r, vcmp a b = Some r /\ (r = -1 \/ r = 0 \/ r = 1)) /\
  (forall a b r, of_kind k a -> of_kind k b -> vcmp a b = Some r -> vcmp b a = Some (- r)) /\
  (forall a b, of_kind k a -> of_kind k b -> (vcmp a b = Some 0 <-> veq a b = true)) /\
  (forall a b c r s, of_kind k a -> of_kind k b -> of_kind k c ->
     vcmp a b = Some r -> vcmp b c = Some s -> r <= 0 -> s <= 0 ->
     exists t, vcmp a c = Some t /\ t <= 0 /\ (t = 0 -> r = 0 /\ s = 0)).
Proof. exact total_order_kind. Qed.
Print Assumptions C11_total_order.

(* C11: arrays are ordered lexicographically. *)
Theorem C11_arrays_lexicographic :
  forall k l l', Forall (of_kind k) l -> Forall (of_kind k) l' ->
  (vcmp (VArr l) (VArr l') = Some (-1) <->
   lex_less (fun a b => vcmp a b = Some (-1)) (fun a b => vcmp a b = Some 0) l l').
Proof. exact lex_order. Qed.
Print Assumptions C11_arrays_lexicographic.

(* C11: strings and binaries are ordered lexicographically by their bytes. *)
Theorem C11_bytes_lexicographic :
  forall s t,
  (vcmp (VStr s) (VStr t) = Some (-1) <-> lex_less_bytes s t) /\
  (vcmp (VBin s) (VBin t) = Some (-1) <-> lex_less_bytes s t).
Proof. exact bytes_order. Qed.
Print Assumptions C11_bytes_lexicographic.

(* C11: nil is less than every other value. *)
Theorem C11_nil_is_least :
  forall v, v <> VNil ->
  vcmp VNil v = Some (-1) /\ (comparable v = true -> vcmp v VNil = Some 1).
Proof. exact nil_least. Qed.
Print Assumptions C11_nil_is_least.

(* C12: between 64 bit integers and floats CompareTo always answers and is antisymmetric. *)
Theorem C12_mixed_antisymmetric :
  forall a b, num a -> num b -> exists r, vcmp a b = Some r /\ vcmp b a = Some (- r).
Proof. exact num_total. Qed.
Print Assumptions C12_mixed_antisymmetric.

(* C12, partial: "smaller" is transitive on all numbers, but "equal" is not, see
   C12_transitive_refuted. Full claim: also for "smaller or equal". *)
Theorem C12_smaller_transitive_partial :
  forall a b c, num a -> num b -> num c ->
  vcmp a b = Some (-1) -> vcmp b c = Some (-1) -> vcmp a c = Some (-1).
Proof. exact num_less_trans. Qed.
Print Assumptions C12_smaller_transitive_partial.

(* C12, partial: the full claim for integers between -2^53 and 2^53 and all floats. *)
Theorem C12_transitive_partial :
  forall a b c r s, small_num a -> small_num b -> small_num c ->
  vcmp a b = Some r -> vcmp b c = Some s -> r <= 0 -> s <= 0 ->
  exists t, vcmp a c = Some t /\ t <= 0 /\ (t = 0 -> r = 0 /\ s = 0).
Proof. exact small_num_trans. Qed.
Print Assumptions C12_transitive_partial.

(* C12, refuted: 2^53 + 1 equals the float 2^53, which equals 2^53, which is smaller than 2^53 + 1 *)
Theorem C12_transitive_refuted :
  exists a b c, num a /\ num b /\ num c /\
  vcmp a b = Some 0 /\ vcmp b c = Some 0 /\ vcmp a c = Some 1.
Proof. exact mixed_not_transitive. Qed.
Print Assumptions C12_transitive_refuted.

(* C01 with data values as keys: no assumption about Equals and HashCode is left. *)
Theorem C01_map_of_data_is_dictionary :
  forall (V : Type) (eqv : V -> V -> bool) (isnil : V -> bool) (fz th : V -> V),
  forall os, (forall o, In o os -> basic_op dkey V o) ->
  snd (run dkey V dkeq dkhash eqv isnil fz th init os) = snd (run_spec dkey V dkeq eqv fz th [] os).
Proof. exact data_map_refines. Qed.
Print Assumptions C01_map_of_data_is_dictionary.

(* ---------------- examples ---------------- *)

(* two different spellings of one nested value *)
Definition ex_a : value :=
  VMap [(VStr [97], VArr [VInt 1; VNil; VFloat (S754_zero false)]);
        (VInt 7, VMap [(VBool true, VSens (VStr [98])); (VNil, VTime 5 6 0)])].
Definition ex_b : value :=
  VMap [(VInt 7, VMap [(VNil, VTime 5 6 3600); (VBool true, VSens (VStr [98]))]);
        (VStr [97], VArr [VInt 1; VNil; VFloat (S754_zero true)])].

Example ex_a_data : data veq ex_a.
Proof. repeat (constructor; try discriminate). Qed.
Example ex_b_data : data veq ex_b.
Proof. repeat (constructor; try discriminate). Qed.
Example ex_equal : veq ex_a ex_b = true /\ ex_a <> ex_b.
Proof. split; [vm_compute; reflexivity|discriminate]. Qed.
Example ex_hash : vhash ex_a = vhash ex_b.
Proof. vm_compute. reflexivity. Qed.
Example ex_nil : veq (VMap [(VInt 1, VNil)]) (VMap [(VInt 2, VNil)]) = false.
Proof. vm_compute. reflexivity. Qed.
Example ex_nan_not_reflexive : veq (VFloat S754_nan) (VFloat S754_nan) = false.
Proof. vm_compute. reflexivity. Qed.
Example ex_kind : of_kind (KArr (KArr KInt)) (VArr [VNil; VArr [VInt 3; VInt 4]; VArr []]).
Proof. repeat constructor. Qed.
Example ex_lex : vcmp (VArr [VInt 1; VInt 2]) (VArr [VInt 1; VInt 3; VInt 0]) = Some (-1).
Proof. vm_compute. reflexivity. Qed.
(* 3 < 3.5 < 4 across the kinds *)
Example ex_mixed :
  vcmp (VInt 3) (VFloat (S754_finite false (7 * 2 ^ 50) (-51))) = Some (-1) /\
  vcmp (VFloat (S754_finite false (7 * 2 ^ 50) (-51))) (VInt 4) = Some (-1).
Proof. vm_compute. repeat split. Qed.
Example ex_small : small_num (VInt (2 ^ 53)) /\ small_num (VFloat (S754_finite false 1 0)).
Proof. split; [left|right]; eexists; (split; [reflexivity|]); [split; discriminate|discriminate]. Qed.
