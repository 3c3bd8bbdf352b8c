(* Properties C34, C47, C48 and C56. Only statements, [exact], assumptions and examples. *)
From Coq Require Import ZArith List Bool Lia.
From Coq Require Import Floats.SpecFloat.
From Verif Require Import Int64 HMap Data DataSpec Types TypesSpec Assign TextSpec Convert ConvertSpec ConvertProofs PropertiesTypes.
Import ListNotations.
Open Scope Z_scope.

(* C34: New returns an instance of the type or panics, whatever the argument is and whatever the conversions
   of other libraries return. Partial: not for sensitive types; for a meta type, New makes a
   type, which is not modelled. *)
Theorem C34_new_instance_partial :
  forall W C n p t a v, (forall q s, t <> TSens q s) -> new W C n p t a = Some v -> instance W n p t v = Some true.
Proof. exact new_instance. Qed.
Print Assumptions C34_new_instance_partial.

Theorem C34_new_has_type_partial :
  forall W C t a v p, (forall q s, t <> TSens q s) -> type_ok t -> data veq v ->
  exists N, forall n, (N <= n)%nat -> new W C n p t a = Some v -> has_type W t v.
Proof. exact new_has_type. Qed.
Print Assumptions C34_new_has_type_partial.

(* New does not reject and does not change a value of the type *)
Theorem C34_new_keeps_instances :
  forall W C t v p, type_ok t -> data veq v -> has_type W t v ->
  exists N, forall n, (N <= n)%nat -> new W C n p t (AVal v) = Some v.
Proof. exact new_keeps_instances. Qed.
Print Assumptions C34_new_keeps_instances.

(* sensitive.go:87-96: New(sensitive[int], "a") is a sensitive "a" *)
Definition C0 := Build_conv (fun s r => match s with [c] => Some (c - 48) | _ => None end) (fun _ => None) (fun _ => [97; 98]) (fun _ _ => None) (fun _ => true)
  (fun _ => None) (fun _ => (0, 0)) (fun _ => None) (fun _ _ => S754_zero false) 0 (fun _ => VArr []).
Theorem C34_sensitive_refuted :
  new W0 C0 50 1 (TSens 1 TInt) (AVal a_key) = Some (VSens a_key) /\ instance W0 50 1 (TSens 1 TInt) (VSens a_key) = Some false.
Proof. vm_compute. auto. Qed.
Print Assumptions C34_sensitive_refuted.

(* array.go:1308-1339: New(map, ["a", 1, "a", 2]) is a map with two entries of the key "a" *)
Theorem C34_duplicate_keys_refuted :
  new W0 C0 50 1 TMap (AVal (VArr [a_key; VInt 1; a_key; VInt 2])) = Some (VMap [(a_key, VInt 1); (a_key, VInt 2)]) /\
  ~ data veq (VMap [(a_key, VInt 1); (a_key, VInt 2)]).
Proof.
  split; [reflexivity|]. intros H. inversion H as [| | | | | | | | | |? _ P]; subst. inversion P as [|? ? F _]; subst.
  inversion F as [|? ? N _]; subst. discriminate N.
Qed.
Print Assumptions C34_duplicate_keys_refuted.

Example C34_example :
  new W0 C0 50 1 (TIntRange 1 9 true) (AArgs [VStr [55]; VInt 8]) = Some (VInt 7) /\
  new W0 C0 50 1 (TIntRange 1 6 true) (AArgs [VStr [55]; VInt 8]) = None /\
  new W0 C0 50 1 (TIntRange 1 9 true) (AArgs [VStr [55]; VInt 7]) = None /\
  new W0 C0 50 1 (TStrSized 1 2) (AVal VNil) = Some (VStr [97; 98]) /\
  new W0 C0 50 1 (TArrSized 1 TString 0 3) (AVal (VArr [a_key])) = Some (VArr [a_key]) /\
  new W0 C0 50 1 (TArrSized 1 TInt 0 3) (AVal (VArr [a_key])) = None.
Proof. vm_compute. repeat split. Qed.

(* C47: ToInt of a go integer is the same number or fails, and fails only when the number is no
   int64. Partial: not for the unsigned numbers between 2^63 and 2^64 - 2. *)
Theorem C47_to_int_partial :
  forall k v, number_of k v -> v <= max_int64 \/ v = 18446744073709551615 -> to_int k v = Some v \/ to_int k v = None.
Proof. exact to_int_preserves. Qed.
Print Assumptions C47_to_int_partial.

Theorem C47_to_int_total :
  forall k v, number_of k v -> v <= max_int64 -> to_int k v = Some v.
Proof. exact to_int_total. Qed.
Print Assumptions C47_to_int_total.

(* exactly which numbers go wrong and how *)
Theorem C47_to_int_wraps :
  forall k v, number_of k v -> max_int64 < v ->
  (k = KUint \/ k = KUint64) /\ to_int k v = if v =? 18446744073709551615 then None else Some (v - 18446744073709551616).
Proof. exact to_int_wraps. Qed.
Print Assumptions C47_to_int_wraps.

(* integer.go:398-404: uint64 2^63 becomes -2^63 *)
Theorem C47_uint64_refuted :
  number_of KUint64 9223372036854775808 /\ to_int KUint64 9223372036854775808 = Some (-9223372036854775808).
Proof. split; [cbn; lia|reflexivity]. Qed.
Print Assumptions C47_uint64_refuted.

(* C56: ReflectTo assigns the same number. Partial: when the type of the variable has it. *)
Theorem C56_reflect_to_partial :
  forall k v, in64 v -> number_of k v -> reflect_to k v = v.
Proof. exact reflect_to_preserves. Qed.
Print Assumptions C56_reflect_to_partial.

Theorem C56_round_trip :
  forall k v, number_of k v -> v <= max_int64 -> exists z, to_int k v = Some z /\ reflect_to k z = v.
Proof. exact reflect_round_trip. Qed.
Print Assumptions C56_round_trip.

(* integer.go:306-354: 300 in an int8 is 44, -1 in a uint16 is 65535 *)
Theorem C56_overflow_refuted :
  in64 300 /\ reflect_to KInt8 300 = 44 /\ in64 (-1) /\ reflect_to KUint16 (-1) = 65535.
Proof. unfold in64, min_int64, max_int64. repeat split; try lia; reflexivity. Qed.
Print Assumptions C56_overflow_refuted.

Example C47_example :
  to_int KInt8 (-128) = Some (-128) /\ to_int KUint64 9223372036854775807 = Some 9223372036854775807 /\
  to_int KUint 18446744073709551615 = None /\ reflect_to KInt32 (-2147483648) = -2147483648.
Proof. vm_compute. repeat split. Qed.

(* C48: the text form of a binary decodes to the same bytes. Partial: the URL encoding (%u) does not decode the text
   form. *)
Theorem C48_round_trip_partial :
  forall utf8 s, Forall byte s ->
  binary_from_encoded utf8 (encode_binary s) EncB = Some s /\ binary_from_encoded utf8 (encode_binary s) Encb = Some s.
Proof. exact binary_round_trip. Qed.
Print Assumptions C48_round_trip_partial.

(* the strict decoder accepts nothing but text forms, possibly broken into lines *)
Theorem C48_strict_text :
  forall utf8 s b, binary_from_encoded utf8 s EncB = Some b -> Forall byte b /\ encode_binary b = b64_clean s.
Proof. exact strict_text. Qed.
Print Assumptions C48_strict_text.

(* binary.go:249-250: "-_-_" is what %u decodes, String() gives "+/+/" *)
Theorem C48_url_refuted :
  binary_from_encoded (fun _ => true) (encode_binary [251; 255; 191]) Encu = None /\
  binary_from_encoded (fun _ => true) [45; 95; 45; 95] Encu = Some [251; 255; 191] /\ encode_binary [251; 255; 191] = [43; 47; 43; 47].
Proof. vm_compute. auto. Qed.
Print Assumptions C48_url_refuted.

(* the lenient decoder is not injective *)
Example C48_example :
  encode_binary [72; 105; 33; 10] = [83; 71; 107; 104; 67; 103; 61; 61] /\
  binary_from_encoded (fun _ => true) [83; 71; 107; 104; 10; 67; 103; 61; 61] EncB = Some [72; 105; 33; 10] /\
  binary_from_encoded (fun _ => true) [83; 71; 107; 104; 67; 104; 61; 61] EncB = None /\
  binary_from_encoded (fun _ => true) [83; 71; 107; 104; 67; 104; 61; 61] Encb = Some [72; 105; 33; 10].
Proof. vm_compute. repeat split. Qed.
