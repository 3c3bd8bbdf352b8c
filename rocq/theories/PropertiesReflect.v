(* Properties C65 and C66. Only statements, [exact], assumptions and examples. *)
From Coq Require Import ZArith List Bool Lia.
From Coq Require Import Floats.SpecFloat.
From Coq Require Import Sorting.Permutation.
From Verif Require Import Int64 Data DataSpec DataProofs Convert ConvertSpec Reflect ReflectSpec ReflectProofs.
Import ListNotations.
Open Scope Z_scope.

(* C65. A Go value that is made a dgo value and assigned to a variable of its type again is the same, however its maps are
   sorted. Partial: for the types that are [kept_type] and values that are [kept]; the refutations show what happens to others. *)
Theorem C65_go_round_trip_partial :
  forall arrange t x, (forall l, Permutation (arrange l) l) -> kept_type t = true -> typed t x -> kept t x ->
  exists v x', from_go arrange t x = Done v /\ to_go v t = Done x' /\ same_go x x'.
Proof. intros arrange t x A. exact (go_round_trip arrange A t x). Qed.
Print Assumptions C65_go_round_trip_partial.

Definition as_is (l : list (value * value)) : list (value * value) := l.

(* integer.go:398-412: the largest uint64 is refused *)
Theorem C65_uint64_refuted : typed (RInt KUint64) (XInt 18446744073709551615) /\ forall arrange, from_go arrange (RInt KUint64) (XInt 18446744073709551615) = Panic.
Proof. split; [cbn; lia|reflexivity]. Qed.
Print Assumptions C65_uint64_refuted.

(* value.go:98-141, 156-164: a pointer to a pointer is read, but it can not be set *)
Theorem C65_pointers_refuted :
  let t := RPtr (RPtr (RInt KInt64)) in let x := XPtr (XPtr (XInt 1)) in
  typed t x /\ forall arrange, from_go arrange t x = Done (VInt 1) /\ to_go (VInt 1) t = Panic.
Proof. repeat split. all: cbn; lia. Qed.
Print Assumptions C65_pointers_refuted.

(* a pointer to a nil slice becomes a nil pointer *)
Theorem C65_nil_slice_refuted :
  let t := RPtr (RSlice RString) in typed t (XPtr XNil) /\ forall arrange, from_go arrange t (XPtr XNil) = Done VNil /\ to_go VNil t = Done XNil.
Proof. repeat split. Qed.
Print Assumptions C65_nil_slice_refuted.

(* value.go:156-164: the Go nil in a variable of the type dgo.Value becomes the value Nil *)
Theorem C65_nil_value_refuted : typed RValue XNil /\ forall arrange, from_go arrange RValue XNil = Done VNil /\ to_go VNil RValue = Done (XDgo VNil).
Proof. repeat split. Qed.
Print Assumptions C65_nil_value_refuted.

(* integer.go:315: an int in an interface{} becomes an int64 *)
Theorem C65_any_refuted :
  typed RAny (XAny (RInt KInt) (XInt 1)) /\ forall arrange, from_go arrange RAny (XAny (RInt KInt) (XInt 1)) = Done (VInt 1) /\ to_go (VInt 1) RAny = Done (XAny (RInt KInt64) (XInt 1)).
Proof. repeat split; try lia. Qed.
Print Assumptions C65_any_refuted.

(* a *time.Time is not made a Time but a native value (value.go:49-83, 98-141) *)
Theorem C65_time_refuted : typed (RPtr RTime) (XPtr (XTime 5 0 0)) /\ forall arrange, from_go arrange (RPtr RTime) (XPtr (XTime 5 0 0)) = Native.
Proof. repeat split. Qed.
Print Assumptions C65_time_refuted.

(* map.go:276-324: MapIndex does not find the value of a NaN; it becomes nil, and then 0 *)
Theorem C65_nan_refuted :
  let t := RMap RFloat64 (RInt KInt) in let x := XMap [(XFloat S754_nan, XInt 7)] in
  kept_type t = true /\ typed t x /\ from_go as_is t x = Done (VMap [(VFloat S754_nan, VNil)]) /\ to_go (VMap [(VFloat S754_nan, VNil)]) t = Done (XMap [(XFloat S754_nan, XInt 0)]).
Proof. cbn. repeat split; try lia. repeat constructor. Qed.
Print Assumptions C65_nan_refuted.

(* map.go:276-324 adds the entries without a look at the others: different keys of an interface{} become equal keys of the map *)
Theorem C65_keys_refuted :
  let t := RMap RAny RString in let x := XMap [(XAny (RInt KInt) (XInt 1), XString [97]); (XAny (RInt KInt64) (XInt 1), XString [98])] in
  typed t x /\ from_go as_is t x = Done (VMap [(VInt 1, VStr [97]); (VInt 1, VStr [98])]) /\
  ~ data veq (VMap [(VInt 1, VStr [97]); (VInt 1, VStr [98])]).
Proof.
  cbn. repeat split; try lia; repeat constructor. intros H. inversion H as [ | | | | | | | | | | ? _ D]; subst. inversion D as [|? ? F _]; subst. inversion F as [|? ? E _]; subst. discriminate E.
Qed.
Print Assumptions C65_keys_refuted.

(* map[string]*[]uint64 *)
Definition go1 : gval := XMap [(XString [98], XPtr (XSlice [XInt 18446744073709551614; XInt 5])); (XString [97], XNil)].
Definition type1 : gty := RMap RString (RPtr (RSlice (RInt KUint64))).
Example C65_ex :
  kept_type type1 = true /\ typed type1 go1 /\ kept type1 go1 /\
  from_go (@rev _) type1 go1 = Done (VMap [(VStr [97], VNil); (VStr [98], VArr [VInt (-2); VInt 5])]) /\
  to_go (VMap [(VStr [97], VNil); (VStr [98], VArr [VInt (-2); VInt 5])]) type1 = Done (XMap [(XString [97], XNil); (XString [98], XPtr (XSlice [XInt 18446744073709551614; XInt 5]))]).
Proof. split; [reflexivity|]. split; [cbn; repeat split; try lia; repeat constructor|]. split; [cbn; repeat split; try discriminate|]. split; vm_compute; reflexivity. Qed.

(* C66. A dgo value that is assigned to a Go variable and made a dgo value again is the same, except for the order of the
   entries of maps. Partial: for values that are [portable], types that are [wide] and nothing that does not suit. *)
Theorem C66_dgo_round_trip_partial :
  forall arrange v t x, (forall l, Permutation (arrange l) l) -> portable v -> wide t = true -> suits t v -> to_go v t = Done x ->
  exists w, from_go arrange t x = Done w /\ rearranged v w.
Proof. intros arrange v t x A. exact (dgo_round_trip arrange A v t x). Qed.
Print Assumptions C66_dgo_round_trip_partial.

(* every portable value can be assigned to an interface{} *)
Theorem C66_any_round_trip_partial :
  forall arrange v, (forall l, Permutation (arrange l) l) -> portable v ->
  exists x w, to_go v RAny = Done x /\ from_go arrange RAny x = Done w /\ rearranged v w.
Proof. intros arrange v A. exact (dgo_any_round_trip arrange A v). Qed.
Print Assumptions C66_any_round_trip_partial.

(* what comes back is Equal to the value *)
Theorem C66_equal :
  forall v w, data veq v -> rearranged v w -> data veq w /\ veq v w = true.
Proof. intros v w. exact (rearranged_equal v w). Qed.
Print Assumptions C66_equal.

(* the equality of Go values that the keys of maps use: outside of floats and pointers, only the same values are equal *)
Theorem C65_go_equality : forall x, compared x -> forall y, go_eq x y = true <-> x = y.
Proof. exact go_eq_compared. Qed.
Print Assumptions C65_go_equality.
(* a float that is assigned to a float32 keeps its sign *)
Theorem C66_float32_sign : forall f, sign_of (round32 f) = sign_of f \/ round32 f = S754_nan.
Proof. exact round32_sign. Qed.
Print Assumptions C66_float32_sign.
(* -1.5 fits, a tenth does not, 2^200 is too big *)
Example C66_ex_float32 :
  round32 (S754_finite true 6755399441055744 (-52)) = S754_finite true 6755399441055744 (-52) /\
  round32 (S754_finite false 7205759403792794 (-56)) = S754_finite false 7205759511166976 (-56) /\
  round32 (S754_finite true 4503599627370496 148) = S754_infinity true.
Proof. vm_compute. auto. Qed.
(* nil sets a variable to the zero value of its type *)
Example C66_ex_zero : to_go VNil RFloat64 = Done (XFloat (S754_zero false)) /\ to_go VNil RBool = Done (XBool false) /\ to_go VNil RString = Done (XString []) /\ to_go VNil RTime = Done (XTime 0 0 0).
Proof. vm_compute. auto. Qed.

(* time.go:169-176: a time in an interface{} is a *time.Time, which is not made a time again *)
Theorem C66_time_refuted :
  to_go (VTime 5 0 0) RAny = Done (XAny (RPtr RTime) (XPtr (XTime 5 0 0))) /\ forall arrange, from_go arrange RAny (XAny (RPtr RTime) (XPtr (XTime 5 0 0))) = Native.
Proof. split; reflexivity. Qed.
Print Assumptions C66_time_refuted.

(* nil.go:39-41: nil in an int is 0 *)
Theorem C66_nil_refuted : portable VNil /\ wide (RInt KInt) = true /\ to_go VNil (RInt KInt) = Done (XInt 0) /\ forall arrange, from_go arrange (RInt KInt) (XInt 0) = Done (VInt 0).
Proof. repeat split. Qed.
Print Assumptions C66_nil_refuted.

(* array.go:1172-1199, 719-730: an array in a []byte becomes a binary; 300 becomes 44 *)
Theorem C66_bytes_refuted :
  let v := VArr [VInt 1; VInt 300] in portable v /\ to_go v (RSlice (RInt KUint8)) = Done (XSlice [XInt 1; XInt 44]) /\
  forall arrange, from_go arrange (RSlice (RInt KUint8)) (XSlice [XInt 1; XInt 44]) = Done (VBin [1; 44]).
Proof. repeat split; try (unfold in64, min_int64, max_int64; lia). Qed.
Print Assumptions C66_bytes_refuted.

(* map.go:1241-1247, 678-704: a map with an array among its keys cannot be assigned to an interface{}; reflect.MapOf or SetMapIndex panics *)
Theorem C66_array_key_refuted :
  data veq (VMap [(VArr [VInt 1], VInt 2)]) /\ to_go (VMap [(VArr [VInt 1], VInt 2)]) RAny = Panic /\
  data veq (VMap [(VStr [97], VInt 1); (VBin [1], VInt 2)]) /\ to_go (VMap [(VStr [97], VInt 1); (VBin [1], VInt 2)]) RAny = Panic.
Proof. split; [repeat constructor|]. split; [reflexivity|]. split; [repeat constructor|reflexivity]. Qed.
Print Assumptions C66_array_key_refuted.

(* {1: {"a", nil}, true: {2, 3}}; the key type and the element type of the values have to be found *)
Definition value2 : value := VMap [(VInt 1, VArr [VStr [97]; VNil]); (VBool true, VArr [VInt 2; VInt 3])].
Example C66_ex :
  portable value2 /\
  to_go value2 RAny = Done (XAny (RMap RAny RAny) (XMap [(XAny (RInt KInt64) (XInt 1), XAny (RSlice RAny) (XSlice [XAny RString (XString [97]); XNil])); (XAny RBool (XBool true), XAny (RSlice (RInt KInt64)) (XSlice [XInt 2; XInt 3]))])) /\
  wide (RMap RAny (RPtr (RSlice RAny))) = true /\ suits (RMap RAny (RPtr (RSlice RAny))) value2 /\ data veq value2 /\
  exists x, to_go value2 (RMap RAny (RPtr (RSlice RAny))) = Done x /\
    from_go (@rev _) (RMap RAny (RPtr (RSlice RAny))) x = Done (VMap [(VBool true, VArr [VInt 2; VInt 3]); (VInt 1, VArr [VStr [97]; VNil])]).
Proof.
  split; [cbn; repeat split; try (unfold in64, min_int64, max_int64; lia); repeat constructor|]. split; [vm_compute; reflexivity|]. split; [reflexivity|]. split; [cbn; tauto|]. split; [repeat constructor|].
  exists (XMap [(XAny (RInt KInt64) (XInt 1), XPtr (XSlice [XAny RString (XString [97]); XNil])); (XAny RBool (XBool true), XPtr (XSlice [XAny (RInt KInt64) (XInt 2); XAny (RInt KInt64) (XInt 3)]))]).
  split; vm_compute; reflexivity.
Qed.
