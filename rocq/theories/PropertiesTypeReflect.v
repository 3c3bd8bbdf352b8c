(* Property C75. Only statements, [exact], assumptions and examples. *)
From Coq Require Import ZArith List Bool Lia.
From Coq Require Import Floats.SpecFloat.
From Coq Require Import Sorting.Permutation.
From Verif Require Import Int64 Data DataSpec DataProofs Types TypesSpec Construct Convert ConvertSpec Reflect ReflectSpec ReflectProofs TypeReflect TypeReflectSpec TypeReflectProofs TypeReflectTypes TypeReflectStore.
Import ListNotations.
Open Scope Z_scope.

(* C75, first part: the dgo value of a Go value is an instance of the dgo type of its Go type, for the values that are listed in [belongs] and for
   no others. *)
Theorem C75_value_has_type_of_go_type_partial :
  forall W arrange t x v, (forall l, Permutation (arrange l) l) -> typed t x -> from_go arrange t x = Done v -> fits v ->
  (has_type W (type_from t) v <-> belongs t x).
Proof. intros W arrange t x v A. exact (go_belongs W arrange A x t v). Qed.
Print Assumptions C75_value_has_type_of_go_type_partial.

(* C75, second part: an instance of a type can be assigned to a variable of the Go type of the type, and comes back. Partial: for types that are
   [storable] and values that are [portable]. *)
Theorem C75_instance_stored_partial :
  forall W arrange t v, (forall l, Permutation (arrange l) l) -> storable t -> type_ok t -> plain t -> has_type W t v -> data veq v -> portable v ->
  exists g x w, reflect_ty t = Done (Some g) /\ to_go v g = Done x /\ from_go arrange g x = Done w /\ rearranged v w.
Proof. intros W arrange t v A. exact (instance_stored W arrange A t v). Qed.
Print Assumptions C75_instance_stored_partial.

(* C75, third part: the type of the Go type of a type accepts what the type accepts. Partial: for types that are [storable], with a Go type without []byte and
   dgo.Sensitive. *)
Theorem C75_there_and_back_accepts_partial :
  forall W t v g, storable t -> type_ok t -> plain t -> has_type W t v -> data veq v -> fits v ->
  reflect_ty t = Done (Some g) -> open_type g -> has_type W (type_from g) v.
Proof. exact instance_of_reflected. Qed.
Print Assumptions C75_there_and_back_accepts_partial.

(* C75: ReflectType of a storable type does not panic, and is not nil *)
Theorem C75_go_type_exists_partial : forall t, storable t -> exists g, reflect_ty t = Done (Some g).
Proof. exact go_type_exists. Qed.
Print Assumptions C75_go_type_exists_partial.

(* ---------- what is not so: first part ---------- *)

(* type.go:37-38, value.go:98-141: a []byte becomes a binary, its type an array of integers *)
Theorem C75_bytes_refuted :
  let t := RSlice (RInt KUint8) in let x := XSlice [XInt 1] in
  typed t x /\ forall W arrange, from_go arrange t x = Done (VBin [1]) /\ ~ has_type W (type_from t) (VBin [1]).
Proof. split; [cbn; repeat split; lia|]. intros W arrange. split; [reflexivity|]. intros (l & E & _). discriminate E. Qed.
Print Assumptions C75_bytes_refuted.

(* nil slices become nil, which is no array *)
Theorem C75_nil_slice_refuted :
  let t := RSlice RString in typed t XNil /\ forall W arrange, from_go arrange t XNil = Done VNil /\ ~ has_type W (type_from t) VNil.
Proof. split; [exact I|]. intros W arrange. split; [reflexivity|]. intros (l & E & _). discriminate E. Qed.
Print Assumptions C75_nil_slice_refuted.

(* type.go:41-42: the type of a pointer is oneOf[T, nil]. If T accepts nil, as that of **int and of *interface{} does, then the type does not *)
Theorem C75_nil_behind_pointers_refuted :
  (forall W arrange, let t := RPtr (RPtr (RInt KInt)) in typed t XNil /\ typed t (XPtr XNil) /\
     from_go arrange t XNil = Done VNil /\ from_go arrange t (XPtr XNil) = Done VNil /\ ~ has_type W (type_from t) VNil) /\
  (forall W arrange, let t := RPtr RAny in typed t XNil /\ from_go arrange t XNil = Done VNil /\ ~ has_type W (type_from t) VNil).
Proof.
  split; intros W arrange; cbv zeta; repeat (split; [reflexivity || exact I|]); rewrite nil_belongs; discriminate.
Qed.
Print Assumptions C75_nil_behind_pointers_refuted.

(* the elements of a []dgo.Value are not native *)
Theorem C75_dgo_value_refuted :
  let t := RSlice RValue in let x := XSlice [XDgo (VInt 1)] in
  typed t x /\ forall W arrange, from_go arrange t x = Done (VArr [VInt 1]) /\ ~ has_type W (type_from t) (VArr [VInt 1]).
Proof. split; [cbn; auto|]. intros W arrange. split; [reflexivity|]. intros (l & E & _ & F). injection E as <-. inversion F as [|? ? N _]; subst. apply N. exact I. Qed.
Print Assumptions C75_dgo_value_refuted.

(* integer.go:398-412 and type.go:113-128: unsigned integers from 2^63 on become negative numbers, the type is 0..2^63-1 *)
Theorem C75_uint64_refuted :
  let t := RInt KUint64 in let x := XInt 9223372036854775808 in
  typed t x /\ forall W arrange, from_go arrange t x = Done (VInt (-9223372036854775808)) /\ ~ has_type W (type_from t) (VInt (-9223372036854775808)).
Proof. split; [cbn; lia|]. intros W arrange. split; [reflexivity|]. intros (z & E & H & _). injection E as <-. lia. Qed.
Print Assumptions C75_uint64_refuted.

(* type.go:113-128: +Inf is a float32 that is larger than the largest one *)
Theorem C75_float32_refuted :
  let t := RFloat32 in let x := XFloat (S754_infinity false) in
  typed t x /\ forall W arrange, from_go arrange t x = Done (VFloat (S754_infinity false)) /\ ~ has_type W (type_from t) (VFloat (S754_infinity false)).
Proof. split; [reflexivity|]. intros W arrange. split; [reflexivity|]. intros (f & E & _ & H). injection E as <-. discriminate H. Qed.
Print Assumptions C75_float32_refuted.

(* ---------- second part ---------- *)

(* mapstruct.go:323: the Go type of a struct type is made of the types of its entries, also if there may be others *)
Definition open_struct : ty := TStruct 0%nat true [(VStr [97], TInt, true)].
Definition open_value : value := VMap [(VStr [97], VInt 1); (VStr [98], VStr [120])].
Theorem C75_open_struct_refuted :
  type_ok open_struct /\ plain open_struct /\ data veq open_value /\ portable open_value /\ (forall W, has_type W open_struct open_value) /\
  reflect_ty open_struct = Done (Some (RMap RString (RInt KInt64))) /\ to_go open_value (RMap RString (RInt KInt64)) = Panic.
Proof.
  split; [repeat constructor|]. split; [repeat constructor|]. split; [repeat constructor|]. split.
  { cbn. repeat split; try (unfold in64, min_int64, max_int64; lia). repeat constructor. }
  split; [|split; reflexivity]. intros W. eexists. split; [reflexivity|]. split; [|now left]. repeat constructor. cbn. now exists 1.
Qed.
Print Assumptions C75_open_struct_refuted.

(* ternary.go:503-519: alternatives without types have no Go type, reflect.SliceOf panics *)
Theorem C75_no_types_refuted :
  reflect_ty (TAllOf 0%nat []) = Done None /\ reflect_ty (TArrSized 0%nat (TAllOf 0%nat []) 0 5) = Panic /\
  (forall W v, has_type W (TAllOf 0%nat []) v) /\ (forall W, has_type W (TArrSized 0%nat (TAllOf 0%nat []) 0 5) (VArr [])).
Proof. repeat split; try constructor. exists (@nil value). repeat split; try (cbn; lia); constructor. Qed.
Print Assumptions C75_no_types_refuted.

(* map.go:1183: neither have maps with arrays as keys *)
Theorem C75_array_keys_refuted :
  let t := TMapSized 0%nat TArray TInt 0 5 in reflect_ty t = Panic /\ forall W, has_type W t (VMap [(VArr [VInt 1], VInt 2)]).
Proof. split; [reflexivity|]. intros W. eexists. split; [reflexivity|]. split; [cbn; lia|]. repeat constructor; cbn; eauto. Qed.
Print Assumptions C75_array_keys_refuted.

(* time.go:169-176: a time in an []interface{} is a *time.Time, which becomes a native value *)
Theorem C75_time_refuted :
  (forall W, has_type W TArray (VArr [VTime 5 0 0])) /\ reflect_ty TArray = Done (Some (RSlice RAny)) /\
  to_go (VArr [VTime 5 0 0]) (RSlice RAny) = Done (XSlice [XAny (RPtr RTime) (XPtr (XTime 5 0 0))]) /\
  forall arrange, from_go arrange (RSlice RAny) (XSlice [XAny (RPtr RTime) (XPtr (XTime 5 0 0))]) = Native.
Proof. repeat split. intros W. now eexists. Qed.
Print Assumptions C75_time_refuted.

(* ---------- third part ---------- *)

Theorem C75_binary_back_refuted :
  (forall W, has_type W (TBinary 0 9) (VBin [1])) /\ reflect_ty (TBinary 0 9) = Done (Some (RSlice (RInt KUint8))) /\
  forall W, ~ has_type W (type_from (RSlice (RInt KUint8))) (VBin [1]).
Proof. split; [intros W; eexists; split; [reflexivity|cbn; lia]|]. split; [reflexivity|]. intros W (l & E & _). discriminate E. Qed.
Print Assumptions C75_binary_back_refuted.

Theorem C75_sensitive_back_refuted :
  (forall W, has_type W (TSens 0%nat TInt) (VSens (VInt 1))) /\ reflect_ty (TSens 0%nat TInt) = Done (Some RSens) /\
  forall W, ~ has_type W (type_from RSens) (VSens (VInt 1)).
Proof. split; [intros W; eexists; split; [reflexivity|now eexists]|]. split; [reflexivity|]. intros W N. apply N. exact I. Qed.
Print Assumptions C75_sensitive_back_refuted.

(* ---------- examples ---------- *)

(* map[string]*[]uint64 *)
Example C75_ex_go :
  let t := RMap RString (RPtr (RSlice (RInt KUint64))) in let x := XMap [(XString [98], XPtr (XSlice [XInt 7; XInt 5])); (XString [97], XNil)] in
  typed t x /\ belongs t x /\ from_go (@rev _) t x = Done (VMap [(VStr [97], VNil); (VStr [98], VArr [VInt 7; VInt 5])]).
Proof. split; [cbn; repeat split; try lia; repeat constructor|]. split; [cbn; repeat split; lia|]. vm_compute. reflexivity. Qed.

(* {a: [](1..5|"x"), b?: regexp, c: {int, int...}} with an array of mixed elements *)
Definition stored_type : ty :=
  TStruct 0%nat false [(VStr [97], TArrSized 1%nat (TAnyOf 2%nat [TIntRange 1 5 true; TExact 3%nat (VStr [120])]) 0 9, true); (VStr [98], TRegexp, false); (VStr [99], TTuple 4%nat [TInt; TInt] true, true)].
Definition stored_value : value := VMap [(VStr [99], VArr [VInt 7; VInt 8; VInt 9]); (VStr [97], VArr [VInt 3; VStr [120]])].
Example C75_ex_stored :
  storable stored_type /\ type_ok stored_type /\ plain stored_type /\ data veq stored_value /\ portable stored_value /\ fits stored_value /\
  (forall W, has_type W stored_type stored_value) /\ reflect_ty stored_type = Done (Some (RMap RString RAny)) /\ open_type (RMap RString RAny) /\
  to_go stored_value (RMap RString RAny) = Done (XMap [(XString [99], XAny (RSlice (RInt KInt64)) (XSlice [XInt 7; XInt 8; XInt 9])); (XString [97], XAny (RSlice RAny) (XSlice [XAny (RInt KInt64) (XInt 3); XAny RString (XString [120])]))]).
Proof.
  split; [cbn; repeat split; try discriminate; repeat constructor|]. split; [cbn; repeat split; try discriminate; repeat constructor|]. split; [cbn; repeat split; repeat constructor|].
  split; [repeat constructor|]. split; [cbn; repeat split; try (unfold in64, min_int64, max_int64; lia); repeat constructor|]. split; [cbn; repeat split; try (unfold max_int64; lia)|].
  split; [|split; [vm_compute; reflexivity|split; [split; exact I|vm_compute; reflexivity]]].
  intros W. eexists. split; [reflexivity|]. split; [|right].
  - cbn. repeat constructor; cbn.
    + eexists. split; [reflexivity|]. split; [cbn; lia|]. constructor; [left; eexists; split; [reflexivity|lia]|constructor; [right; left; reflexivity|constructor]].
    + eexists. split; [reflexivity|]. exists [has_type W TInt], (has_type W TInt), [VInt 7], [VInt 8; VInt 9]. repeat split; repeat constructor; eexists; reflexivity.
  - intros k x [E|[E|[]]]; injection E as <- <-; [exists (VStr [99], TTuple 4%nat [TInt; TInt] true, true)|exists (VStr [97], TArrSized 1%nat (TAnyOf 2%nat [TIntRange 1 5 true; TExact 3%nat (VStr [120])]) 0 9, true)]; (split; [cbn; auto|reflexivity]).
Qed.
(* the Go types are not all interface{} *)
Example C75_ex_types :
  reflect_ty (TTuple 0%nat [TIntRange 1 5 true; TInt; TIntRange 1 5 true] false) = Done (Some (RSlice (RInt KInt64))) /\
  reflect_ty (TStruct 0%nat false [(VStr [97], TMapSized 0%nat TString TFloat 0 5, true); (VStr [98], TExact 0%nat (VMap [(VStr [97], VFloat (S754_zero false))]), true)]) = Done (Some (RMap RString (RMap RString RFloat64))) /\
  reflect_ty (TAnyOf 0%nat [TInt; TString]) = Done (Some RAny).
Proof. repeat split; vm_compute; reflexivity. Qed.
