(* Property C84. Only statements, [exact], assumptions, examples and refutations. *)
From Coq Require Import ZArith List Bool Lia.
From Coq Require Import Floats.SpecFloat.
From Verif Require Import Int64 Data DataSpec DataProofs Types TypesSpec Assign Construct Accessors AccessorsSpec AccessorsProofs.
Import ListNotations.
Open Scope Z_scope.

Local Ltac go := vm_compute; repeat first [constructor | intros H; inversion H; clear H | discriminate | progress subst]; try tauto; try congruence.

(* the size of every instance is between Min and Max; partial: not for the type of strings that are equal under case folding *)
Theorem C84_sizes_partial :
  forall W t v lo hi, type_ok t -> data veq v -> fits v -> text_fits v -> (forall c, t <> TCiStr c) ->
  inst W t v = true -> bounds t = Some (lo, hi) -> exists n, size v = Some n /\ lo <= n <= hi.
Proof. exact sizes_hold. Qed.
Print Assumptions C84_sizes_partial.

(* Unbounded is right when it is true; partial: not for variadic tuples with several types *)
Theorem C84_unbounded_partial :
  forall t, (forall p t1 t2 ts, t <> TTuple p (t1 :: t2 :: ts) true) -> type_ok t ->
  unbounded t = Some true -> bounds t = Some (0, max_int64).
Proof. exact unbounded_holds. Qed.
Print Assumptions C84_unbounded_partial.

(* and when it is false; partial: not for struct types without additional entries *)
Theorem C84_bounded_partial :
  forall t, (forall p es, t <> TStruct p false es) -> bounds t = Some (0, max_int64) -> unbounded t = Some true.
Proof. exact bounded_holds. Qed.
Print Assumptions C84_bounded_partial.

(* the instances of an integer type are the integers from Min to Max *)
Theorem C84_int_bounds :
  forall W t b v, type_ok t -> data veq v -> (forall z, v = VInt z -> in64 z) -> int_bounds t = Some b ->
  (inst W t v = true <-> exists z, v = VInt z /\ in_ints b z).
Proof. exact int_bounds_hold. Qed.
Print Assumptions C84_int_bounds.

(* the instances of a float type are the floats from Min to Max; partial: not for the type of all floats *)
Theorem C84_float_bounds_partial :
  forall W t b v, type_ok t -> t <> TFloat -> data veq v -> float_bounds t = Some b ->
  (inst W t v = true <-> exists f, v = VFloat f /\ in_floats b f).
Proof. exact float_bounds_hold. Qed.
Print Assumptions C84_float_bounds_partial.

(* the i'th element of an instance is an instance of Element(i), or of the last one *)
Theorem C84_elements :
  forall W p t ts variadic l i x, type_ok t -> data veq (VArr l) -> fits_type t -> tuple_parts p t = Some (ts, variadic) ->
  inst W t (VArr l) = true -> nth_error l i = Some x ->
  exists e, nth_error ts (if variadic then Nat.min i (length ts - 1) else i) = Some e /\ inst W e x = true.
Proof. exact elements_hold. Qed.
Print Assumptions C84_elements.

(* the elements of an instance are instances of ElementType; partial: not for tuples and exact arrays with several types *)
Theorem C84_element_type_partial :
  forall W p t e l, type_ok t -> data veq (VArr l) -> fits_type t -> simple_array t -> element p t = Some e ->
  inst W t (VArr l) = true -> Forall (fun x => inst W e x = true) l.
Proof. exact element_holds. Qed.
Print Assumptions C84_element_type_partial.

(* what holds of all tuples is the converse: an instance of ElementType is an instance of each of the types *)
Theorem C84_element_type_below :
  forall W p q ts variadic e x, Forall type_ok ts -> Forall plain ts -> data veq x ->
  element p (TTuple q ts variadic) = Some e -> inst W e x = true -> Forall (fun t => inst W t x = true) ts.
Proof. exact element_below. Qed.
Print Assumptions C84_element_type_below.

(* the keys and values of an instance are instances of KeyType and ValueType; partial: not for types with several keys and not for
   struct types with additional entries *)
Theorem C84_map_types_partial :
  forall W p t kt vt m, type_ok t -> data veq (VMap m) -> fits_type t -> simple_map t -> key p t = Some kt -> val p t = Some vt ->
  inst W t (VMap m) = true -> Forall (fun e => inst W kt (fst e) = true /\ inst W vt (snd e) = true) m.
Proof. exact map_types_hold. Qed.
Print Assumptions C84_map_types_partial.

(* a type that IsExact has the values that are Equal to its exact value; the nil type has no exact value but only one value *)
Theorem C84_exact :
  forall W t, type_ok t -> is_exact t = true ->
  (exists w, exact_item (IType t) = IValue w /\ forall v, data veq v -> (inst W t v = true <-> veq w v = true)) \/
  (exact_item (IType t) = IType t /\ forall v, inst W t v = true <-> v = VNil).
Proof. exact exact_holds. Qed.
Print Assumptions C84_exact.

(* AsType of a value is exact and ExactValue gives the value back; partial: not for sensitive values and not for nil *)
Theorem C84_exact_back_partial :
  forall p v, v <> VNil -> (forall x, v <> VSens x) -> exact_item (IType (as_type p (IValue v))) = IValue v.
Proof. exact exact_back. Qed.
Print Assumptions C84_exact_back_partial.
Theorem C84_exact_back_is_partial :
  forall p v, (forall x, v <> VSens x) -> is_exact (as_type p (IValue v)) = true.
Proof. exact exact_back_is. Qed.
Print Assumptions C84_exact_back_is_partial.

(* the label of the identifier of a type is what the type is called *)
Theorem C84_labels : forall t, ti_label (type_ident t) = Some (type_word t).
Proof. exact labels_hold. Qed.
Print Assumptions C84_labels.
(* only the identifier of the exact types of named values, and the one that no type has, are without a label *)
Theorem C84_labels_known : forall id, ti_label id = None <-> id < 0 \/ id = 30 \/ id = 40 \/ 44 < id.
Proof. exact labels_known. Qed.
Print Assumptions C84_labels_known.

(* ---------- examples ---------- *)

Definition W0 := Build_world (fun _ => true) (fun x => x) bytes_eqb (fun _ _ => false).
(* strings.EqualFold holds of k and the Kelvin sign *)
Definition W1 := Build_world (fun _ => true) (fun x => x)
  (fun a b => bytes_eqb a b || (bytes_eqb a [107] && bytes_eqb b [226; 132; 170])) (fun _ _ => false).
Definition ka := VStr [97].
Definition kb := VStr [98].
Definition st := TStruct 1 false [(ka, TInt, true); (kb, TString, false)].
Definition st1 := TStruct 1 false [(ka, TInt, true)].
Definition tup := TTuple 1 [TInt; TString] true.

(* {a:int, b?:string} has 1 to 2 entries; {int, ...string} has at least 1 element *)
Example ex_C84_sizes : type_ok st /\ data veq (VMap [(ka, VInt 1)]) /\ fits (VMap [(ka, VInt 1)]) /\
  inst W0 st (VMap [(ka, VInt 1)]) = true /\ bounds st = Some (1, 2) /\ bounds tup = Some (1, max_int64) /\
  inst W0 tup (VArr [VInt 1; ka; kb]) = true /\ inst W0 tup (VArr []) = false.
Proof.
  split; [go|]. split; [|go]. apply data_map; repeat constructor; cbn; auto.
Qed.
Example ex_C84_unbounded : unbounded (TTuple 1 [TInt] true) = Some true /\ bounds (TTuple 1 [TInt] true) = Some (0, max_int64) /\
  unbounded (TStruct 1 true [(ka, TInt, false)]) = Some true /\ unbounded (TStrSized 0 7) = Some false.
Proof. now vm_compute. Qed.
Example ex_C84_int_bounds : int_bounds (TIntRange 3 5 false) = Some (3, 5, false) /\ inst W0 (TIntRange 3 5 false) (VInt 4) = true /\
  inst W0 (TIntRange 3 5 false) (VInt 5) = false /\ int_bounds (TExact 1 (VInt 3)) = Some (3, 3, true).
Proof. now vm_compute. Qed.
Definition one := S754_finite false 4503599627370496 (-52).
Example ex_C84_float_bounds : float_bounds (TFloatRange (S754_zero false) one true) = Some (S754_zero false, one, true) /\
  inst W0 (TFloatRange (S754_zero false) one true) (VFloat one) = true /\ inst W0 (TFloatRange (S754_zero false) one true) (VFloat (S754_infinity false)) = false.
Proof. now vm_compute. Qed.
Example ex_C84_elements : type_ok tup /\ tuple_parts 9 tup = Some ([TInt; TString], true) /\ inst W0 tup (VArr [VInt 1; ka; kb]) = true /\
  tuple_parts 9 (TExact 2 (VArr [VInt 1; ka])) = Some ([TExact 9 (VInt 1); TExact 9 ka], false).
Proof. split; [go|]. now vm_compute. Qed.
Example ex_C84_element_type : simple_array (TArrSized 1 TInt 0 9) /\ element 9 (TArrSized 1 TInt 0 9) = Some TInt /\
  inst W0 (TArrSized 1 TInt 0 9) (VArr [VInt 1; VInt 2]) = true /\ element 9 (TTuple 1 [TIntRange 1 5 true; TIntRange 3 9 true] false) = Some (TAllOf 9 [TIntRange 1 5 true; TIntRange 3 9 true]) /\
  inst W0 (TAllOf 9 [TIntRange 1 5 true; TIntRange 3 9 true]) (VInt 4) = true.
Proof. now vm_compute. Qed.
Example ex_C84_map_types : simple_map st1 /\ key 9 st1 = Some (TExact 9 ka) /\ val 9 st1 = Some TInt /\ inst W0 st1 (VMap [(ka, VInt 1)]) = true.
Proof. now vm_compute. Qed.
Example ex_C84_exact : is_exact (TExact 1 ka) = true /\ exact_item (IType (TExact 1 ka)) = IValue ka /\ inst W0 (TExact 1 ka) ka = true /\
  is_exact TNil = true /\ is_exact (TIntRange 3 3 true) = false.
Proof. now vm_compute. Qed.

(* ---------- refutations ---------- *)

(* string.go:260-266: ~k has Min and Max 1 but its instance, the Kelvin sign, has three bytes *)
Theorem C84_ci_size_refuted : exists t v, type_ok t /\ data veq v /\ fits v /\ text_fits v /\ inst W1 t v = true /\ bounds t = Some (1, 1) /\ size v = Some 3.
Proof. exists (TCiStr [107]), (VStr [226; 132; 170]). repeat split; try reflexivity. - constructor. - vm_compute. discriminate. Qed.
Print Assumptions C84_ci_size_refuted.

(* array.go:658: {int, ...string} is Unbounded but the empty array is no instance *)
Theorem C84_variadic_unbounded_refuted : exists t, type_ok t /\ unbounded t = Some true /\ bounds t = Some (1, max_int64) /\ inst W0 t (VArr []) = false.
Proof. exists tup. split; [go|]. now vm_compute. Qed.
Print Assumptions C84_variadic_unbounded_refuted.

(* mapstruct.go:300-306: the struct type without entries has no maximum although only the empty map is an instance, and is not Unbounded *)
Theorem C84_empty_struct_refuted : exists t, type_ok t /\ bounds t = Some (0, max_int64) /\ unbounded t = Some false /\
  (forall v, data veq v -> inst W0 t v = true -> v = VMap []).
Proof.
  exists (TStruct 1 false []). split; [go|]. split; [reflexivity|]. split; [reflexivity|].
  intros v _. destruct v as [ | | | | | | | | | |[|e m]]; try discriminate. reflexivity.
Qed.
Print Assumptions C84_empty_struct_refuted.

(* float.go:109-115: infinity is an instance of float, whose Max is math.MaxFloat64 *)
Theorem C84_float_refuted : exists t b v, type_ok t /\ data veq v /\ float_bounds t = Some b /\ inst W0 t v = true /\
  ~ exists f, v = VFloat f /\ in_floats b f.
Proof.
  exists TFloat, (min_float, max_float, true), (VFloat (S754_infinity false)). split; [go|]. split; [constructor; discriminate|].
  split; [reflexivity|]. split; [reflexivity|]. intros (f & E & _ & H). injection E as <-. discriminate.
Qed.
Print Assumptions C84_float_refuted.

(* array.go:287-296, 482-500: the element type of {int, string} and of the type of [1, 2] has no values *)
Theorem C84_element_type_refuted : exists t t' e e', type_ok t /\ type_ok t' /\
  element 9 t = Some e /\ inst W0 t (VArr [VInt 1; ka]) = true /\ (forall v, inst W0 e v = false) /\
  element 9 t' = Some e' /\ inst W0 t' (VArr [VInt 1; VInt 2]) = true /\ (forall v, inst W0 e' v = false).
Proof.
  exists (TTuple 1 [TInt; TString] false), (TExact 1 (VArr [VInt 1; VInt 2])). do 2 eexists. split; [go|]. split; [go|].
  split; [reflexivity|]. split; [reflexivity|]. split; [intros v; now destruct v|].
  split; [reflexivity|]. split; [reflexivity|]. intros v. destruct v; try reflexivity.
  change ((1 =? z) && ((2 =? z) && true) = false). destruct (Z.eqb_spec 1 z) as [<-|]; reflexivity.
Qed.
Print Assumptions C84_element_type_refuted.

(* mapstruct.go:285-294, 443-452: so have the key and value types of {a:int, b?:string}; a struct type with additional entries does not
   mention the types of these *)
Theorem C84_map_types_refuted : exists t t' k v, type_ok t /\ type_ok t' /\
  key 9 t = Some k /\ val 9 t = Some v /\ inst W0 t (VMap [(ka, VInt 1)]) = true /\ (forall x, inst W0 k x = false) /\ (forall x, inst W0 v x = false) /\
  key 9 t' = Some (TExact 9 ka) /\ val 9 t' = Some TInt /\ inst W0 t' (VMap [(ka, VInt 1); (kb, ka)]) = true.
Proof.
  exists st, (TStruct 1 true [(ka, TInt, true)]). do 2 eexists. split; [go|]. split; [go|].
  split; [reflexivity|]. split; [reflexivity|]. split; [reflexivity|]. split; [|split; [intros x; now destruct x|now vm_compute]].
  intros x. destruct x; try reflexivity. change (bytes_eqb [97] s && (bytes_eqb [98] s && true) = false).
  destruct (bytes_eqb [97] s) eqn:E; [|reflexivity]. apply bytes_eqb_eq in E as <-. reflexivity.
Qed.
Print Assumptions C84_map_types_refuted.

(* string.go:438: types that are not exact have exact values, which need not be instances: that of a pattern type is a regexp;
   type.go:67-72: the exact value of the type of a sensitive value, and of nil, is that type *)
Theorem C84_exact_refuted : exists t w, type_ok t /\ is_exact t = false /\ exact_item (IType t) = IValue w /\ (forall W, inst W t w = false) /\
  exact_item (IType (as_type 9 (IValue (VSens ka)))) = IType (TSens 9 TString) /\ is_exact (TSens 9 TString) = false /\
  exact_item (IType (as_type 9 (IValue VNil))) = IType TNil.
Proof. exists (TPattern [97]), (VRegexp [97]). split; [go|]. now vm_compute. Qed.
Print Assumptions C84_exact_refuted.

(* typeidentifier.go:147-191: there is no label for TiNamedExact (40), so String panics; util/erpindenter.go:50 calls it *)
Theorem C84_labels_refuted : ti_label named_exact_id = None.
Proof. reflexivity. Qed.
Print Assumptions C84_labels_refuted.
