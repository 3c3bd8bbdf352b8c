(* Properties C09, C25, C26, C28, C33, C58 and C59. Only statements, [exact], assumptions and examples. *)
From Coq Require Import ZArith List Bool Lia.
From Coq Require Import Floats.SpecFloat.
From Verif Require Import Int64 Data DataSpec DataProofs Types TypesSpec Assign GuardProofs TypeEqSpec TypeEqProofs TypeHashProofs Validate ValidateSpec ValidateProofs
  Generic GenericSpec GenericProofs TypesCor InstProofs TypesCor2 AgreeSpec AgreeProofs ReflProofs TransProofs TransStructProofs PropertiesTypes.
Import ListNotations.
Open Scope Z_scope.

(* ---------- C58: Equals of types ---------- *)

(* C58. Partial: no exact types of sensitive values, and tuples that newTupleType would not have made exact. *)
Theorem C58_type_equality_is_equivalence_partial : equivalence nice type_eq.
Proof. exact type_eq_equivalence. Qed.
Print Assumptions C58_type_equality_is_equivalence_partial.

(* Every type is Equal to itself. *)
Theorem C58_type_equality_reflexive : forall t, type_ok t -> type_eq t t = true.
Proof. intros t O. apply teqn_refl; [exact O|lia]. Qed.
Print Assumptions C58_type_equality_reflexive.

(* {sensitive[int]}.Equals(type of {sensitive 1}) but not the other way around *)
Theorem C58_symmetric_refuted :
  let a := TTuple 1 [TSens 2 TInt] false in
  let b := type_of 3 (VArr [VSens (VInt 1)]) in
  type_ok a /\ type_ok b /\ type_eq a b = true /\ type_eq b a = false.
Proof. cbn. repeat split; try discriminate; try (repeat constructor; fail). Qed.
Print Assumptions C58_symmetric_refuted.

(* The element types of the arrays {sensitive 1, sensitive 2} and {sensitive 3, sensitive 4} are both Equal
   to sensitive[int]&sensitive[int], but not to each other. *)
Theorem C58_transitive_refuted :
  let a := TAllOfValue 1 [VSens (VInt 1); VSens (VInt 2)] in
  let b := TAllOf 2 [TSens 3 TInt; TSens 4 TInt] in
  let c := TAllOfValue 5 [VSens (VInt 3); VSens (VInt 4)] in
  type_ok a /\ type_ok b /\ type_ok c /\ type_eq a b = true /\ type_eq b c = true /\ type_eq a c = false.
Proof. cbn. repeat split; try discriminate; try (repeat constructor; fail). Qed.
Print Assumptions C58_transitive_refuted.

Example ex_C58 :
  let a := TStruct 1 false [(a_key, TAnyOf 2 [TInt; ints 3], true)] in
  let b := TStruct 4 false [(a_key, TAnyOf 5 [ints 6; TInt], true)] in
  nice a /\ nice b /\ type_eq a b = true /\ a <> b.
Proof. cbn. repeat split; try discriminate; repeat constructor. Qed.

(* ---------- C09 ---------- *)

(* C09. Partial: the types give no choice of order (ordered), and tuples are as newTupleType makes
   them. *)
Theorem C09_equal_types_equal_hash_partial :
  forall a b, type_ok a -> type_ok b -> proper_tuples a -> proper_tuples b -> ordered a -> ordered b ->
  type_eq a b = true -> thash a = thash b.
Proof. exact equal_types_equal_hash. Qed.
Print Assumptions C09_equal_types_equal_hash_partial.

(* For all types: hash codes agree when alternatives are equal one by one, in order. *)
Theorem C09_same_order_equal_hash_partial :
  forall a b, type_ok a -> type_ok b -> alike a b -> thash a = thash b.
Proof. exact alike_hash. Qed.
Print Assumptions C09_same_order_equal_hash_partial.

(* int|string and string|int *)
Theorem C09_any_of_order_refuted :
  type_eq (TAnyOf 1 [TInt; TString]) (TAnyOf 2 [TString; TInt]) = true /\
  thash (TAnyOf 1 [TInt; TString]) <> thash (TAnyOf 2 [TString; TInt]).
Proof. split; [reflexivity|vm_compute; discriminate]. Qed.
Print Assumptions C09_any_of_order_refuted.

(* the empty tuple type and the type of the empty array *)
Theorem C09_empty_tuple_refuted :
  type_eq (TTuple 1 [] false) (type_of 2 (VArr [])) = true /\
  thash (TTuple 1 [] false) <> thash (type_of 2 (VArr [])).
Proof. split; [reflexivity|vm_compute; discriminate]. Qed.
Print Assumptions C09_empty_tuple_refuted.

(* {sensitive[int]} and the type of {sensitive 1} *)
Theorem C09_tuple_of_sensitive_refuted :
  type_eq (TTuple 1 [TSens 2 TInt] false) (type_of 3 (VArr [VSens (VInt 1)])) = true /\
  thash (TTuple 1 [TSens 2 TInt] false) <> thash (type_of 3 (VArr [VSens (VInt 1)])).
Proof. split; [reflexivity|vm_compute; discriminate]. Qed.
Print Assumptions C09_tuple_of_sensitive_refuted.

Example ex_C09 :
  let a := TMapSized 1 TString (TTuple 2 [TSens 3 TString; TExact 4 (VFloat (S754_zero false)); TIntRange 1 5 true] true) 0 5 in
  let b := TMapSized 5 TString (TTuple 6 [TSens 7 TString; TExact 8 (VFloat (S754_zero true)); TIntRange 1 5 true] true) 0 5 in
  type_ok a /\ type_ok b /\ proper_tuples a /\ proper_tuples b /\ ordered a /\ ordered b /\ type_eq a b = true /\ alike a b /\ a <> b.
Proof. cbn. repeat split; try discriminate; auto; try (repeat constructor; try discriminate; fail). Qed.

(* ---------- C59 ---------- *)

(* C59: Assignable returns, for types that do not refer to themselves. *)
Theorem C59_assignable_returns :
  forall W a b, type_ok a -> type_ok b -> exists N, forall n p, (N <= n)%nat -> exists r, assignable W n p a b = Some r.
Proof. exact assignable_returns. Qed.
Print Assumptions C59_assignable_returns.

Example ex_C59 :
  let a := TNot 1 (TOneOf 2 [TStruct 3 true [(a_key, TSens 4 TInt, true)]; TAllOf 5 [TInt; ints 6]]) in
  type_ok a /\ assignable W0 30 100 a a = Some true.
Proof. split; [cbn; repeat split; repeat constructor|vm_compute; reflexivity]. Qed.

(* ---------- C25 ---------- *)

(* C25, first half: every type is assignable to itself. *)
Theorem C25_assignable_reflexive :
  forall W a, type_ok a -> exists N, forall n p, (N <= n)%nat -> assignable W n p a a = Some true.
Proof. exact assignable_reflexive. Qed.
Print Assumptions C25_assignable_reflexive.

(* C25, second half. Partial: for the types of AgreeSpec.simple: no alternatives, no dgo and case independent
   strings, no tuples, struct types and exact types of arrays and maps. *)
Theorem C25_assignable_transitive_partial :
  forall W a b c, simple a -> simple b -> simple c -> type_ok a -> type_ok b -> type_ok c ->
  exists N, forall n m k p q r, (N <= n)%nat -> (N <= m)%nat -> (N <= k)%nat ->
    assignable W n p a b = Some true -> assignable W m q b c = Some true -> assignable W k r a c = Some true.
Proof. exact assignable_transitive. Qed.
Print Assumptions C25_assignable_transitive_partial.

(* C25, second half, with tuples and struct types. Partial: for the types of AgreeSpec.structural, the tuples of b and c not being variadic, and no
   closed struct type being compared with an open one. *)
Theorem C25_structural_transitive_partial :
  forall W tup str va oa ob oc a b c, (oc = true -> ob = true) -> (ob = true -> oa = true) ->
  structural tup str va oa a -> structural tup str false ob b -> structural tup str false oc c -> type_ok a -> type_ok b -> type_ok c ->
  exists N, forall n m k p q r, (N <= n)%nat -> (N <= m)%nat -> (N <= k)%nat ->
    assignable W n p a b = Some true -> assignable W m q b c = Some true -> assignable W k r a c = Some true.
Proof. exact structural_transitive. Qed.
Print Assumptions C25_structural_transitive_partial.

(* a accepts b, b accepts c, a does not accept c *)
Definition intransitive (W : world) (a b c : ty) : Prop :=
  assignable W 30 100 a b = Some true /\ assignable W 30 100 b c = Some true /\ assignable W 30 100 a c = Some false.

Definition num (z : Z) := SpecFloat.binary_normalize 53 1024 z 0 false.

(* float accepts 1.0..5.0, which accepts 1.0..2.0|3.0..4.0, which float does not accept *)
Theorem C25_float_alternatives_refuted :
  intransitive W0 TFloat (TFloatRange (num 1) (num 5) true)
    (TAnyOf 1 [TFloatRange (num 1) (num 2) true; TFloatRange (num 3) (num 4) true]).
Proof. vm_compute. auto. Qed.
Print Assumptions C25_float_alternatives_refuted.

(* string[1,5] accepts dgo, which accepts a string of length six *)
Theorem C25_sized_string_refuted :
  intransitive W0 (TStrSized 1 5) TDgoString (TExact 1 (VStr [97; 97; 97; 97; 97; 97])).
Proof. vm_compute. auto. Qed.
Print Assumptions C25_sized_string_refuted.

(* 0..10^0..20^string is not assignable to an equal type that is a different object *)
Theorem C25_one_of_copy_refuted :
  let a p := TOneOf p [TIntRange 0 10 true; TIntRange 0 20 true; TString] in
  type_eq (a 1%nat) (a 2%nat) = true /\ assignable W0 30 100 (a 1%nat) (a 2%nat) = Some false.
Proof. vm_compute. auto. Qed.
Print Assumptions C25_one_of_copy_refuted.

(* map accepts a sized map type, which accepts a struct type, which map does not accept *)
Theorem C25_map_struct_refuted :
  intransitive W0 TMap (TMapSized 1 TString TInt 0 max_int64) (TStruct 2 false [(a_key, TInt, true)]).
Proof. vm_compute. auto. Qed.
Print Assumptions C25_map_struct_refuted.

(* {string,...int} accepts {string,...string}, which accepts {string,string}, which the first does not accept *)
Theorem C25_variadic_refuted :
  intransitive W0 (TTuple 1 [TString; TInt] true) (TTuple 2 [TString; TString] true) (TTuple 3 [TString; TString] false).
Proof. vm_compute. auto. Qed.
Print Assumptions C25_variadic_refuted.

(* a closed struct type accepts an open one with the same keys: {a?:int} accepts {}, which accepts {...}, which the first does not accept;
   {a:int} accepts {a:int,...}, which accepts {a:int,b:int}, which the first does not accept *)
Theorem C25_open_struct_refuted :
  intransitive W0 (TStruct 1 false [(a_key, TInt, false)]) (TStruct 2 false []) (TStruct 3 true []) /\
  intransitive W0 (TStruct 1 false [(a_key, TInt, true)]) (TStruct 2 true [(a_key, TInt, true)]) (TStruct 3 false [(a_key, TInt, true); (VStr [98], TInt, true)]).
Proof. vm_compute. auto 10. Qed.
Print Assumptions C25_open_struct_refuted.

Example ex_C25_structural :
  let a := TStruct 1 true [(a_key, TTuple 2 [TString; TInt] true, false)] in
  let b := TStruct 3 false [(VStr [98], TTuple 4 [TTime; TInt] false, true); (a_key, TTuple 5 [TStrSized 1 5; TIntRange 0 9 true; TIntRange 3 7 false] false, true)] in
  let c := TStruct 6 false [(a_key, TTuple 7 [TExact 8 (VStr [97]); TExact 9 (VInt 4); TExact 10 (VInt 4)] false, true); (VStr [98], TTuple 11 [TTime; TExact 12 (VInt 1)] false, true)] in
  structural true true true true a /\ structural true true false false b /\ structural true true false false c /\ type_ok a /\ type_ok b /\ type_ok c /\
  assignable W0 30 100 a b = Some true /\ assignable W0 30 100 b c = Some true /\ assignable W0 30 100 c b = Some false /\ assignable W0 30 100 b a = Some false.
Proof. cbn. repeat split; try discriminate; try (repeat constructor; discriminate); vm_compute; try discriminate; reflexivity. Qed.

Example ex_C25 :
  let a := TMapSized 1 TString (TArrSized 2 (TFloatRange (num 1) (num 5) true) 0 10) 0 max_int64 in
  let b := TMapSized 3 (TPattern [97]) (TArrSized 4 (TFloatRange (num 1) (num 5) false) 1 5) 2 7 in
  let c := TMapSized 5 (TPattern [97]) (TArrSized 6 (TExact 7 (VFloat (num 2))) 1 4) 3 4 in
  simple a /\ simple b /\ simple c /\ type_ok a /\ type_ok b /\ type_ok c /\
  assignable W0 30 100 a b = Some true /\ assignable W0 30 100 b c = Some true /\ assignable W0 30 100 c a = Some false.
Proof. cbn. repeat split; try discriminate; try (repeat constructor; discriminate); vm_compute; try discriminate; reflexivity. Qed.

(* ---------- C26 ---------- *)

(* C26. Partial: v has no sensitive parts, no empty arrays and no empty maps; element types are as in
   AgreeSpec.element_ok; a has flat alternatives and no negations; the objects of a are not those of v's type. *)
Theorem C26_assignable_of_type_is_instance_partial :
  forall W A a v q p, type_ok a -> agreeing a -> data veq v -> solid v ->
  flat_alternatives a -> ty_all (fun t => match t with TNot _ _ | TAllOfValue _ _ => False | _ => True end) a ->
  objects A a -> ~ A q -> (forall q, (p <= q)%nat -> ~ A q) ->
  exists N, forall n, (N <= n)%nat -> exists r, assignable W n p a (type_of q v) = Some r /\ instance W n p a v = Some r.
Proof. exact value_type_agrees. Qed.
Print Assumptions C26_assignable_of_type_is_instance_partial.

(* Without the conditions on alternatives, negations and objects: when the recursion guard was not hit. *)
Theorem C26_assignable_of_type_without_hit_partial :
  forall W a v q, type_ok a -> agreeing a -> data veq v -> solid v ->
  exists N, forall n p, (N <= n)%nat -> exists r s, asgn W n false a (type_of q v) (start p) = Some (r, s) /\
    (s_hit s = false -> (r = true <-> has_type W a v)).
Proof. exact value_type_agrees_without_hit. Qed.
Print Assumptions C26_assignable_of_type_without_hit_partial.

(* v is an instance of a but its type is not assignable to a *)
Definition disagrees (a : ty) (v : value) : Prop :=
  instance W0 30 100 a v = Some true /\ assignable W0 30 100 a (type_of 50 v) = Some false.

(* []int and {} *)
Theorem C26_empty_array_refuted : disagrees (ints 1) (VArr []).
Proof. vm_compute. auto. Qed.
Print Assumptions C26_empty_array_refuted.
(* map[string]int and {} *)
Theorem C26_empty_map_refuted : disagrees (TMapSized 1 TString TInt 0 max_int64) (VMap []).
Proof. vm_compute. auto. Qed.
Print Assumptions C26_empty_map_refuted.
(* []float and {1.0, 2.0} *)
Theorem C26_array_of_floats_refuted : disagrees (TArrSized 1 TFloat 0 max_int64) (VArr [VFloat (num 1); VFloat (num 2)]).
Proof. vm_compute. auto. Qed.
Print Assumptions C26_array_of_floats_refuted.
(* sensitive[1..5] and sensitive 3 *)
Theorem C26_sensitive_refuted : disagrees (TSens 1 (TIntRange 1 5 true)) (VSens (VInt 3)).
Proof. vm_compute. auto. Qed.
Print Assumptions C26_sensitive_refuted.
(* [](int&1..5) and {2, 3, 8}: not an instance, but assignable *)
Theorem C26_array_of_all_of_refuted :
  let a := TArrSized 1 (TAllOf 2 [TInt; TIntRange 1 5 true]) 0 max_int64 in
  let v := VArr [VInt 2; VInt 3; VInt 8] in
  instance W0 30 100 a v = Some false /\ assignable W0 30 100 a (type_of 50 v) = Some true.
Proof. vm_compute. auto. Qed.
Print Assumptions C26_array_of_all_of_refuted.

Example ex_C26 :
  let a := TMapSized 1 TString (TArrSized 2 (TAnyOf 3 [TInt; TStrSized 1 5]) 1 5) 0 max_int64 in
  let v := VMap [(a_key, VArr [VInt 4]); (b_key, VArr [VStr [98]; VInt 2])] in
  type_ok a /\ agreeing a /\ data veq v /\ solid v /\ flat_alternatives a /\ objects (fun q => (q < 4)%nat) a /\
  instance W0 30 100 a v = Some true /\ assignable W0 30 100 a (type_of 50 v) = Some true.
Proof.
  intros a v. assert (D : data veq v) by (repeat (cbn; constructor)).
  split; [|split; [|split; [exact D|split; [|split; [|split]]]]]; [| | | | |split; vm_compute; reflexivity]; cbn; repeat split; try discriminate; try lia; repeat constructor.
Qed.

(* ---------- C28 ---------- *)

(* C28, second half: Generic(Generic(t)) is Generic(t) itself. *)
Theorem C28_generic_idempotent :
  forall W n p t g n' p', generic_of W n p t = Some (Some g) -> (0 < n')%nat -> generic_of W n' p' g = Some (Some g).
Proof. exact generic_idempotent_of. Qed.
Print Assumptions C28_generic_idempotent.

(* C28 for the types of values: Generic returns a type that every instance of the type of v has. *)
Theorem C28_generic_of_value_widens :
  forall W v q, data veq v ->
  exists N, forall n p, (N <= n)%nat -> exists g, generic_of W n p (type_of q v) = Some (Some g) /\
    (forall w, data veq w -> fits w -> has_type W (type_of q v) w -> has_type W g w).
Proof. exact generic_value_widens. Qed.
Print Assumptions C28_generic_of_value_widens.

(* That type depends only on v. *)
Theorem C28_generic_of_value :
  forall W v q, data veq v ->
  exists N, forall n p, (N <= n)%nat -> exists g, generic_of W n p (type_of q v) = Some (Some g) /\ readdr 0%nat g = gen_value 0%nat v.
Proof. exact generic_value_type. Qed.
Print Assumptions C28_generic_of_value.

(* C28, first half. Partial: the conditions of soundness of Assignable, no open struct types, and the recursion
   guard was not hit. *)
Theorem C28_generic_widens_partial :
  forall W L n p t g s v, open_source L = false -> source_ok L t -> generic_ok L t ->
  generic W n n t (start p) = Some (Some g, s) -> s_hit s = false -> data veq v -> fits v -> has_type W t v -> has_type W g v.
Proof. exact generic_widens_without_hit. Qed.
Print Assumptions C28_generic_widens_partial.

(* v is an instance of t but not of Generic(t) *)
Definition narrows (t : ty) (v : value) : Prop :=
  match generic_of W0 30 100 t with
  | Some (Some g) => instance W0 30 100 t v = Some true /\ instance W0 30 100 g v = Some false
  | _ => False
  end.

(* {a: int, ...} *)
Theorem C28_open_struct_refuted :
  narrows (TStruct 1 true [(a_key, TInt, true)]) (VMap [(a_key, VInt 1); (b_key, VStr [])]).
Proof. vm_compute. auto. Qed.
Print Assumptions C28_open_struct_refuted.
(* {!0..5, 3..8} *)
Theorem C28_tuple_of_not_refuted :
  narrows (TTuple 1 [TNot 2 (TIntRange 0 5 true); TIntRange 3 8 true] false) (VArr [VInt 9; VInt 4]).
Proof. vm_compute. auto. Qed.
Print Assumptions C28_tuple_of_not_refuted.
(* the AllOf type without types has no generic type *)
Theorem C28_empty_all_of_refuted : generic_of W0 30 100 (TAllOf 1 []) = Some None /\ instance W0 30 100 (TAllOf 1 []) (VInt 1) = Some true.
Proof. vm_compute. auto. Qed.
Print Assumptions C28_empty_all_of_refuted.

Example ex_C28 :
  let L := Build_allowed false false true in
  let t := TTuple 1 [TCiStr [97]; TPattern [98]; TString] false in
  source_ok L t /\ generic_ok L t /\ generic_of W0 30 100 t = Some (Some (strings 101)) /\
  generic_of W0 30 100 (type_of 1 (VMap [(a_key, VArr [VInt 1; VInt 2]); (b_key, VArr [VInt 3; VInt 4])])) =
    Some (Some (TMapSized 114 TString (ints 108) 0 max_int64)).
Proof. cbv zeta. split; [|split; [|split; vm_compute; reflexivity]]; cbn; repeat split; try discriminate; repeat constructor. Qed.

(* ---------- C33 ---------- *)

(* C33: ValidateVerbose returns the verdict of Validate. Its report has a paragraph for each entry of the type
   and each unknown key, and tells the errors that Validate returns, in their order. *)
Theorem C33_verbose_same_verdict :
  forall W n p t v, match validate W n p t v, validate_verbose W n p t v with
    | Done errs, Done (ok, lines) => (ok = true <-> errs = []) /\ report_of p t v lines errs
    | Panics, Panics | Bound, Bound => True
    | _, _ => False
    end.
Proof. exact verbose_same. Qed.
Print Assumptions C33_verbose_same_verdict.

(* The errors are exactly the mistakes in the map. *)
Theorem C33_errors_are_the_mistakes :
  forall W p q ad es m, type_ok (TStruct q ad es) -> Forall (fun e => key_ok (fst (fst e))) es -> data veq (VMap m) ->
  exists N, forall n, (N <= n)%nat -> exists errs, validate W n p (TStruct q ad es) (VMap m) = Done errs /\
    forall e, In e errs <-> mistake W es m e.
Proof. exact struct_errors. Qed.
Print Assumptions C33_errors_are_the_mistakes.

(* C33. Partial: the struct type is closed and no key is nil or sensitive. *)
Theorem C33_validate_agrees_closed_partial :
  forall W p q es v, type_ok (TStruct q false es) -> Forall (fun e => key_ok (fst (fst e))) es -> data veq v ->
  exists N, forall n, (N <= n)%nat -> exists errs, validate W n p (TStruct q false es) v = Done errs /\
    (errs = [] <-> has_type W (TStruct q false es) v).
Proof. exact closed_struct_agrees. Qed.
Print Assumptions C33_validate_agrees_closed_partial.

(* C33 for the exact types of maps. Partial: no sensitive values, no nil key. *)
Theorem C33_validate_agrees_exact_map_partial :
  forall W p q m' v, data veq (VMap m') -> Forall (fun e => key_ok (fst e) /\ match snd e with VSens _ => False | _ => True end) m' -> data veq v ->
  exists N, forall n, (N <= n)%nat -> exists errs, validate W n p (TExact q (VMap m')) v = Done errs /\
    (errs = [] <-> has_type W (TExact q (VMap m')) v).
Proof. exact exact_map_agrees. Qed.
Print Assumptions C33_validate_agrees_exact_map_partial.

(* {a: int, ...} and {a: 1, b: 2}: Validate does not look at additional *)
Theorem C33_open_struct_refuted :
  let t := TStruct 1 true [(a_key, TInt, true)] in
  let v := VMap [(a_key, VInt 1); (b_key, VInt 2)] in
  instance W0 30 100 t v = Some true /\ validate W0 30 100 t v = Done [EUnknown b_key].
Proof. vm_compute. auto. Qed.
Print Assumptions C33_open_struct_refuted.
(* the type of {a: sensitive 1} and {a: sensitive 2} *)
Theorem C33_exact_sensitive_refuted :
  let t := type_of 1 (VMap [(a_key, VSens (VInt 1))]) in
  let v := VMap [(a_key, VSens (VInt 2))] in
  instance W0 30 100 t v = Some false /\ validate W0 30 100 t v = Done [].
Proof. vm_compute. auto. Qed.
Print Assumptions C33_exact_sensitive_refuted.
(* the type of {nil: 1}: the type of nil is not an exact type *)
Theorem C33_nil_key_refuted :
  let t := type_of 1 (VMap [(VNil, VInt 1)]) in
  let v := VMap [(VNil, VInt 1)] in
  instance W0 30 100 t v = Some true /\ validate W0 30 100 t v = Panics.
Proof. vm_compute. auto. Qed.
Print Assumptions C33_nil_key_refuted.

Example ex_C33 :
  let es := [(a_key, TInt, true); (b_key, TString, false)] in
  let t := TStruct 1 false es in
  type_ok t /\ Forall (fun e => key_ok (fst (fst e))) es /\
  validate W0 30 100 t (VMap [(a_key, VInt 1)]) = Done [] /\
  validate W0 30 100 t (VMap [(b_key, VInt 1); (VInt 3, VInt 2)]) = Done [EMissing a_key; EInstance b_key TString; EUnknown (VInt 3)].
Proof. cbn. repeat split; repeat constructor; vm_compute; auto. Qed.
