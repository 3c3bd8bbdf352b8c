(* Properties C23 to C32 and C53. Only statements, [exact], assumptions and examples. *)
From Coq Require Import ZArith List Bool Lia.
From Coq Require Import Floats.SpecFloat.
From Verif Require Import Int64 Data DataSpec DataProofs Types TypesSpec Assign InstProofs GuardProofs SemProofs EqProofs SubProofs AssignProofs NoHitProofs TypesCor.
Import ListNotations.
Open Scope Z_scope.

(* C27 (and the meaning of all other types): Instance returns, and returns whether the value has
   the type, for every type that does not refer to itself. *)
Theorem C27_instance_is_has_type :
  forall W t v, type_ok t -> data veq v ->
  exists N, forall n p, (N <= n)%nat -> exists r, instance W n p t v = Some r /\ (r = true <-> has_type W t v).
Proof. exact instance_has_type. Qed.
Print Assumptions C27_instance_is_has_type.

(* C23 *)
Theorem C23_value_is_instance_of_its_type :
  forall W v p q, data veq v -> fits v ->
  exists N, forall n, (N <= n)%nat -> instance W n p (type_of q v) v = Some true.
Proof. exact value_instance_of_its_type. Qed.
Print Assumptions C23_value_is_instance_of_its_type.

(* C53: types that are Equal have the same instances. Partial: the types contain no exact types of
   sensitive values. *)
Theorem C53_equal_types_same_instances_partial :
  forall W a b v, type_ok a -> type_ok b -> plain a -> plain b -> type_eq a b = true -> data veq v ->
  (has_type W a v <-> has_type W b v).
Proof. exact equal_types_same_instances. Qed.
Print Assumptions C53_equal_types_same_instances_partial.

(* C24: if a.Assignable(b) then every instance of b is an instance of a. Partial: the features of a
   and b are restricted (target_ok, source_ok), alternatives are flat, a and b share no objects. *)
Theorem C24_assignable_sound_partial :
  forall W L A n p a b v, target_ok L a -> source_ok L b ->
  flat_alternatives a -> single_alternatives b ->
  objects A a -> objects (fun q => ~ A q) b -> (forall q, (p <= q)%nat -> ~ A q) ->
  assignable W n p a b = Some true -> data veq v -> fits v -> has_type W b v -> has_type W a v.
Proof. exact assignable_sound. Qed.
Print Assumptions C24_assignable_sound_partial.

(* Without the conditions on alternatives and objects: when the recursion guard was not hit. *)
Theorem C24_assignable_sound_without_hit_partial :
  forall W L n p a b s v, target_ok L a -> source_ok L b ->
  asgn W n false a b (start p) = Some (true, s) -> s_hit s = false ->
  data veq v -> fits v -> has_type W b v -> has_type W a v.
Proof. exact assignable_sound_without_hit. Qed.
Print Assumptions C24_assignable_sound_without_hit_partial.

(* ---------- where C24 is false ---------- *)

Definition W0 := Build_world (fun _ => true) (fun x => x) bytes_eqb (fun _ _ => false).
Definition ints p := TArrSized p TInt 0 max_int64.
Definition strings p := TArrSized p TString 0 max_int64.
Definition str (s : list Z) := VStr s.
Definition a_key := VStr [97].
Definition b_key := VStr [98].

(* a.Assignable(b), v is an instance of b but not of a *)
Definition unsound (W : world) (a b : ty) (v : value) : Prop :=
  assignable W 30 100 a b = Some true /\ instance W 30 100 b v = Some true /\ instance W 30 100 a v = Some false.

(* The recursion guard (compare.go:62-73): ([]int|[]string).Assignable([]float|[]bool). On the way from the alternatives
   of a to those of b the guard has seen a pair twice although neither type refers to itself. *)
Theorem C24_guard_alternatives_refuted :
  unsound W0 (TAnyOf 1 [ints 2; strings 3])
             (TAnyOf 4 [TArrSized 5 TFloat 0 max_int64; TArrSized 6 TBool 0 max_int64])
             (VArr [VBool true]).
Proof. vm_compute. auto. Qed.
Print Assumptions C24_guard_alternatives_refuted.

(* ({int,string}|{string,int}).Assignable({1,2}) *)
Theorem C24_guard_tuples_refuted :
  unsound W0 (TAnyOf 1 [TTuple 2 [TInt; TString] false; TTuple 3 [TString; TInt] false])
             (type_of 4 (VArr [VInt 1; VInt 2])) (VArr [VInt 1; VInt 2]).
Proof. vm_compute. auto. Qed.
Print Assumptions C24_guard_tuples_refuted.

(* [](nil|[]int) from the type of {{true},nil} *)
Theorem C24_guard_elements_refuted :
  unsound W0 (TArrSized 1 (TAnyOf 2 [ints 3; TNil]) 0 max_int64)
             (type_of 4 (VArr [VArr [VBool true]; VNil])) (VArr [VArr [VBool true]; VNil]).
Proof. vm_compute. auto. Qed.
Print Assumptions C24_guard_elements_refuted.

(* {[]int|[]string} from the type of {{true}} *)
Theorem C24_guard_tuple_member_refuted :
  unsound W0 (TTuple 1 [TAnyOf 2 [ints 3; strings 4]] false)
             (type_of 5 (VArr [VArr [VBool true]])) (VArr [VArr [VBool true]]).
Proof. vm_compute. auto. Qed.
Print Assumptions C24_guard_tuple_member_refuted.

(* string.go:461: string[1,5].Assignable(dgo) looks at the minimum only *)
Theorem C24_sized_string_dgo_refuted :
  unsound W0 (TStrSized 1 5) TDgoString (VStr [105; 110; 116; 101; 103; 101; 114]).
Proof. vm_compute. auto. Qed.
Print Assumptions C24_sized_string_dgo_refuted.

(* string.go:464: string[1,1].Assignable(~k) uses the length of the lower case string; the
   Kelvin sign is equal to k under case folding and has three bytes *)
Definition W1 := Build_world (fun _ => true) (fun x => x)
  (fun a b => bytes_eqb a b || (bytes_eqb a [107] && bytes_eqb b [226; 132; 170])) (fun _ _ => false).
Theorem C24_sized_string_ci_refuted :
  unsound W1 (TStrSized 1 1) (TCiStr [107]) (VStr [226; 132; 170]).
Proof. vm_compute. auto. Qed.
Print Assumptions C24_sized_string_ci_refuted.

(* array.go:482-500: the element type of a tuple is the AllOf of its types:
   [](1..10&5..20).Assignable({1..10,5..20}) *)
Theorem C24_element_all_of_refuted :
  unsound W0 (TArrSized 1 (TAllOf 2 [TIntRange 1 10 true; TIntRange 5 20 true]) 0 max_int64)
             (TTuple 3 [TIntRange 1 10 true; TIntRange 5 20 true] false) (VArr [VInt 1; VInt 20]).
Proof. vm_compute. auto. Qed.
Print Assumptions C24_element_all_of_refuted.

(* array.go:407-445: the types of the variadic elements are not compared: {...int} from {...string} *)
Theorem C24_variadic_refuted :
  unsound W0 (TTuple 1 [TInt] true) (TTuple 2 [TString] true) (VArr [VStr [97]]).
Proof. vm_compute. auto. Qed.
Print Assumptions C24_variadic_refuted.

(* ternary.go:380-400: the alternatives of a are compared with b as a whole:
   0..10^5..20 from 3..8 *)
Theorem C24_one_of_refuted :
  unsound W0 (TOneOf 1 [TIntRange 0 10 true; TIntRange 5 20 true]) (TIntRange 3 8 true) (VInt 6).
Proof. vm_compute. auto. Qed.
Print Assumptions C24_one_of_refuted.

(* not.go:70: !(0..5).Assignable(3..8) as 3..8 is not assignable to 0..5 *)
Theorem C24_not_refuted :
  unsound W0 (TNot 1 (TIntRange 0 5 true)) (TIntRange 3 8 true) (VInt 4).
Proof. vm_compute. auto. Qed.
Print Assumptions C24_not_refuted.

(* not.go:46-52: one alternative of b is enough *)
Theorem C24_not_any_of_refuted :
  unsound W0 (TNot 1 TInt) (TAnyOf 2 [TString; TInt]) (VInt 4).
Proof. vm_compute. auto. Qed.
Print Assumptions C24_not_any_of_refuted.

(* map.go:1027-1033: map[string]int from {a: int, ...}: the additional entries may have any type *)
Theorem C24_map_open_struct_refuted :
  unsound W0 (TMapSized 1 TString TInt 0 max_int64) (TStruct 2 true [(a_key, TInt, true)])
    (VMap [(a_key, VInt 1); (b_key, VNil)]).
Proof. vm_compute. auto. Qed.
Print Assumptions C24_map_open_struct_refuted.

(* mapstruct.go:168-200: {a: int} from {a: int, ...} *)
Theorem C24_struct_open_struct_refuted :
  unsound W0 (TStruct 1 false [(a_key, TInt, true)]) (TStruct 2 true [(a_key, TInt, true)])
    (VMap [(a_key, VInt 1); (b_key, VNil)]).
Proof. vm_compute. auto. Qed.
Print Assumptions C24_struct_open_struct_refuted.

(* ternary.go:153: the direction of ContainsAll *)
Theorem C24_all_of_value_refuted :
  unsound W0 (TAllOfValue 1 [VInt 1; VInt 1; VInt 2]) (TAllOfValue 2 [VInt 1; VInt 1]) (VInt 1).
Proof. vm_compute. auto. Qed.
Print Assumptions C24_all_of_value_refuted.

(* ---------- C53 ---------- *)

(* array.go:510-530: the tuple {sensitive[int]} is Equal to the type of {sensitive 1}, the converse is false, and
   sensitive 2 tells them apart *)
Theorem C53_equal_types_same_instances_refuted :
  let a := TTuple 1 [TSens 2 TInt] false in
  let b := type_of 3 (VArr [VSens (VInt 1)]) in
  type_eq a b = true /\ type_eq b a = false /\
  instance W0 30 100 a (VArr [VSens (VInt 2)]) = Some true /\ instance W0 30 100 b (VArr [VSens (VInt 2)]) = Some false.
Proof. vm_compute. auto. Qed.
Print Assumptions C53_equal_types_same_instances_refuted.

(* ---------- examples ---------- *)

(* {string, ...(int|nil)} *)
Definition ex_target := TTuple 1 [TString; TAnyOf 2 [TInt; TNil]] true.
Definition ex_source := type_of 3 (VArr [VStr [97]; VInt 1; VNil]).
Definition ex_allowed := Build_allowed false false false.
Example ex_C24 :
  target_ok ex_allowed ex_target /\ source_ok ex_allowed ex_source /\
  flat_alternatives ex_target /\ single_alternatives ex_source /\
  objects (fun q => (q < 3)%nat) ex_target /\ objects (fun q => ~ (q < 3)%nat) ex_source /\
  assignable W0 30 100 ex_target ex_source = Some true /\
  has_type W0 ex_source (VArr [VStr [97]; VInt 1; VNil]).
Proof.
  repeat split; try (cbn; repeat constructor; intuition (try discriminate; try lia)); try reflexivity.
Qed.

Example ex_C53 :
  let a := TAnyOf 1 [TInt; TArrSized 2 TString 0 5] in
  let b := TAnyOf 3 [TArrSized 4 TString 0 5; TInt] in
  type_ok a /\ type_ok b /\ plain a /\ plain b /\ type_eq a b = true /\ a <> b.
Proof. cbn. repeat split; discriminate. Qed.

Example ex_C27 :
  instance W0 30 100 (TOneOf 1 [TIntRange 0 10 true; TIntRange 5 20 true]) (VInt 12) = Some true /\
  instance W0 30 100 (TOneOf 1 [TIntRange 0 10 true; TIntRange 5 20 true]) (VInt 7) = Some false /\
  instance W0 30 100 (TNot 2 (TAllOf 3 [TString; TPattern [97]])) (VInt 7) = Some true.
Proof. vm_compute. auto. Qed.

Example ex_C23 :
  let v := VMap [(a_key, VArr [VSens (VArr [VInt 1; VStr []]); VNil])] in
  data veq v /\ fits v /\ instance W0 30 100 (type_of 5 v) v = Some true.
Proof. cbn. repeat split; try (repeat constructor); vm_compute; try discriminate; auto. Qed.
