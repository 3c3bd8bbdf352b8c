(* Properties C27 (constructors), C29 to C32, C54 and C55. Only statements, [exact], assumptions and examples. *)
From Coq Require Import ZArith List Bool Lia.
From Coq Require Import Floats.SpecFloat.
From Verif Require Import Int64 Data DataSpec Types TypesSpec Assign Construct ConstructSpec ConstructProofs PropertiesTypes.
Import ListNotations.
Open Scope Z_scope.

(* C27, constructors: what AllOfType, AnyOfType, OneOfType and NotType make accepts the boolean combination,
   also when they return one of their arguments or a constant. *)
Theorem C27_ternary_constructors :
  forall W p ts, Forall type_ok ts ->
  accepts W (all_of_type p ts) (fun v => Forall (fun t => has_type W t v) ts) /\
  accepts W (any_of_type p ts) (fun v => Exists (fun t => has_type W t v) ts) /\
  accepts W (one_of_type p ts) (fun v => exists ts1 t ts2, ts = ts1 ++ t :: ts2 /\ has_type W t v /\
                                         Forall (fun s => ~ has_type W s v) (ts1 ++ ts2)).
Proof. exact ternary_types_accept. Qed.
Print Assumptions C27_ternary_constructors.

Theorem C27_not_constructor :
  forall W p t, type_ok t -> accepts W (not_type p t) (fun v => ~ has_type W t v).
Proof. exact not_type_accepts. Qed.
Print Assumptions C27_not_constructor.

(* enumerations are alternatives of exact types *)
Theorem C27_enumerations :
  forall W p zs ss,
  accepts W (int_enum_type p zs) (fun v => exists z, In z zs /\ v = VInt z) /\
  accepts W (enum_type p ss) (fun v => exists s, In s ss /\ v = VStr s).
Proof. exact enum_types_accept. Qed.
Print Assumptions C27_enumerations.

Example C27_constructors_example :
  instance W0 9 9 (any_of_type 5 []) (VInt 1) = Some false /\
  instance W0 9 9 (all_of_type 5 []) (VInt 1) = Some true /\
  instance W0 9 9 (not_type 5 (not_type 6 TInt)) (VInt 1) = Some true /\
  instance W0 9 9 (one_of_type 5 [TInt; TIntRange 0 10 true]) (VInt 1) = Some false /\
  instance W0 9 9 (int_enum_type 5 [3; 7]) (VInt 7) = Some true.
Proof. vm_compute. auto. Qed.

(* C29. Partial: not for IntegerType(MinInt64, MaxInt64, false). *)
Theorem C29_interval_partial :
  forall W p min max incl t, in64 min -> in64 max ->
  integer_type p min max incl = Some t -> ~ full_exclusive min max incl ->
  accepts W t (fun v => exists z, v = VInt z /\ between min max incl z).
Proof. exact integer_type_accepts. Qed.
Print Assumptions C29_interval_partial.

(* the constructor panics exactly for an empty range *)
Theorem C29_panics :
  forall p min max incl, integer_type p min max incl = None <-> min = max /\ incl = false.
Proof. exact integer_type_none. Qed.
Print Assumptions C29_panics.

(* integer.go:48-50: the flag is lost, MaxInt64 is accepted *)
Theorem C29_full_range_refuted :
  exists t, integer_type 5 min_int64 max_int64 false = Some t /\
  instance W0 9 9 t (VInt max_int64) = Some true /\ ~ between min_int64 max_int64 false max_int64.
Proof. exists TInt. split; [reflexivity|]. split; [reflexivity|]. unfold between. vm_compute. intros [_ H]. discriminate. Qed.
Print Assumptions C29_full_range_refuted.

Theorem C29_assignable_contained :
  forall W n p a b, made a -> made b ->
  exists r, assignable W (S n) p a b = Some r /\
  (r = true -> forall z, in64 z -> has_type W b (VInt z) -> has_type W a (VInt z)).
Proof. exact int_assignable_contained. Qed.
Print Assumptions C29_assignable_contained.

(* Partial: a is not the type of a single integer. *)
Theorem C29_contained_assignable_partial :
  forall W n p a b, made a -> made b -> (forall q z, a <> TExact q (VInt z)) ->
  (exists z, in64 z /\ has_type W b (VInt z)) ->
  (forall z, in64 z -> has_type W b (VInt z) -> has_type W a (VInt z)) ->
  assignable W (S n) p a b = Some true.
Proof. exact int_contained_assignable. Qed.
Print Assumptions C29_contained_assignable_partial.

(* exact.go: the type 3 is not assignable from 3...4, which also has 3 as its only instance *)
Theorem C29_contained_assignable_refuted :
  integer_type 5 3 3 true = Some (TExact 5 (VInt 3)) /\ integer_type 6 3 4 false = Some (TIntRange 3 4 false) /\
  (forall z, has_type W0 (TIntRange 3 4 false) (VInt z) -> has_type W0 (TExact 5 (VInt 3)) (VInt z)) /\
  assignable W0 9 9 (TExact 5 (VInt 3)) (TIntRange 3 4 false) = Some false.
Proof.
  split; [reflexivity|]. split; [reflexivity|]. split; [|reflexivity].
  intros z (x & [= <-] & H). replace z with 3 by lia. reflexivity.
Qed.
Print Assumptions C29_contained_assignable_refuted.

Example C29_example :
  (exists t, integer_type 5 10 (-3) false = Some t /\ instance W0 9 9 t (VInt 9) = Some true /\
             instance W0 9 9 t (VInt 10) = Some false /\ instance W0 9 9 t (VInt (-3)) = Some true) /\
  made (TIntRange 0 10 false) /\ made (TIntRange 1 9 true) /\
  assignable W0 9 9 (TIntRange 0 10 false) (TIntRange 1 9 true) = Some true.
Proof.
  split; [exists (TIntRange (-3) 10 false); vm_compute; auto|].
  split; [exists 5%nat, 0, 10, false|split; [exists 5%nat, 1, 9, true|reflexivity]]; vm_compute; intuition discriminate.
Qed.

(* C55. Partial: not for the range of all finite floats. *)
Theorem C55_float_interval_partial :
  forall W p min max incl t, min <> S754_nan -> max <> S754_nan ->
  float_type p min max incl = Some t -> t <> TFloat ->
  accepts W t (fun v => exists f, v = VFloat f /\ float_between min max incl f).
Proof. exact float_type_accepts. Qed.
Print Assumptions C55_float_interval_partial.

Theorem C55_panics :
  forall p min max incl, float_type p min max incl = None <-> SFeqb min max = true /\ incl = false.
Proof. exact float_type_none. Qed.
Print Assumptions C55_panics.

(* float.go:50-52: the range from -MaxFloat64 to MaxFloat64 becomes the type of all floats, which accepts infinity *)
Theorem C55_full_range_refuted :
  exists t, float_type 5 min_float max_float true = Some t /\
  instance W0 9 9 t (VFloat (S754_infinity false)) = Some true /\
  ~ float_between min_float max_float true (S754_infinity false).
Proof.
  exists TFloat. split; [reflexivity|]. split; [reflexivity|]. unfold float_between. vm_compute. intuition discriminate.
Qed.
Print Assumptions C55_full_range_refuted.

Definition f25 := S754_finite false 5629499534213120 (-51). (* 2.5 *)
Definition f1 := S754_finite false 4503599627370496 (-52).  (* 1.0 *)
Example C55_example :
  exists t, float_type 5 f25 f1 false = Some t /\ t <> TFloat /\
  instance W0 9 9 t (VFloat f1) = Some true /\ instance W0 9 9 t (VFloat f25) = Some false.
Proof. exists (TFloatRange f1 f25 false). vm_compute. intuition discriminate. Qed.

(* C30: SizedStringType *)
Theorem C30_sized_string :
  forall W min max, max <= max_int64 ->
  accepts W (sized_string_type min max) (fun v => exists s, v = VStr s /\ length_between min max (Z.of_nat (length s))).
Proof. exact sized_string_type_accepts. Qed.
Print Assumptions C30_sized_string.

Theorem C30_sized_binary :
  forall W min max,
  accepts W (sized_binary_type min max) (fun v => exists s, v = VBin s /\ length_between min max (Z.of_nat (length s))).
Proof. exact sized_binary_type_accepts. Qed.
Print Assumptions C30_sized_binary.

(* Partial: the other string type is not the dgo type and not case independent (refuted for these by
   C24_sized_string_dgo_refuted and C24_sized_string_ci_refuted). *)
Theorem C30_assignable_partial :
  forall W n p min max b, min <= max ->
  In (match b with TExact _ (VStr _) | TString | TStrSized _ _ | TPattern _ => true | _ => false end) [true] ->
  exists r, assignable W (S n) p (TStrSized min max) b = Some r /\
  (r = true -> forall v, has_type W b v -> has_type W (TStrSized min max) v).
Proof. exact sized_string_assignable. Qed.
Print Assumptions C30_assignable_partial.

(* string.go:445-452: after the exchange of the bounds the minimum can be negative: SizedStringType(-1,-3) and
   SizedStringType(0,0) accept the same strings but the second is not assignable from the first *)
Theorem C30_negative_bound_refuted :
  sized_string_type (-1) (-3) = TStrSized (-3) 0 /\ sized_string_type 0 0 = TStrSized 0 0 /\
  (forall l, length_between (-1) (-3) l <-> length_between 0 0 l) /\
  assignable W0 9 9 (sized_string_type 0 0) (sized_string_type (-1) (-3)) = Some false.
Proof. repeat split; try reflexivity; unfold length_between in *; lia. Qed.
Print Assumptions C30_negative_bound_refuted.

Example C30_example :
  instance W0 9 9 (sized_string_type 3 1) (VStr [97; 98]) = Some true /\
  instance W0 9 9 (sized_string_type 3 1) (VStr []) = Some false /\
  assignable W0 9 9 (sized_string_type 0 5) (sized_string_type 1 3) = Some true.
Proof. vm_compute. auto. Qed.

(* C31 *)
Theorem C31_tuple_constructor :
  forall W p ts t, Forall type_ok ts -> tuple_type p ts = Some t ->
  accepts W t (fun v => exists l, v = VArr l /\ Forall2 (has_type W) ts l).
Proof. exact tuple_type_accepts. Qed.
Print Assumptions C31_tuple_constructor.

Theorem C31_variadic_tuple_constructor :
  forall W p qs q t, Forall type_ok (qs ++ [q]) ->
  variadic_tuple_type p (qs ++ [q]) = Some t ->
  accepts W t (fun v => exists l1 l2, v = VArr (l1 ++ l2) /\ Forall2 (has_type W) qs l1 /\ Forall (has_type W q) l2).
Proof. exact variadic_tuple_type_accepts. Qed.
Print Assumptions C31_variadic_tuple_constructor.

(* array.go:381-390: IsExact(nil type) but it has no ExactValue method, so TupleType([nil]) and
   newArrayType(nil type, 1, 1) panic; struct types likewise *)
Theorem C31_tuple_of_nil_refuted :
  tuple_type 5 [TNil] = None /\ tuple_type 5 [TNil; TExact 6 (VInt 1)] = None /\ new_array_type 5 (Some TNil) 1 1 = None /\
  struct_map_type 5 false [(TExact 6 a_key, TNil, true)] = None.
Proof. vm_compute. auto. Qed.
Print Assumptions C31_tuple_of_nil_refuted.

Example C31_constructor_example :
  (exists t, tuple_type 5 [TInt; TExact 6 (VStr [97])] = Some t /\
             instance W0 9 9 t (VArr [VInt 1; VStr [97]]) = Some true /\ instance W0 9 9 t (VArr [VInt 1]) = Some false) /\
  (exists t, variadic_tuple_type 5 [TInt; TString] = Some t /\
             instance W0 9 9 t (VArr [VInt 1; VStr [97]; VStr []]) = Some true /\ instance W0 9 9 t (VArr [VInt 1]) = Some true /\
             instance W0 9 9 t (VArr []) = Some false).
Proof. split; eexists; (split; [reflexivity|]); vm_compute; auto. Qed.

(* C32 *)
Theorem C32_struct_constructor :
  forall W p q additional es t,
  Forall (fun e : value * ty * bool => data veq (fst (fst e)) /\ type_ok (snd (fst e))) es ->
  ForallOrdPairs (fun e e' : value * ty * bool => veq (fst (fst e)) (fst (fst e')) = false) es ->
  struct_map_type p additional (map (given q) es) = Some t ->
  accepts W t (fun v => exists m, v = VMap m /\
   Forall (fun e : value * ty * bool => match assoc veq m (fst (fst e)) with
                                        | Some x => has_type W (snd (fst e)) x
                                        | None => snd e = false
                                        end) es /\
   (additional = true \/ forall k x, In (k, x) m -> exists e, In e es /\ veq (fst (fst e)) k = true)).
Proof. exact struct_map_type_accepts. Qed.
Print Assumptions C32_struct_constructor.

Example C32_constructor_example :
  exists t, struct_map_type 5 false (map (given 6) [(a_key, TInt, true); (b_key, TString, false)]) = Some t /\
  instance W0 9 9 t (VMap [(a_key, VInt 1)]) = Some true /\
  instance W0 9 9 t (VMap [(b_key, VStr [])]) = Some false /\
  instance W0 9 9 t (VMap [(b_key, VStr []); (a_key, VInt 3)]) = Some true.
Proof. eexists; (split; [reflexivity|]); vm_compute; auto. Qed.

(* C54 *)
Theorem C54_array_type :
  forall W p elem min max t, max <= max_int64 -> min <= max_int64 -> type_ok (or_any elem) ->
  new_array_type p elem min max = Some t ->
  accepts W t (fun v => exists l, v = VArr l /\ length_between min max (Z.of_nat (length l)) /\
                                  Forall (has_type W (or_any elem)) l).
Proof. exact new_array_type_accepts. Qed.
Print Assumptions C54_array_type.

Theorem C54_map_type :
  forall W p kt vt min max, max <= max_int64 -> min <= max_int64 ->
  type_ok (or_any kt) -> type_ok (or_any vt) ->
  accepts W (new_map_type p kt vt min max)
    (fun v => exists m, v = VMap m /\ length_between min max (Z.of_nat (length m)) /\
              Forall (fun e => has_type W (or_any kt) (fst e) /\ has_type W (or_any vt) (snd e)) m).
Proof. exact new_map_type_accepts. Qed.
Print Assumptions C54_map_type.

Example C54_example :
  (exists t, new_array_type 5 (Some TInt) 2 (-1) = Some t /\
             instance W0 9 9 t (VArr [VInt 1; VInt 2]) = Some true /\ instance W0 9 9 t (VArr [VInt 1; VInt 2; VInt 3]) = Some false /\
             instance W0 9 9 t (VArr [VStr []]) = Some false) /\
  instance W0 9 9 (new_map_type 5 (Some TString) None 1 1) (VMap [(a_key, VInt 1)]) = Some true /\
  instance W0 9 9 (new_map_type 5 (Some TString) None 1 1) (VMap []) = Some false /\
  instance W0 9 9 (new_map_type 5 (Some TString) None 1 1) (VMap [(VInt 1, VInt 1)]) = Some false.
Proof. split; [eexists; (split; [reflexivity|])|]; vm_compute; auto. Qed.
