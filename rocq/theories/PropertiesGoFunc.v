(* Property C78. Only statements, [exact], assumptions and examples. *)
From Coq Require Import ZArith List Bool Lia.
From Coq Require Import Floats.SpecFloat.
From Coq Require Import Sorting.Permutation.
From Verif Require Import Int64 Data DataSpec Types TypesSpec Construct Convert ConvertSpec Reflect ReflectSpec TypeReflect TypeReflectSpec Func GoFunc GoFuncSpec GoFuncProofs.
Import ListNotations.
Open Scope Z_scope.

(* C78, arguments: a Go function that is called with arguments that are an instance of In() runs, and its parameters have the values of the
   arguments. Partial: no pointers to pointers or to interface{}, and simple keys. *)
Theorem C78_arguments_passed_partial :
  forall W arrange f args, go_signature f -> Forall (fun t => callable t = true) (gf_in f) ->
  has_type W (in_type f) (VArr args) -> fits (VArr args) -> sendable (VArr args) ->
  exists xs, passed f args xs /\ call arrange f args = rbind (gf_run f xs) (convert_return arrange (gf_out f)).
Proof. exact call_passes. Qed.
Print Assumptions C78_arguments_passed_partial.

(* C78, number of arguments: another number than the function has parameters is refused *)
Theorem C78_wrong_count_panics :
  forall arrange f args, go_signature f ->
  (if gf_variadic f then (S (length args) < length (gf_in f))%nat else length args <> length (gf_in f)) -> call arrange f args = Panic.
Proof. exact call_counts. Qed.
Print Assumptions C78_wrong_count_panics.

(* C78, results: they are an instance of Out() for the values that are listed in [belongs] and for no others *)
Theorem C78_results_partial :
  forall W arrange f args vs, (forall l, Permutation (arrange l) l) -> call arrange f args = Done vs ->
  exists xs rs, gf_run f xs = Done rs /\
    (Forall2 typed (gf_out f) rs -> Forall fits (map result vs) ->
     (has_type W (out_type f) (VArr (map result vs)) <-> Forall2 belongs (gf_out f) rs)).
Proof. exact call_returns. Qed.
Print Assumptions C78_results_partial.

(* C78, results: they say what the function returned. Partial: unsigned integers of 64 bits and NaN as keys are lost (C47, C65). *)
Theorem C78_results_told_partial :
  forall arrange f args vs, (forall l, Permutation (arrange l) l) -> call arrange f args = Done vs ->
  exists xs rs, gf_run f xs = Done rs /\ (Forall2 typed (gf_out f) rs -> Forall moderate rs -> tells_all (gf_out f) rs (map result vs)).
Proof. intros arrange f args vs A. exact (call_tells arrange A f args vs). Qed.
Print Assumptions C78_results_told_partial.

(* C78, results: which ones come back as the Go nil *)
Theorem C78_nil_results :
  forall arrange f args vs, call arrange f args = Done vs ->
  exists xs rs, gf_run f xs = Done rs /\ (Forall2 typed (gf_out f) rs -> Forall2 (fun r o => o = None <-> back_as_nil r = true) rs vs).
Proof. exact call_nil. Qed.
Print Assumptions C78_nil_results.

(* ---------- examples ---------- *)

(* func(n int8, m map[string]interface{}, l ...*[]uint16) (interface{}, int64): returns the length of l and m["a"] *)
Definition sample : go_func :=
  {| gf_code := 4096; gf_in := [RInt KInt8; RMap RString RAny; RSlice (RPtr (RSlice (RInt KUint16)))]; gf_variadic := true; gf_out := [RAny; RInt KInt64];
     gf_run := fun xs => match xs with
       | [XInt n; XMap ((_, x) :: _); XSlice l] => Done [x; XInt (Z.of_nat (length l))]
       | _ => Panic
       end |}.
(* -3, {a: [1, {b: time}]}, nil, [7, 65535] *)
Definition sample_args : list value :=
  [VInt (-3); VMap [(VStr [97], VArr [VInt 1; VMap [(VStr [98], VTime 5 0 0)]])]; VNil; VArr [VInt 7; VInt 65535]].
Example C78_ex_call :
  go_signature sample /\ Forall (fun t => callable t = true) (gf_in sample) /\ (forall W, has_type W (in_type sample) (VArr sample_args)) /\ fits (VArr sample_args) /\ sendable (VArr sample_args).
Proof.
  split; [intros _; exists [RInt KInt8; RMap RString RAny], (RPtr (RSlice (RInt KUint16))); reflexivity|]. split; [repeat constructor|]. split.
  - intros W. eexists. split; [reflexivity|]. eexists [_; _], _, [VInt (-3); VMap [(VStr [97], VArr [VInt 1; VMap [(VStr [98], VTime 5 0 0)]])]], [VNil; VArr [VInt 7; VInt 65535]]. split; [reflexivity|]. split; [reflexivity|]. split.
    + constructor; [cbn; eexists; split; [reflexivity|lia]|]. constructor; [|constructor]. cbn. eexists. split; [reflexivity|]. split; [cbn; lia|]. repeat constructor. cbn. now eexists.
    + constructor; [|constructor; [|constructor]].
      * eexists [_], _, []. split; [reflexivity|]. split; [reflexivity|]. constructor; [|constructor]. cbn. intros (l & E & _). discriminate E.
      * eexists [], _, [_]. split; [reflexivity|]. split; [|constructor; [discriminate|constructor]]. cbn. eexists. split; [reflexivity|]. split; [cbn; lia|].
        constructor; [eexists; split; [reflexivity|lia]|]. constructor; [eexists; split; [reflexivity|lia]|constructor].
  - split; [cbn; unfold max_int64; repeat split; try lia|]. cbn. unfold in64, min_int64, max_int64. repeat split; try lia; repeat constructor.
Qed.
Example C78_ex_run : call (@rev _) sample sample_args = Done [Some (VArr [VInt 1; VMap [(VStr [98], VTime 5 0 0)]]); Some (VInt 2)].
Proof. vm_compute. reflexivity. Qed.
Example C78_ex_count : call (@rev _) sample [VInt 1] = Panic /\ (if gf_variadic sample then (S (length [VInt 1]) < length (gf_in sample))%nat else True).
Proof. split; [reflexivity|cbn; lia]. Qed.
(* func(s string) ([]int8, *string) *)
Definition pair_func : go_func :=
  {| gf_code := 8192; gf_in := [RString]; gf_variadic := false; gf_out := [RSlice (RInt KInt8); RPtr RString];
     gf_run := fun xs => match xs with [x] => Done [XSlice [XInt 5; XInt (-5)]; XPtr x] | _ => Panic end |}.
Example C78_ex_results :
  call (@rev _) pair_func [VStr [120]] = Done [Some (VArr [VInt 5; VInt (-5)]); Some (VStr [120])] /\
  Forall2 typed (gf_out pair_func) [XSlice [XInt 5; XInt (-5)]; XPtr (XString [120])] /\ Forall2 belongs (gf_out pair_func) [XSlice [XInt 5; XInt (-5)]; XPtr (XString [120])].
Proof. split; [reflexivity|]. split; repeat constructor; cbn; repeat split; lia. Qed.
Example C78_ex_told :
  Forall moderate [XSlice [XInt 5; XInt (-5)]; XPtr (XString [120])] /\
  tells_all (gf_out pair_func) [XSlice [XInt 5; XInt (-5)]; XPtr (XString [120])] [VArr [VInt 5; VInt (-5)]; VStr [120]].
Proof. split; [repeat constructor; cbn; unfold max_int64; lia|]. split; [constructor; [discriminate|repeat constructor]|split; [repeat constructor|exact I]]. Qed.
(* func() (interface{}, interface{}, *[]int): the value Nil in an interface, nil, and a pointer to nil *)
Example C78_ex_nil :
  let f := {| gf_code := 1; gf_in := []; gf_variadic := false; gf_out := [RAny; RAny; RPtr (RSlice (RInt KInt))];
              gf_run := fun _ => Done [XAny RValue (XDgo VNil); XNil; XPtr XNil] |} in
  call (@rev _) f [] = Done [Some VNil; None; None] /\ Forall2 typed (gf_out f) [XAny RValue (XDgo VNil); XNil; XPtr XNil].
Proof. split; [reflexivity|repeat constructor]. Qed.

(* ---------- what is not so ---------- *)

(* a function of one parameter that returns it *)
Definition same (t : gty) : go_func := {| gf_code := 4096; gf_in := [t]; gf_variadic := false; gf_out := [t]; gf_run := fun xs => Done xs |}.
Lemma one_arg W t v : has_type W (in_type (same t)) (VArr [v]) <-> has_type W (type_from t) v.
Proof.
  split.
  - intros (l & E & H). injection E as <-. inversion H; subst. assumption.
  - intros H. eexists. split; [reflexivity|]. constructor; [exact H|constructor].
Qed.

(* function.go:301-354 does not look at the types of arguments. A func(int8) that is called with 300 gets 44, called with nil it gets 0; neither is an
   instance of In(). *)
Theorem C78_checked_refuted :
  forall W arrange, ~ has_type W (in_type (same (RInt KInt8))) (VArr [VInt 300]) /\ call arrange (same (RInt KInt8)) [VInt 300] = Done [Some (VInt 44)] /\
  ~ has_type W (in_type (same (RInt KInt8))) (VArr [VNil]) /\ call arrange (same (RInt KInt8)) [VNil] = Done [Some (VInt 0)].
Proof.
  intros W arrange. rewrite !one_arg. split; [|split; [reflexivity|split; [|reflexivity]]].
  - cbn. intros (z & E & H). injection E as <-. lia.
  - cbn. intros (z & E & H). discriminate E.
Qed.
Print Assumptions C78_checked_refuted.

(* type.go:26-56: no value is an instance of In() of a func(dgo.Value), no binary of In() of a func([]byte); both can be called with it *)
Theorem C78_too_strict_refuted :
  forall W arrange v b, ~ has_type W (in_type (same RValue)) (VArr [v]) /\ call arrange (same RValue) [v] = Done [Some v] /\
  ~ has_type W (in_type (same (RSlice (RInt KUint8)))) (VArr [VBin b]) /\ call arrange (same (RSlice (RInt KUint8))) [VBin b] = Done [Some (VBin b)].
Proof.
  intros W arrange v b. rewrite !one_arg. split; [intros N; apply N; exact I|]. split; [destruct v; reflexivity|]. split; [intros (l & E & _); discriminate E|].
  unfold call. cbn. rewrite map_map. cbn. now rewrite map_id.
Qed.
Print Assumptions C78_too_strict_refuted.

(* integer.go:306-354 and so on: 1 is an instance of In() of a func( **int) and of a func( *interface{}), the calls panic *)
Theorem C78_pointers_refuted :
  forall W arrange, let f := same (RPtr (RPtr (RInt KInt))) in let g := same (RPtr RAny) in
  has_type W (in_type f) (VArr [VInt 1]) /\ call arrange f [VInt 1] = Panic /\ has_type W (in_type g) (VArr [VInt 1]) /\ call arrange g [VInt 1] = Panic.
Proof.
  intros W arrange. cbv zeta. rewrite !one_arg. split; [|split; [reflexivity|split; [|reflexivity]]].
  - eexists [], _, [_]. split; [reflexivity|]. split; [|constructor; [discriminate|constructor]]. eexists [], _, [_]. split; [reflexivity|]. split; [cbn; eauto|constructor; [discriminate|constructor]].
  - eexists [], _, [_]. split; [reflexivity|]. split; [exact I|constructor; [discriminate|constructor]].
Qed.
Print Assumptions C78_pointers_refuted.

(* map.go:678-704: {[1]: 2} is an instance of In() of a func(map[interface{}]int), the call panics *)
Theorem C78_array_keys_refuted :
  forall W arrange, let f := same (RMap RAny (RInt KInt)) in let v := VMap [(VArr [VInt 1], VInt 2)] in
  has_type W (in_type f) (VArr [v]) /\ call arrange f [v] = Panic.
Proof.
  intros W arrange. cbv zeta. rewrite !one_arg. split; [|reflexivity]. cbn. eexists. split; [reflexivity|]. split; [cbn; lia|]. repeat constructor. cbn. eauto.
Qed.
Print Assumptions C78_array_keys_refuted.

(* float.go:290-305: a func(map[float32]int) gets one entry for two keys whose nearest float32 is the same *)
Definition tenth : spec_float := S754_finite false 7205759403792794 (-56).
Definition near_tenth : spec_float := S754_finite false 7205759403792795 (-56).
Theorem C78_float32_keys_refuted :
  forall W arrange, let f := same (RMap RFloat32 (RInt KInt)) in let v := VMap [(VFloat tenth, VInt 1); (VFloat near_tenth, VInt 2)] in
  has_type W (in_type f) (VArr [v]) /\ fits v /\ sendable v /\
  call arrange f [v] = rbind (gf_run f [XMap [(XFloat (round32 tenth), XInt 2)]]) (convert_return arrange (gf_out f)).
Proof.
  intros W arrange. cbv zeta. rewrite !one_arg. split; [|split; [|split; [|reflexivity]]].
  - cbn. eexists. split; [reflexivity|]. split; [cbn; lia|]. constructor; [|constructor; [|constructor]]; cbn; (split; [eexists; split; [reflexivity|split; reflexivity]|eauto]).
  - cbn. unfold max_int64. repeat split; lia.
  - cbn. unfold in64, min_int64, max_int64. repeat split; try lia; repeat constructor.
Qed.
Print Assumptions C78_float32_keys_refuted.

(* function.go:307-312: a nil slice is returned as nil, which is no instance of Out() *)
Theorem C78_nil_result_refuted :
  forall W arrange, let f := {| gf_code := 4096; gf_in := []; gf_variadic := false; gf_out := [RSlice RString]; gf_run := fun _ => Done [XNil] |} in
  call arrange f [] = Done [None] /\ ~ has_type W (out_type f) (VArr (map result [None])).
Proof. intros W arrange. split; [reflexivity|]. intros (l & E & H). injection E as <-. inversion H as [|? ? ? ? X _]; subst. cbn in X. destruct X as (l & E & _). discriminate E. Qed.
Print Assumptions C78_nil_result_refuted.

(* C78, Equals of Go functions is an equivalence relation, and equal functions have the same hash code *)
Theorem C78_functions_equality :
  (forall f, func_eq f f = true) /\ (forall f g, func_eq f g = func_eq g f) /\
  (forall f g h, func_eq f g = true -> func_eq g h = true -> func_eq f h = true) /\ (forall f g, func_eq f g = true -> func_hash f = func_hash g).
Proof. exact functions_equality. Qed.
Print Assumptions C78_functions_equality.

(* function.go:283-291: functions are compared by the address of their code, which all closures of a func literal share. The functions that
   func adder(n int64) func(int64) int64 returns for 1 and 2 are equal and return different results. *)
Definition adder (n : Z) : go_func :=
  {| gf_code := 4096; gf_in := [RInt KInt64]; gf_variadic := false; gf_out := [RInt KInt64];
     gf_run := fun xs => match xs with [XInt z] => Done [XInt (w64 (z + n))] | _ => Panic end |}.
Theorem C78_equal_functions_refuted :
  func_eq (adder 1) (adder 2) = true /\ forall arrange, call arrange (adder 1) [VInt 1] = Done [Some (VInt 2)] /\ call arrange (adder 2) [VInt 1] = Done [Some (VInt 3)].
Proof. repeat split. Qed.
Print Assumptions C78_equal_functions_refuted.

(* function.go:141-146, 224-233, compare.go:126-130: the type of a Go func(int) string is equal to the parsed type func(int) string, but not the other way round; the
   hash codes are the same *)
Theorem C78_type_equals_refuted :
  let a := FExact [RInt KInt] false [RString] in let b := FDynamic (FTy [TInt] false [TString] false) in
  ft_eq a b = true /\ ft_eq b a = false /\ ft_hash a = ft_hash b.
Proof. repeat split. Qed.
Print Assumptions C78_type_equals_refuted.
