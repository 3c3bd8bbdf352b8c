(* Property C51. Only statements, [exact], assumptions and examples. *)
From Coq Require Import ZArith List Bool Lia.
From Verif Require Import Int64 Data DataSpec Types TypesSpec Assign Func FuncSpec FuncProofs FuncNest FuncNestSpec FuncNestProofs PropertiesTypes.
Import ListNotations.
Open Scope Z_scope.

(* C51, results: what a function of the assigned type returns is expected. Partial: the types of arguments and
   results are of the fragment for which Assignable is sound (C24), a and b do not share type objects. *)
Theorem C51_results_partial :
  forall W L A n p a b l, within L A a b -> (forall q, (p <= q)%nat -> ~ A q) -> func_assignable W n p a b = Some true ->
  proper l -> results_fit W b l -> results_fit W a l.
Proof. exact function_results. Qed.
Print Assumptions C51_results_partial.

(* C51. Partial: as above for the results, and the arguments have the same types. *)
Theorem C51_substitutable_partial :
  forall W L A n p a b, f_args a = f_args b ->
  target_tuple L A (f_rets a) (f_rets_variadic a) -> source_tuple L A (f_rets b) (f_rets_variadic b) -> (forall q, (p <= q)%nat -> ~ A q) ->
  func_assignable W n p a b = Some true -> substitutable W a b.
Proof. exact function_same_arguments. Qed.
Print Assumptions C51_substitutable_partial.

(* C51. Partial: the function types are assignable to each other. *)
Theorem C51_mutual_partial :
  forall W L A L' A' n p n' p' a b, within L A a b -> (forall q, (p <= q)%nat -> ~ A q) -> within L' A' b a -> (forall q, (p' <= q)%nat -> ~ A' q) ->
  func_assignable W n p a b = Some true -> func_assignable W n' p' b a = Some true -> substitutable W a b.
Proof. exact function_mutual. Qed.
Print Assumptions C51_mutual_partial.

(* What is checked of the arguments is the wrong way around: the function that is wanted takes all arguments
   that the function that is given takes. *)
Theorem C51_arguments_reversed_partial :
  forall W L A n p a b l, within L A a b -> (forall q, (p <= q)%nat -> ~ A q) -> func_assignable W n p a b = Some true ->
  proper l -> arguments_fit W b l -> arguments_fit W a l.
Proof. exact function_arguments_reversed. Qed.
Print Assumptions C51_arguments_reversed_partial.

(* func(any) int is assignable from func(string) int, but not from func(any,any) int; func(string) int is not
   assignable from func(any) int *)
Theorem C51_arguments_refuted :
  let wanted := FTy [TAny] false [TInt] false in
  let given := FTy [TString] false [TInt] false in
  new_function [TAny] false [TInt] false = Some wanted /\ new_function [TString] false [TInt] false = Some given /\
  func_assignable W0 20 0 wanted given = Some true /\
  proper [VInt 1] /\ arguments_fit W0 wanted [VInt 1] /\ ~ arguments_fit W0 given [VInt 1] /\
  ~ substitutable W0 wanted given /\
  substitutable W0 given wanted /\ func_assignable W0 20 0 given wanted = Some false.
Proof.
  cbn. split; [reflexivity|]. split; [reflexivity|]. split; [reflexivity|].
  assert (P : proper [VInt 1]) by (split; repeat (cbn; constructor); discriminate).
  assert (A1 : arguments_fit W0 (FTy [TAny] false [TInt] false) [VInt 1]) by (unfold arguments_fit, has_type; cbn; eexists; split; [reflexivity|]; repeat constructor).
  assert (A2 : ~ arguments_fit W0 (FTy [TString] false [TInt] false) [VInt 1]).
  { unfold arguments_fit, has_type. cbn. intros (l & E & H). injection E as <-. inversion H as [|? ? ? ? X _]; subst. cbn in X. destruct X as [s X]. discriminate X. }
  split; [exact P|]. split; [exact A1|]. split; [exact A2|]. split; [intros [S _]; exact (A2 (S _ P A1))|]. split; [|reflexivity].
  split; intros l _ H; [|exact H]. unfold arguments_fit, has_type in *. cbn in *. destruct H as (l' & E & H). exists l'. split; [exact E|]. inversion H as [|? ? ? ? _ T]; subst. inversion T; subst. repeat constructor.
Qed.
Print Assumptions C51_arguments_refuted.

(* func(string) any from func(string) []int *)
Example ex_C51 :
  let a := FTy [TString] false [TArrSized 1 TAny 0 max_int64; TInt] false in
  let b := FTy [TString] false [TArrSized 5 TInt 0 3; TIntRange 1 2 true] false in
  within ex_allowed (fun q => (q < 3)%nat) a b /\ func_assignable W0 20 100 a b = Some true.
Proof.
  cbn. split; [|vm_compute; reflexivity].
  repeat split; try (cbn; repeat constructor; cbn; intuition (try discriminate; try lia)); try reflexivity.
Qed.
Example ex_C51_mutual :
  let a := FTy [TString] false [TArrSized 1 TAny 0 5] false in
  let b := FTy [TString] false [TArrSized 2 TAny 0 5] false in
  within ex_allowed (fun q => (q = 1)%nat) a b /\ within ex_allowed (fun q => (q = 2)%nat) b a /\
  func_assignable W0 20 100 a b = Some true /\ func_assignable W0 20 100 b a = Some true /\ a <> b.
Proof.
  cbn. split; [|split; [|split; [vm_compute; reflexivity|split; [vm_compute; reflexivity|discriminate]]]];
  repeat split; try (cbn; repeat constructor; cbn; intuition (try discriminate; try lia)); try reflexivity.
Qed.

(* The element types of variadic functions are not compared if they are the only types: func(...int) and func(...string) are assignable to each other.
   With another argument before them they are compared. *)
Theorem C51_variadic_refuted :
  let ints := FTy [TInt] true [] false in
  let strings := FTy [TString] true [] false in
  new_function [TInt] true [] false = Some ints /\ new_function [TString] true [] false = Some strings /\
  func_assignable W0 20 0 ints strings = Some true /\ func_assignable W0 20 0 strings ints = Some true /\
  ~ substitutable W0 ints strings /\ ~ substitutable W0 strings ints /\
  func_assignable W0 20 0 (FTy [TInt] false [] false) (FTy [TString] false [] false) = Some false.
Proof.
  cbn. assert (A : forall t v u, proper [v] -> has_type W0 t v -> ~ has_type W0 u v -> ~ substitutable W0 (FTy [t] true [] false) (FTy [u] true [] false)).
  { intros t v u P H N [S _]. apply N. specialize (S [v] P). unfold arguments_fit, has_type in S, H |- *. cbn in S.
    destruct S as (l & E & Qs & Q & l1 & l2 & EQ & -> & F2 & FQ); [exists [v]; split; [reflexivity|]; exists [], (has_type_with W0 (fun vs v => Forall (fun x => has_type_with W0 (fun _ _ => False) (type_of 0%nat x) v) vs) t), [], [v]; repeat split; auto|].
    destruct Qs as [|q0 [|q1 Qs]]; try discriminate EQ. injection EQ as <-. inversion F2; subst. cbn in E. injection E as <-. inversion FQ; subst. assumption. }
  split; [reflexivity|]. split; [reflexivity|]. split; [vm_compute; reflexivity|]. split; [vm_compute; reflexivity|]. split; [|split].
  - apply (A TInt (VInt 1) TString); [split; repeat (cbn; constructor); discriminate|exists 1; reflexivity|intros [s E]; discriminate E].
  - apply (A TString (VStr []) TInt); [split; repeat (cbn; constructor); discriminate|exists []; reflexivity|intros [s E]; discriminate E].
  - vm_compute. reflexivity.
Qed.
Print Assumptions C51_variadic_refuted.

(* C51 for functions of functions. Whatever the functions of a program are, what arguments they take and what they give: if two function types are
   assignable to each other, the same functions belong to them. Partial: as above for the types that are no function types; no variadic functions. *)
Theorem C51_nested_mutual_partial :
  forall W F takes gives L A L' A' n p n' p' a b x,
  wanted L A true a -> given L A true b -> (forall q, (p <= q)%nat -> ~ A q) -> wanted L' A' true b -> given L' A' true a -> (forall q, (p' <= q)%nat -> ~ A' q) ->
  nested_assignable W n p a b = Some true -> nested_assignable W n' p' b a = Some true ->
  member W F takes gives a x <-> member W F takes gives b x.
Proof. exact nested_mutual. Qed.
Print Assumptions C51_nested_mutual_partial.

(* C51 for functions that return functions. Partial: the functions on both sides have the same arguments, whatever they are. *)
Theorem C51_nested_results_partial :
  forall W F takes gives L A n p a b x,
  wanted L A false a -> given L A false b -> same_arguments a b -> (forall q, (p <= q)%nat -> ~ A q) ->
  nested_assignable W n p a b = Some true -> member W F takes gives b x -> member W F takes gives a x.
Proof. exact nested_results. Qed.
Print Assumptions C51_nested_results_partial.

(* C51 for functions that take functions. That arguments are compared the wrong way around is right for arguments of arguments. Partial: the types of
   arguments, of arguments of arguments of arguments and so on have the same values. *)
Theorem C51_nested_callbacks_partial :
  forall W F takes gives L A n p a b x,
  wanted L A true a -> given L A true b -> differ_in_place W true a b -> (forall q, (p <= q)%nat -> ~ A q) ->
  nested_assignable W n p a b = Some true -> member W F takes gives b x -> member W F takes gives a x.
Proof. exact nested_differ_in_place. Qed.
Print Assumptions C51_nested_callbacks_partial.
(* Where a type of data is expected, a function goes exactly if functions belong to the type; all types. *)
Theorem C51_functions_accepted :
  forall W n p t args v rets rv, nested_assignable W (S n) p (NTy t) (NFn args v rets rv) <> None /\
  (nested_assignable W (S n) p (NTy t) (NFn args v rets rv) = Some true <-> function_in t).
Proof. exact functions_go. Qed.
Print Assumptions C51_functions_accepted.
Example ex_C51_functions_accepted : function_in (TNot 1%nat TInt) /\ ~ function_in (TOneOf 1%nat [TAny; TNot 2%nat TInt]) /\ function_in (TOneOf 1%nat [TInt; TNot 2%nat TInt]).
Proof.
  split; [cbn; tauto|]. split; [|exists [False], (~ False), []; cbn; repeat split; auto].
  intros (l1 & P & l2 & E & _ & F). cbn in E. destruct l1 as [|Q l1]; cbn in E, F; injection E as <- E; [rewrite <- E in F|]; inversion F as [|? ? X Y]; subst; tauto.
Qed.

Ltac sides :=
  repeat match goal with
  | |- Forall _ _ => constructor
  | |- wanted _ _ _ (NFn _ _ _ _) => apply wanted_fn; try discriminate; try (intros _)
  | |- given _ _ _ (NFn _ _ _ _) => apply given_fn; try discriminate; try (intros _)
  | |- _ = _ => reflexivity
  end; (apply wanted_ty || apply given_ty); try (cbn; repeat constructor; cbn; intuition (try discriminate; try lia); fail); (right; intros []) || (left; reflexivity).
(* func(func(any) string) int from func(func(string) string) 1..2 *)
Example ex_C51_callbacks :
  let a := NFn [NFn [NTy TAny] false [NTy TString] false] false [NTy TInt] false in
  let b := NFn [NFn [NTy TString] false [NTy TString] false] false [NTy (TIntRange 1 2 true)] false in
  wanted ex_allowed (fun q => (q < 3)%nat) true a /\ given ex_allowed (fun q => (q < 3)%nat) true b /\ differ_in_place W0 true a b /\
  nested_assignable W0 20 100 a b = Some true /\ nested_assignable W0 20 100 b a = Some false.
Proof.
  cbn. split; [|split; [|split; [|split; vm_compute; reflexivity]]].
  - sides.
  - sides.
  - constructor; repeat constructor; tauto.
Qed.
(* func() func(string...) any from func() func(string...) []int *)
Example ex_C51_nested_results :
  let a := NFn [] false [NFn [NTy TString] true [NTy TAny] false] false in
  let b := NFn [] false [NFn [NTy TString] true [NTy (TArrSized 5 TInt 0 3)] false] false in
  wanted ex_allowed (fun q => (q < 3)%nat) false a /\ given ex_allowed (fun q => (q < 3)%nat) false b /\ same_arguments a b /\
  nested_assignable W0 20 100 a b = Some true.
Proof.
  cbn. split; [|split; [|split; [|vm_compute; reflexivity]]].
  - sides.
  - sides.
  - repeat constructor.
Qed.
Example ex_C51_nested_mutual :
  let a := NFn [NFn [] false [NTy (TArrSized 1 TAny 0 5)] false] false [NTy TInt] false in
  let b := NFn [NFn [] false [NTy (TArrSized 2 TAny 0 5)] false] false [NTy TInt] false in
  wanted ex_allowed (fun q => (q = 1)%nat) true a /\ given ex_allowed (fun q => (q = 1)%nat) true b /\
  wanted ex_allowed (fun q => (q = 2)%nat) true b /\ given ex_allowed (fun q => (q = 2)%nat) true a /\
  nested_assignable W0 20 100 a b = Some true /\ nested_assignable W0 20 100 b a = Some true.
Proof.
  cbn. split; [|split; [|split; [|split; [|split; vm_compute; reflexivity]]]]; sides.
Qed.
