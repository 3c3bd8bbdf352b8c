(* Property C76. Only statements, [exact], assumptions and examples. *)
From Coq Require Import ZArith List Bool Lia.
From Verif Require Import Int64 Data DataSpec DataProofs Types Named NamedSpec NamedProofs.
Import ListNotations.
Open Scope Z_scope.

(* C76, Instance: a value is an instance of a named or parameterized type if and only if it belongs to it, and of the exact type of a value if and only if
   it is equal to that value. Partial: for definitions with a Go type, an interface or a checker, and for objects that tell the truth about their type. *)
Theorem C76_instance_is_membership_partial :
  forall W t x, (forall o, x = Object o -> honest W o) ->
  (match t with NNamed _ | NParam _ _ _ => exists d, defined W t d /\ (nd_check d = None -> exists h, variable_type d h) | NExact _ _ _ => True | _ => False end) ->
  (instance_n W t x = Some true <-> has_n W t x).
Proof. exact instance_has_n. Qed.
Print Assumptions C76_instance_is_membership_partial.

(* C76, Assignable without a checker. Partial: no definition in the source has an interface or a checker, and allOf has operands. *)
Theorem C76_assignable_sound_partial :
  forall W t, go_types W -> equality W -> unchecked W t ->
  forall o, source_n W o -> one_object t o -> assignable_n W t o = Some true -> forall x, has_n W o x -> has_n W t x.
Proof. exact assignable_unchecked_sound. Qed.
Print Assumptions C76_assignable_sound_partial.

(* C76, Assignable with a checker that accepts no type with something that does not belong *)
Theorem C76_assignable_checked_sound_partial :
  forall W t d f, defined W t d -> nd_check d = Some f -> sound_checker W t ->
  forall o, some_operands o -> one_object t o -> assignable_n W t o = Some true -> forall x, has_n W o x -> has_n W t x.
Proof. exact assignable_checked_sound. Qed.
Print Assumptions C76_assignable_checked_sound_partial.

(* C76, Assignable of exact types *)
Theorem C76_assignable_exact_sound_partial :
  forall W p u y, equality W -> nval_ok y -> forall o, values_ok o -> some_operands o -> one_object (NExact p u y) o ->
  assignable_n W (NExact p u y) o = Some true -> forall x, nval_ok x -> has_n W o x -> has_n W (NExact p u y) x.
Proof. exact assignable_exact_sound. Qed.
Print Assumptions C76_assignable_exact_sound_partial.

(* C76: a type without a checker accepts itself if and only if its Go type implements its interface *)
Theorem C76_assignable_reflexive_partial :
  forall W t d g h, go_types W -> defined W t d -> nd_check d = None -> nd_impl d = Some g -> variable_type d h ->
  (assignable_n W t t = Some true <-> w_go W g h = true).
Proof. exact assignable_n_refl. Qed.
Print Assumptions C76_assignable_reflexive_partial.

(* C76: Assignable is transitive. Partial: the type in the middle has no interface and no checker. *)
Theorem C76_assignable_transitive_partial :
  forall W t u, go_types W -> unchecked W t -> source_n W u -> (exists d, defined W u d) -> assignable_n W t u = Some true ->
  forall o, one_object u o -> assignable_n W u o = Some true -> assignable_n W t o = Some true.
Proof. exact assignable_n_trans. Qed.
Print Assumptions C76_assignable_transitive_partial.

(* C76, Equals and HashCode: an equivalence, equal types have the same hash code *)
Theorem C76_equals_equivalence :
  forall W, equality W ->
  (forall t, named_ok W t -> neq W t t = Some true) /\
  (forall t u, named_ok W t -> named_ok W u -> exists b, neq W t u = Some b) /\
  (forall t u, named_ok W t -> named_ok W u -> neq W t u = Some true -> neq W u t = Some true) /\
  (forall t u v, named_ok W t -> named_ok W u -> named_ok W v -> neq W t u = Some true -> neq W u v = Some true -> neq W t v = Some true) /\
  (forall t u, named_ok W t -> named_ok W u -> neq W t u = Some true -> exists h, nhash W t = Some h /\ nhash W u = Some h).
Proof.
  exact (fun W EQ => conj (fun t => neq_refl W t EQ) (conj (fun t u => neq_total W t u EQ) (conj (fun t u => neq_sym W t u EQ)
    (conj (fun t u v => neq_trans W t u v EQ) (fun t u => neq_hash W t u EQ))))).
Qed.
Print Assumptions C76_equals_equivalence.

(* C76, New with a checker: what it returns was made by the constructor and is an instance *)
Theorem C76_new_checked_instance :
  forall W t d f arg v, defined W t d -> nd_check d = Some f -> new_n W t arg = Some v ->
  (exists c, nd_ctor d = Some c /\ c arg = Some v) /\ instance_n W t v = Some true /\ has_n W t v.
Proof. exact new_checked. Qed.
Print Assumptions C76_new_checked_instance.

(* C76, New without a checker. Partial: the constructor makes objects of the Go type of the definition. *)
Theorem C76_new_unchecked_instance_partial :
  forall W t d g h arg v, (forall o, v = Object o -> honest W o) -> defined W t d -> nd_check d = None -> nd_impl d = Some g -> variable_type d h -> w_go W g h = true ->
  (forall c x y, nd_ctor d = Some c -> c x = Some y -> exists o, y = Object o /\ o_go o = g) ->
  new_n W t arg = Some v -> instance_n W t v = Some true.
Proof. exact new_unchecked. Qed.
Print Assumptions C76_new_unchecked_instance_partial.

(* C76, Generic: the generic type of a parameterized type without a checker has the same instances; that of the exact type of an object has the object *)
Theorem C76_generic_parameterized_partial :
  forall W p a ps d x, w_defs W a = Some d -> nd_check d = None ->
  (has_n W (NParam p (NNamed a) ps) x <-> has_n W (generic_n (NParam p (NNamed a) ps)) x).
Proof. exact generic_param. Qed.
Print Assumptions C76_generic_parameterized_partial.
Theorem C76_generic_exact_partial :
  forall W o, equality W -> go_types W -> honest W o ->
  forall d h, defined W (generic_n (w_obj_type W o)) d -> nd_check d = None -> variable_type d h -> w_go W (o_go o) h = true ->
  forall x, has_n W (w_obj_type W o) x -> has_n W (generic_n (w_obj_type W o)) x.
Proof. exact generic_object. Qed.
Print Assumptions C76_generic_exact_partial.

(* ---------- a world ---------- *)

(* Go types 1 and 2 implement the interface 10; nothing implements the interface 11 *)
Definition go_world (g h : Z) : bool := (g =? h) || ((h =? 10) && ((g =? 1) || (g =? 2))).
Definition key_of (o : obj) : Z := match o_content o with VInt i => i | _ => 0 end.
Definition make (g : Z) (x : nval) : option nval := match x with Plain v => Some (Object {| o_go := g; o_content := v |}) | Object _ => None end.
(* a range of integers: the checker of range and range[lo,hi] looks at the exact types of objects of Go type 1 *)
Definition in_range (t other : nty) : option bool :=
  Some match other with
       | NExact _ _ (Object o) =>
           (o_go o =? 1) && match t with NParam _ _ [VInt lo; VInt hi] => (lo <=? key_of o) && (key_of o <=? hi) | _ => true end
       | _ => false
       end.
Definition def name ctor impl ifd chk : option ndef :=
  Some {| nd_name := name; nd_ctor := ctor; nd_extract := None; nd_impl := impl; nd_ifd := ifd; nd_check := chk |}.
Definition defs (a : nat) : option ndef :=
  match a with
  | 0%nat => def [97] (Some (make 1)) (Some 1) None None                    (* a *)
  | 1%nat => def [105] (Some (make 1)) (Some 1) (Some 10) None              (* i, with the interface *)
  | 2%nat => def [98] (Some (make 2)) (Some 2) None None                    (* b *)
  | 3%nat => def [110] None None None None                                  (* n, without any Go type *)
  | 4%nat => def [114] (Some (make 1)) (Some 1) None (Some in_range)        (* r, with the checker *)
  | 5%nat => def [120] (Some (make 2)) (Some 2) (Some 11) None              (* x, with an interface that is not implemented *)
  | 6%nat => def [97] (Some (make 2)) (Some 2) None None                    (* a, defined again *)
  | 7%nat => def [100] (Some (make 2)) (Some 1) None None                   (* d, the constructor makes objects of another Go type *)
  | _ => None
  end.
Definition W0 : nworld :=
  {| w_defs := defs; w_go := go_world;
     w_obj_type := fun o => NExact (Z.to_nat (key_of o)) (NNamed (if o_go o =? 1 then 0 else 2)) (Object o);
     w_obj_eq := fun o x => match x with Object o' => (o_go o =? o_go o') && (key_of o =? key_of o') | Plain _ => false end;
     w_obj_hash := key_of; w_inst := fun t v => match t with TAny => true | _ => false end |}.
Definition ob (g i : Z) : obj := {| o_go := g; o_content := VInt i |}.

Example W0_equality : equality W0.
Proof.
  constructor; cbn; intros; rewrite ?andb_true_iff, ?Z.eqb_eq in *; try tauto; try congruence; try (split; congruence); intuition congruence.
Qed.
Example W0_go : go_types W0.
Proof.
  constructor; cbn; unfold go_world.
  - intros g. now rewrite Z.eqb_refl.
  - intros g g' h. rewrite !orb_true_iff, !andb_true_iff, !orb_true_iff, !Z.eqb_eq. intuition (subst; auto; lia).
Qed.
Example W0_honest_1 : honest W0 (ob 1 5). Proof. exists 5%nat, (NNamed 0). eexists. repeat split. Qed.
Example W0_honest_2 : honest W0 (ob 2 5). Proof. exists 5%nat, (NNamed 2). eexists. repeat split. Qed.

(* membership *)
Example C76_ex_instance : instance_n W0 (NNamed 1) (Object (ob 2 5)) = Some true /\ instance_n W0 (NNamed 0) (Object (ob 2 5)) = Some false /\
  instance_n W0 (NNamed 0) (Plain (VInt 3)) = Some false /\
  instance_n W0 (NParam 0 (NNamed 4) [VInt 1; VInt 9]) (Object (ob 1 5)) = Some true /\ instance_n W0 (NParam 0 (NNamed 4) [VInt 6; VInt 9]) (Object (ob 1 5)) = Some false.
Proof. repeat split; vm_compute; reflexivity. Qed.
(* soundness: i accepts a^b, and the exact type of an object of b *)
Example C76_ex_assignable : unchecked W0 (NNamed 1) /\ source_n W0 (NAnyOf 0 [NNamed 0; NNamed 2; NExact 3 (NNamed 2) (Object (ob 2 5))]) /\
  one_object (NNamed 1) (NAnyOf 0 [NNamed 0; NNamed 2; NExact 3 (NNamed 2) (Object (ob 2 5))]) /\
  assignable_n W0 (NNamed 1) (NAnyOf 0 [NNamed 0; NNamed 2; NExact 3 (NNamed 2) (Object (ob 2 5))]) = Some true /\ assignable_n W0 (NNamed 0) (NNamed 2) = Some false.
Proof.
  split; [eexists; exists 10; repeat split; left; reflexivity|]. split.
  - split; [exact I|]. cbn. repeat split; eexists; repeat split; try discriminate. exists (ob 2 5). repeat split.
  - split; [cbn; tauto|]. split; reflexivity.
Qed.
(* the checker of r is sound: it accepts exact types only *)
Example C76_ex_checker : sound_checker W0 (NParam 0 (NNamed 4) [VInt 1; VInt 9]) /\
  assignable_n W0 (NParam 0 (NNamed 4) [VInt 1; VInt 9]) (NAllOf 1 [NExact 7 (NNamed 0) (Object (ob 1 5))]) = Some true.
Proof.
  split; [|reflexivity]. intros d f o x D C. cbn in D. unfold def in D. injection D as <-. cbn in C. injection C as <-. destruct o as [| |p u y| | | |]; try discriminate. destruct y as [v|y]; [discriminate|].
  cbn [in_range has_n nveq w_obj_eq W0]. destruct x as [v|x]; [discriminate|]. cbn [ntype_of w_obj_type W0]. intros [= H] E. apply andb_true_iff in E as [G K]. apply Z.eqb_eq in G, K. unfold in_range. rewrite <- G, <- K. now f_equal.
Qed.
Example C76_ex_exact : assignable_n W0 (NExact 1 (NNamed 0) (Object (ob 1 5))) (NAnyOf 0 [NExact 2 (NNamed 0) (Object (ob 1 5)); NExact 3 (NNamed 4) (Object (ob 1 5))]) = Some true /\
  assignable_n W0 (NExact 1 (NNamed 0) (Object (ob 1 5))) (NNamed 0) = Some false.
Proof. split; reflexivity. Qed.
Example C76_ex_equals : named_ok W0 (NParam 0 (NNamed 4) [VInt 1; VInt 9]) /\ neq W0 (NParam 0 (NNamed 4) [VInt 1; VInt 9]) (NParam 1 (NNamed 4) [VInt 1; VInt 9]) = Some true /\
  neq W0 (NParam 0 (NNamed 4) [VInt 1; VInt 9]) (NParam 1 (NNamed 4) [VInt 1; VInt 8]) = Some false /\ neq W0 (NNamed 4) (NParam 0 (NNamed 4) []) = Some false.
Proof. split; [cbn; repeat split; try (eexists; reflexivity); try (apply data_arr; repeat (apply Forall_cons; [apply data_int|]); apply Forall_nil)|]. repeat split; vm_compute; reflexivity. Qed.
Example C76_ex_new : new_n W0 (NParam 0 (NNamed 4) [VInt 1; VInt 9]) (Plain (VInt 5)) = Some (Object (ob 1 5)) /\ new_n W0 (NParam 0 (NNamed 4) [VInt 6; VInt 9]) (Plain (VInt 5)) = None /\
  new_n W0 (NNamed 0) (Plain (VInt 5)) = Some (Object (ob 1 5)) /\ new_n W0 (NNamed 3) (Plain (VInt 5)) = None.
Proof. repeat split; vm_compute; reflexivity. Qed.

(* ---------- what is not so ---------- *)

(* named.go:36-41: the default checker looks at the Go type of the other type, not at its interface. Type a with Go type A accepts type i with Go type A and
   interface I; an object of Go type B, which implements I, is an instance of i and not of a. *)
Theorem C76_assignable_interface_refuted :
  exists W t o x, go_types W /\ equality W /\ (forall y, x = Object y -> honest W y) /\ assignable_n W t o = Some true /\
  instance_n W o x = Some true /\ instance_n W t x = Some false.
Proof.
  exists W0, (NNamed 0), (NNamed 1), (Object (ob 2 5)). split; [exact W0_go|]. split; [exact W0_equality|].
  split; [intros y [= <-]; exact W0_honest_2|]. repeat split; vm_compute; reflexivity.
Qed.
Print Assumptions C76_assignable_interface_refuted.
(* and Assignable is not transitive: a accepts i, i accepts b, a does not accept b *)
Theorem C76_assignable_transitive_refuted :
  exists W t u o, go_types W /\ unchecked W t /\ unchecked W u /\ unchecked W o /\
  assignable_n W t u = Some true /\ assignable_n W u o = Some true /\ assignable_n W t o = Some false.
Proof.
  exists W0, (NNamed 0), (NNamed 1), (NNamed 2). split; [exact W0_go|].
  split; [eexists; exists 1; repeat split; right; split; reflexivity|]. split; [eexists; exists 10; repeat split; left; reflexivity|].
  split; [eexists; exists 2; repeat split; right; split; reflexivity|]. repeat split; vm_compute; reflexivity.
Qed.
Print Assumptions C76_assignable_transitive_refuted.
(* named.go:40: without a Go type, Assignable of the type itself and Instance of an object panic *)
Theorem C76_no_go_type_panics_refuted :
  exists W t x, (exists d, defined W t d) /\ (forall y, x = Object y -> honest W y) /\ assignable_n W t t = None /\ instance_n W t x = None.
Proof.
  exists W0, (NNamed 3), (Object (ob 1 5)). split; [eexists; reflexivity|]. split; [intros y [= <-]; exact W0_honest_1|]. split; reflexivity.
Qed.
Print Assumptions C76_no_go_type_panics_refuted.
(* a type with a Go type that does not implement its interface does not accept itself; NewNamedType does not look *)
Theorem C76_assignable_reflexive_refuted :
  exists W t, unchecked W t /\ assignable_n W t t = Some false.
Proof. exists W0, (NNamed 5). split; [eexists; exists 11; repeat split; left; reflexivity|reflexivity]. Qed.
Print Assumptions C76_assignable_reflexive_refuted.
(* named.go:256-266: without a checker New returns what the constructor returns, an instance or not *)
Theorem C76_new_instance_refuted :
  exists W t arg v, unchecked W t /\ (forall y, v = Object y -> honest W y) /\ new_n W t arg = Some v /\ instance_n W t v = Some false.
Proof.
  exists W0, (NNamed 7), (Plain (VInt 5)), (Object (ob 2 5)). split; [eexists; exists 1; repeat split; right; split; reflexivity|].
  split; [intros y [= <-]; exact W0_honest_2|]. split; reflexivity.
Qed.
Print Assumptions C76_new_instance_refuted.
(* named.go:240-242: New of the exact type of an object returns another object *)
Theorem C76_new_exact_refuted :
  exists W o arg v, honest W o /\ new_n W (w_obj_type W o) arg = Some v /\ instance_n W (w_obj_type W o) v = Some false.
Proof. exists W0, (ob 1 5), (Plain (VInt 6)), (Object (ob 1 6)). split; [exact W0_honest_1|]. split; reflexivity. Qed.
Print Assumptions C76_new_exact_refuted.
(* named.go:257: New of the exact type of an object of a parameterized type panics for every argument, although New of that type does not *)
Theorem C76_new_exact_parameterized_refuted :
  exists W p t ps o, named_ok W (NExact p (NParam p t ps) o) /\ (exists arg, new_n W (NParam p t ps) arg = Some o) /\
  forall arg, new_n W (NExact p (NParam p t ps) o) arg = None.
Proof.
  exists W0, 0%nat, (NNamed 4), [VInt 1; VInt 9], (Object (ob 1 5)). split; [cbn; repeat split; try (eexists; reflexivity); try (apply data_arr; repeat (apply Forall_cons; [apply data_int|]); apply Forall_nil)|].
  split; [exists (Plain (VInt 5)); reflexivity|reflexivity].
Qed.
Print Assumptions C76_new_exact_parameterized_refuted.
(* named.go:133-138: types are equal if they have the same name, also if one was defined after the other was removed; they do not have the same instances *)
Theorem C76_equal_types_same_instances_refuted :
  exists W t u x, unchecked W t /\ unchecked W u /\ (forall y, x = Object y -> honest W y) /\ neq W t u = Some true /\ instance_n W t x = Some true /\ instance_n W u x = Some false.
Proof.
  exists W0, (NNamed 0), (NNamed 6), (Object (ob 1 5)). split; [eexists; exists 1; repeat split; right; split; reflexivity|].
  split; [eexists; exists 2; repeat split; right; split; reflexivity|]. split; [intros y [= <-]; exact W0_honest_1|]. repeat split; vm_compute; reflexivity.
Qed.
Print Assumptions C76_equal_types_same_instances_refuted.
(* ternary.go:66-74: allOf without operands, which has all values, is accepted by every named type *)
Theorem C76_assignable_empty_all_of_refuted :
  exists W t o x, unchecked W t /\ assignable_n W t o = Some true /\ has_n W o x /\ instance_n W t x = Some false.
Proof.
  exists W0, (NNamed 0), (NAllOf 0 []), (Plain (VInt 1)). split; [eexists; exists 1; repeat split; right; split; reflexivity|]. split; [reflexivity|]. split; [exact I|reflexivity].
Qed.
Print Assumptions C76_assignable_empty_all_of_refuted.
(* named.go:193-199: without a checker the parameters mean nothing: a[1] accepts a[2], which is not equal to it *)
Theorem C76_parameters_ignored_refuted :
  exists W t u, unchecked W t /\ unchecked W u /\ neq W t u = Some false /\ assignable_n W t u = Some true /\ assignable_n W u t = Some true.
Proof.
  exists W0, (NParam 0 (NNamed 0) [VInt 1]), (NParam 1 (NNamed 0) [VInt 2]).
  split; [eexists; exists 1; repeat split; right; split; reflexivity|]. split; [eexists; exists 1; repeat split; right; split; reflexivity|]. repeat split; vm_compute; reflexivity.
Qed.
Print Assumptions C76_parameters_ignored_refuted.
