(* C74: Assignable on types that refer to themselves (RecAssign.v). The meaning of such types is that of C72. *)
From Coq Require Import ZArith List Bool Lia.
From Verif Require Import Int64 HMap Data DataSpec Types TypesSpec Graph RecTypes RecTypesSpec RecTypesEnds RecAssign RecAssignSpec RecAssignProofs RecAssignSound RecAssignEnds RecAssignCases.
Import ListNotations.
Open Scope Z_scope.

Definition accepts_leaf (W : world) (t u : ty) : Prop := leaf_assign W t u = true.

(* It returns, with the same outcome for all bounds on the depth that are large enough. Partial: no type refers to itself through the
   elements of an array type (see C74_arrays_refuted), and the types are those of assign_types. *)
Theorem C74_returns_partial :
  forall W T any, types_ok T -> nth_error T any = Some (NLeaf TAny) -> assign_types T -> contractive T -> no_array_loop T ->
  forall a b, (a < length T)%nat -> (b < length T)%nat -> exists x N, forall n, (N <= n)%nat -> rec_assignable W T any n a b = Some x.
Proof. exact assignable_returns. Qed.
Print Assumptions C74_returns_partial.

(* Types that are related by the rules, if need be in circles, are not rejected. *)
Theorem C74_justified_is_not_rejected :
  forall W T any, types_ok T -> tuples_fit T ->
  forall Rel, justified T (accepts_leaf W) any Rel -> forall n a b, Rel a b -> rec_assignable W T any n a b <> Some false.
Proof. exact justified_never_rejected. Qed.
Print Assumptions C74_justified_is_not_rejected.

(* The outcome is what the rules derive. Partial: alternatives are types without types in them, and one of the two types does not lead to
   a type that refers to itself (see C74_alternatives_refuted and C74_cycles_refuted). *)
Theorem C74_exact_partial :
  forall W T any, types_ok T -> nth_error T any = Some (NLeaf TAny) -> tuples_fit T -> flat_choices T ->
  forall a b, ends T a \/ ends T b ->
  forall n x, rec_assignable W T any n a b = Some x -> (x = true <-> derived T (accepts_leaf W) any a b).
Proof. exact exact_rules. Qed.
Print Assumptions C74_exact_partial.

(* If a.Assignable(b) then what belongs to b belongs to a. Partial: as above; tuples are not variadic, structs have no additional
   entries, and the types without types in them are those of C24. *)
Theorem C74_sound_partial :
  forall W T any G, types_ok T -> nth_error T any = Some (NLeaf TAny) -> tuples_fit T ->
  forall L D P, flat_choices T -> leafs_ok T L -> closed_types T -> values_fit G -> domain G D -> meaning W T G D P ->
  forall a b, ends T a \/ ends T b -> forall n, rec_assignable W T any n a b = Some true -> forall x, D x -> P b x -> P a x.
Proof. exact sound. Qed.
Print Assumptions C74_sound_partial.

(* What the rules derive is sound, for all types. *)
Theorem C74_rules_are_sound_partial :
  forall W T any G, types_ok T -> nth_error T any = Some (NLeaf TAny) ->
  forall L D P, leafs_ok T L -> closed_types T -> values_fit G -> domain G D -> meaning W T G D P ->
  forall a b, derived T (accepts_leaf W) any a b -> forall x, D x -> P b x -> P a x.
Proof. intros W T any G TOK ANY L D P LO CT VF DO ME a b Dv. exact (Dv _ (sub_closed W T any G TOK ANY L D P LO CT VF DO ME)). Qed.
Print Assumptions C74_rules_are_sound_partial.

(* ---------- where it goes wrong ---------- *)

(* array.go:195 calls the method of the element type, which starts without a guard: x=[]x and y=[]y, and two definitions of
   tree={v: int, kids: []tree}. The recursion does not end. *)
Theorem C74_arrays_refuted :
  (forall W n, rec_assignable W two_arrays 0 n 1 2 = None) /\ (forall W n, rec_assignable W two_trees 0 n 2 4 = None).
Proof. exact (conj two_arrays_loop two_trees_loop). Qed.
Print Assumptions C74_arrays_refuted.

(* compare.go:62-73: data.Assignable(map[string]map[string]binary). The union data and its alternative see the same map, so that the guard
   takes the map for recursive. *)
Theorem C74_alternatives_refuted :
  rec_assignable W1 builtin_types 11 20 7 10 = Some true /\
  forall P, meaning W1 builtin_types [] (fun _ => True) P -> P 10%nat bin_map /\ ~ P 7%nat bin_map.
Proof. exact (conj data_accepts (fun P M => conj (bin_in P M) (bin_not_data P M))). Qed.
Print Assumptions C74_alternatives_refuted.

(* compare.go:26-41: the two types are looked up separately. On cycles of the lengths 2 and 3 a pair counts as seen that was not. *)
Theorem C74_cycles_refuted :
  (forall W, rec_assignable W two_cycles 0 20 3 5 = Some true) /\
  forall W P, meaning W two_cycles [] (fun _ => True) P -> P 5%nat deep_map /\ ~ P 3%nat deep_map.
Proof. exact (conj cycles_accept deep_in). Qed.
Print Assumptions C74_cycles_refuted.

(* ---------- examples ---------- *)

Definition kv := VStr [118].
Definition knext := VStr [110].
(* 3: a={v: int, next?: a}, 4: {v: 1..5, next?: {v: int}}, 6: c={v: int|bool, next?: c} *)
Definition lists : tgraph :=
  [NLeaf TAny; NLeaf TInt; NLeaf (TIntRange 1 5 true);
   NStruct false [(kv, 1%nat, true); (knext, 3%nat, false)];
   NStruct false [(kv, 2%nat, true); (knext, 5%nat, false)];
   NStruct false [(kv, 1%nat, true)];
   NStruct false [(kv, 8%nat, true); (knext, 6%nat, false)];
   NLeaf TBool; NAny [1; 7]%nat].
Definition all_features := Build_allowed true true true.

Ltac nodes p E := first [destruct p; discriminate E|destruct p as [|p]; [cbn in E; first [discriminate E|injection E as <-]|nodes p E]].
Example C74_example_ok : types_ok lists /\ tuples_fit lists /\ flat_choices lists /\ closed_types lists /\ leafs_ok lists all_features.
Proof.
  split; [|split; [|split; [|split]]].
  - repeat constructor; cbn; try lia; auto; try (repeat constructor; cbn; auto; fail).
  - intros p ts v E. unfold at_node in E. nodes p E.
  - intros p ts q E I. unfold at_node in E. nodes p E.
    destruct I as [<-|[<-|[]]]; eexists; reflexivity.
  - intros p nd E. unfold at_node in E. nodes p E; cbn; auto; discriminate.
  - intros p t E. unfold at_node in E. nodes p E; split; split; cbn; unfold in64, min_int64, max_int64; auto; repeat split; try lia; try discriminate.
Qed.
Example C74_example_returns : assign_types lists /\ contractive lists /\ no_array_loop lists.
Proof.
  split; [|split].
  - split; [|split].
    + intros p nd E. unfold at_node in E. nodes p E; exact I.
    + intros p q e lo hi ts v E. unfold at_node in E. nodes p E.
    + intros p q k v lo hi ad es E. unfold at_node in E. nodes p E.
  - exists (fun p => if Nat.eqb p 8 then 1%nat else 0%nat). intros p nd q E I. nodes p E; cbn in I; try contradiction. destruct I as [<-|[<-|[]]]; cbn; lia.
  - exists (fun _ => 0%nat). intros p nd q E I. unfold at_node in E. split; [lia|]. nodes p E; exact Logic.I.
Qed.
Example C74_example_ends : ends lists 4 /\ ~ ends lists 3.
Proof.
  assert (Lf : forall p t, nth_error lists p = Some (NLeaf t) -> ends lists p) by (intros p t E; constructor; intros q (nd & E' & I); unfold at_node in E'; rewrite E in E'; injection E' as <-; destruct I).
  split.
  - constructor. intros q (nd & E & I). injection E as <-. destruct I as [<-|[<-|[]]]; [eapply Lf; reflexivity|].
    constructor. intros q (nd & E & I). injection E as <-. destruct I as [<-|[]]. eapply Lf; reflexivity.
  - intros E. apply (ends_not_below lists 3 E). apply Relation_Operators.t_step. exists (NStruct false [(kv, 1%nat, true); (knext, 3%nat, false)]). split; [reflexivity|]. cbn. auto.
Qed.
(* a from the finite list type, c from a (both refer to themselves), but not a from c *)
Example C74_example_run : forall W,
  rec_assignable W lists 0 20 3 4 = Some true /\ rec_assignable W lists 0 20 6 3 = Some true /\ rec_assignable W lists 0 20 3 6 = Some false /\ rec_assignable W lists 0 20 4 3 = Some false.
Proof. intros W. vm_compute. auto. Qed.
(* c and a are related in a circle: the rules need no more than the pairs (c, a) and (int|bool, int) *)
Example C74_example_justified : forall W, exists Rel, justified lists (accepts_leaf W) 0 Rel /\ Rel 6%nat 3%nat.
Proof.
  intros W. exists (fun a b => (a = 6 /\ b = 3 \/ a = 8 /\ b = 1 \/ a = 1 /\ b = 1)%nat). split; [|auto].
  intros a b [[-> ->]|[[-> ->]|[-> ->]]].
  - eapply by_keys; [reflexivity|reflexivity| |].
    + constructor; [left; exists (kv, 1%nat, true); split; [now left|]; split; [reflexivity|]; split; [auto|]; right; now left|].
      constructor; [|constructor]. left. exists (knext, 3%nat, false). split; [right; now left|]. split; [reflexivity|]. split; [auto|]. now left.
    + right. intros o [<-|[<-|[]]]; [exists (kv, 8%nat, true); split; [now left|reflexivity]|exists (knext, 6%nat, false); split; [right; now left|reflexivity]].
  - eapply by_choice; [reflexivity|reflexivity|now left|auto].
  - eapply by_identity; reflexivity.
Qed.
(* meanings exist: the greatest of C72 *)
Example C74_example_meaning : forall W G, exists P, meaning W lists G (fun _ => True) P.
Proof.
  intros W G. destruct (rec_meaning W lists G) as (P & M & _); [|eauto]. intros p nd E. nodes p E; exact I.
Qed.
