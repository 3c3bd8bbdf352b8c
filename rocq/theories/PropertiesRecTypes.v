(* Property C72. Only statements, [exact], assumptions and examples. *)
From Coq Require Import Strings.Ascii Strings.String.
From Coq Require Import ZArith List Bool Lia.
From Verif Require Import Int64 Utf8 Text Print HMap Data DataSpec Types TypesSpec Graph RecTypes RecTypesSpec RecTypesProofs RecTypesEnds RecMeaning RecTypesCases.
Import ListNotations.
Open Scope Z_scope.

(* C72. Partial: see each. What belongs to a type that refers to itself is said by a [meaning]; every type without negation and
   without a choice of exactly one has one, and there is a largest. *)
Theorem C72_types_have_a_meaning :
  forall W T G, positive T -> exists P, meaning W T G (fun _ => True) P /\ forall Q, consistent W T G Q -> forall p x, Q p x -> P p x.
Proof. exact rec_meaning. Qed.
Print Assumptions C72_types_have_a_meaning.

(* On values that do not contain themselves every type that refers to itself only through arrays, maps and sensitives has exactly one, with
   negation or without. *)
Theorem C72_one_meaning_on_finite_values :
  forall W T G, types_ok T -> contractive T -> exists P, meaning W T G (finite G) P /\
  forall Q, meaning W T G (finite G) Q -> forall p x, (p < length T)%nat -> finite G x -> (P p x <-> Q p x).
Proof. exact (fun W T G => finite_meaning W G T). Qed.
Print Assumptions C72_one_meaning_on_finite_values.

(* Nothing that belongs to a type is rejected, even when it contains itself. Missing: types with negations; a value that does not belong
   may be accepted (refuted below). *)
Theorem C72_members_are_accepted_partial :
  forall W T G P p x n r, types_ok T -> values_ok G -> positive T -> consistent W T G P -> val_ok G x -> P p x ->
  rec_instance W T G n p x = Some r -> r = true.
Proof. exact rec_accepts. Qed.
Print Assumptions C72_members_are_accepted_partial.

(* Exactly what belongs to the type is accepted. Missing: alternatives that are arrays, maps or alternatives themselves together
   with a type that refers to itself (refuted below). *)
Theorem C72_exact_on_finite_values_partial :
  forall W T G P p x n r, types_ok T -> values_ok G -> flat_alternatives T -> meaning W T G (finite G) P -> val_ok G x -> finite G x ->
  rec_instance W T G n p x = Some r -> (r = true <-> P p x).
Proof. exact rec_exact_finite. Qed.
Print Assumptions C72_exact_on_finite_values_partial.
Theorem C72_exact_for_plain_types_partial :
  forall W T G P p x n r, types_ok T -> values_ok G -> not_recursive T -> meaning W T G (fun _ => True) P -> val_ok G x ->
  rec_instance W T G n p x = Some r -> (r = true <-> P p x).
Proof. exact rec_exact_plain. Qed.
Print Assumptions C72_exact_for_plain_types_partial.

(* Instance returns. Missing: types like x=int|x, and values that contain themselves with types that refer to themselves through a
   negation (both refuted below) or a sensitive type (which no alias makes: sensitive.go has no Resolve). *)
Theorem C72_returns_on_finite_values_partial :
  forall W T G p x, types_ok T -> values_ok G -> contractive T -> val_ok G x -> finite G x -> (p < length T)%nat ->
  exists N, forall n, (N <= n)%nat -> exists r, rec_instance W T G n p x = Some r.
Proof. exact rec_returns_finite. Qed.
Print Assumptions C72_returns_on_finite_values_partial.
Theorem C72_returns_partial :
  forall W T G p x, types_ok T -> values_ok G -> contractive T -> no_restart T -> val_ok G x -> (p < length T)%nat ->
  exists N, forall n, (N <= n)%nat -> exists r, rec_instance W T G n p x = Some r.
Proof. exact rec_returns. Qed.
Print Assumptions C72_returns_partial.
(* the bound of the model does not matter *)
Theorem C72_bound_does_not_matter :
  forall W T G n n' p x r, (n <= n')%nat -> rec_instance W T G n p x = Some r -> rec_instance W T G n' p x = Some r.
Proof. exact rec_more. Qed.
Print Assumptions C72_bound_does_not_matter.

(* ---------- examples ---------- *)

(* chain={value:int,next?:chain} *)
Definition chain : tgraph := [NStruct false [(VStr (lit "value"), 1%nat, true); (VStr (lit "next"), 0%nat, false)]; NLeaf TInt].
Definition link (n : value) (r : list (value * gval)) : gnode := GMap ((VStr (lit "value"), GLeaf n) :: r).
Definition next (p : nat) : list (value * gval) := [(VStr (lit "next"), GRef p)].
(* 0 -> 1 -> 2, 3 -> 3, 4 -> 5 where 5 has a string *)
Definition links : graph := [link (VInt 1) (next 1); link (VInt 2) (next 2); link (VInt 3) []; link (VInt 4) (next 3); link (VInt 5) (next 5); link (VStr []) []].

Ltac facts := repeat first [apply Forall_nil | apply Forall_cons | apply FOP_nil | apply FOP_cons | split | exact I | reflexivity | apply data_str | apply data_int | apply data_nil
  | apply data_arr | apply data_sens | apply data_bin | (cbn; lia)].
Example C72_example_types : types_ok chain /\ positive chain /\ flat_alternatives chain /\ contractive chain /\ no_restart chain /\ ~ not_recursive chain.
Proof.
  split; [facts|split; [|split; [|split; [|split]]]].
  - intros [|[|p]] nd E; [injection E as <-; exact I|injection E as <-; exact I|destruct p; discriminate E].
  - intros [|[|p]] nd q E; [injection E as <-; intros []|injection E as <-; intros []|destruct p; discriminate E].
  - exists (fun _ => O). intros [|[|p]] nd q E; [injection E as <-; intros []|injection E as <-; intros []|destruct p; discriminate E].
  - exists (fun _ => O). intros [|[|p]] nd q E; [injection E as <-; auto|injection E as <-; auto|destruct p; discriminate E].
  - intros [rank R]. specialize (R 0%nat _ 0%nat eq_refl (or_intror (or_introl eq_refl))). lia.
Qed.
Example C72_example_values : values_ok links /\ val_ok links (GRef 0) /\ val_ok links (GRef 3) /\ finite links (GRef 0) /\ ~ finite links (GRef 3).
Proof.
  assert (L : forall v, finite links (GLeaf v)) by apply finite_leaf.
  assert (F : forall p, (forall y, In y (kids links (GRef p)) -> finite links y) -> finite links (GRef p)) by (intros p H; constructor; intros y Hy; apply H; now apply part_kids).
  split; [facts|split; [cbn; lia|split; [cbn; lia|split]]].
  - apply F. intros y [<-|[<-|[<-|[<-|[]]]]]; cbn [fst snd]; try apply L. apply F. intros y [<-|[<-|[<-|[<-|[]]]]]; cbn [fst snd]; try apply L. apply F. intros y [<-|[<-|[]]]; cbn [fst snd]; apply L.
  - intros H. apply (finite_inside links (GRef 3) H). apply inside_part. apply part_kids. right. right. right. now left.
Qed.
Example C72_example_run :
  rec_instance toy chain links 20 0 (GRef 0) = Some true /\ rec_instance toy chain links 20 0 (GRef 3) = Some true /\
  rec_instance toy chain links 20 0 (GRef 4) = Some false /\ rec_instance toy chain links 20 1 (GRef 4) = Some false.
Proof. repeat split; vm_compute; reflexivity. Qed.
(* the theorems tell from this what belongs to the type *)
Example C72_example_use : forall P, meaning toy chain links (finite links) P -> P 0%nat (GRef 0) /\ ~ P 0%nat (GRef 5).
Proof.
  intros P M. destruct C72_example_types as (T1 & _ & T2 & _), C72_example_values as (V1 & V2 & _ & V3 & _). split.
  - apply (C72_exact_on_finite_values_partial toy chain links P 0 (GRef 0) 20 true); auto.
  - intros H. assert (F5 : finite links (GRef 5)) by (constructor; intros y Hy; apply part_kids in Hy; destruct Hy as [<-|[<-|[]]]; cbn [fst snd]; apply finite_leaf).
    assert (E : rec_instance toy chain links 20 0 (GRef 5) = Some false) by (vm_compute; reflexivity).
    apply (C72_exact_on_finite_values_partial toy chain links P 0 (GRef 5) 20 false) in H; auto; [discriminate H|cbn; lia].
Qed.

(* ---------- findings ---------- *)

(* The built-in type data accepts an array with a sensitive value, and an array of arrays with a binary. Neither belongs to it, and neither is
   accepted one level higher. The guard meets a value twice, at the union and at the array type below it, then meets the union for the second time, at
   another value, and takes that for a recursion. *)
Theorem C72_data_refuted :
  (forall P, meaning toy data_type [] (fun _ => True) P -> ~ P 0%nat (GLeaf (VArr [VSens (VInt 1)])) /\ ~ P 0%nat (GLeaf (VArr [VArr [VBin [1]]]))) /\
  rec_instance toy data_type [] 20 0 (GLeaf (VArr [VSens (VInt 1)])) = Some true /\ rec_instance toy data_type [] 20 0 (GLeaf (VArr [VArr [VBin [1]]])) = Some true /\
  rec_instance toy data_type [] 20 0 (GLeaf (VSens (VInt 1))) = Some false /\ rec_instance toy data_type [] 20 0 (GLeaf (VArr [VBin [1]])) = Some false.
Proof. exact data_accepts_others. Qed.
Print Assumptions C72_data_refuted.
(* the negation of it rejects a value that belongs to it *)
Theorem C72_not_data_refuted :
  (forall P, meaning toy not_data [] (fun _ => True) P -> P 8%nat (GLeaf (VArr [VSens (VInt 1)]))) /\
  rec_instance toy not_data [] 20 8 (GLeaf (VArr [VSens (VInt 1)])) = Some false.
Proof. exact not_data_rejects. Qed.
Print Assumptions C72_not_data_refuted.
(* node={value:int,next:nil|node} accepts {value:1,next:{}} *)
Theorem C72_node_refuted :
  (forall P, meaning toy node_type [] (fun _ => True) P -> ~ P 0%nat (GLeaf (VMap [(VStr [118], VInt 1); (VStr [110], VMap [])]))) /\
  rec_instance toy node_type [] 20 0 (GLeaf (VMap [(VStr [118], VInt 1); (VStr [110], VMap [])])) = Some true /\
  rec_instance toy node_type [] 20 0 (GLeaf (VMap [])) = Some false.
Proof. exact node_accepts_others. Qed.
Print Assumptions C72_node_refuted.
(* x=int|x: Instance never returns for a string *)
Theorem C72_union_with_itself_refuted :
  types_ok int_or_itself /\ positive int_or_itself /\ forall n, rec_instance toy int_or_itself [] n 0 (GLeaf (VStr [97])) = None.
Proof. exact int_or_itself_loops. Qed.
Print Assumptions C72_union_with_itself_refuted.
(* x=[]!x: Instance never returns for an array that contains itself, as a negation starts without a guard *)
Theorem C72_negation_refuted :
  types_ok arrays_of_not /\ contractive arrays_of_not /\ values_ok cyclic_array /\
  forall n, rec_instance toy arrays_of_not cyclic_array n 0 (GRef 0) = None.
Proof. exact arrays_of_not_loops. Qed.
Print Assumptions C72_negation_refuted.
