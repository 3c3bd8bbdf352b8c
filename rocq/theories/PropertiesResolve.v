(* Property C73. Only statements, [exact], assumptions and examples. *)
From Coq Require Import Strings.Ascii Strings.String.
From Coq Require Import ZArith List Bool Lia.
From Verif Require Import Int64 Utf8 Text Print HMap Data DataSpec Types TypesSpec Graph RecTypes RecTypesSpec RecTypesProofs RecTypesEnds RecTypesCases.
From Verif Require Import Resolve ResolveSpec ResolveProofs ResolveInstance ResolveCases.
Import ListNotations.
Open Scope Z_scope.

(* C73. Partial: see each. Replacing the references in all added types returns, without a panic. Missing: arrays and maps that contain
   themselves (refuted below). *)
Theorem C73_returns_partial :
  forall any types h l, heap_ok types any h -> no_chains types h -> Forall (in_heap h) l -> values_finite types h ->
  exists N, forall n, (N <= n)%nat -> exists rs h' tr, update any types n l h [] = HOk rs h' tr.
Proof. exact update_returns. Qed.
Print Assumptions C73_returns_partial.

(* Afterwards no reference is left in the types. Missing: references in sensitive types, and names that stand for
   references (both refuted below). *)
Theorem C73_references_are_replaced_partial :
  forall any types h l, heap_ok types any h -> no_chains types h -> Forall (in_heap h) l ->
  forall n rs h' tr, update any types n l h [] = HOk rs h' tr -> added types h l -> no_sensitive h -> Forall (resolved h') rs.
Proof. exact update_resolved. Qed.
Print Assumptions C73_references_are_replaced_partial.
Theorem C73_results :
  forall any types h l, heap_ok types any h -> no_chains types h -> Forall (in_heap h) l ->
  forall n rs h' tr, update any types n l h [] = HOk rs h' tr -> Forall2 (stands_for types h) l rs.
Proof. exact update_names. Qed.
Print Assumptions C73_results.

(* The types mean what they meant when references stood for the types with these names. *)
Theorem C73_meaning_is_kept :
  forall any types h l, heap_ok types any h -> no_chains types h -> Forall (in_heap h) l ->
  forall n rs h' tr, update any types n l h [] = HOk rs h' tr ->
  forall W G D P, with_parts G D -> (names_mean types W G D h P <-> names_mean types W G D h' P).
Proof. exact update_meaning. Qed.
Print Assumptions C73_meaning_is_kept.
(* and there is such a meaning *)
Theorem C73_names_have_a_meaning :
  forall any types W G h, heap_ok types any h -> no_chains types h -> positive (linked types h) -> exists P, names_mean types W G (fun _ => True) h P.
Proof. exact names_have_meaning. Qed.
Print Assumptions C73_names_have_a_meaning.

(* At no time does it write to other types. Those that are reached are written to even if they have no references
   (C73_readers_refuted below). *)
Theorem C73_others_are_untouched_partial :
  forall any types h l, heap_ok types any h -> no_chains types h -> Forall (in_heap h) l ->
  forall n rs h' tr, update any types n l h [] = HOk rs h' tr ->
  forall p nd g, nth_error h p = Some nd -> ~ touched types h l p -> In g (h' :: tr) -> nth_error g p = Some nd.
Proof. exact update_quiet. Qed.
Print Assumptions C73_others_are_untouched_partial.

(* Instance of the result, for what the text says that the named types are. *)
Theorem C73_instance_is_exact_partial :
  forall any types h l, heap_ok types any h -> no_chains types h -> Forall (in_heap h) l -> added types h l -> no_sensitive h -> only_types h ->
  forall n rs h' tr, update any types n l h [] = HOk rs h' tr ->
  forall W G P p x m r, types_ok (linked types h') -> flat_alternatives (linked types h') -> values_ok G ->
  names_mean types W G (finite G) h P -> val_ok G x -> finite G x -> In p rs ->
  rec_instance W (types_of h') G m p x = Some r -> (r = true <-> P p x).
Proof. exact after_exact. Qed.
Print Assumptions C73_instance_is_exact_partial.
Theorem C73_members_are_accepted_partial :
  forall any types h l, heap_ok types any h -> no_chains types h -> Forall (in_heap h) l -> added types h l -> no_sensitive h -> only_types h ->
  forall n rs h' tr, update any types n l h [] = HOk rs h' tr ->
  forall W G P p x m r, types_ok (linked types h') -> positive (linked types h') -> values_ok G ->
  names_mean types W G (fun _ => True) h P -> val_ok G x -> P p x -> In p rs ->
  rec_instance W (types_of h') G m p x = Some r -> r = true.
Proof. exact after_accepts. Qed.
Print Assumptions C73_members_are_accepted_partial.

(* ---------- examples ---------- *)

(* chain={value:int,next?:chain}, list=[]chain and the type list[0,2] that is not reached *)
Definition chain_heap : heap :=
  [any_node; int_node; HAlias (lit "chain"); HNode (NStruct false [(VStr (lit "value"), 1%nat, true); (VStr (lit "next"), 2%nat, false)]); HNode (NArr 2 0 max_int64); HNode (NArr 3 0 2)].
Definition chain_names := only [(lit "chain", 3%nat); (lit "list", 4%nat)].
Definition chain_after : heap :=
  [any_node; int_node; HAlias (lit "chain"); HNode (NStruct false [(VStr (lit "value"), 1%nat, true); (VStr (lit "next"), 3%nat, false)]); HNode (NArr 3 0 max_int64); HNode (NArr 3 0 2)].
Definition roots : list nat := [3%nat; 4%nat].

Ltac at_index p H := destruct p as [|[|[|[|[|[|p]]]]]]; cbn in H; try discriminate H; [try (injection H as H)..|destruct p; discriminate H].
Lemma chain_names_inv s q : chain_names s = Some q -> In q roots.
Proof. unfold chain_names, only. cbn [find fst]. destruct (bytes_eqb s _); [intros [= <-]; now left|]. destruct (bytes_eqb s _); [intros [= <-]; right; now left|discriminate]. Qed.

Example C73_example_run : exists tr, update 0 chain_names 20 roots chain_heap [] = HOk roots chain_after tr /\ length tr = 4%nat.
Proof. eexists. split; vm_compute; reflexivity. Qed.
Example C73_example_heap :
  heap_ok chain_names 0 chain_heap /\ no_chains chain_names chain_heap /\ Forall (in_heap chain_heap) roots /\ values_finite chain_names chain_heap /\
  added chain_names chain_heap roots /\ no_sensitive chain_heap /\ only_types chain_heap /\ ~ touched chain_names chain_heap roots 5.
Proof.
  split; [|split; [|split; [|split; [|split; [|split; [|split]]]]]].
  - split; [|split].
    + repeat constructor.
    + reflexivity.
    + intros p s H. at_index p H; try discriminate H. subst s. exists 3%nat. split; [reflexivity|unfold in_heap; cbn; lia].
  - intros s q n T E [t ->]. apply chain_names_inv in T as [<-|[<-|[]]]; cbn in E; discriminate E.
  - repeat constructor; unfold in_heap; cbn; lia.
  - exists (fun _ => O). intros p l q H. at_index p H; discriminate H.
  - intros s q T. left. now apply (chain_names_inv s).
  - intros p t H. at_index p H; discriminate H.
  - intros p n H. at_index p H; subst n; exact I.
  - intros T. assert (K : forall p, touched chain_names chain_heap roots p -> In p [1%nat; 2%nat; 3%nat; 4%nat]).
    { intros p H. induction H as [p H|p n q H IH E Q|p s q H IH E Q].
      - destruct H as [<-|[<-|[]]]; cbn; tauto.
      - cbn in IH. destruct IH as [<-|[<-|[<-|[<-|[]]]]]; cbn in E; injection E as <-; cbn in Q; intuition (subst; cbn; tauto).
      - apply chain_names_inv in Q as [<-|[<-|[]]]; cbn; tauto. }
    apply K in T. cbn in T. intuition discriminate.
Qed.
Example C73_example_types :
  types_ok (linked chain_names chain_after) /\ flat_alternatives (linked chain_names chain_after) /\ positive (linked chain_names chain_after) /\ positive (linked chain_names chain_heap).
Proof.
  split; [|split; [|split]].
  - unfold types_ok. repeat constructor; cbn; try lia; try discriminate; repeat (intros [=]); try reflexivity.
  - intros p nd q H. at_index p H; subst nd; cbn; tauto.
  - intros p nd H. at_index p H; subst nd; exact I.
  - intros p nd H. at_index p H; subst nd; exact I.
Qed.
Definition link (n : value) (r : list (value * value)) : value := VMap ((VStr (lit "value"), n) :: r).
Example C73_example_use :
  rec_instance toy (types_of chain_after) [] 20 4 (GLeaf (VArr [link (VInt 1) [(VStr (lit "next"), link (VInt 2) [])]])) = Some true /\
  rec_instance toy (types_of chain_after) [] 20 4 (GLeaf (VArr [link (VInt 1) [(VStr (lit "next"), link VNil [])]])) = Some false /\
  finite [] (GLeaf (VArr [link (VInt 1) []])).
Proof. split; [vm_compute; reflexivity|]. split; [vm_compute; reflexivity|]. apply finite_leaf. Qed.

(* ---------- refuted ---------- *)

(* x=sensitive[y], y=int: the reference stays, and sensitive strings with the text y belong to x, sensitive integers do not *)
Theorem C73_sensitive_refuted :
  exists rs h' tr, update 0 in_sensitive_names 9 [3%nat; 1%nat] in_sensitive [] = HOk rs h' tr /\ rs = [3%nat; 1%nat] /\ ~ resolved h' 3 /\
  rec_instance toy (types_of h') [GSens (GLeaf (VInt 1))] 9 3 (GRef 0) = Some false /\
  rec_instance toy (types_of h') [GSens (GLeaf (VStr [121]))] 9 3 (GRef 0) = Some true.
Proof. exact sensitive_keeps_alias. Qed.
Print Assumptions C73_sensitive_refuted.
(* x=[]y, y=z, z=int: the element type of x is a reference to z *)
Theorem C73_chain_refuted :
  exists h' tr, update 0 in_chain_names 9 [3%nat; 4%nat; 1%nat] in_chain [] = HOk [3%nat; 1%nat; 1%nat] h' tr /\ ~ resolved h' 3 /\
  rec_instance toy (types_of h') [] 9 3 (GLeaf (VArr [VInt 1])) = Some false /\
  rec_instance toy (types_of h') [] 9 3 (GLeaf (VArr [VStr [122]])) = Some true.
Proof. exact chain_keeps_alias. Qed.
Print Assumptions C73_chain_refuted.
(* an array with a reference to its own exact type: the next time it is reached Resolve does not return *)
Theorem C73_array_refuted :
  exists h' tr, update 0 in_array_names 9 [1%nat] in_array [] = HOk [1%nat] h' tr /\ resolved h' 1 /\
  forall n tr, update 0 in_array_names n [1%nat] h' tr = HStuck.
Proof. exact array_loops. Qed.
Print Assumptions C73_array_refuted.
(* an unknown name: after the panic []y is an array of anything *)
Theorem C73_error_refuted :
  exists h' tr, update 0 in_error_names 9 [2%nat] in_error [] = HPanic (h' :: tr) /\ nth_error h' 2 = Some (HNode (NArr 0 0 max_int64)) /\ nth_error h' 0 = Some any_node.
Proof. exact error_leaves_any. Qed.
Print Assumptions C73_error_refuted.
(* []data is parsed: while that happens, 1 is no instance of the built-in type data, which has no references *)
Theorem C73_readers_refuted :
  resolved data_heap 0 /\
  exists tr1 g tr2, update 8 (fun _ => None) 9 [9%nat] data_heap [] = HOk [9%nat] data_heap (tr1 ++ g :: tr2) /\
  rec_instance toy (types_of data_heap) [] 9 0 (GLeaf (VInt 1)) = Some true /\ rec_instance toy (types_of g) [] 9 0 (GLeaf (VInt 1)) = Some false.
Proof. exact readers_see_nothing. Qed.
Print Assumptions C73_readers_refuted.
