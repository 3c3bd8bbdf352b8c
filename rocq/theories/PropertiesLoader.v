(* Properties C42 to C46 and C57. Only statements, [exact], assumptions and examples. *)
From Coq Require Import ZArith List Bool Arith Lia.
From Verif Require Import Data DataSpec Loader LoaderSpec LoaderProofs Hierarchy HierarchySpec HierarchyProofs Registry RegistrySpec RegistryProofs RegistryNames.
Import ListNotations.

(* C42: in every execution of any number of goroutines, all calls of Get for one name return Equal values *)
Theorem C42_one_value :
  forall has_finder has_creator es acts s, all_data es -> Forall proper acts -> run has_finder has_creator (init es) acts = Some s ->
  forall i j k v w, In (EGot i k v) (l_log s) -> In (EGot j k w) (l_log s) -> veq v w = true.
Proof. exact one_value. Qed.
Print Assumptions C42_one_value.

(* what was entered stays for ever *)
Theorem C42_never_overwritten :
  forall has_finder has_creator es acts acts' s s', all_data es -> Forall proper (acts ++ acts') ->
  run has_finder has_creator (init es) acts = Some s -> run has_finder has_creator s acts' = Some s' ->
  (forall k v, get_key (l_entries s) k = Some v -> get_key (l_entries s') k = Some v) /\
  (forall n o, get_key (l_spaces s) n = Some o -> get_key (l_spaces s') n = Some o).
Proof. exact never_overwritten. Qed.
Print Assumptions C42_never_overwritten.

(* a value that was returned is an entry, so that no later call asks the finder *)
Theorem C42_returned_is_kept :
  forall has_finder has_creator es acts s, all_data es -> Forall proper acts -> run has_finder has_creator (init es) acts = Some s ->
  has_finder = true ->
  forall i k v, In (EGot i k v) (l_log s) -> exists old, get_key (l_entries s) k = Some old /\ veq old v = true.
Proof. exact returned_is_kept. Qed.
Print Assumptions C42_returned_is_kept.

(* a goroutine whose finder returns something else than what has been entered meanwhile: its call does not
   return before it panics *)
Theorem C42_conflict_panics :
  forall has_finder has_creator es acts s i k v w acts' s', all_data es -> Forall proper (acts ++ AFound i (FVal w) :: acts') ->
  run has_finder has_creator (init es) acts = Some s -> l_pc s i = GFind k -> get_key (l_entries s) k = Some v -> veq v w = false ->
  Forall (no_call i) acts' -> run has_finder has_creator s (AFound i (FVal w) :: acts') = Some s' ->
  (l_pc s' i <> Idle /\ outcomes i s' = outcomes i s) \/ (l_pc s' i = Idle /\ outcomes i s' = EPanic i :: outcomes i s).
Proof. exact conflict_panics. Qed.
Print Assumptions C42_conflict_panics.

Theorem C42_no_deadlock :
  forall has_finder has_creator es acts s, all_data es -> Forall proper acts -> run has_finder has_creator (init es) acts = Some s ->
  (exists i, l_pc s i <> Idle) -> exists a s', continues a /\ step has_finder has_creator s a = Some s'.
Proof. exact no_deadlock. Qed.
Print Assumptions C42_no_deadlock.

(* a call for a name that has an entry returns that entry, whatever the others do meanwhile *)
Theorem C42_existing_value :
  forall has_finder has_creator es acts s i k v acts' s', all_data es -> Forall proper (acts ++ acts') ->
  run has_finder has_creator (init es) acts = Some s -> get_key (l_entries s) k = Some v ->
  Forall (no_call i) acts' -> run has_finder has_creator s (AGet i k :: acts') = Some s' ->
  (l_pc s' i <> Idle /\ outcomes i s' = outcomes i s) \/ (l_pc s' i = Idle /\ outcomes i s' = EGot i k v :: outcomes i s).
Proof. exact existing_value. Qed.
Print Assumptions C42_existing_value.

(* two goroutines ask for the same name before either has entered the value *)
Definition race (second : value) : list action :=
  [AGet 1 [97%Z]; AGet 2 [97%Z]; AStep 1; AStep 2; AStep 1; AStep 1; AStep 2; AStep 2; AStep 1; AStep 2;
   AFound 1 (FVal (VInt 1)); AFound 2 (FVal second);
   AStep 1; AStep 1; AStep 1; AStep 1; AStep 1; AStep 2; AStep 2].
Example C42_example :
  option_map l_log (run true false (init []) (race (VInt 1) ++ [AStep 2; AStep 2])) = Some [EGot 2 [97%Z] (VInt 1); EGot 1 [97%Z] (VInt 1)] /\
  option_map l_log (run true false (init []) (race (VInt 2) ++ [AStep 2])) = Some [EPanic 2; EGot 1 [97%Z] (VInt 1)].
Proof. split; reflexivity. Qed.

(* C43 *)
Theorem C43_one_namespace :
  forall has_finder has_creator es acts s, all_data es -> Forall proper acts -> run has_finder has_creator (init es) acts = Some s ->
  forall i j n o o', In (ESpace i n (Some o)) (l_log s) -> In (ESpace j n (Some o')) (l_log s) -> o = o'.
Proof. exact one_namespace. Qed.
Print Assumptions C43_one_namespace.

(* a namespace that was returned stays in the loader, and every later call returns it *)
Theorem C43_namespace_is_kept :
  forall has_finder has_creator es acts s, all_data es -> Forall proper acts -> run has_finder has_creator (init es) acts = Some s ->
  forall i n o, In (ESpace i n (Some o)) (l_log s) -> get_key (l_spaces s) n = Some o.
Proof. exact namespace_is_kept. Qed.
Print Assumptions C43_namespace_is_kept.

Theorem C43_existing_namespace :
  forall has_finder has_creator es acts s i n o acts' s', all_data es -> Forall proper (acts ++ acts') ->
  run has_finder has_creator (init es) acts = Some s -> n <> [] -> get_key (l_spaces s) n = Some o ->
  Forall (no_call i) acts' -> run has_finder has_creator s (ANamespace i n :: acts') = Some s' ->
  (l_pc s' i <> Idle /\ outcomes i s' = outcomes i s) \/ (l_pc s' i = Idle /\ outcomes i s' = ESpace i n (Some o) :: outcomes i s).
Proof. exact existing_namespace. Qed.
Print Assumptions C43_existing_namespace.

(* both goroutines create a namespace, the second gets that of the first *)
Example C43_example :
  option_map l_log (run false true (init [])
    [ANamespace 1 [97%Z]; ANamespace 2 [97%Z]; AStep 1; AStep 2; AStep 1; AStep 1; AStep 2; AStep 2; AStep 1; AStep 2;
     ACreated 1 (CLoader 10); ACreated 2 (CLoader 20); AStep 1; AStep 1; AStep 1; AStep 1; AStep 1; AStep 2; AStep 2; AStep 2; AEqual 2 true])
  = Some [ESpace 2 [97%Z] (Some 10%nat); ESpace 1 [97%Z] (Some 10%nat)].
Proof. reflexivity. Qed.

(* a third goroutine asks later *)
Example C43_later_example :
  option_map l_log (run false true (init [])
    [ANamespace 1 [97%Z]; AStep 1; AStep 1; AStep 1; AStep 1; ACreated 1 (CLoader 10); AStep 1; AStep 1; AStep 1; AStep 1; AStep 1;
     ANamespace 3 [97%Z]; AStep 3; AStep 3; AStep 3; AStep 3])
  = Some [ESpace 3 [97%Z] (Some 10%nat); ESpace 1 [97%Z] (Some 10%nat)].
Proof. reflexivity. Qed.

(* C44: whatever loaders, child loaders and namespaces are made and asked, and in whatever order, each call
   returns what the loaders mean *)
Theorem C44_calls :
  forall cs, calls [] [] cs = answers [] cs.
Proof. exact (fun cs => calls_answers cs [] [] [] (Forall2_nil _)). Qed.
Print Assumptions C44_calls.

(* a child has at each path what its parent has, or else what it has itself *)
Theorem C44_parent_first :
  forall path p l, value_at (combine_trees p l) path = first [value_at p path; value_at l path].
Proof. exact value_at_combine. Qed.
Print Assumptions C44_parent_first.

(* through any number of child loaders: the outermost ancestor that has a value *)
Theorem C44_chain :
  forall fcs path d0, value_at (described (chain d0 fcs)) path =
  first (value_at (described d0) path :: map (fun fc => value_at (described (DNew [] (fst fc) (snd fc))) path) fcs).
Proof. exact chain_first. Qed.
Print Assumptions C44_chain.

(* the value at a path is that of the namespace at the path, and nil if there is none *)
Theorem C44_missing_namespace :
  forall path k t, value_at t (path ++ [k]) = match space_at t path with None => None | Some t' => values t' k end.
Proof. exact missing_space. Qed.
Print Assumptions C44_missing_namespace.

(* names joined by slashes are that path *)
Theorem C44_split_join :
  forall parts, parts <> [] -> Forall (fun p => ~ In 47%Z p) parts -> split (join parts) = parts.
Proof. exact split_join. Qed.
Print Assumptions C44_split_join.

(* the name a/x is found in the parent, a/y in the child, b/x nowhere *)
Example C44_example :
  let only (k : Z) (v : value) (n : name) := if bytes_eqb n [k] then v else VNil in
  let space (f : name -> value) (n : name) := if bytes_eqb n [97%Z] then Some (DNew [] (Some f) None) else None in
  calls [] [] [CallNew (DNew [] None (Some (space (only 120%Z (VInt 1)))));
               CallChild 0 None (Some (space (fun n => if bytes_eqb n [120%Z] then VInt 3 else only 121%Z (VInt 2) n)));
               CallLoad 1 (join [[97]; [120]])%Z; CallLoad 1 (join [[97]; [121]])%Z; CallLoad 0 (join [[97]; [121]])%Z;
               CallLoad 1 (join [[98]; [120]])%Z; CallNamespace 1 [97%Z]; CallGet 2 [120%Z]]
  = [Some (VInt 1); Some (VInt 2); None; None; Some (VInt 1)].
Proof. reflexivity. Qed.

(* loader.go:126-128 and 223-239: a loader made of entries only has a value nil, which hides what the child
   has; with a finder it would not *)
Theorem C44_nil_entry_refuted :
  let child := Some (fun _ : name => VInt 5) in
  calls [] [] [CallNew (DNew [([97%Z], VNil)] None None); CallChild 0 child None; CallLoad 1 [97%Z]] = [Some VNil] /\
  calls [] [] [CallNew (DNew [([97%Z], VNil)] (Some (fun _ => VNil)) None); CallChild 0 child None; CallLoad 1 [97%Z]] = [Some (VInt 5)].
Proof. split; reflexivity. Qed.
Print Assumptions C44_nil_entry_refuted.

(* C45: in every execution in which the name is not removed, at most one registration succeeds *)
Theorem C45_at_most_one :
  forall n acts s, Forall (not_removed n) acts -> rrun rinit acts = Some s -> (length (made n (r_log s)) <= 1)%nat.
Proof. exact named_once. Qed.
Print Assumptions C45_at_most_one.

(* exactly one if there was a call and all have ended *)
Theorem C45_one_succeeds :
  forall n acts s, Forall (not_removed n) acts -> rrun rinit acts = Some s -> (forall i, r_pc s i = RIdle) ->
  (exists e, In e (r_log s) /\ tried n e) ->
  exists i t, made n (r_log s) = [EMade i t] /\ n_name t = n /\ get_key (r_types s) n = Some t.
Proof. exact named_one_succeeds. Qed.
Print Assumptions C45_one_succeeds.

(* Named never returns another one *)
Theorem C45_no_other :
  forall n acts s, Forall (not_removed n) acts -> rrun rinit acts = Some s ->
  forall i t j o, In (EMade i t) (r_log s) -> n_name t = n -> In (ENamed j n (Some o)) (r_log s) -> o = t.
Proof. exact named_never_other. Qed.
Print Assumptions C45_no_other.

(* a call of Named that starts after the registration returned gives the type *)
Theorem C45_found_after :
  forall n acts s acts' s', Forall (not_removed n) (acts ++ acts') -> rrun rinit acts = Some s -> rrun s acts' = Some s' ->
  forall i t j, In (EMade i t) (r_log s) -> n_name t = n -> r_pc s j = RIdle ->
  exists new, r_log s' = new ++ r_log s /\ forall o, In (ENamed j n o) new -> o = Some t.
Proof. exact named_after. Qed.
Print Assumptions C45_found_after.

Example C45_example :
  option_map r_log (rrun rinit [RCallNew 1 [97%Z] 7; RCallNew 2 [97%Z] 8; RStep 2; RStep 1; RStep 1; RStep 2; RCallNamed 1 [97%Z]; RStep 1; RStep 1])
  = Some [ENamed 1 [97%Z] (Some (mk_named [97%Z] 8 0)); EMade 2 (mk_named [97%Z] 8 0); ERedefined 1 [97%Z]].
Proof. reflexivity. Qed.

(* C57: NamedTypeFromReflected returns a registered type with the implementation type if there is one, in whatever order
   the types are visited; it is the one that was registered with it if no other was. Partial: it is not determined
   when there are several. *)
Theorem C57_reflected_partial :
  forall acts s i impl order s', rrun rinit acts = Some s -> rstep s (RReflected i impl order) = Some s' ->
  exists o, r_log s' = EReflected i impl o :: r_log s /\
    match o with
    | Some t => registered s t /\ n_impl t = impl
    | None => forall t, registered s t -> n_impl t <> impl
    end.
Proof. exact reflected_registered. Qed.
Print Assumptions C57_reflected_partial.

Theorem C57_unique :
  forall acts s i impl order s' t, rrun rinit acts = Some s -> rstep s (RReflected i impl order) = Some s' ->
  registered s t -> n_impl t = impl -> (forall u, registered s u -> n_impl u = impl -> u = t) ->
  r_log s' = EReflected i impl (Some t) :: r_log s.
Proof. exact reflected_unique. Qed.
Print Assumptions C57_unique.

(* loader.go registers the types of its mutable loader (here 1) and of its child loader (2) with the same implementation type *)
Theorem C57_reflected_refuted :
  let two := [RCallNew 0 [1%Z] 7; RStep 0; RStep 0; RCallNew 0 [2%Z] 7; RStep 0; RStep 0] in
  let t1 := mk_named [1%Z] 7 0 in let t2 := mk_named [2%Z] 7 1 in
  exists s, rrun rinit two = Some s /\
  (exists s1, rstep s (RReflected 0 7 [t1; t2]) = Some s1 /\ r_log s1 = EReflected 0 7 (Some t1) :: r_log s) /\
  (exists s2, rstep s (RReflected 0 7 [t2; t1]) = Some s2 /\ r_log s2 = EReflected 0 7 (Some t2) :: r_log s).
Proof. eexists. split; [reflexivity|]. split; eexists; split; reflexivity. Qed.
Print Assumptions C57_reflected_refuted.

(* C46: when nobody is in the middle of an update, each name stands for what was added last, in the order in which the
   calls returned, and for what it stood for before if no call added it *)
Theorem C46_latest :
  forall m0, resolved m0 -> forall acts s, arun (ainit m0) acts = Some s -> a_lock s = None ->
  forall n, expected (alias_type m0 n) (latest n (a_log s)) (alias_type (a_map s) n).
Proof. exact aliases_latest. Qed.
Print Assumptions C46_latest.

(* all that was added is there when all calls have returned and none panicked *)
Theorem C46_added_present :
  forall m0, resolved m0 -> forall acts s, arun (ainit m0) acts = Some s -> (forall i, a_pc s i = PIdle) ->
  (forall i, ~ In (EAddPanic i) (a_log s)) ->
  forall i adds n, In (AAdder i (Some adds)) acts -> In n (map fst adds) -> exists t, alias_type (a_map s) n = Some t /\ is_type t.
Proof. exact added_present. Qed.
Print Assumptions C46_added_present.

(* an alias never disappears *)
Theorem C46_kept :
  forall m0, resolved m0 -> forall acts s acts' s', arun (ainit m0) acts = Some s -> arun s acts' = Some s' ->
  forall n, alias_type (a_map s) n <> None -> alias_type (a_map s') n <> None.
Proof. exact aliases_kept. Qed.
Print Assumptions C46_kept.

(* each name that stands for a type can be found from the type, and each type that has a name is one *)
Theorem C46_names :
  forall m0, named_both_ways m0 -> forall acts s, arun (ainit m0) acts = Some s -> named_both_ways (a_map s).
Proof. exact alias_names. Qed.
Print Assumptions C46_names.
Example C46_names_example : named_both_ways (mk_aliases [(AType 1 [], [97%Z])] [([97%Z], AType 1 [])]) /\ named_both_ways (mk_aliases [] []).
Proof.
  split; split; unfold alias_type, alias_name; cbn [get_key get_type type_names named_types]; try discriminate.
  - intros n t. match goal with |- (if ?b then _ else _) = _ -> _ => destruct b end; [intros [= <-]; cbn; eauto|discriminate].
  - intros t n. destruct (atype_eqb (AType 1 []) t) eqn:E; [|discriminate]. intros [= <-]. split; [destruct t; [discriminate|exact Logic.I]|cbn; discriminate].
Qed.

Theorem C46_no_deadlock :
  forall m0, resolved m0 -> forall acts s, arun (ainit m0) acts = Some s -> (exists i, a_pc s i <> PIdle) ->
  exists a s', goes_on a /\ astep s a = Some s'.
Proof. exact alias_no_deadlock. Qed.
Print Assumptions C46_no_deadlock.

(* an update that panics changes nothing and gives the lock back *)
Theorem C46_panic_harmless :
  forall s i s', a_pc s i = PUnlock None -> astep s (AGo i) = Some s' ->
  a_map s' = a_map s /\ a_lock s' = None /\ a_log s' = EAddPanic i :: a_log s.
Proof. exact alias_panic_harmless. Qed.
Print Assumptions C46_panic_harmless.

Definition no_aliases : alias_map := mk_aliases [] [].
(* two goroutines add aliases, the functions of both run before either updates *)
Definition both (first second : list (name * atype)) : list aaction :=
  [ACall 1; ACall 2; AGo 1; AGo 2; AAdder 1 (Some first); AAdder 2 (Some second);
   AGo 2; AGo 2; AGo 2; AGo 2; AGo 1; AGo 1; AGo 1; AGo 1].
Example C46_example :
  match arun (ainit no_aliases) (both [([97%Z], AType 1 [[97%Z]])] [([98%Z], AType 2 [])]) with
  | Some s => alias_type (a_map s) [97%Z] = Some (AType 1 []) /\ alias_type (a_map s) [98%Z] = Some (AType 2 []) /\
              alias_name (a_map s) (AType 2 []) = Some [98%Z] /\ length (a_log s) = 2%nat
  | None => False
  end.
Proof. vm_compute. auto. Qed.

(* alias.go:171-176: when a name is given to another type then the old type keeps the name *)
Theorem C46_stale_name_refuted :
  match arun (ainit no_aliases) (both [([97%Z], AType 1 [])] [([97%Z], AType 2 [])]) with
  | Some s => alias_name (a_map s) (AType 2 []) = Some [97%Z] /\ alias_type (a_map s) [97%Z] = Some (AType 1 [])
  | None => False
  end.
Proof. vm_compute. auto. Qed.
Print Assumptions C46_stale_name_refuted.

(* alias.go:51 and 56: references are resolved with the aliases that there were when the call began, so that
   a call panics although the alias exists when it is resolved *)
Theorem C46_stale_reference_refuted :
  match arun (ainit no_aliases) (firstn 11 (both [([97%Z], AType 1 [[98%Z]])] [([98%Z], AType 2 [])])) with
  | Some s => alias_type (a_map s) [98%Z] = Some (AType 2 []) /\
              option_map (fun s' => a_pc s' 1) (astep s (AGo 1)) = Some (PUnlock None)
  | None => False
  end.
Proof. vm_compute. auto. Qed.
Print Assumptions C46_stale_reference_refuted.
