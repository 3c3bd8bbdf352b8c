(* C93: maps do not interfere. Only statements, [exact], assumptions and examples. *)
From Coq Require Import ZArith List Bool.
From Verif Require Import HMap HMapSpec HMapCor MapShareSpec MapShare.
Import ListNotations.
Open Scope Z_scope.

Section Statements.
Variables (K V : Type) (keq : K -> K -> bool) (khash : K -> Z) (veq : V -> V -> bool)
  (vnil : V -> bool) (vfreeze vthaw : V -> V).
Notation step := (step K V keq khash veq vnil vfreeze vthaw).
Notation run := (run K V keq khash veq vnil vfreeze vthaw).

(* C93: after any history, no sequence of operations that change other maps changes what is observed of a map. Partial: histories that call
   ToMap with equal keys, or With with Nil, are excluded by op_ok as in C02 and C03. *)
Theorem C93_other_maps_partial :
  lawful K keq khash ->
  forall os os2 m q, (forall o, In o (os ++ os2) -> op_ok K V keq vnil o) -> (forall o, In o os2 -> changes K V o <> Some m) ->
  (m < length (maps (fst (run init os))))%nat -> read_op K V m q ->
  snd (step (fst (run init (os ++ os2))) q) = snd (step (fst (run init os)) q).
Proof. exact (others K V keq khash veq vnil vfreeze vthaw). Qed.

(* C93: With, Without, WithoutAll, Merge, Copy and Map return a new map if they have something to do, and the receiver itself otherwise. Merge
   returns the argument itself if the receiver is empty. Partial: only new maps are independent, see the refutations. *)
Theorem C93_result_partial :
  lawful K keq khash ->
  forall os o r d e fr, (forall x, In x os -> op_ok K V keq vnil x) -> op_ok K V keq vnil o -> derives K V o = true ->
  let w := fst (run init os) in
  snd (step w (OpEntries (receiver K V o))) = REntries d -> snd (step w (OpFrozen (receiver K V o))) = RBool fr -> snd (step w (OpEntries (argument K V o))) = REntries e ->
  snd (step w o) = RMap r ->
  (r = length (maps w) /\ ~ nothing_to_do K V keq veq d fr e o) \/
  (r = receiver K V o /\ nothing_to_do K V keq veq d fr e o) \/
  (r = argument K V o /\ d = [] /\ exists m a, o = OpMerge m a).
Proof. exact (result_new K V keq khash veq vnil vfreeze vthaw). Qed.
End Statements.
Print Assumptions C93_other_maps_partial.
Print Assumptions C93_result_partial.

(* integers as keys and values, and a hash function with collisions *)
Definition zkeys : Z -> Z := fun k => k mod 3.
Definition zstep := step Z Z Z.eqb zkeys Z.eqb (Z.eqb 0) (fun v => v) (fun v => v).
Definition zrun := run Z Z Z.eqb zkeys Z.eqb (Z.eqb 0) (fun v => v) (fun v => v).

(* With is documented to create a copy. If the map has the association already, it returns the mutable receiver (map.go:804-806), and what is put into the
   copy is put into the original. *)
Theorem C93_with_refuted :
  snd (zrun init [OpNew 0; OpPut 0 1 10; OpWith 0 1 10; OpPut 0 2 20; OpEntries 0]) = [RMap 0%nat; RVal None; RMap 0%nat; RVal None; REntries [(1, 10); (2, 20)]].
Proof. vm_compute. reflexivity. Qed.
Print Assumptions C93_with_refuted.
(* Merge of an empty map returns the argument (map.go:588-591): a mutable map of which a change shows in the argument, also if the receiver is frozen *)
Theorem C93_merge_refuted :
  snd (zrun init [OpEmpty; OpNew 0; OpPut 1 1 10; OpMerge 0 1; OpPut 1 2 20; OpEntries 1]) = [RMap 0%nat; RMap 1%nat; RVal None; RMap 1%nat; RVal None; REntries [(1, 10); (2, 20)]].
Proof. vm_compute. reflexivity. Qed.
Print Assumptions C93_merge_refuted.
(* Without returns the mutable receiver if the key is absent *)
Theorem C93_without_refuted :
  snd (zrun init [OpNew 0; OpPut 0 1 10; OpWithout 0 5; OpPut 0 2 20; OpEntries 0]) = [RMap 0%nat; RVal None; RMap 0%nat; RVal None; REntries [(1, 10); (2, 20)]].
Proof. vm_compute. reflexivity. Qed.
Print Assumptions C93_without_refuted.

(* two maps, one made of the other, and changes of the second *)
Definition first : list (op Z Z) := [OpNew 0; OpPut 0 1 10; OpPut 0 4 40; OpWith 0 7 70].
Definition later : list (op Z Z) := [OpPut 1 1 11; OpRemove 1 4; OpPutAll 1 0; OpPut 1 9 90; OpMerge 1 0; OpFreeze 1].
Example C93_ex_ok o : In o (first ++ later) -> op_ok Z Z Z.eqb (Z.eqb 0) o.
Proof. intros H. repeat (destruct H as [<-|H]; [cbn; auto|]). destruct H. Qed.
Example C93_ex_changes o : In o later -> changes Z Z o <> Some 0%nat.
Proof. intros H. repeat (destruct H as [<-|H]; [discriminate|]). destruct H. Qed.
Example C93_ex_run :
  snd (zstep (fst (zrun init (first ++ later))) (OpEntries 0)) = REntries [(1, 10); (4, 40)] /\
  snd (zstep (fst (zrun init (first ++ later))) (OpEntries 1)) = REntries [(1, 10); (7, 70); (4, 40); (9, 90)].
Proof. vm_compute. split; reflexivity. Qed.
Example C93_ex_result : derives Z Z (OpWith 0%nat 7 70) = true /\ snd (zstep (fst (zrun init [OpNew 0; OpPut 0 1 10])) (OpWith 0 7 70)) = RMap 1%nat.
Proof. vm_compute. split; reflexivity. Qed.
