(* Freeze, FrozenCopy and ThawedCopy: C20, C21 and C22. A program is a list of operations; a state is what a program
   made of nothing. *)
From Coq Require Import ZArith List Bool Arith Lia.
From Verif Require Import HMap Objects ObjectsSpec ObjectsCor.
Import ListNotations.
Local Open Scope nat_scope.

(* C20. Partial: With and WithAll were not used on frozen containers, and entries of maps are not used as values. *)
Theorem C20_freeze_deep_final_partial n ops h K i v :
  history n [] [] ops = Some (h, K) -> Forall no_entries ops -> careful n [] [] ops -> arg h K i = Some v ->
  exists n0 h',
    (forall m, n0 <= m -> freeze m h v = Some h') /\
    deep_frozen h' v /\
    (forall w t, denotes h w t -> denotes h' w t) /\
    forall m ops2 h2 K2, history m h' K ops2 = Some (h2, K2) -> Forall no_entries ops2 ->
      (forall a, reach h' v a -> nth_error h2 a = nth_error h' a) /\ (forall t, denotes h' v t -> denotes h2 v t).
Proof. exact (freeze_holds n ops h K i v). Qed.
Print Assumptions C20_freeze_deep_final_partial.

(* C21. Partial: as C20. *)
Theorem C21_frozen_copy_partial n ops h K i v m h' v' :
  history n [] [] ops = Some (h, K) -> Forall no_entries ops -> careful n [] [] ops -> arg h K i = Some v ->
  frozen_copy m h v = Some (h', v') ->
  (exists l, h' = h ++ l) /\
  deep_frozen h' v' /\
  (forall t, denotes h v t -> denotes h' v' t) /\
  (deep_frozen h v -> h' = h /\ v' = v) /\
  forall m ops2 h2 K2, history m h' (K ++ [v']) ops2 = Some (h2, K2) -> Forall no_entries ops2 ->
    (forall a, reach h' v' a -> nth_error h2 a = nth_error h' a) /\ (forall t, denotes h' v' t -> denotes h2 v' t).
Proof. exact (frozen_copy_holds n ops h K i v m h' v'). Qed.
Print Assumptions C21_frozen_copy_partial.

Theorem C21_frozen_copy_ends n ops h K i v t :
  history n [] [] ops = Some (h, K) -> Forall no_entries ops -> arg h K i = Some v -> denotes h v t ->
  forall m, depth t <= m -> exists r, frozen_copy m h v = Some r.
Proof. exact (frozen_copy_ends_holds n ops h K i v t). Qed.
Print Assumptions C21_frozen_copy_ends.

(* C22. Partial: as C20. Who has the copy only cannot change anything that the original shows, and who has what was
   there before the copy was made cannot change the copy. *)
Theorem C22_thawed_copy_partial n ops h K i v m h' v' :
  history n [] [] ops = Some (h, K) -> Forall no_entries ops -> careful n [] [] ops -> arg h K i = Some v ->
  thawed_copy m h v = Some (h', v') ->
  (exists l, h' = h ++ l) /\
  thawed h' v' /\
  (forall t, denotes h v t -> denotes h' v' t) /\
  (forall m ops2 h2 K2, history m h' [v'] ops2 = Some (h2, K2) -> Forall no_entries ops2 ->
     forall j w t, arg h K j = Some w -> denotes h w t -> denotes h2 w t) /\
  (forall m ops2 h2 K2, history m h' K ops2 = Some (h2, K2) -> Forall no_entries ops2 ->
     forall t, denotes h' v' t -> denotes h2 v' t).
Proof. exact (thawed_copy_holds n ops h K i v m h' v'). Qed.
Print Assumptions C22_thawed_copy_partial.

Theorem C22_thawed_copy_ends n ops h K i v t :
  history n [] [] ops = Some (h, K) -> Forall no_entries ops -> arg h K i = Some v -> denotes h v t ->
  forall m, depth t <= m -> exists r, thawed_copy m h v = Some r.
Proof. exact (thawed_copy_ends_holds n ops h K i v t). Qed.
Print Assumptions C22_thawed_copy_ends.

(* ---------- examples ---------- *)

(* [[1], {2: [[1]]}, binary, sensitive [1]] and that array once more inside itself: cyclic *)
Definition ex_ops : list op :=
  [OScalar 1; OArray [0]; OMap; OScalar 2; OArray [1]; OPut 2 None false 3 4; OBytes [7%Z]; OBinary 5 false; OSensitive 1; OArray [1; 2; 6; 7]; OAdd 8 8].
Example ex_made : exists h K, history 9 [] [] ex_ops = Some (h, K) /\ Forall no_entries ex_ops /\ careful 9 [] [] ex_ops /\ arg h K 8 = Some (Ptr 7) /\
  nth_error h 7 = Some (Arr false [Ptr 0; Ptr 1; Ptr 5; Ptr 6; Ptr 7]).
Proof.
  eexists _, _. split; [vm_compute; reflexivity|]. split; [repeat constructor|]. split; [vm_compute; tauto|]. split; reflexivity.
Qed.
(* Freeze ends although the array contains itself, and then nothing can be added to its parts *)
Example ex_freeze : exists h K h1 K1 h2 K2,
  history 9 [] [] ex_ops = Some (h, K) /\ history 9 h K [OFreeze 8] = Some (h1, K1) /\ history 9 h1 K1 [OAdd 1 0; OPut 2 (Some 0) false 3 0; OAdd 8 0; OWriteBytes 5 [9%Z]] = Some (h2, K2) /\
  nth_error h2 7 = Some (Arr true [Ptr 0; Ptr 1; Ptr 5; Ptr 6; Ptr 7]) /\ nth_error h2 0 = Some (Arr true [Imm 1]) /\
  nth_error h2 5 = Some (Bin true 8) /\ nth_error h2 8 = Some (Bytes [7%Z]) /\ nth_error h2 4 = Some (Bytes [9%Z]).
Proof. do 6 eexists. split; [vm_compute; reflexivity|]. split; [vm_compute; reflexivity|]. split; [vm_compute; reflexivity|]. repeat split. Qed.

(* [[1], {2: [1]}] that shares [1] *)
Definition ex_tree : list op := [OScalar 1; OArray [0]; OMap; OScalar 2; OPut 2 None true 3 1; OArray [1; 2]].
Example ex_tree_made : exists h K, history 9 [] [] ex_tree = Some (h, K) /\ Forall no_entries ex_tree /\ careful 9 [] [] ex_tree /\ arg h K 4 = Some (Ptr 3) /\
  denotes h (Ptr 3) (TArr [TArr [TImm 1]; TMap [(TImm 2, TArr [TImm 1])]]).
Proof.
  eexists _, _. split; [vm_compute; reflexivity|]. split; [repeat constructor|]. split; [vm_compute; tauto|]. split; [reflexivity|].
  repeat (reflexivity || econstructor).
Qed.
Example ex_copies : exists h K h1 K1,
  history 9 [] [] ex_tree = Some (h, K) /\ history 9 h K [OFrozenCopy 4; OThawedCopy 4; OAdd 1 3] = Some (h1, K1) /\
  denotes h1 (Ptr 3) (TArr [TArr [TImm 1; TImm 2]; TMap [(TImm 2, TArr [TImm 1; TImm 2])]]) /\
  (exists f, arg h1 K1 5 = Some f /\ denotes h1 f (TArr [TArr [TImm 1]; TMap [(TImm 2, TArr [TImm 1])]])) /\
  (exists f, arg h1 K1 6 = Some f /\ denotes h1 f (TArr [TArr [TImm 1]; TMap [(TImm 2, TArr [TImm 1])]])).
Proof.
  do 4 eexists. split; [vm_compute; reflexivity|]. split; [vm_compute; reflexivity|]. split; [repeat (reflexivity || econstructor)|].
  split; (eexists; split; [vm_compute; reflexivity|repeat (reflexivity || econstructor)]).
Qed.

(* ---------- what is not so ---------- *)

(* With on a frozen array makes a frozen array that contains a mutable one, and Freeze leaves it at that *)
Theorem C20_with_refuted : ~ (forall n ops h K i v m h', history n [] [] ops = Some (h, K) -> Forall no_entries ops -> arg h K i = Some v ->
  freeze m h v = Some h' -> deep_frozen h' v).
Proof.
  intros H. specialize (H 9 [OValues []; OArray []; OWith 0 1] [Arr true []; Arr false []; Arr true [Ptr 1]] [Ptr 0; Ptr 1; Ptr 2] 2 (Ptr 2) 9
    [Arr true []; Arr false []; Arr true [Ptr 1]] eq_refl ltac:(repeat constructor) eq_refl eq_refl).
  specialize (H 1 (Arr false [])). cbn in H. assert (false = true); [|discriminate]. apply H; [|reflexivity].
  eapply reach_next; [reflexivity|left; reflexivity|constructor].
Qed.
Print Assumptions C20_with_refuted.
(* so that the frozen array changes *)
Example ex_with : exists h K h1 K1, history 9 [] [] [OValues []; OArray []; OWith 0 1; OFreeze 2; OScalar 5] = Some (h, K) /\ history 9 h K [OAdd 1 3] = Some (h1, K1) /\
  denotes h (Ptr 2) (TArr [TArr []]) /\ denotes h1 (Ptr 2) (TArr [TArr [TImm 5]]).
Proof. do 4 eexists. split; [vm_compute; reflexivity|]. split; [vm_compute; reflexivity|]. split; repeat (reflexivity || econstructor). Qed.
(* the same for the With of a map and for WithAll, which makes the elements mutable that were frozen *)
Theorem C20_map_with_refuted : ~ (forall n ops h K i v m h', history n [] [] ops = Some (h, K) -> Forall no_entries ops -> arg h K i = Some v ->
  freeze m h v = Some h' -> deep_frozen h' v).
Proof.
  intros H. specialize (H 9 [OMap; OFreeze 0; OArray []; OScalar 1; OMapWith 0 None false 2 1]
    [Map true []; Arr false []; Node (Imm 1) (Ptr 1); Map true [2]] [Ptr 0; Ptr 1; Imm 1; Ptr 3] 3 (Ptr 3) 9
    [Map true []; Arr false []; Node (Imm 1) (Ptr 1); Map true [2]] eq_refl ltac:(repeat constructor) eq_refl eq_refl).
  specialize (H 1 (Arr false [])). cbn in H. assert (false = true); [|discriminate]. apply H; [|reflexivity].
  eapply reach_next; [reflexivity|left; reflexivity|]. eapply reach_next; [reflexivity|right; left; reflexivity|constructor].
Qed.
Print Assumptions C20_map_with_refuted.
Theorem C20_with_all_refuted : ~ (forall n ops h K i v m h', history n [] [] ops = Some (h, K) -> Forall no_entries ops -> arg h K i = Some v ->
  freeze m h v = Some h' -> deep_frozen h' v).
Proof.
  intros H. specialize (H 9 [OValues []; OValues [0]; OWithAll 1 1] [Arr true []; Arr true [Ptr 0]; Arr false []; Arr true [Ptr 2; Ptr 0]] [Ptr 0; Ptr 1; Ptr 3] 2 (Ptr 3) 9
    [Arr true []; Arr true [Ptr 0]; Arr false []; Arr true [Ptr 2; Ptr 0]] eq_refl ltac:(repeat constructor) eq_refl eq_refl).
  specialize (H 2 (Arr false [])). cbn in H. assert (false = true); [|discriminate]. apply H; [|reflexivity].
  eapply reach_next; [reflexivity|left; reflexivity|constructor].
Qed.
Print Assumptions C20_with_all_refuted.

(* an array that contains an entry of a map is changed by a Put on the map after it was frozen *)
Theorem C20_entry_refuted : ~ (forall n ops h K i v m h' t m2 ops2 h2 K2, history n [] [] ops = Some (h, K) -> careful n [] [] ops -> arg h K i = Some v ->
  freeze m h v = Some h' -> denotes h' v t -> history m2 h' K ops2 = Some (h2, K2) -> denotes h2 v t).
Proof.
  intros H.
  pose (ops := [OMap; OScalar 1; OScalar 2; OPut 0 None false 1 2; OEntry 0 0; OArray [3]; OScalar 3]).
  specialize (H 9 ops [Map false [1]; Node (Imm 1) (Imm 2); Arr false [Ptr 1]] [Ptr 0; Imm 1; Imm 2; Ptr 1; Ptr 2; Imm 3] 4 (Ptr 2) 9
    [Map false [1]; Node (Imm 1) (Imm 2); Arr true [Ptr 1]] (TArr [TEntry (TImm 1) (TImm 2)]) 9 [OPut 0 (Some 0) false 1 5]
    [Map false [1]; Node (Imm 1) (Imm 3); Arr true [Ptr 1]] [Ptr 0; Imm 1; Imm 2; Ptr 1; Ptr 2; Imm 3]
    eq_refl ltac:(vm_compute; tauto) eq_refl eq_refl ltac:(repeat (reflexivity || econstructor)) eq_refl).
  inversion H as [|? f l ts E D| | | |]; subst. cbn in E. injection E as <- <-. inversion D as [|? ? ? ? D1 D2]; subst.
  inversion D1 as [| | |? k w tk tw E Dk Dw| |]; subst. cbn in E. injection E as <- <-. inversion Dw.
Qed.
Print Assumptions C20_entry_refuted.

(* ThawedCopy of an entry changes the entry: a frozen map gets a mutable value *)
Theorem C22_entry_refuted : exists n ops h K t h' v', history n [] [] ops = Some (h, K) /\ careful n [] [] ops /\
  deep_frozen h (Ptr 1) /\ denotes h (Ptr 1) t /\
  (* the entry 3 of the frozen map 1 *)
  arg h K 3 = Some (Ptr 2) /\ nth_error h 1 = Some (Map true [2]) /\
  thawed_copy n h (Ptr 2) = Some (h', v') /\
  ~ deep_frozen h' (Ptr 1) /\
  exists h2 K2 t', history n h' K [OValue 1 0; OAdd 4 2] = Some (h2, K2) /\ denotes h2 (Ptr 1) t' /\ t' <> t.
Proof.
  exists 9, [OArray []; OMap; OScalar 1; OPut 1 None false 2 0; OFreeze 1; OEntry 1 0]. do 2 eexists. exists (TMap [(TImm 1, TArr [])]). do 2 eexists.
  split; [vm_compute; reflexivity|]. split; [vm_compute; tauto|]. split.
  { intros a o R E. inversion R as [|? o1 v b E1 I R1]; subst; [cbn in E; injection E as <-; reflexivity|]. cbn in E1. injection E1 as <-. cbn in I.
    destruct I as [<-|[]]. inversion R1 as [|? o2 v2 b2 E2 I2 R2]; subst; [cbn in E; injection E as <-; exact Logic.I|]. cbn in E2. injection E2 as <-. cbn in I2.
    destruct I2 as [<-|[<-|[]]]; [inversion R2|]. inversion R2 as [|? o3 v3 b3 E3 I3 R3]; subst; [cbn in E; injection E as <-; reflexivity|]. cbn in E3. injection E3 as <-. contradiction. }
  split; [repeat (reflexivity || econstructor)|]. split; [reflexivity|]. split; [reflexivity|]. split; [vm_compute; reflexivity|]. split.
  - intros D. specialize (D 3 (Arr false [])). cbn in D. assert (false = true); [|discriminate]. apply D; [|reflexivity].
    eapply reach_next; [reflexivity|left; reflexivity|]. eapply reach_next; [reflexivity|right; left; reflexivity|constructor].
  - do 2 eexists. exists (TMap [(TImm 1, TArr [TImm 1])]). split; [vm_compute; reflexivity|]. split; [repeat (reflexivity || econstructor)|discriminate].
Qed.
Print Assumptions C22_entry_refuted.

(* an entry may become its own value; Freeze then does not end *)
Theorem C20_own_entry_refuted : exists n ops h K v, history n [] [] ops = Some (h, K) /\ arg h K 3 = Some v /\ forall m, freeze m h v = None.
Proof.
  exists 9, [OMap; OScalar 1; OScalar 2; OPut 0 None false 1 2; OEntry 0 0; OPut 0 (Some 0) false 1 3]. do 3 eexists.
  split; [vm_compute; reflexivity|]. split; [reflexivity|]. induction m as [|m IH]; [reflexivity|]. exact IH.
Qed.
Print Assumptions C20_own_entry_refuted.

(* neither copy of an array that contains itself ends *)
Theorem C21_cyclic_refuted : exists n ops h K v, history n [] [] ops = Some (h, K) /\ Forall no_entries ops /\ careful n [] [] ops /\ arg h K 0 = Some v /\
  forall m, frozen_copy m h v = None /\ thawed_copy m h v = None.
Proof.
  exists 9, [OArray []; OAdd 0 0]. do 3 eexists. split; [vm_compute; reflexivity|]. split; [repeat constructor|]. split; [vm_compute; tauto|]. split; [reflexivity|].
  induction m as [|m [IH1 IH2]]; [now split|]. split.
  - cbn [frozen_copy nth_error map_each]. now rewrite IH1.
  - cbn [thawed_copy nth_error map_each]. now rewrite IH2.
Qed.
Print Assumptions C21_cyclic_refuted.

(* a frozen copy of a frozen array with a mutable element is that array *)
Theorem C21_with_refuted : ~ (forall n ops h K i v m h' v', history n [] [] ops = Some (h, K) -> Forall no_entries ops -> arg h K i = Some v ->
  frozen_copy m h v = Some (h', v') -> deep_frozen h' v').
Proof.
  intros H. specialize (H 9 [OValues []; OArray []; OWith 0 1] [Arr true []; Arr false []; Arr true [Ptr 1]] [Ptr 0; Ptr 1; Ptr 2] 2 (Ptr 2) 9
    [Arr true []; Arr false []; Arr true [Ptr 1]] (Ptr 2) eq_refl ltac:(repeat constructor) eq_refl eq_refl).
  specialize (H 1 (Arr false [])). cbn in H. assert (false = true); [|discriminate]. apply H; [|reflexivity].
  eapply reach_next; [reflexivity|left; reflexivity|constructor].
Qed.
Print Assumptions C21_with_refuted.

(* and such an array is taken as the key of a map as it is: what changes a key of a thawed copy then changes the original *)
Theorem C22_key_refuted : exists n ops h K h' K' t, history n [] [] ops = Some (h, K) /\ Forall no_entries ops /\
  denotes h (Ptr 3) t /\ history n h K [OThawedCopy 3] = Some (h', K ++ [Ptr K']) /\
  exists h2 K2 t', history n h' [Ptr K'] [OKey 0 0; OGet 1 0; OScalar 5; OAdd 2 3] = Some (h2, K2) /\ denotes h2 (Ptr 3) t' /\ t' <> t.
Proof.
  exists 9, [OValues []; OArray []; OWith 0 1; OMap; OPut 3 None false 2 2]. do 4 eexists. exists (TMap [(TArr [TArr []], TArr [TArr []])]).
  split; [vm_compute; reflexivity|]. split; [repeat constructor|]. split; [repeat (reflexivity || econstructor)|]. split; [vm_compute; reflexivity|].
  do 2 eexists. exists (TMap [(TArr [TArr [TImm 5]], TArr [TArr [TImm 5]])]). split; [vm_compute; reflexivity|]. split; [repeat (reflexivity || econstructor)|discriminate].
Qed.
Print Assumptions C22_key_refuted.
