(* Where references are not replaced, or not only that. *)
From Coq Require Import ZArith List Bool Lia.
From Verif Require Import Int64 Utf8 Text HMap Data DataSpec DataProofs Types TypesSpec Graph RecTypes RecTypesSpec RecTypesCases Resolve ResolveSpec.
Import ListNotations.
Open Scope Z_scope.

Definition only (l : list (list Z * nat)) (s : list Z) : option nat := option_map snd (find (fun e => bytes_eqb s (fst e)) l).
Definition any_node : hnode := HNode (NLeaf TAny).
Definition int_node : hnode := HNode (NLeaf TInt).

(* x=sensitive[y], y=int *)
Definition in_sensitive : heap := [any_node; int_node; HAlias [121]; HNode (NSens 2)].
Definition in_sensitive_names := only [([120], 3%nat); ([121], 1%nat)].
Lemma sensitive_keeps_alias :
  exists rs h' tr, update 0 in_sensitive_names 9 [3%nat; 1%nat] in_sensitive [] = HOk rs h' tr /\ rs = [3%nat; 1%nat] /\ ~ resolved h' 3 /\
  rec_instance toy (types_of h') [GSens (GLeaf (VInt 1))] 9 3 (GRef 0) = Some false /\
  rec_instance toy (types_of h') [GSens (GLeaf (VStr [121]))] 9 3 (GRef 0) = Some true.
Proof.
  eexists. eexists. eexists. split; [vm_compute; reflexivity|]. split; [reflexivity|]. split; [|split; vm_compute; reflexivity].
  intros R. apply (R 2%nat (HAlias [121])); [|reflexivity|now exists [121]]. eapply reaches_step; [constructor|reflexivity|now left].
Qed.

(* x=[]y, y=z, z=int *)
Definition in_chain : heap := [any_node; int_node; HAlias [121]; HNode (NArr 2 0 max_int64); HAlias [122]].
Definition in_chain_names := only [([120], 3%nat); ([121], 4%nat); ([122], 1%nat)].
Lemma chain_keeps_alias :
  exists h' tr, update 0 in_chain_names 9 [3%nat; 4%nat; 1%nat] in_chain [] = HOk [3%nat; 1%nat; 1%nat] h' tr /\ ~ resolved h' 3 /\
  rec_instance toy (types_of h') [] 9 3 (GLeaf (VArr [VInt 1])) = Some false /\
  rec_instance toy (types_of h') [] 9 3 (GLeaf (VArr [VStr [122]])) = Some true.
Proof.
  eexists. eexists. split; [vm_compute; reflexivity|]. split; [|split; vm_compute; reflexivity].
  intros R. apply (R 4%nat (HAlias [122])); [|reflexivity|now exists [122]]. eapply reaches_step; [constructor|reflexivity|now left].
Qed.

(* x is the exact type of an array with a reference to x *)
Definition in_array : heap := [any_node; HVals [2%nat]; HAlias [120]].
Definition in_array_names := only [([120], 1%nat)].
Lemma array_loops :
  exists h' tr, update 0 in_array_names 9 [1%nat] in_array [] = HOk [1%nat] h' tr /\ resolved h' 1 /\
  forall n tr, update 0 in_array_names n [1%nat] h' tr = HStuck.
Proof.
  exists [any_node; HVals [1%nat]; HAlias [120]]. eexists. split; [vm_compute; reflexivity|]. split.
  - intros q m R. assert (K : forall p q, reaches [any_node; HVals [1%nat]; HAlias [120]] p q -> p = 1%nat -> q = 1%nat).
    { intros p k H. induction H as [|p k n r H IH E I]; intros O; [exact O|]. specialize (IH O). subst k. cbn in E. injection E as <-. cbn in I. destruct I as [<-|[]]. reflexivity. }
    rewrite (K 1%nat q R eq_refl). cbn. intros [= <-] [s H]. discriminate H.
  - intros n. assert (K : forall n tr, replace 0 in_array_names n 1 [any_node; HVals [1%nat]; HAlias [120]] tr = HStuck).
    { clear n. induction n as [|n IH]; intros tr; [reflexivity|]. cbn [replace]. unfold h_bind at 1, h_read at 1. cbn [nth_error]. unfold h_bind at 1. cbn [length h_each].
      unfold h_bind at 1, h_read at 1. cbn [nth_error hkids]. unfold h_bind at 1. rewrite IH. reflexivity. }
    intros tr. unfold update. cbn [h_map]. unfold h_bind at 1. now rewrite K.
Qed.

(* x=[]y, and no y *)
Definition in_error : heap := [any_node; HAlias [121]; HNode (NArr 1 0 max_int64)].
Definition in_error_names := only [([120], 2%nat)].
Lemma error_leaves_any :
  exists h' tr, update 0 in_error_names 9 [2%nat] in_error [] = HPanic (h' :: tr) /\ nth_error h' 2 = Some (HNode (NArr 0 0 max_int64)) /\ nth_error h' 0 = Some any_node.
Proof. eexists. eexists. split; [vm_compute; reflexivity|]. split; reflexivity. Qed.

(* []data, where data is the built-in type *)
Definition data_heap : heap := map HNode data_type ++ [any_node; HNode (NArr 0 0 max_int64)].
Lemma readers_see_nothing :
  resolved data_heap 0 /\
  exists tr1 g tr2, update 8 (fun _ => None) 9 [9%nat] data_heap [] = HOk [9%nat] data_heap (tr1 ++ g :: tr2) /\
  rec_instance toy (types_of data_heap) [] 9 0 (GLeaf (VInt 1)) = Some true /\ rec_instance toy (types_of g) [] 9 0 (GLeaf (VInt 1)) = Some false.
Proof.
  split.
  - intros q m _ E [s ->]. apply nth_error_In in E. unfold data_heap in E. apply in_app_or in E as [E|E].
    + apply in_map_iff in E as (nd & X & _). discriminate X.
    + destruct E as [E|[E|[]]]; discriminate E.
  - assert (Q : exists tr, update 8 (fun _ => None) 9 [9%nat] data_heap [] = HOk [9%nat] data_heap tr) by (eexists; vm_compute; reflexivity).
    destruct Q as [tr Q].
    assert (K : match update 8 (fun _ => None) 9 [9%nat] data_heap [] with
      | HOk _ _ tr => existsb (fun g => match rec_instance toy (types_of g) [] 9 0 (GLeaf (VInt 1)) with Some false => true | _ => false end) tr | _ => false end = true) by (vm_compute; reflexivity).
    rewrite Q in K. apply existsb_exists in K as (g & Ig & K). apply in_split in Ig as (tr1 & tr2 & ->). exists tr1, g, tr2. split; [exact Q|]. split; [vm_compute; reflexivity|].
    destruct (rec_instance toy (types_of g) [] 9 0 (GLeaf (VInt 1))) as [[|]|]; [discriminate K|reflexivity|discriminate K].
Qed.
