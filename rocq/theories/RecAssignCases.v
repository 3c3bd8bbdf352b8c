(* Where Assignable on types that refer to themselves goes wrong. *)
From Coq Require Import ZArith List Bool Lia.
From Verif Require Import Int64 HMap Data DataSpec Types TypesSpec SemProofs Graph RecTypes RecTypesSpec RecAssign RecAssignSpec RecAssignEnds.
Import ListNotations.
Open Scope Z_scope.

Definition W1 := Build_world (fun _ => true) (fun x => x) (fun _ _ => false) (fun _ _ => false).

(* ---------- arrays ---------- *)

(* 0: any, 1: x=[]x, 2: y=[]y *)
Definition two_arrays : tgraph := [NLeaf TAny; NArr 1 0 max_int64; NArr 2 0 max_int64].

Lemma arrays_step W n s : rasgn W two_arrays 0 (S (S n)) false 1 2 s = match rasgn W two_arrays 0 n false 1 2 (Some {| l_seen := [1%nat]; r_seen := [2%nat]; in_l := false; in_r := false |}) with None => None | Some (x, _) => Some (x, s) end.
Proof.
  rewrite rasgn_S. cbn [nth_error two_arrays deep_type]. unfold with_aguard. rewrite rasgn_S. cbn [nth_error two_arrays deep_type same_addr Nat.eqb orb a_enter].
  unfold with_aguard. cbn [a_step]. rewrite !Z.leb_refl. cbn [andb].
  destruct (rasgn W two_arrays 0 n false 1 2 _) as [[x s']|]; reflexivity.
Qed.
Lemma two_arrays_loop W : forall n, rec_assignable W two_arrays 0 n 1 2 = None.
Proof.
  intros n. unfold rec_assignable. assert (H : forall n s, rasgn W two_arrays 0 n false 1 2 s = None /\ rasgn W two_arrays 0 (S n) false 1 2 s = None).
  { clear n. induction n as [|n IH]; intros s; [split; reflexivity|]. split; [apply IH|]. rewrite arrays_step. now rewrite (proj1 (IH _)). }
  now rewrite (proj1 (H n None)).
Qed.

(* 0: any, 1: int, 2: tree={v: int, kids: []tree}, 4: the same definition again *)
Definition two_trees : tgraph :=
  [NLeaf TAny; NLeaf TInt;
   NStruct false [(VStr [118], 1%nat, true); (VStr [107], 3%nat, true)]; NArr 2 0 max_int64;
   NStruct false [(VStr [118], 1%nat, true); (VStr [107], 5%nat, true)]; NArr 4 0 max_int64].

Definition one_more W (R : bool -> nat -> nat -> AM) (fn : bool) (a b : nat) : AM :=
  match nth_error two_trees a, nth_error two_trees b with
  | Some na, Some nb =>
      if fn then
        if same_addr two_trees a b then a_ret true
        else if deep_type na then a_enter a b (deep_type nb) (a_step W 0 R a na b nb)
        else with_aguard (fun _ => None) (a_step W 0 R a na b nb)
      else if deep_type na then with_aguard (fun _ => None) (R true a b)
      else with_aguard (fun _ => None) (a_step W 0 R a na b nb)
  | _, _ => a_fail
  end.
Lemma trees_step W R s : (forall s, R false 2%nat 4%nat s = None) -> one_more W (one_more W (one_more W R)) false 2 4 s = None.
Proof. intros H. vm_compute. now rewrite H. Qed.
Lemma two_trees_loop W n : rec_assignable W two_trees 0 n 2 4 = None.
Proof.
  unfold rec_assignable. assert (H : forall s, rasgn W two_trees 0 n false 2 4 s = None); [|now rewrite H].
  induction n as [n IH] using (well_founded_induction lt_wf). intros s. destruct n as [|[|[|n]]]; [vm_compute; reflexivity|vm_compute; reflexivity|vm_compute; reflexivity|].
  change (rasgn W two_trees 0 (S (S (S n)))) with (one_more W (one_more W (one_more W (rasgn W two_trees 0 n)))).
  apply trees_step. apply IH. lia.
Qed.

(* ---------- the built-in type data ---------- *)

(* alias.go:119-130. 7: data, 9: map[string]binary, 10: map[string]map[string]binary, 11: any *)
Definition builtin_types : tgraph :=
  [NLeaf TString; NLeaf TInt; NLeaf TFloat; NLeaf TBool; NLeaf TNil; NArr 7 0 max_int64; NMap 0 7 0 max_int64;
   NAny [0; 1; 2; 3; 4; 5; 6]%nat;
   NLeaf (TBinary 0 max_int64); NMap 0 8 0 max_int64; NMap 0 9 0 max_int64; NLeaf TAny].

Definition bin_map : gval := GLeaf (VMap [(VStr [97], VMap [(VStr [98], VBin [1])])]).
Lemma data_accepts : rec_assignable W1 builtin_types 11 20 7 10 = Some true.
Proof. vm_compute. reflexivity. Qed.

Section Values.
Variable P : nat -> gval -> Prop.

Lemma bin_in : meaning W1 builtin_types [] (fun _ => True) P -> P 10 bin_map.
Proof.
  intros M. apply (M 10%nat _ bin_map I eq_refl). eexists. split; [constructor|]. split; [cbn; unfold max_int64; lia|]. repeat constructor; cbn [fst snd].
  - apply (M 0%nat _ _ I eq_refl). cbn. eauto.
  - apply (M 9%nat _ _ I eq_refl). eexists. split; [constructor|]. split; [cbn; unfold max_int64; lia|]. repeat constructor; cbn [fst snd].
    + apply (M 0%nat _ _ I eq_refl). cbn. eauto.
    + apply (M 8%nat _ _ I eq_refl). cbn. eexists. split; [reflexivity|]. cbn. unfold max_int64. lia.
Qed.
Lemma data_holds x : meaning W1 builtin_types [] (fun _ => True) P -> P 7 x ->
  leaf_holds W1 [] TString x \/ leaf_holds W1 [] TInt x \/ leaf_holds W1 [] TFloat x \/ leaf_holds W1 [] TBool x \/ leaf_holds W1 [] TNil x \/
  (exists l, elements [] x l) \/ (exists m, entries [] x m /\ Forall (fun e => P 7 (snd e)) m).
Proof.
  intros M H. apply (M 7%nat _ x I eq_refl) in H. cbn [holds] in H.
  repeat (apply Exists_cons in H as [H|H]); [| | | | | | |now inversion H].
  - apply (M 0%nat _ x I eq_refl) in H. tauto.
  - apply (M 1%nat _ x I eq_refl) in H. tauto.
  - apply (M 2%nat _ x I eq_refl) in H. tauto.
  - apply (M 3%nat _ x I eq_refl) in H. tauto.
  - apply (M 4%nat _ x I eq_refl) in H. tauto.
  - apply (M 5%nat _ x I eq_refl) in H. destruct H as (l & E & _). eauto 9.
  - apply (M 6%nat _ x I eq_refl) in H. destruct H as (m & E & _ & F). do 6 right. exists m. split; [exact E|]. eapply Forall_impl; [|exact F]. now intros e [_ X].
Qed.
Lemma bin_not_data : meaning W1 builtin_types [] (fun _ => True) P -> ~ P 7 bin_map.
Proof.
  intros M H. apply (data_holds _ M) in H.
  assert (Q : forall m, (exists m', entries [] (GLeaf (VMap m)) m' /\ Forall (fun e => P 7 (snd e)) m') -> Forall (fun e => P 7 (GLeaf (snd e))) m).
  { intros m (m' & E & F). inversion E; subst. rewrite Forall_forall in *. intros e I. apply (F (fst e, GLeaf (snd e))). apply in_map_iff. eauto. }
  assert (S : forall m, P 7 (GLeaf (VMap m)) -> Forall (fun e => P 7 (GLeaf (snd e))) m).
  { intros m H'. apply (data_holds _ M) in H'. cbn in H'. destruct H' as [[? X]|[[? X]|[[? X]|[[? X]|[X|[[? X]|X]]]]]]; try discriminate; [inversion X|auto]. }
  assert (B : ~ P 7 (GLeaf (VBin [1]))).
  { intros H'. apply (data_holds _ M) in H'. cbn in H'. destruct H' as [[? X]|[[? X]|[[? X]|[[? X]|[X|[[? X]|[? [X _]]]]]]]]; try discriminate; inversion X. }
  assert (H0 : P 7 bin_map).
  { destruct H as [[? X]|[[? X]|[[? X]|[[? X]|[X|[[? X]|X]]]]]]; try discriminate; [inversion X|]. apply Q in X.
    exfalso. inversion X as [|? ? X1 _]; subst. cbn [snd] in X1. apply S in X1. inversion X1 as [|? ? X2 _]; subst. exact (B X2). }
  apply S in H0. inversion H0 as [|? ? X1 _]; subst. apply S in X1. inversion X1 as [|? ? X2 _]; subst. exact (B X2).
Qed.
End Values.

(* ---------- cycles of different length ---------- *)

Definition kn := VStr [110].
Definition kx := VStr [120].
(* 0: any, 1: int, 2: string, 3: a={n?: {n?: a, x?: string}, x?: int}, 5: b={n?: {n?: {n?: b, x?: int}, x?: string}, x?: int} *)
Definition two_cycles : tgraph :=
  [NLeaf TAny; NLeaf TInt; NLeaf TString;
   NStruct false [(kn, 4%nat, false); (kx, 1%nat, false)]; NStruct false [(kn, 3%nat, false); (kx, 2%nat, false)];
   NStruct false [(kn, 6%nat, false); (kx, 1%nat, false)]; NStruct false [(kn, 7%nat, false); (kx, 2%nat, false)]; NStruct false [(kn, 5%nat, false); (kx, 1%nat, false)]].
(* {n: {n: {n: {x: 1}}}} *)
Definition deep_map : gval := GLeaf (VMap [(kn, VMap [(kn, VMap [(kn, VMap [(kx, VInt 1)])])])]).
Lemma cycles_accept W : rec_assignable W two_cycles 0 20 3 5 = Some true.
Proof. vm_compute. reflexivity. Qed.

Lemma cycle_field W P p k1 t1 k2 t2 m k v : meaning W two_cycles [] (fun _ => True) P ->
  nth_error two_cycles p = Some (NStruct false [(k1, t1, false); (k2, t2, false)]) -> m = [(k, v)] ->
  veq k1 k = true /\ veq k2 k = false -> (P p (GLeaf (VMap m)) <-> P t1 (GLeaf v)).
Proof.
  intros M E -> [V1 V2]. rewrite (M p _ (GLeaf (VMap [(k, v)])) I E). cbn [holds]. split.
  - intros (m & En & F & _). inversion En; subst. inversion F as [|? ? F1 _]; subst. cbn [fst snd] in F1.
    destruct F1 as [(k' & y & I1 & _ & Q)|[N _]]; [|rewrite (N k (GLeaf v)) in V1; [discriminate|now left]]. destruct I1 as [I1|[]]. now injection I1 as <- <-.
  - intros Q. eexists. split; [constructor|]. cbn [map fst snd]. split.
    + constructor; [left; exists k, (GLeaf v); cbn; auto|]. constructor; [|constructor]. right. split; [|reflexivity]. intros k' y [[= <- <-]|[]]. exact V2.
    + right. intros k' y [[= <- <-]|[]]. eexists. split; [now left|exact V1].
Qed.
Lemma cycle_field2 W P p k1 t1 k2 t2 m k v : meaning W two_cycles [] (fun _ => True) P ->
  nth_error two_cycles p = Some (NStruct false [(k1, t1, false); (k2, t2, false)]) -> m = [(k, v)] ->
  veq k1 k = false /\ veq k2 k = true -> (P p (GLeaf (VMap m)) <-> P t2 (GLeaf v)).
Proof.
  intros M E -> [V1 V2]. rewrite (M p _ (GLeaf (VMap [(k, v)])) I E). cbn [holds]. split.
  - intros (m & En & F & _). inversion En; subst. inversion F as [|? ? _ F']; subst. inversion F' as [|? ? F1 _]; subst. cbn [fst snd] in F1.
    destruct F1 as [(k' & y & I1 & _ & Q)|[N _]]; [|rewrite (N k (GLeaf v)) in V2; [discriminate|now left]]. destruct I1 as [I1|[]]. now injection I1 as <- <-.
  - intros Q. eexists. split; [constructor|]. cbn [map fst snd]. split.
    + constructor; [right; split; [|reflexivity]; intros k' y [[= <- <-]|[]]; exact V1|]. constructor; [|constructor]. left; exists k, (GLeaf v); cbn; auto.
    + right. intros k' y [[= <- <-]|[]]. eexists. split; [right; now left|exact V2].
Qed.
Lemma deep_in W P : meaning W two_cycles [] (fun _ => True) P -> P 5%nat deep_map /\ ~ P 3%nat deep_map.
Proof.
  intros M. unfold deep_map.
  pose proof (fun p t1 k2 t2 v (E : nth_error two_cycles p = Some (NStruct false [(kn, t1, false); (k2, t2, false)])) (V : veq k2 kn = false) => cycle_field W P p kn t1 k2 t2 _ kn v M E eq_refl (conj eq_refl V)) as A.
  pose proof (fun p t1 t2 v (E : nth_error two_cycles p = Some (NStruct false [(kn, t1, false); (kx, t2, false)])) => cycle_field2 W P p kn t1 kx t2 _ kx v M E eq_refl (conj eq_refl eq_refl)) as B.
  split.
  - rewrite (A 5%nat _ _ _ _ eq_refl eq_refl), (A 6%nat _ _ _ _ eq_refl eq_refl), (A 7%nat _ _ _ _ eq_refl eq_refl), (B 5%nat _ _ _ eq_refl).
    apply (M 1%nat _ _ I eq_refl). cbn. eauto.
  - rewrite (A 3%nat _ _ _ _ eq_refl eq_refl), (A 4%nat _ _ _ _ eq_refl eq_refl), (A 3%nat _ _ _ _ eq_refl eq_refl), (B 4%nat _ _ _ eq_refl).
    intros H. apply (M 2%nat _ _ I eq_refl) in H. cbn in H. destruct H. discriminate.
Qed.
