(* Wrong answers of Instance of recursive types. *)
From Coq Require Import ZArith List Bool Lia.
From Verif Require Import Int64 HMap Data DataSpec DataProofs Types TypesSpec Graph RecTypes RecTypesSpec.
Import ListNotations.
Open Scope Z_scope.

Definition toy : world := {| w_parses := fun _ => false; w_lower := fun s => s; w_fold := bytes_eqb; w_match := fun _ _ => true |}.

(* the built-in type data, alias.go:119-128 *)
Definition data_type : tgraph :=
  [NAny [1%nat; 2%nat; 3%nat; 4%nat; 5%nat; 6%nat; 7%nat]; NLeaf TString; NLeaf TInt; NLeaf TFloat; NLeaf TBool; NLeaf TNil; NArr 0 0 max_int64; NMap 1 0 0 max_int64].
(* with !data at 8 *)
Definition not_data : tgraph := data_type ++ [NNot 0].
(* node={v:int,n:nil|node} *)
Definition node_type : tgraph := [NStruct false [(VStr [118], 1%nat, true); (VStr [110], 2%nat, true)]; NLeaf TInt; NAny [3%nat; 0%nat]; NLeaf TNil].
(* x=int|x, x=[]!x *)
Definition int_or_itself : tgraph := [NAny [1%nat; 0%nat]; NLeaf TInt].
Definition arrays_of_not : tgraph := [NArr 1 0 max_int64; NNot 0].
Definition cyclic_array : graph := [GArr [GRef 0]].

Lemma data_inv T P v : (exists r, T = data_type ++ r) -> meaning toy T [] (fun _ => True) P -> P 0%nat (GLeaf v) ->
  match v with VBin _ | VSens _ => False | VArr l => Forall (P 0%nat) (map GLeaf l) | _ => True end.
Proof.
  intros [r ->] M H. apply (M 0%nat _ (GLeaf v) I eq_refl) in H. cbn [holds] in H. apply Exists_exists in H as (t & Ht & H). cbn [In] in Ht.
  destruct Ht as [<-|[<-|[<-|[<-|[<-|[<-|[<-|[]]]]]]]]; eapply M in H; try exact I; try reflexivity; cbn [holds leaf_holds] in H.
  - destruct H as [s ->]. exact I.
  - destruct H as [s ->]. exact I.
  - destruct H as [s ->]. exact I.
  - destruct H as [s ->]. exact I.
  - cbn in H. subst v. exact I.
  - destruct H as (l & E & _ & F). inversion E; subst. exact F.
  - destruct H as (l & E & _ & F). inversion E; subst. exact I.
Qed.
Lemma data_accepts_others :
  (forall P, meaning toy data_type [] (fun _ => True) P -> ~ P 0%nat (GLeaf (VArr [VSens (VInt 1)])) /\ ~ P 0%nat (GLeaf (VArr [VArr [VBin [1]]]))) /\
  rec_instance toy data_type [] 20 0 (GLeaf (VArr [VSens (VInt 1)])) = Some true /\ rec_instance toy data_type [] 20 0 (GLeaf (VArr [VArr [VBin [1]]])) = Some true /\
  rec_instance toy data_type [] 20 0 (GLeaf (VSens (VInt 1))) = Some false /\ rec_instance toy data_type [] 20 0 (GLeaf (VArr [VBin [1]])) = Some false.
Proof.
  split; [|repeat split; vm_compute; reflexivity]. intros P M.
  assert (D : exists r, data_type = data_type ++ r) by (exists []; reflexivity). split; intros H.
  - apply (data_inv _ _ _ D M) in H. cbn [map] in H. inversion H as [|? ? H1 _]; subst. now apply (data_inv _ _ _ D M) in H1.
  - apply (data_inv _ _ _ D M) in H. cbn [map] in H. inversion H as [|? ? H1 _]; subst. apply (data_inv _ _ _ D M) in H1. cbn [map] in H1.
    inversion H1 as [|? ? H2 _]; subst. now apply (data_inv _ _ _ D M) in H2.
Qed.
Lemma not_data_rejects :
  (forall P, meaning toy not_data [] (fun _ => True) P -> P 8%nat (GLeaf (VArr [VSens (VInt 1)]))) /\
  rec_instance toy not_data [] 20 8 (GLeaf (VArr [VSens (VInt 1)])) = Some false.
Proof.
  split; [|vm_compute; reflexivity]. intros P M. apply (M 8%nat _ _ I eq_refl). cbn [holds]. intros H.
  assert (D : exists r, not_data = data_type ++ r) by (exists [NNot 0]; reflexivity).
  apply (data_inv _ _ _ D M) in H. cbn [map] in H. inversion H as [|? ? H1 _]; subst. now apply (data_inv _ _ _ D M) in H1.
Qed.

Lemma node_inv P v : meaning toy node_type [] (fun _ => True) P -> P 0%nat (GLeaf v) ->
  exists m x y, v = VMap m /\ In (VStr [118], x) m /\ In (VStr [110], y) m /\ P 2%nat (GLeaf y).
Proof.
  intros M H. apply (M 0%nat _ _ I eq_refl) in H. destruct H as (m & E & F & _). inversion E; subst. rename m0 into m.
  assert (K : forall s (k : value) (z : gval), In (k, z) (map (fun e => (fst e, GLeaf (snd e))) m) -> veq (VStr s) k = true -> exists w, In (VStr s, w) m /\ z = GLeaf w).
  { intros s k z I V. apply in_map_iff in I as ([k' w] & [= <- <-] & I). destruct k'; try discriminate V. cbn in V. apply bytes_eqb_eq in V as <-. eauto. }
  apply Forall_cons_iff in F as [F1 F]. apply Forall_cons_iff in F as [F2 _]. cbn [fst snd] in *.
  destruct F1 as [(k1 & y1 & I1 & V1 & _)|[_ [=]]]. destruct F2 as [(k2 & y2 & I2 & V2 & P2)|[_ [=]]].
  destruct (K _ _ _ I1 V1) as (w1 & J1 & _). destruct (K _ _ _ I2 V2) as (w2 & J2 & ->). exists m, w1, w2. auto.
Qed.
Lemma node_accepts_others :
  (forall P, meaning toy node_type [] (fun _ => True) P -> ~ P 0%nat (GLeaf (VMap [(VStr [118], VInt 1); (VStr [110], VMap [])]))) /\
  rec_instance toy node_type [] 20 0 (GLeaf (VMap [(VStr [118], VInt 1); (VStr [110], VMap [])])) = Some true /\
  rec_instance toy node_type [] 20 0 (GLeaf (VMap [])) = Some false.
Proof.
  split; [|split; vm_compute; reflexivity]. intros P M H. destruct (node_inv _ _ M H) as (m & x & y & Em & _ & Hy & H2). injection Em as <-. destruct Hy as [Hy|[Hy|[]]]; [discriminate Hy|]. injection Hy as <-. clear H. rename H2 into H.
  apply (M 2%nat _ _ I eq_refl) in H. cbn [holds] in H. apply Exists_cons in H as [H|H].
  - apply (M 3%nat _ _ I eq_refl) in H. discriminate H.
  - apply Exists_cons in H as [H|H]; [|inversion H]. destruct (node_inv _ _ M H) as (m2 & x2 & y2 & Em & Hx & _). injection Em as <-. destruct Hx.
Qed.

Lemma int_or_itself_loops :
  types_ok int_or_itself /\ positive int_or_itself /\ forall n, rec_instance toy int_or_itself [] n 0 (GLeaf (VStr [97])) = None.
Proof.
  split; [|split].
  - unfold types_ok, int_or_itself. constructor; [split; [repeat constructor; cbn; lia|exact I]|]. constructor; [|constructor]. split; [constructor|]. split; [reflexivity|repeat constructor].
  - intros [|[|p]] nd E; [injection E as <-; exact I|injection E as <-; exact I|destruct p; discriminate E].
  - assert (K : forall n s, rinst toy int_or_itself [] n true 0 (GLeaf (VStr [97])) s = None).
    { induction n as [|n IH]; intros s; [reflexivity|].
      change (r_step toy int_or_itself [] (rinst toy int_or_itself [] n) (NAny [1%nat; 0%nat]) (GLeaf (VStr [97])) s = None).
      unfold r_step. cbn [view r_any]. unfold r_bind. destruct n as [|n]; [reflexivity|].
      change (rinst toy int_or_itself [] (S n) true 1 (GLeaf (VStr [97])) s) with (Some (false, s)). cbn [r_any]. unfold r_bind. now rewrite IH. }
    intros [|n]; [reflexivity|]. unfold rec_instance. change (rinst toy int_or_itself [] (S n) false 0 (GLeaf (VStr [97])) None) with (with_rguard None (rinst toy int_or_itself [] n true 0 (GLeaf (VStr [97]))) None).
    unfold with_rguard. now rewrite K.
Qed.

Lemma arrays_of_not_loops :
  types_ok arrays_of_not /\ contractive arrays_of_not /\ values_ok cyclic_array /\
  forall n, rec_instance toy arrays_of_not cyclic_array n 0 (GRef 0) = None.
Proof.
  split; [|split; [|split]].
  - unfold types_ok, arrays_of_not. repeat constructor; cbn; lia.
  - exists (fun p => p). intros [|[|p]] nd q E; [injection E as <-; intros []|injection E as <-; intros [<-|[]]; lia|destruct p; discriminate E].
  - repeat constructor.
  - assert (K : forall k n, (n <= k)%nat -> rinst toy arrays_of_not cyclic_array n false 0 (GRef 0) None = None).
    { induction k as [|k IH]; intros n L; [destruct n; [reflexivity|lia]|]. destruct n as [|[|[|n]]]; try reflexivity.
      specialize (IH n ltac:(lia)).
      change (with_rguard None (rinst toy arrays_of_not cyclic_array (S (S n)) true 0 (GRef 0)) None = None). unfold with_rguard.
      set (m := rinst toy arrays_of_not cyclic_array (S n)).
      assert (M : forall s, m true 1%nat (GRef 0) s = None).
      { intros s. subst m. change (with_rguard None (r_step toy arrays_of_not cyclic_array (rinst toy arrays_of_not cyclic_array n) (NNot 0) (GRef 0)) s = None).
        unfold with_rguard. unfold r_step. cbn [view cyclic_array nth_error option_map]. unfold r_bind. now rewrite IH. }
      change (rinst toy arrays_of_not cyclic_array (S (S n)) true 0 (GRef 0) None) with
        (r_enter 0 (GRef 0) true (r_step toy arrays_of_not cyclic_array m (NArr 1 0 max_int64) (GRef 0)) None).
      unfold r_enter, with_rguard. unfold r_step. cbn [view cyclic_array nth_error option_map]. change (size_in 0 max_int64 (length_z [GRef 0])) with true.
      change (node_any arrays_of_not 1) with false. cbn [r_all]. unfold r_and, r_bind. now rewrite M. }
    intros n. unfold rec_instance. now rewrite (K n n (le_n n)).
Qed.
