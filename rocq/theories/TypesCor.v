(* The theorems on types as they are stated in PropertiesTypes.v *)
From Coq Require Import ZArith List Bool Lia.
From Coq Require Import Floats.SpecFloat.
From Verif Require Import Int64 HMap Data DataSpec DataProofs Arr Types TypesSpec Assign InstProofs GuardProofs SemProofs EqProofs SubProofs AssignProofs NoHitProofs.
Import ListNotations.
Open Scope Z_scope.

Lemma ty_all_impl (P Q : ty -> Prop) t : (forall t, P t -> Q t) -> ty_all P t -> ty_all Q t.
Proof.
  intros H.
  induction t as [ | | | |x y i| |x y i| | |x y|s|s|x y| | |p v|p t IHt| |p e x y IHe|p ts b IHts| |p k v x y IHk IHv|p a es IHes|p ts IHts|p vs|p ts IHts|p ts IHts|p t IHt| |t IHt] using ty_ind';
    cbn [ty_all]; intros [H1 H2]; (split; [auto|]); auto.
  - apply fold_and in H2. apply fold_and. rewrite Forall_forall in *. auto.
  - destruct H2. auto.
  - apply (fold_and (fun e : value * ty * bool => ty_all P (snd (fst e)))) in H2. apply (fold_and (fun e : value * ty * bool => ty_all Q (snd (fst e)))).
    rewrite Forall_forall in *. auto.
  - apply fold_and in H2. apply fold_and. rewrite Forall_forall in *. auto.
  - apply fold_and in H2. apply fold_and. rewrite Forall_forall in *. auto.
  - apply fold_and in H2. apply fold_and. rewrite Forall_forall in *. auto.
Qed.

Theorem instance_has_type W t v : type_ok t -> data veq v ->
  exists N, forall n p, (N <= n)%nat -> exists r, instance W n p t v = Some r /\ (r = true <-> has_type W t v).
Proof.
  intros Ht Wv. exists (2 * type_size t)%nat. intros n p Hn. exists (inst W t v). split.
  - apply instance_inst; auto. now apply type_ok_tuple_ok.
  - now apply inst_iff.
Qed.

Theorem value_instance_of_its_type W v p q : data veq v -> fits v ->
  exists N, forall n, (N <= n)%nat -> instance W n p (type_of q v) v = Some true.
Proof.
  intros Wv Fv. exists (2 * type_size (type_of q v))%nat. intros n Hn. rewrite instance_inst; auto.
  - f_equal. now apply type_of_self.
  - apply type_of_tuple_ok.
Qed.

Theorem equal_types_same_instances W a b v : type_ok a -> type_ok b -> plain a -> plain b -> type_eq a b = true -> data veq v ->
  (has_type W a v <-> has_type W b v).
Proof.
  intros Ta Tb Pa Pb E Wv. rewrite <- !(inst_iff W) by assumption. unfold type_eq in E. now rewrite (teqn_inst W _ a b Ta Tb Pa Pb E v Wv).
Qed.

Theorem assignable_sound_without_hit W L n p a b s v : target_ok L a -> source_ok L b ->
  asgn W n false a b (start p) = Some (true, s) -> s_hit s = false ->
  data veq v -> fits v -> has_type W b v -> has_type W a v.
Proof.
  intros Ta Sb E N Wv Fv H. apply inst_iff; auto. { exact (proj1 Ta). }
  apply (assignable_sound_no_hit W L n p a b s); auto. apply inst_iff; auto. exact (proj1 Sb).
Qed.

Theorem assignable_sound W L (A : ptr -> Prop) n p a b v : target_ok L a -> source_ok L b ->
  flat_alternatives a -> single_alternatives b ->
  objects A a -> objects (fun q => ~ A q) b -> (forall q, (p <= q)%nat -> ~ A q) ->
  assignable W n p a b = Some true -> data veq v -> fits v -> has_type W b v -> has_type W a v.
Proof.
  intros Ta Sb Fa Sg Oa Ob Hp E Wv Fv H. unfold assignable, outcome in E.
  destruct (asgn W n false a b (start p)) as [[r s]|] eqn:E1; [|discriminate]. injection E as ->.
  apply (assignable_sound_without_hit W L n p a b s); auto.
  apply (asgn_no_hit A W n false a b p true s); auto.
  - split; [split; [exact Fa|]|split; [exact Oa|]].
    + destruct Ta as [_ Ta]. revert Ta. apply ty_all_impl. intros []; cbn; auto.
    + destruct Ta as [_ Ta]. revert Ta. apply ty_all_impl. intros []; cbn; auto.
  - split; assumption.
Qed.
