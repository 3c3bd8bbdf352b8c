(* The theorems on equality, hash codes, Generic and termination as they are stated in PropertiesTypes2.v *)
From Coq Require Import ZArith List Bool Lia.
From Coq Require Import Floats.SpecFloat.
From Verif Require Import Int64 HMap Data DataSpec DataProofs Arr Types TypesSpec InstProofs GuardProofs SemProofs EqProofs SubProofs Totality TypeEqSpec TypeEqProofs TypeHashProofs Construct Generic GenericSpec GenericProofs AssignProofs Assign.
Import ListNotations.
Open Scope Z_scope.

Theorem equal_types_equal_hash a b : type_ok a -> type_ok b -> proper_tuples a -> proper_tuples b -> ordered a -> ordered b ->
  type_eq a b = true -> thash a = thash b.
Proof. intros. unfold type_eq in *. eauto using eq_hash. Qed.

Theorem assignable_returns W a b : type_ok a -> type_ok b -> exists N, forall n p, (N <= n)%nat -> exists r, assignable W n p a b = Some r.
Proof.
  intros Ha Hb. exists (2 * (type_size a + type_size b))%nat. intros n p Hn. unfold assignable, outcome.
  destruct (asgn_fin W n false a b (type_ok_tuple_ok _ Ha) (type_ok_tuple_ok _ Hb) ltac:(cbn; lia) (start p)) as (r & s & E & _). rewrite E. exists r. reflexivity.
Qed.

Theorem generic_idempotent_of W n p t g n' p' : generic_of W n p t = Some (Some g) -> (0 < n')%nat -> generic_of W n' p' g = Some (Some g).
Proof.
  unfold generic_of. intros E Hn. destruct (generic W n n t (start p)) as [[o s]|] eqn:G; [|discriminate]. cbn in E. injection E as ->.
  destruct n' as [|n']; [lia|]. rewrite (generic_idempotent W n n t _ g s G (S n') n' (start p')). reflexivity.
Qed.

Theorem generic_widens_without_hit W L n p t g s v : open_source L = false -> source_ok L t -> generic_ok L t ->
  generic W n n t (start p) = Some (Some g, s) -> s_hit s = false -> data veq v -> fits v -> has_type W t v -> has_type W g v.
Proof.
  intros C St Gt E N Wv Fv H. destruct (generic_widens W L C n n t St Gt _ _ _ E N) as (g' & Eg & Ug & [Sg _]). injection Eg as <-.
  apply inst_iff; auto. { exact (proj1 (proj1 Ug)). } apply Sg; auto. apply inst_iff; auto. exact (proj1 St).
Qed.

Theorem generic_value_widens W v q : data veq v ->
  exists N, forall n p, (N <= n)%nat -> exists g, generic_of W n p (type_of q v) = Some (Some g) /\
    (forall w, data veq w -> fits w -> has_type W (type_of q v) w -> has_type W g w).
Proof.
  intros Wv. exists (2 * value_size v + 1)%nat. intros n p Hn.
  destruct (generic_value W v n n q Hn ltac:(lia) (start p)) as (o & s & E & _ & N & g & -> & _).
  exists g. unfold generic_of. rewrite E. split; [reflexivity|]. intros w Ww Fw H.
  set (L := Build_allowed true false true).
  apply (generic_widens_without_hit W L n p (type_of q v) g s); auto; [now apply type_of_source|now apply type_of_generic_ok].
Qed.

(* the generic type depends on nothing but the value: it is the type that sensitive values show of their content *)
Theorem generic_value_type W v q : data veq v ->
  exists N, forall n p, (N <= n)%nat -> exists g, generic_of W n p (type_of q v) = Some (Some g) /\ readdr 0%nat g = gen_value 0%nat v.
Proof.
  intros Wv. exists (2 * value_size v + 1)%nat. intros n p Hn.
  destruct (generic_value W v n n q Hn ltac:(lia) (start p)) as (o & s & E & _ & N & g & -> & G).
  exists g. unfold generic_of. rewrite E. auto.
Qed.
