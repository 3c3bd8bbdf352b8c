(* Assignable is reflexive; corollaries of AgreeProofs.v. *)
From Coq Require Import ZArith List Bool Lia.
From Coq Require Import Floats.SpecFloat.
From Verif Require Import Int64 HMap Data DataSpec DataProofs Arr Types TypesSpec InstProofs GuardProofs SemProofs EqProofs SubProofs TypeEqProofs AgreeSpec AgreeProofs Totality TypesCor NoHitProofs AssignProofs Assign.
Import ListNotations.
Open Scope Z_scope.

Lemma teqn_refl t : type_ok t -> forall n, (type_size t <= n)%nat -> teqn n t t = true.
Proof.
  unfold type_ok.
  assert (SV : forall ts n, Forall (fun t => ty_all node_ok t -> forall n, (type_size t <= n)%nat -> teqn n t t = true) ts -> Forall (ty_all node_ok) ts ->
     (list_sum (map type_size ts) <= n)%nat -> forall x, In x ts -> teqn n x x = true).
  { intros ts n H O L x Hx. rewrite Forall_forall in *. pose proof (list_sum_in' type_size ts x Hx). apply H; auto. lia. }
  induction t as [ | | | |x y i| |x y i| | |x y|s|s|x y| | |p v|p t IHt| |p e x y IHe|p ts b IHts| |p k v x y IHk IHv|p a es IHes|p ts IHts|p vs|p ts IHts|p ts IHts|p t IHt| |t IHt] using ty_ind';
    intros [On O] n Hn; (destruct n as [|n]; [cbn in Hn; try lia|]); cbn [teqn type_size] in *; try reflexivity; rewrite ?Z.eqb_refl, ?Bool.eqb_reflx, ?bytes_eqb_refl, ?bools_eqb_refl; cbn [andb]; try reflexivity;
    try (apply IHt; [assumption|lia]); try (apply fold_and in O; rewrite same_values_refl; [reflexivity|apply (SV ts); auto; lia]).
  - destruct On. now rewrite !SFeqb_refl.
  - pose proof (type_size_pos (TExact p v)). cbn [type_size] in *. lia.
  - now apply veq_refl.
  - apply IHe; [assumption|lia].
  - apply fold_and in O. apply pairwise_refl. apply (SV ts); auto; lia.
  - destruct O. rewrite IHk, IHv by (auto; lia). reflexivity.
  - apply (fold_and (fun e => ty_all node_ok (snd (fst e)))) in O. rewrite Forall_forall in *. destruct On as [On _]. rewrite Forall_forall in On.
    apply andb_true_iff. split; apply pairwise_refl; intros e He; [now apply veq_refl, On|]. apply IHes; auto.
    pose proof (list_sum_in' (fun e : value * ty * bool => value_size (fst (fst e)) + type_size (snd (fst e)))%nat es e He) as S. cbn beta in S. lia.
  - rewrite same_values_refl; [reflexivity|]. cbn in On. rewrite Forall_forall in On. intros v Hv. now apply veq_refl, On.
Qed.

Section World.
Variable W : world.

Theorem asgn_refl a : type_ok a -> forall n s, (type_size a + 2 <= n)%nat -> exists s', asgn W n false a a s = Some (true, s') /\ s_hit s' = s_hit s.
Proof.
  unfold type_ok.
  induction a as [ | | | |x y i| |x y i| | |x y|s|s|x y| | |p v|p t IHt| |p e x y IHe|p ts b IHts| |p k v x y IHk IHv|p a es IHes|p ts IHts|p vs|p ts IHts|p ts IHts|p t IHt| |t IHt] using ty_ind';
    intros [On O] n st0 Hn; (destruct n as [|[|n]]; [lia|lia|]);
    try (cbn; eexists; split; reflexivity);
    try (cbn [asgn deep_assignable deep_instance]; unfold with_nil, with_guard; cbn [asgn];
         match goal with |- context [same_type ?a ?a] => replace (same_type a a) with true by (symmetry; now apply same_type_eq) end;
         eexists; split; reflexivity).
  - cbn. rewrite Z.ltb_irrefl. unfold with_nil, with_guard, ret. rewrite ?Z.leb_refl, ?Bool.eqb_reflx, ?orb_true_r. eexists. split; reflexivity.
  - cbn. destruct On as [N1 N2].
    assert (X : SFltb x x = false). { unfold SFltb. pose proof (SFeqb_refl x N1) as E. unfold SFeqb in E. destruct (SFcompare x x) as [[]|]; auto; discriminate. }
    assert (Y : SFleb y y = true). { unfold SFleb. pose proof (SFeqb_refl y N2) as E. unfold SFeqb in E. destruct (SFcompare y y) as [[]|]; auto; discriminate. }
    rewrite X, Bool.eqb_reflx, orb_true_r, Y. eexists. split; reflexivity.
  - cbn. rewrite !Z.leb_refl. eexists. split; reflexivity.
  - cbn. unfold with_nil, with_guard, orm, bind, ret. rewrite bytes_eqb_refl. eexists. split; reflexivity.
  - cbn. unfold with_nil, with_guard, ret. rewrite bytes_eqb_refl. eexists. split; reflexivity.
  - cbn. rewrite !Z.leb_refl. eexists. split; reflexivity.
  - assert (V : veq v v = true) by now apply veq_refl.
    destruct v; cbn [asgn deep_assignable deep_instance]; unfold with_nil, with_guard; cbn [flat_assignable_to deep_assignable_to]; unfold orm, bind, ret, enter, with_guard; cbn [s_guard set_guard];
      rewrite V; eexists; split; reflexivity.
  - change (asgn W (S (S n)) false (TNot p t) (TNot p t)) with (with_nil (asgn W (S n) false t t)). unfold with_nil, with_guard.
    destruct (IHt O (S n) (set_guard st0 None)) as (s' & E & H); [cbn in Hn; lia|]. rewrite E. eexists. split; [reflexivity|]. exact H.
  - cbn [asgn deep_assignable deep_instance flat_assignable_to]. unfold with_nil, with_guard, ret.
    assert (E : type_eq t t = true) by (apply teqn_refl; [exact O|lia]). rewrite E. eexists. split; reflexivity.
Qed.

Theorem assignable_reflexive a : type_ok a -> exists N, forall n p, (N <= n)%nat -> assignable W n p a a = Some true.
Proof.
  intros O. exists (type_size a + 2)%nat. intros n p Hn. destruct (asgn_refl a O n (start p) Hn) as (s & E & _). unfold assignable. now rewrite E.
Qed.

Theorem value_type_agrees_without_hit a v q : type_ok a -> agreeing a -> data veq v -> solid v ->
  exists N, forall n p, (N <= n)%nat -> exists r s, asgn W n false a (type_of q v) (start p) = Some (r, s) /\
    (s_hit s = false -> (r = true <-> has_type W a v)).
Proof.
  intros O A Wv Sv. exists (2 * (type_size a + type_size (type_of q v)))%nat. intros n p Hn.
  destruct (asgn_fin W n false a (type_of q v) (type_ok_tuple_ok _ O) (type_of_tuple_ok q v) ltac:(cbn; lia) (start p)) as (r & s & E & _).
  exists r, s. split; [exact E|]. intros N. destruct (assignable_of_value W n) as [H _].
  rewrite <- (H false a v q O A (conj Wv Sv) (start p) r s E N). now apply inst_iff.
Qed.

Theorem value_type_agrees A a v q p : type_ok a -> agreeing a -> data veq v -> solid v ->
  flat_alternatives a -> ty_all (fun t => match t with TNot _ _ | TAllOfValue _ _ => False | _ => True end) a ->
  objects A a -> ~ A q -> (forall q, (p <= q)%nat -> ~ A q) ->
  exists N, forall n, (N <= n)%nat -> exists r, assignable W n p a (type_of q v) = Some r /\ instance W n p a v = Some r.
Proof.
  intros O G Wv Sv F NN Oa Nq Hp. destruct (value_type_agrees_without_hit a v q O G Wv Sv) as (N & H). exists (Nat.max N (2 * type_size a)). intros n Hn.
  destruct (H n p ltac:(lia)) as (r & s & E & X). exists r.
  assert (s_hit s = false).
  { apply (asgn_no_hit A W n false a (type_of q v) p r s); auto.
    - split; [split; [exact F|]|split; [exact Oa|]]; revert NN; apply ty_all_impl; intros []; cbn; auto.
    - now apply b_ok_type_of. }
  unfold assignable. rewrite E. split; [reflexivity|]. rewrite instance_inst by (auto using type_ok_tuple_ok; lia). f_equal.
  specialize (X H0). rewrite <- (inst_iff W a v) in X by assumption. destruct r, (inst W a v); intuition congruence.
Qed.
End World.
