From Coq Require Import ZArith List Bool Lia.
From Verif Require Import Int64 HMap Data DataSpec DataProofs Types TypesSpec Assign InstProofs GuardProofs SemProofs EqProofs SubProofs AssignProofs NoHitProofs TypesCor Func FuncSpec.
Import ListNotations.
Open Scope Z_scope.

Section World.
Variable W : world.

Lemma tuple_sound L n ts v os w : target_ok L (TTuple 0 ts v) -> source_ok L (TTuple 0 os w) ->
  ok (tuple_assignable_tuple (asgn W n true) ts v os w) (sub W (TTuple 0 ts v) (TTuple 0 os w)).
Proof.
  intros Ta Sb.
  assert (SI : forall t v, ty_all tuple_ok t -> ok (instn W n true t v) (inst W t v = true)).
  { intros t x Ht. eapply yields_imp; [apply instn_returns; exact Ht|]. cbn. intros y <-. auto. }
  pose proof (ok_deep W L (asgn W n) (instn W n true) (asgn_mono W n) (asgn_sound W L n) SI (TTuple 0 ts v) (TTuple 0 os w) eq_refl Ta Sb) as H.
  intros s x s' E N X. exact (proj1 (H s x s' E N X)).
Qed.

Lemma tuple_quiet L A n ts v os w k : target_tuple L A ts v -> source_tuple L A os w -> (list_sum (map type_size ts) <= k)%nat -> (list_sum (map mu os) <= k)%nat ->
  quiet A k k k (tuple_assignable_tuple (asgn W n true) ts v os w) any.
Proof.
  intros (Ta & Fa & Oa) (Sb & Gb & Ob) K1 K2. unfold tuple_assignable_tuple. cbn zeta. destruct (_ || _)%bool; [now apply q_ret|].
  apply q_tuple_loop. intros t o Ht Ho.
  assert (It : In t ts). { unfold tuple_head, tuple_rest in Ht. destruct v; destruct Ht as [Ht|Ht]; auto; try discriminate; [now apply In_firstn in Ht|now apply nth_error_In in Ht]. }
  assert (Io : In o os). { unfold tuple_head, tuple_rest in Ho. destruct w; destruct Ho as [Ho|Ho]; auto; try discriminate; [now apply In_firstn in Ho|now apply nth_error_In in Ho]. }
  assert (MEM : forall P, ty_all P (TTuple 0 ts v) -> ty_all P t). { intros P [_ H]. apply fold_and in H. rewrite Forall_forall in H. auto. }
  rewrite Forall_forall in Oa, Ob. pose proof (list_sum_in' type_size ts t It). pose proof (list_sum_in' mu os o Io). apply asgn_quiet; try (intros; lia).
  - destruct Ta as [_ Ta]. split; [split|split].
    + apply MEM, Fa.
    + revert Ta. intros Ta. apply MEM in Ta. revert Ta. apply ty_all_impl. intros []; cbn; auto.
    + now apply Oa.
    + apply MEM in Ta. revert Ta. apply ty_all_impl. intros []; cbn; auto.
  - split; [|now apply Ob]. destruct Gb as [_ H']. apply fold_and in H'. rewrite Forall_forall in H'. exact (H' o Io).
Qed.

Lemma function_yields L A n p a b : within L A a b -> (forall q, (p <= q)%nat -> ~ A q) -> func_assignable W n p a b = Some true ->
  f_variadic a = f_variadic b /\
  sub W (TTuple 0 (f_args a) (f_variadic a)) (TTuple 0 (f_args b) (f_variadic b)) /\
  sub W (TTuple 0 (f_rets a) (f_rets_variadic a)) (TTuple 0 (f_rets b) (f_rets_variadic b)).
Proof.
  intros (H1 & H2 & H3 & H4) Hp E. unfold func_assignable, outcome, function_assignable, with_guard in E.
  destruct (Bool.eqb (f_variadic a) (f_variadic b)) eqn:EV; [|discriminate E]. apply eqb_prop in EV. split; [exact EV|].
  set (s0 := set_guard (start p) (Some {| aSeen := []; bSeen := []; seenInA := false; seenInB := false |})) in *.
  set (k := (list_sum (map type_size (f_args a)) + list_sum (map mu (f_args b)) + list_sum (map type_size (f_rets a)) + list_sum (map mu (f_rets b)))%nat).
  assert (I0 : inv A k k k s0). { split; [exact Hp|]. cbn. repeat split; constructor. }
  unfold andm at 1, bind, ret in E. unfold andm, bind, ret in E.
  destruct (tuple_assignable_tuple (asgn W n true) (f_args a) (f_variadic a) (f_args b) (f_variadic b) s0) as [[r1 s1]|] eqn:E1; [|discriminate].
  destruct (tuple_quiet L A n (f_args a) (f_variadic a) (f_args b) (f_variadic b) k H1 H2 ltac:(lia) ltac:(lia) s0 r1 s1 I0 E1) as (G1 & N1 & X1 & _).
  destruct r1; [|discriminate]. assert (I1 : inv A k k k s1) by (eapply inv_later; eauto).
  destruct (tuple_assignable_tuple (asgn W n true) (f_rets a) (f_rets_variadic a) (f_rets b) (f_rets_variadic b) s1) as [[r2 s2]|] eqn:E2; [|discriminate].
  destruct (tuple_quiet L A n (f_rets a) (f_rets_variadic a) (f_rets b) (f_rets_variadic b) k H3 H4 ltac:(lia) ltac:(lia) s1 r2 s2 I1 E2) as (G2 & N2 & X2 & _).
  cbn in E. injection E as ->. split.
  - apply (tuple_sound L n _ _ _ _ (proj1 H1) (proj1 H2) s0 true s1 E1); [rewrite N1|]; reflexivity.
  - apply (tuple_sound L n _ _ _ _ (proj1 H3) (proj1 H4) s1 true s2 E2); [rewrite N2, N1|]; reflexivity.
Qed.

Lemma sub_has a b : type_ok a -> type_ok b -> sub W a b -> forall v, data veq v -> fits v -> has_type W b v -> has_type W a v.
Proof. intros Ta Tb H v Wv Fv E. apply inst_iff; auto. apply H; auto. apply inst_iff; auto. Qed.

Theorem function_results L A n p a b l : within L A a b -> (forall q, (p <= q)%nat -> ~ A q) -> func_assignable W n p a b = Some true ->
  proper l -> results_fit W b l -> results_fit W a l.
Proof.
  intros H Hp E [Wl Fl] R. destruct (function_yields L A n p a b H Hp E) as (_ & _ & S). destruct H as (_ & _ & H3 & H4).
  exact (sub_has _ _ (proj1 (proj1 H3)) (proj1 (proj1 H4)) S _ Wl Fl R).
Qed.
Theorem function_arguments_reversed L A n p a b l : within L A a b -> (forall q, (p <= q)%nat -> ~ A q) -> func_assignable W n p a b = Some true ->
  proper l -> arguments_fit W b l -> arguments_fit W a l.
Proof.
  intros H Hp E [Wl Fl] R. destruct (function_yields L A n p a b H Hp E) as (_ & S & _). destruct H as (H1 & H2 & _).
  exact (sub_has _ _ (proj1 (proj1 H1)) (proj1 (proj1 H2)) S _ Wl Fl R).
Qed.
Theorem function_mutual L A L' A' n p n' p' a b : within L A a b -> (forall q, (p <= q)%nat -> ~ A q) -> within L' A' b a -> (forall q, (p' <= q)%nat -> ~ A' q) ->
  func_assignable W n p a b = Some true -> func_assignable W n' p' b a = Some true -> substitutable W a b.
Proof.
  intros H Hp H' Hp' E E'. split; intros l Pl.
  - exact (function_arguments_reversed L' A' n' p' b a l H' Hp' E' Pl).
  - exact (function_results L A n p a b l H Hp E Pl).
Qed.
Lemma tuple_loop_same n k : forall ts tv s r s', tuple_loop (asgn W n true) k ts ts tv tv s = Some (r, s') -> s' = s.
Proof.
  induction k as [|k IH]; intros ts tv s r s' E; cbn [tuple_loop] in E; [now injection E as _ <-|].
  destruct (match ts with t :: _ => Some t | [] => tv end) as [t|]; [|now injection E as _ <-].
  unfold andm, bind in E. destruct n as [|n]; [discriminate|]. cbn [asgn] in E. unfold same_type in E. destruct (type_eq_dec t t) as [_|N]; [|now destruct N]. cbn in E. eapply IH; eauto.
Qed.
Theorem function_same_arguments L A n p a b : f_args a = f_args b ->
  target_tuple L A (f_rets a) (f_rets_variadic a) -> source_tuple L A (f_rets b) (f_rets_variadic b) -> (forall q, (p <= q)%nat -> ~ A q) ->
  func_assignable W n p a b = Some true -> substitutable W a b.
Proof.
  intros EA H3 H4 Hp E. unfold func_assignable, outcome, function_assignable, with_guard in E.
  destruct (Bool.eqb (f_variadic a) (f_variadic b)) eqn:EV; [|discriminate E]. apply eqb_prop in EV.
  set (s0 := set_guard (start p) (Some {| aSeen := []; bSeen := []; seenInA := false; seenInB := false |})) in *.
  set (k := (list_sum (map type_size (f_rets a)) + list_sum (map mu (f_rets b)))%nat).
  assert (I0 : inv A k k k s0). { split; [exact Hp|]. cbn. repeat split; constructor. }
  unfold andm at 1, bind, ret in E. unfold andm, bind, ret in E. rewrite EA, EV in E.
  destruct (tuple_assignable_tuple (asgn W n true) (f_args b) (f_variadic b) (f_args b) (f_variadic b) s0) as [[r1 s1]|] eqn:E1; [|discriminate].
  assert (s1 = s0) as ->. { unfold tuple_assignable_tuple in E1. cbn zeta in E1. destruct (_ || _)%bool; [now injection E1 as _ <-|]. eapply tuple_loop_same; eauto. }
  destruct r1; [|discriminate].
  destruct (tuple_assignable_tuple (asgn W n true) (f_rets a) (f_rets_variadic a) (f_rets b) (f_rets_variadic b) s0) as [[r2 s2]|] eqn:E2; [|discriminate].
  destruct (tuple_quiet L A n (f_rets a) (f_rets_variadic a) (f_rets b) (f_rets_variadic b) k H3 H4 ltac:(lia) ltac:(lia) s0 r2 s2 I0 E2) as (G2 & N2 & X2 & _).
  cbn in E. injection E as ->. split; intros l [Wl Fl].
  - unfold arguments_fit. rewrite EA, EV. auto.
  - apply (sub_has _ _ (proj1 (proj1 H3)) (proj1 (proj1 H4))); auto. apply (tuple_sound L n _ _ _ _ (proj1 H3) (proj1 H4) s0 true s2 E2); [rewrite N2|]; reflexivity.
Qed.
End World.
