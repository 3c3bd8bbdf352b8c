(* Proofs about errors. *)
From Coq Require Import ZArith List Bool Lia.
From Verif Require Import Int64 Data DataSpec DataProofs Types TypesSpec TypeEqSpec TypeEqProofs TypesCor2 Syntax ErrorVal ErrorSpec.
Import ListNotations.
Open Scope Z_scope.

Section Text.
Variable E : env.
Variable show : value -> list Z.
Notation message := (message E show).
Notation err_eq := (err_eq E show).
Notation said := (said E show).
Notation et_instance := (et_instance E show).
Notation et_is_instance := (et_is_instance E show).
Notation et_eq := (et_eq E show).
Notation et_assignable := (et_assignable E show).

(* ---------- Equals and HashCode ---------- *)

Theorem wrapped_equal g o : err_eq (EWrap g) o = true <-> said o = Some (g_msg g).
Proof.
  destruct o as [h|e|v]; cbn [ErrorVal.err_eq ErrorSpec.said].
  - rewrite bytes_eqb_eq. split; [now intros ->|congruence].
  - rewrite bytes_eqb_eq. split; [now intros ->|congruence].
  - split; discriminate.
Qed.

Theorem errors_equivalence :
  (forall a, with_types nice a -> err_eq a (OErr a) = true) /\
  (forall a b, with_types nice a -> with_types nice b -> same_origin a b -> err_eq a (OErr b) = true -> err_eq b (OErr a) = true) /\
  (forall a b c, with_types nice a -> with_types nice b -> with_types nice c -> same_origin a b -> same_origin b c ->
     err_eq a (OErr b) = true -> err_eq b (OErr c) = true -> err_eq a (OErr c) = true).
Proof.
  destruct type_eq_equivalence as (R & S & T). split; [|split].
  - intros [g|t u|t k|t n] W; cbn in *; rewrite ?bytes_eqb_eq, ?Z.eqb_refl, ?R by tauto; reflexivity.
  - intros [g|t u|t k|t n] [g'|t' u'|t' k'|t' n'] W W' O H; cbn in O; try contradiction O; cbn in H; try discriminate H; cbn in *; rewrite ?andb_true_iff, ?bytes_eqb_eq, ?Z.eqb_eq in *;
      try (symmetry; exact H); destruct H as [H1 H2]; split; try (now apply S); congruence.
  - intros [g|t u|t k|t n] [g'|t' u'|t' k'|t' n'] [g''|t'' u''|t'' k''|t'' n''] W W' W'' O O' H H'; cbn in O, O'; try contradiction O; try contradiction O';
      cbn in H, H'; try discriminate H; try discriminate H'; cbn in *; rewrite ?andb_true_iff, ?bytes_eqb_eq, ?Z.eqb_eq in *; try congruence; destruct H as [H1 H2], H' as [H3 H4]; split; try congruence;
      first [eapply T; [| | |exact H1|exact H3]; tauto|eapply T; [| | |exact H2|exact H4]; tauto].
Qed.

Theorem errors_hash a b : with_types (fun t => type_ok t /\ proper_tuples t /\ ordered t) a -> with_types (fun t => type_ok t /\ proper_tuples t /\ ordered t) b ->
  same_origin a b -> err_eq a (OErr b) = true -> err_hash a = err_hash b.
Proof.
  intros W W' O H. destruct a as [g|t u|t k|t n], b as [g'|t' u'|t' k'|t' n']; cbn in O; try contradiction O; cbn in H; try discriminate H; cbn in *;
    rewrite ?andb_true_iff, ?bytes_eqb_eq, ?Z.eqb_eq in *.
  - now rewrite H.
  - destruct H as [H1 H2]. rewrite (equal_types_equal_hash t t'), (equal_types_equal_hash u u') by tauto. reflexivity.
  - destruct H as [H1 H2]. rewrite (equal_types_equal_hash t t'), (equal_types_equal_hash k k') by tauto. reflexivity.
  - destruct H as [H1 H2]. rewrite (equal_types_equal_hash t t') by tauto. now subst.
Qed.

(* ---------- types ---------- *)

Theorem instance_error o : et_instance ErrorType o = true <-> said o <> None.
Proof. destruct o; cbn; split; congruence. Qed.
Theorem instance_exact g o : et_instance (ExactError g) o = true <-> said o = Some (g_msg g).
Proof. destruct o; exact (wrapped_equal g _). Qed.
Theorem is_instance t o : said o <> None -> et_is_instance t o = et_instance t o.
Proof. destruct t, o; cbn; congruence. Qed.
Theorem own_type a : et_instance (err_type a) (OErr a) = true.
Proof. destruct a; try reflexivity. cbn. now apply bytes_eqb_eq. Qed.

Theorem assignable_contains a b : et_assignable a b = true <-> forall o, et_instance b o = true -> et_instance a o = true.
Proof.
  destruct a as [|g]; [|destruct b as [|h]].
  - split; [|reflexivity]. intros _ o H. apply instance_error. destruct b; [now apply instance_error in H|]. apply instance_exact in H. congruence.
  - split; [discriminate|]. intros H. specialize (H (OGo (GErr 0 (0 :: g_msg g) None)) eq_refl). apply instance_exact in H. cbn in H. injection H as H.
    apply (f_equal (@length Z)) in H. cbn in H. lia.
  - cbn [ErrorVal.et_assignable ErrorVal.et_eq]. rewrite wrapped_equal. cbn [ErrorSpec.said ErrorVal.message]. split.
    + intros H o Ho. apply instance_exact in Ho. apply instance_exact. congruence.
    + intros H. specialize (H (OErr (EWrap h)) (proj2 (instance_exact h (OErr (EWrap h))) eq_refl)). apply instance_exact in H. exact H.
Qed.
Theorem types_equal a b : et_eq a b = true <-> forall o, et_instance a o = et_instance b o.
Proof.
  assert (Sym : forall g h, et_eq (ExactError g) (ExactError h) = true <-> g_msg g = g_msg h) by (intros g h; cbn; apply bytes_eqb_eq).
  destruct a as [|g], b as [|h].
  - split; reflexivity.
  - split; [discriminate|]. intros H. specialize (H (OGo (GErr 0 (0 :: g_msg h) None))). cbn [ErrorVal.et_instance] in H. symmetry in H.
    apply wrapped_equal in H. cbn in H. injection H as H. apply (f_equal (@length Z)) in H. cbn in H. lia.
  - split; [discriminate|]. intros H. specialize (H (OGo (GErr 0 (0 :: g_msg g) None))). cbn [ErrorVal.et_instance] in H.
    apply wrapped_equal in H. cbn in H. injection H as H. apply (f_equal (@length Z)) in H. cbn in H. lia.
  - rewrite Sym. split.
    + intros H o. destruct (et_instance (ExactError g) o) eqn:A, (et_instance (ExactError h) o) eqn:B; try reflexivity.
      * apply instance_exact in A. rewrite H in A. apply instance_exact in A. congruence.
      * apply instance_exact in B. rewrite <- H in B. apply instance_exact in B. congruence.
    + intros H. specialize (H (OGo h)). assert (et_instance (ExactError h) (OGo h) = true) as X by (apply instance_exact; reflexivity).
      rewrite X in H. apply instance_exact in H. cbn in H. congruence.
Qed.
Theorem types_hash a b : et_eq a b = true -> et_hash a = et_hash b.
Proof. destruct a, b; cbn; try discriminate; [reflexivity|]. rewrite bytes_eqb_eq. now intros ->. Qed.
Theorem wrapped_instance t a : is_wrapped a -> et_instance t (OErr a) = et_assignable t (err_type a).
Proof. intros [g ->]. destruct t; reflexivity. Qed.
End Text.

(* ---------- Unwrap ---------- *)

Lemma is_caused target : forall e, go_is e target = true -> exists f, caused_by e f /\ g_id f = target.
Proof.
  fix IH 1. intros [i m [c|]]; cbn [go_is]; intros H; apply orb_true_iff in H; destruct H as [H|H].
  - exists (GErr i m (Some c)). split; [constructor|now apply Nat.eqb_eq].
  - destruct (IH c H) as (f & C & D). exists f. split; [now constructor|exact D].
  - exists (GErr i m None). split; [constructor|now apply Nat.eqb_eq].
  - discriminate H.
Qed.
Lemma caused_is e f : caused_by e f -> go_is e (g_id f) = true.
Proof. induction 1 as [[i m c]|i m c f C IH]; cbn [go_is]; [cbn; now rewrite Nat.eqb_refl|]. rewrite IH. apply orb_true_r. Qed.
Lemma go_is_caused target e : go_is e target = true <-> exists f, caused_by e f /\ g_id f = target.
Proof. split; [apply is_caused|]. intros (f & C & <-). now apply caused_is. Qed.

Theorem unwrapped g target : g_id g <> target -> (err_is (EWrap g) target = true <-> exists f, caused_by g f /\ g_id f = target).
Proof.
  intros N. rewrite <- go_is_caused. destruct g as [i m c]. cbn in *. apply Nat.eqb_neq in N. rewrite N. reflexivity.
Qed.
Theorem unwrapped_self g : (forall c, g_cause g = Some c -> forall f, caused_by c f -> g_id f <> g_id g) -> err_is (EWrap g) (g_id g) = false.
Proof.
  intros H. destruct (err_is (EWrap g) (g_id g)) eqn:X; [|reflexivity]. unfold err_is in X. cbn [unwrap] in X. destruct (g_cause g) as [c|]; [|discriminate X].
  apply go_is_caused in X. destruct X as (f & C & D). contradiction (H c eq_refl f C D).
Qed.

(* ---------- ReflectTo ---------- *)

Lemma no_pointer_step s o : no_pointer o -> es_given s = [] ->
  es_given (fst (estep s o)) = [] /\ forall v g, nth_error (es_held s) v = Some g -> nth_error (es_held (fst (estep s o))) v = Some g.
Proof.
  intros N G. destruct o; cbn in *; try contradiction N; rewrite ?G; cbn; split; auto. intros v g' H. rewrite nth_error_app1; [exact H|]. apply nth_error_Some. congruence.
Qed.
Lemma no_pointer_run os : forall s, Forall no_pointer os -> es_given s = [] ->
  es_given (erun s os) = [] /\ forall v g, nth_error (es_held s) v = Some g -> nth_error (es_held (erun s os)) v = Some g.
Proof.
  induction os as [|o os IH]; intros s N G; [split; auto|]. inversion N as [|? ? N1 N2]; subst. destruct (no_pointer_step s o N1 G) as [A B].
  destruct (IH (fst (estep s o)) N2 A) as [C D]. split; [exact C|]. intros v g H. exact (D v g (B v g H)).
Qed.
(* what was made of a Go error stays that, and gives the Go error back *)
Theorem error_kept os1 os2 g : Forall no_pointer (os1 ++ os2) ->
  let s1 := erun {| es_held := []; es_given := [] |} os1 in
  let v := length (es_held s1) in
  let s := erun s1 (EoValue g :: os2) in
  ewrapped s v = Some (EWrap g) /\ snd (estep s (EoToError v)) = EoGot g.
Proof.
  intros N s1 v s. apply Forall_app in N as [N1 N2]. destruct (no_pointer_run os1 {| es_held := []; es_given := [] |} N1 eq_refl) as [G _]. fold s1 in G.
  destruct (no_pointer_run os2 (fst (estep s1 (EoValue g))) N2 G) as [_ K]. specialize (K v g).
  assert (nth_error (es_held s) v = Some g) as X. { apply K. cbn. unfold v. rewrite nth_error_app2, Nat.sub_diag by lia. reflexivity. }
  unfold ewrapped. cbn [estep snd]. rewrite X. split; reflexivity.
Qed.
