(* Proofs about TypeReflect.v. *)
From Coq Require Import ZArith List Bool Lia.
From Coq Require Import Floats.SpecFloat.
From Coq Require Import Sorting.Permutation.
From Verif Require Import Int64 Data DataProofs Arr EqProofs Types TypesSpec TypesCor InstProofs Construct Convert ConvertSpec ConvertProofs Reflect ReflectSpec ReflectProofs TypeReflect TypeReflectSpec.
Import ListNotations.
Open Scope Z_scope.

Section World.
Variable W : world.

(* ---------- instances of the types that TypeFromReflected makes ---------- *)

Lemma size_ok {A} (l : list A) : 0 <= Z.of_nat (length l). Proof. lia. Qed.
Lemma array_from e v : fits v -> (has_type W (made (new_array_type 0%nat (Some e) 0 max_int64)) v <-> exists l, v = VArr l /\ Forall (has_type W e) l).
Proof.
  intros F. assert (E : made (new_array_type 0%nat (Some e) 0 max_int64) = if is_any e then TArray else TArrSized 0%nat e 0 max_int64).
  { unfold new_array_type. cbn. destruct e; reflexivity. }
  rewrite E. destruct (is_any e) eqn:A.
  - destruct e; try discriminate A. unfold has_type. cbn. split; [intros (l & ->); exists l; split; auto; now apply Forall_forall|]. intros (l & -> & _). now exists l.
  - unfold has_type at 1. cbn [has_type_with]. split; intros (l & -> & H).
    + exists l. split; auto. tauto.
    + exists l. split; auto. split; [|exact H]. cbn in F. destruct F as [F _]. split; [apply size_ok|exact F].
Qed.
Lemma map_from k e v : fits v -> (has_type W (new_map_type 0%nat (Some k) (Some e) 0 max_int64) v <-> exists m, v = VMap m /\ Forall (fun p => has_type W k (fst p) /\ has_type W e (snd p)) m).
Proof.
  intros F. assert (E : new_map_type 0%nat (Some k) (Some e) 0 max_int64 = if is_any k && is_any e then TMap else TMapSized 0%nat k e 0 max_int64).
  { unfold new_map_type. cbn. destruct k, e; reflexivity. }
  rewrite E. destruct (is_any k && is_any e) eqn:A.
  - apply andb_true_iff in A as [A1 A2]. destruct k; try discriminate A1. destruct e; try discriminate A2. unfold has_type. cbn.
    split; [intros (l & ->); exists l; split; auto; apply Forall_forall; auto|]. intros (l & -> & _). now exists l.
  - unfold has_type at 1. cbn [has_type_with]. split; intros (l & -> & H).
    + exists l. split; auto. tauto.
    + exists l. split; auto. split; [|exact H]. cbn in F. destruct F as [F _]. split; [apply size_ok|exact F].
Qed.
Lemma one_from e v : has_type W (one_of_type 0%nat [e; TNil]) v <-> if is_nil v then ~ has_type W e VNil else has_type W e v.
Proof.
  unfold one_of_type, has_type at 1. cbn [has_type_with map]. fold (has_type W e). set (P := has_type W e).
  assert (SPLIT : forall l1 Q l2, [P; fun v => v = VNil] = l1 ++ Q :: l2 -> (l1 = [] /\ Q = P /\ l2 = [fun v => v = VNil]) \/ (l1 = [P] /\ Q = (fun v => v = VNil) /\ l2 = [])).
  { intros l1 Q l2 E. destruct l1 as [|a [|b l1]]; cbn in E.
    - injection E as <- <-. now left.
    - injection E as <- <- <-. now right.
    - injection E as _ _ E. destruct l1; discriminate E. }
  split.
  - intros (l1 & Q & l2 & E & HQ & F). destruct (SPLIT _ _ _ E) as [(-> & -> & ->)|(-> & -> & ->)]; cbn in F; inversion F as [|? ? N _]; subst.
    + destruct v; cbn; auto.
    + exact N.
  - intros H. destruct (is_nil v) eqn:N.
    + destruct v; try discriminate N. exists [P], (fun v => v = VNil), []. repeat split; auto. constructor; auto.
    + exists [], P, [fun v => v = VNil]. repeat split; auto. cbn. constructor; [|constructor]. intros ->. discriminate N.
Qed.
Ltac opens := repeat match goal with H : exists _, _ |- _ => destruct H | H : _ /\ _ |- _ => destruct H end; subst.
Lemma nil_belongs t : has_type W (type_from t) VNil <-> takes_nil t = true.
Proof.
  induction t as [|k| | | | | |e IHe|k _ e _|e IHe| | |]; cbn [type_from takes_nil].
  all: try (split; [intros H|discriminate]; unfold has_type in H; cbn in H; opens; discriminate).
  - split; [|discriminate]. intros H. destruct k; cbn in H; opens; discriminate.
  - split; [|discriminate]. intros H. exfalso. apply H. exact I.
  - rewrite array_from by exact I. split; [intros (l & E & _); discriminate E|discriminate].
  - rewrite map_from by exact I. split; [intros (l & E & _); discriminate E|discriminate].
  - destruct e; try (split; [intros H; unfold has_type in H; cbn in H; opens; discriminate|discriminate]);
      (rewrite one_from; cbn [is_nil]; rewrite IHe; destruct (takes_nil _); cbn; split; congruence).
  - split; intros; [reflexivity|exact I].
  - split; [intros H; exfalso; apply H; exact I|discriminate].
  - split; [intros H; exfalso; apply H; exact I|discriminate].
Qed.

(* ---------- Go values ---------- *)

Section From.
Variable arrange : list (value * value) -> list (value * value).
Hypothesis arranged : forall l, Permutation (arrange l) l.
Notation from_go := (from_go arrange).

Lemma becomes_nil x : forall t v, typed t x -> from_go t x = Done v -> is_nil v = nil_go x.
Proof.
  induction x as [ | | | | | | |l IH|m IH|x IH|t' x IH|v'] using gval_ind'; intros t v T F; destruct t; cbn in T; try contradiction T; cbn in F.
  all: try (injection F as <-; reflexivity).
  - destruct t; injection F as <-; reflexivity.
  - destruct (to_int k z); [|discriminate]. injection F as <-. reflexivity.
  - discriminate F.
  - destruct t as [|[]| | | | | | | | | | |]; try (destruct (rlist _); [|discriminate F|discriminate F]; injection F as <-; reflexivity). injection F as <-. reflexivity.
  - destruct (rlist _); [|discriminate F|discriminate F]. injection F as <-. reflexivity.
  - destruct t; try discriminate F; try (eapply IH; eassumption). cbn in T. destruct x; try contradiction T. injection F as <-. reflexivity.
  - eapply IH; eassumption.
Qed.

Lemma fits_elem l v : fits (VArr l) -> In v l -> fits v.
Proof. intros [_ F]. revert F. induction l as [|a l IH]; cbn; [tauto|]. intros [F1 F2] [<-|H]; auto. Qed.
Lemma fits_entry m p : fits (VMap m) -> In p m -> fits (fst p) /\ fits (snd p).
Proof. intros [_ F]. revert F. induction m as [|a l IH]; cbn; [tauto|]. intros [F1 F2] [<-|H]; auto. Qed.
Lemma fold_and {A} (P : A -> Prop) l : fold_right and True (map P l) <-> Forall P l.
Proof. induction l; cbn; split; intros H; try constructor; try tauto; inversion H; subst; tauto. Qed.
Lemma forall2_iff {A B} (P : A -> Prop) (Q : B -> Prop) l l' : Forall2 (fun a b => P a <-> Q b) l l' -> (Forall P l <-> Forall Q l').
Proof. induction 1; [split; constructor|]. rewrite !Forall_cons_iff. tauto. Qed.
Lemma forall_perm {A} (P : A -> Prop) l l' : Permutation l l' -> Forall P l -> Forall P l'.
Proof. intros H. rewrite !Forall_forall. intros F x Hx. apply F. eapply Permutation_in; [apply Permutation_sym; exact H|exact Hx]. Qed.

Lemma int_from k z v : number_of k z -> to_int k z = Some v -> (has_type W (int_type_from k) (VInt v) <-> belongs (RInt k) (XInt z)).
Proof.
  intros N E. assert (V : v = if (match k with KUint | KUint64 => true | _ => false end) && (9223372036854775807 <? z) then z - 18446744073709551616 else z).
  { unfold to_int, go_convert, bits, signed in E. change (2 ^ 64) with 18446744073709551616 in E. change (2 ^ (64 - 1)) with 9223372036854775808 in E.
    destruct k; cbn [number_of andb] in *; try (destruct (z =? 18446744073709551615) eqn:Q; [discriminate E|apply Z.eqb_neq in Q]); injection E as <-;
      match goal with |- context [9223372036854775808 <=? ?m] => destruct (Z.leb_spec 9223372036854775808 m) end; try destruct (Z.ltb_spec 9223372036854775807 z);
      try (rewrite Z.mod_small in * by lia; lia);
      (assert (z mod 18446744073709551616 = if z <? 0 then z + 18446744073709551616 else z) as M by
        (destruct (Z.ltb_spec z 0); [rewrite <- (Z.mod_add z 1) by lia; apply Z.mod_small; lia|apply Z.mod_small; lia]); rewrite M in *; destruct (Z.ltb_spec z 0); lia). }
  destruct k; cbn [belongs number_of andb] in *; unfold has_type; cbn; rewrite ?V;
    try (split; [intros _; exact I|intros _; eexists; split; [reflexivity|lia]]); try (split; [intros _; exact I|intros _; eexists; reflexivity]).
  all: destruct (Z.ltb_spec 9223372036854775807 z); split; intros H'; opens; try lia; try (exists z; split; [reflexivity|lia]);
    match goal with H' : VInt _ = VInt _ |- _ => injection H'; intros; lia end.
Qed.

Lemma ptr_from e v : e <> RRegexp -> (has_type W (type_from (RPtr e)) v <-> if is_nil v then takes_nil e = false else has_type W (type_from e) v).
Proof.
  intros N. transitivity (has_type W (one_of_type 0%nat [type_from e; TNil]) v); [destruct e; (reflexivity || congruence)|].
  rewrite one_from. destruct (is_nil v); [|reflexivity]. rewrite nil_belongs. destruct (takes_nil e); split; congruence.
Qed.

Theorem go_belongs x : forall t v, typed t x -> from_go t x = Done v -> fits v -> (has_type W (type_from t) v <-> belongs t x).
Proof.
  induction x as [ | | | | | | |l IH|m IH|x IH|t' x IH|v'] using gval_ind'; intros t v T F S.
  - assert (v = VNil) as -> by (destruct t as [|[]| | | | | | | |e| | |]; cbn in T, F; try contradiction T; try (injection F as <-; reflexivity); destruct e; injection F as <-; reflexivity).
    rewrite nil_belongs. destruct t as [| | | | | | |e| |e| | |]; cbn in T; try contradiction T; try (cbn; split; (congruence || tauto)).
    + destruct e as [|[]| | | | | | | | | | |]; cbn; split; (congruence || tauto).
    + assert (C : e = RRegexp \/ e <> RRegexp) by (destruct e; (left; reflexivity) || (right; discriminate)).
      destruct C as [->|C]; [cbn; split; (congruence || tauto)|].
      replace (takes_nil (RPtr e)) with (negb (takes_nil e)) by (destruct e; (reflexivity || congruence)).
      replace (belongs (RPtr e) XNil) with (takes_nil e = false) by (destruct e; (reflexivity || congruence)).
      destruct (takes_nil e); cbn; split; congruence.
  - destruct t; cbn in T; try contradiction T. injection F as <-. split; intros _; [exact I|eexists; reflexivity].
  - destruct t; cbn in T; try contradiction T. cbn in F. destruct (to_int k z) as [z'|] eqn:E; [|discriminate F]. injection F as <-. now apply int_from.
  - destruct t; cbn in T; try contradiction T; injection F as <-.
    + cbn. unfold has_type. cbn. split; [intros (g & E & H1 & H2); injection E as ->; now split|]. intros [H1 H2]. eexists. repeat split; eassumption.
    + split; intros _; [exact I|eexists; reflexivity].
  - destruct t; cbn in T; try contradiction T. injection F as <-. split; intros _; [exact I|eexists; reflexivity].
  - destruct t; cbn in T; try contradiction T. injection F as <-. split; intros _; [exact I|do 3 eexists; reflexivity].
  - destruct t; cbn in T; try contradiction T. discriminate F.
  - destruct t as [| | | | | | |e| | | | |]; cbn in T; try contradiction T.
    assert (C : e = RInt KUint8 \/ e <> RInt KUint8) by (destruct e as [|[]| | | | | | | | | | |]; (left; reflexivity) || (right; discriminate)).
    destruct C as [->|C].
    { cbn in F. injection F as <-. cbn [type_from]. rewrite array_from by exact S. cbn [belongs]. split; [intros (? & E & _); discriminate E|tauto]. }
    assert (B : belongs (RSlice e) (XSlice l) <-> Forall (belongs e) l) by (rewrite <- fold_and; destruct e as [|[]| | | | | | | | | | |]; (reflexivity || congruence)).
    rewrite B. clear B.
    assert (FL : exists vs, v = VArr vs /\ Forall2 (fun x v => from_go e x = Done v) l vs).
    { assert (D : e = RValue \/ e <> RValue) by (destruct e; (left; reflexivity) || (right; discriminate)). destruct D as [->|D].
      - cbn in F. destruct (rlist _) as [vs| |] eqn:R; try discriminate F. injection F as <-. exists vs. split; auto. apply rlist_done in R.
        eapply forall2_impl; [|exact R]. intros x y _ H. cbn in H. destruct x; try discriminate H. injection H as <-. reflexivity.
      - assert (F' : rbind (rlist (map (from_go e) l)) (fun vs => Done (VArr vs)) = Done v) by (rewrite <- F; destruct e as [|[]| | | | | | | | | | |]; (reflexivity || congruence)).
        destruct (rlist _) as [vs| |] eqn:R; try discriminate F'. injection F' as <-. exists vs. split; auto. now apply rlist_done. }
    destruct FL as (vs & -> & FL). cbn [type_from]. rewrite array_from by exact S.
    transitivity (Forall (has_type W (type_from e)) vs).
    { split; [intros (l' & E & H); injection E as <-; exact H|]. intros H. exists vs. auto. }
    symmetry. apply forall2_iff. apply fold_and in T. clear F.
    assert (S' : Forall fits vs) by (apply Forall_forall; intros y Hy; now apply fits_elem with vs). clear S.
    revert IH T S'. induction FL as [|x y l vs H FL IHF]; [constructor|]. intros IH T S'. inversion IH; inversion T; inversion S'; subst. constructor; [|auto].
    symmetry. auto.
  - destruct t as [| | | | | | | |k e| | | |]; cbn in T; try contradiction T. destruct T as [T _]. apply fold_and in T. cbn in F.
    destruct (rlist _) as [es| |] eqn:R; try discriminate F. injection F as <-. apply rlist_done in R. cbn [type_from]. rewrite map_from by exact S.
    transitivity (Forall (fun p => has_type W (type_from k) (fst p) /\ has_type W (type_from e) (snd p)) es).
    { split; [intros (l' & E & H); injection E as <-; eapply forall_perm; [apply arranged|exact H]|]. intros H. exists (arrange es). split; auto. eapply forall_perm; [apply Permutation_sym, arranged|exact H]. }
    assert (B : belongs (RMap k e) (XMap m) <-> Forall (fun p => belongs k (fst p) /\ (if finds_itself (fst p) then belongs e (snd p) else takes_nil e = true)) m) by (rewrite <- fold_and; reflexivity).
    rewrite B. clear B. symmetry. apply forall2_iff.
    assert (S' : Forall (fun p => fits (fst p) /\ fits (snd p)) es).
    { apply Forall_forall. intros y Hy. apply fits_entry with (arrange es); [exact S|]. eapply Permutation_in; [apply Permutation_sym, arranged|exact Hy]. }
    clear S. revert IH T S'. induction R as [|x y l vs H FL IHF]; [constructor|]. intros IH T S'. inversion IH as [|? ? [I1 I2]]; inversion T as [|? ? [T1 T2]]; inversion S' as [|? ? [S1 S2]]; subst. constructor; [|auto].
    destruct (from_go k (fst x)) as [a| |] eqn:Ea; try discriminate H.
    2: { destruct (if finds_itself (fst x) then _ else _); discriminate H. }
    rewrite <- (I1 k a) by (auto; destruct (if finds_itself (fst x) then _ else _); try discriminate H; injection H as <-; exact S1).
    destruct (finds_itself (fst x)).
    + destruct (from_go e (snd x)) as [b| |] eqn:Eb; try discriminate H. injection H as <-. cbn [fst snd] in *. rewrite <- (I2 e b); auto. tauto.
    + injection H as <-. cbn [fst snd] in *. rewrite nil_belongs. tauto.
  - destruct t as [| | | | | | | | |e| | |]; cbn in T; try contradiction T.
    assert (C : e = RRegexp \/ e <> RRegexp) by (destruct e; (left; reflexivity) || (right; discriminate)).
    destruct C as [->|C].
    { cbn in T. destruct x; try contradiction T. cbn in F. injection F as <-. split; intros _; [exact I|eexists; reflexivity]. }
    rewrite ptr_from by exact C.
    assert (D : e = RTime \/ e <> RTime) by (destruct e; (left; reflexivity) || (right; discriminate)).
    destruct D as [->|D]; [discriminate F|].
    assert (F' : from_go e x = Done v) by (rewrite <- F; destruct e; (reflexivity || congruence)).
    rewrite (becomes_nil x e v T F').
    assert (B : belongs (RPtr e) (XPtr x) <-> if nil_go x then takes_nil e = false else belongs e x) by (destruct e; (reflexivity || congruence)).
    rewrite B. destruct (nil_go x); [reflexivity|]. now apply IH.
  - destruct t; cbn in T; try contradiction T. cbn. split; intros _; exact I.
  - destruct t; cbn in T; try contradiction T; cbn; (split; [intros H; apply H; exact I|tauto]).
Qed.
End From.
End World.
