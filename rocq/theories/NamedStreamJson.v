(* The JSON text of values with objects of named types is well formed, and is read back. *)
From Coq Require Import ZArith List Bool Lia Floats.SpecFloat.
From Verif Require Import Int64 Utf8 TextSpec Data DataSpec DataProofs Convert ConvertSpec ConvertProofs Graph Stream StreamSpec StreamProofs Json JsonSpec JsonProofs JsonWhole NamedStream NamedStreamSpec NamedStreamProofs.
Import ListNotations.
Open Scope Z_scope.

(* ---------- well formed ---------- *)

Section Tidy.
Variable W : codec.
Variable D : dialect.
Variable C : consumer.
Variable op : options.
Hypothesis no_complex : c_complex C = false.

Lemma seq_tidy f l : Forall (fun x => forall s e s', f x s = Done (e, s') -> tidy e) l -> forall s es s', emit_seq f l s = Done (es, s') -> Forall tidy es.
Proof.
  induction 1 as [|x l Hx Hl IH]; intros s es s' H; cbn in H; [injection H as <- _; constructor|]. undo H. undo H. injection H as <- _. constructor; eauto.
Qed.
Lemma pairs_tidy f fk m : Forall (fun e => (forall s a s', fk (fst e) s = Done (a, s') -> tidy a) /\ (forall s a s', f (snd e) s = Done (a, s') -> tidy a)) m ->
  forall s es s', emit_pairs f fk m s = Done (es, s') -> Forall tidy es.
Proof.
  induction 1 as [|[k x] l [Hk Hx] Hl IH]; intros s es s' H; cbn in H; [injection H as <- _; constructor|]. undo H. undo H. undo H. injection H as <- _. cbn in *. constructor; eauto.
Qed.
Lemma pairs_tidy_keys f fk m : only_strings m -> (forall t s e s', fk (text_key t) s = Done (e, s') -> e = EAdd (VStr t)) ->
  Forall (fun e => forall s a s', f (snd e) s = Done (a, s') -> tidy a) m -> forall s es s', emit_pairs f fk m s = Done (es, s') -> tidy_entries es.
Proof.
  intros St Fk F. induction F as [|[k x] l Hx Hl IH]; intros s es s' H; cbn in H; [injection H as <- _; constructor|]. undo H. undo H. undo H. injection H as <- _.
  inversion St as [|? ? [t Et] Sr]; subst. cbn in Et, Hx. subst. rewrite (Fk _ _ _ _ E). constructor; eauto.
Qed.
Theorem emit_rv_tidy x : string_args x -> forall lv s e s', lv <> MaxDedup -> emit_rv W D C op lv x s = Done (e, s') -> tidy e.
Proof.
  induction x as [v|b|sec nsec zone|l IH|m IH|x IH|t|nm x IH IHm] using rv_ind'; intros S lv s e s' Nm H.
  - cbn [emit_rv] in H. destruct v; try discriminate H; try (injection H as <- _; constructor). now apply string_tidy in H.
  - cbn [emit_rv] in H. destruct (c_binary C); [injection H as <- _; constructor|]. destruct (o_rich op); [|discriminate H]. eapply wrapped_tidy; [|exact H]. intros s1 e1 s2. apply string_tidy.
  - cbn [emit_rv] in H. destruct (c_time C); [injection H as <- _; constructor|]. destruct (o_rich op); [|discriminate H]. eapply wrapped_tidy; [|exact H]. intros s1 e1 s2. apply string_tidy.
  - cbn [emit_rv] in H. undo H. injection H as <- _. constructor. eapply seq_tidy; [|exact E]. cbn [string_args] in S. rewrite every_forall in S. rewrite Forall_forall in *. intros x Ix s1 e1 s2. apply (IH x Ix (S x Ix)). exact Nm.
  - cbn [string_args] in S. rewrite every_forall in S. rewrite Forall_forall in S, IH. cbn [emit_rv] in H. rewrite no_complex in H. cbn [orb] in H. destruct (all_string_keys m) eqn:St.
    + destruct (ref_in D m); [injection H as <- _; constructor|]. undo H. injection H as <- _. constructor. eapply pairs_tidy_keys; [exact (proj1 (string_keys_iff m) St)| | |exact E].
      * intros t s1 e1 s2 H1. cbn [emit_rv text_key] in H1. replace (key_level lv) with NoDedup in H1 by (destruct lv; (reflexivity || now elim Nm)). now apply string_key in H1.
      * rewrite Forall_forall. intros e0 I0 s1 e1 s2. apply (proj2 (IH e0 I0) (proj2 (S e0 I0))). exact Nm.
    + destruct (o_rich op); [|discriminate H]. eapply wrapped_tidy; [|exact H]. intros s1 e1 s2 H1. undo H1. injection H1 as <- _. constructor. eapply pairs_tidy; [|exact E].
      rewrite Forall_forall. intros e0 I0. split; intros s3 e3 s4; [apply (proj1 (IH e0 I0) (proj1 (S e0 I0))); discriminate|apply (proj2 (IH e0 I0) (proj2 (S e0 I0))); exact Nm].
  - cbn [emit_rv] in H. destruct (o_rich op); [|discriminate H]. eapply wrapped_tidy; [|exact H]. intros s1 e1 s2. apply IH; auto.
  - cbn [emit_rv] in H. destruct (o_aliases op); [discriminate H|]. cbn in H. injection H as <- _. repeat constructor.
  - cbn [emit_rv] in H. destruct (o_rich op); [|discriminate H].
    assert (NOTMAP : string_args x -> wrapped D nm (emit_rv W D C op lv x) s = Done (e, s') -> tidy e).
    { intros Sx. apply wrapped_tidy. intros s1 e1 s2. now apply IH. }
    destruct x as [v|b|sec nsec zone|l|m|x|t|nm' x]; try (now apply NOTMAP). clear NOTMAP IH. destruct S as [St S]. rewrite every_forall in S. specialize (IHm m eq_refl). rewrite Forall_forall in S, IHm.
    cbn [add bind] in H. undo H. injection H as <- _. constructor. constructor; [constructor|]. eapply pairs_tidy_keys; [exact St| | |exact E].
    + intros t s1 e1 s2 H1. cbn in H1. now injection H1 as <- _.
    + rewrite Forall_forall. intros e0 I0 s1 e1 s2. apply (proj2 (IHm e0 I0) (S e0 I0)). exact Nm.
Qed.
End Tidy.

Theorem named_well_formed whole W D x ts : string_args x -> marshal_rv whole W D x = Done ts -> json_value ts.
Proof.
  intros S H. unfold marshal_rv in H. undo H. undo H. injection H as <-. unfold emits_rv in E. undo E. injection E as <-.
  apply emit_rv_tidy in E1; auto; [|discriminate]. destruct (write_well_formed whole _ E1 _ _ E0) as (ts' & R & J). cbn in R. injection R as -> _. exact J.
Qed.

(* ---------- read back ---------- *)

Section Sent.
Variable W : codec.
Variable D : dialect.
Variable C : consumer.
Variable op : options.
Variable whole : spec_float -> option Z.
Hypothesis C_json : c_complex C = false /\ c_binary C = false /\ c_time C = false.
Hypothesis D_json : json_dialect D.
Notation fine' := (fine D whole).
Notation all_fine' := (all_fine D whole).

Lemma seq_fine f l : Forall (fun x => forall s e s', f x s = Done (e, s') -> fine' s e s') l -> forall s es s', emit_seq f l s = Done (es, s') -> all_fine' s es s'.
Proof.
  induction 1 as [|x l Hx Hl IH]; intros s es s' H K; cbn in H.
  - injection H as <- <-. split; [exact K|]. split; [cbn; lia|constructor].
  - undo H. undo H. injection H as <- <-. destruct (Hx _ _ _ E K) as (K1 & N1 & R1). destruct (IH _ _ _ E0 K1) as (K2 & N2 & R2). split; [exact K2|]. split; [cbn; lia|].
    intros B. constructor; [apply R1; lia|now apply R2].
Qed.
Lemma pairs_fine f fk m : Forall (fun e => (forall s a s', fk (fst e) s = Done (a, s') -> fine' s a s') /\ (forall s a s', f (snd e) s = Done (a, s') -> fine' s a s')) m ->
  forall s es s', emit_pairs f fk m s = Done (es, s') -> all_fine' s es s'.
Proof.
  induction 1 as [|[k x] l [Hk Hx] Hl IH]; intros s es s' H K; cbn in H.
  - injection H as <- <-. split; [exact K|]. split; [cbn; lia|constructor].
  - undo H. undo H. undo H. injection H as <- <-. cbn [fst snd] in *. destruct (Hk _ _ _ E K) as (K1 & N1 & R1). destruct (Hx _ _ _ E0 K1) as (K2 & N2 & R2). destruct (IH _ _ _ E1 K2) as (K3 & N3 & R3).
    split; [exact K3|]. split; [cbn; lia|]. intros B. constructor; [apply R1; lia|]. constructor; [apply R2; lia|now apply R3].
Qed.
Theorem emit_rv_fine x : jsonable W D whole x -> string_args x -> forall lv s e s', lv <> MaxDedup -> emit_rv W D C op lv x s = Done (e, s') -> fine' s e s'.
Proof.
  destruct C_json as (Cc & Cb & Ct). pose proof D_json as (U1 & U2 & U3 & U4 & U5 & U6 & U7 & Ne).
  induction x as [v|b|sec nsec zone|l IH|m IH|x IH|t|nm x IH IHm] using rv_ind'; intros J S lv s e s' Nm H.
  - cbn [emit_rv jsonable] in *. destruct v; try discriminate H; try contradiction J; try (injection H as <- <-; now apply add_fine). exact (string_fine D C whole lv _ s e s' J H).
  - cbn [emit_rv jsonable] in *. rewrite Cb in H. destruct (o_rich op); [|discriminate H]. eapply wrapped_fine; [| | |exact H]; auto. intros s1 e1 s2. apply string_fine. now apply binary_utf8.
  - cbn [emit_rv jsonable] in *. rewrite Ct in H. destruct (o_rich op); [|discriminate H]. eapply wrapped_fine; [| | |exact H]; auto. intros s1 e1 s2. now apply string_fine.
  - cbn [emit_rv jsonable string_args] in *. rewrite every_forall in J, S. rewrite Forall_forall in J, S, IH. undo H. injection H as <- <-. intros K.
    destruct (seq_fine (emit_rv W D C op lv) l) with (s := bump s) (es := l0) (s' := s0) as (K1 & N1 & R1); auto using bump_known.
    { rewrite Forall_forall. intros x Ix s1 e1 s2. apply IH; auto. }
    split; [exact K1|]. split; [cbn in *; lia|]. intros B. constructor. now apply R1.
  - cbn [jsonable string_args] in J, S. destruct J as [J Jr]. rewrite every_forall in J, S. rewrite Forall_forall in J, S, IH. cbn [emit_rv] in H. rewrite Cc in H. cbn [orb] in H.
    destruct (all_string_keys m) eqn:St.
    + rewrite ref_in_none in H by (intros i ->; now apply (Jr _ _ _ eq_refl)). undo H. injection H as <- <-. intros K.
      destruct (pairs_fine (emit_rv W D C op lv) (emit_rv W D C op (key_level lv)) m) with (s := bump s) (es := l) (s' := s0) as (K1 & N1 & R1); auto using bump_known.
      { rewrite Forall_forall. intros e0 I0. destruct (IH e0 I0) as [I1 I2], (J e0 I0) as [J1 J2], (S e0 I0) as [S1 S2]. split; intros s1 e1 s2; [apply I1; auto; (destruct lv; (discriminate || assumption))|now apply I2]. }
      split; [exact K1|]. split; [cbn in *; lia|]. intros B.
      assert (First : forall e0 r, l = e0 :: r -> exists k v r', m = (text_key k, v) :: r' /\ e0 = EAdd (VStr k)).
      { intros e0 r ->. destruct m as [|[k v] m]; cbn in E; [discriminate|]. apply (proj1 (string_keys_iff _)) in St. inversion St as [|? ? [t Et] _]; subst. cbn in Et. subst. undo E. undo E. undo E. injection E as <- _. exists t, v, m. split; [reflexivity|].
        cbn [emit_rv text_key] in E0. replace (key_level lv) with NoDedup in E0 by (destruct lv; (reflexivity || now elim Nm)). now apply string_key in E0. }
      apply rd_map; [now apply R1| |].
      * intros k r Er. destruct (First _ _ Er) as (k' & v & r' & Em & [= ->]). exact (Jr _ _ _ Em).
      * intros e0 r Er. destruct (First _ _ Er) as (k' & v & r' & Em & ->). eauto.
    + destruct (o_rich op); [|discriminate H]. eapply wrapped_fine; [| | |exact H]; auto. intros s1 e1 s2 H1 K. undo H1. injection H1 as <- <-.
      destruct (pairs_fine (emit_rv W D C op lv) (emit_rv W D C op NoDedup) m) with (s := bump s1) (es := l) (s' := s0) as (K1 & N1 & R1); auto using bump_known.
      { rewrite Forall_forall. intros e0 I0. destruct (IH e0 I0) as [I1 I2], (J e0 I0) as [J1 J2], (S e0 I0) as [S1 S2]. split; intros s3 e3 s4; [apply I1; auto; discriminate|now apply I2]. }
      split; [exact K1|]. split; [cbn in *; lia|]. intros B. constructor. now apply R1.
  - cbn [emit_rv jsonable string_args] in *. destruct (o_rich op); [|discriminate H]. eapply wrapped_fine; [| | |exact H]; auto. intros s1 e1 s2. now apply IH.
  - cbn [emit_rv jsonable] in *. destruct (o_aliases op); [discriminate H|]. cbn in H. injection H as <- <-. intros K. split; [do 3 apply bump_known; exact K|]. split; [cbn; lia|]. intros _. apply rd_map.
    + repeat constructor; auto.
    + intros k r [= <- _]. exact Ne.
    + intros e1 r [= <- _]. eauto.
  - cbn [emit_rv] in H. destruct (o_rich op); [|discriminate H]. destruct J as [Jn J].
    assert (NOTMAP : jsonable W D whole x -> string_args x -> wrapped D nm (emit_rv W D C op lv x) s = Done (e, s') -> fine' s e s').
    { intros Jx Sx Hx. eapply wrapped_fine; [| | |exact Hx]; auto. intros s1 e1 s2. now apply IH. }
    destruct x as [v|b|sec nsec zone|l|m|x|t|nm' x]; try (now apply NOTMAP). clear NOTMAP IH. destruct S as [St S]. rewrite every_forall in J, S. specialize (IHm m eq_refl). rewrite Forall_forall in J, S, IHm.
    cbn [add bind] in H. undo H. injection H as <- <-. intros K.
    destruct (pairs_fine (emit_rv W D C op lv) raw_key m) with (s := bump (bump (bump s))) (es := l) (s' := s0) as (K1 & N1 & R1); auto using bump_known.
    { unfold only_strings in St. rewrite Forall_forall in *. intros e0 I0. destruct (IHm e0 I0) as [_ I2], (J e0 I0) as [J1 J2]. split; [|intros s1 e1 s2; apply I2; auto].
      intros s1 e1 s2 H1. destruct (St e0 I0) as [t Et]. rewrite Et in *. cbn in H1. injection H1 as <- <-. now apply add_fine. }
    split; [exact K1|]. split; [cbn in *; lia|]. intros B. apply rd_map.
    + constructor; [constructor; exact U1|]. constructor; [constructor; exact Jn|]. now apply R1.
    + intros k r [= <- _]. exact Ne.
    + intros e1 r [= <- _]. eauto.
Qed.
End Sent.

Theorem named_json_round_trip whole to_float W D M x : proper D -> json_dialect D -> streamable W D json_consumer M x -> string_args x -> jsonable W D whole x ->
  exists e, emits_rv W D json_consumer json_options NoKeyDedup x = Done e /\
    (Z.of_nat (calls e) <= max_int64 ->
     exists ts, marshal_rv whole W D x = Done ts /\ json_value ts /\ forall n, (length ts <= n)%nat -> unmarshal_rv to_float W D M n ts = Done x).
Proof.
  intros Dp Dj S A J. destruct (named_round_trip W D json_consumer json_options M Dp eq_refl eq_refl NoKeyDedup x S) as (e & E & De). exists e. split; [exact E|]. intros B.
  assert (R : readable whole (d_ref D) e).
  { unfold emits_rv in E. undo E. injection E as <-. destruct (emit_rv_fine W D json_consumer json_options whole (conj eq_refl (conj eq_refl eq_refl)) Dj x J A NoKeyDedup _ _ _ ltac:(discriminate) E0) as (_ & Nx & R);
    [intros k i Z; discriminate Z|]. apply R. rewrite Nx. exact B. }
  destruct (read_write whole to_float (d_ref D) ltac:(apply Dj) e R) as (ts & st & Wr & Rd). exists ts.
  assert (Mr : marshal_rv whole W D x = Done ts) by (unfold marshal_rv; rewrite E; cbn [bind]; rewrite Wr; reflexivity).
  split; [exact Mr|]. split; [now apply (named_well_formed whole W D x)|]. intros n L. unfold unmarshal_rv. rewrite (Rd n L). exact De.
Qed.

(* ---------- a text that is not well formed ---------- *)

(* every colon comes after a string *)
Fixpoint colons (b : bool) (ts : list token) : bool :=
  match ts with
  | [] => true
  | JColon :: r => b && colons false r
  | JString _ :: r => colons true r
  | _ :: r => colons false r
  end.
Scheme jv_mut := Minimality for json_value Sort Prop with je_mut := Minimality for json_elements Sort Prop with jm_mut := Minimality for json_members Sort Prop.
Combined Scheme json_mut from jv_mut, je_mut, jm_mut.
Lemma json_colons :
  (forall ts, json_value ts -> forall b r, exists b', colons b (ts ++ r) = colons b' r) /\
  (forall ts, json_elements ts -> forall b r, exists b', colons b (ts ++ r) = colons b' r) /\
  (forall ts, json_members ts -> forall b r, exists b', colons b (ts ++ r) = colons b' r).
Proof.
  apply json_mut; intros; cbn [app colons andb]; try (eexists; reflexivity).
  - rewrite <- app_assoc. destruct (H0 false ([JCloseArray] ++ r)) as [b' ->]. eexists. reflexivity.
  - rewrite <- app_assoc. destruct (H0 false ([JCloseObject] ++ r)) as [b' ->]. eexists. reflexivity.
  - apply H0.
  - rewrite <- app_assoc. destruct (H0 b ((JComma :: r) ++ r0)) as [b' ->]. cbn [app colons]. apply H2.
  - apply H0.
  - rewrite <- app_assoc. destruct (H0 false ((JComma :: r) ++ r0)) as [b' ->]. cbn [app colons]. apply H2.
Qed.
Lemma colons_malformed ts : colons false ts = false -> ~ json_value ts.
Proof. intros F V. destruct (proj1 json_colons ts V false []) as [b' E]. rewrite app_nil_r in E. rewrite F in E. discriminate E. Qed.
