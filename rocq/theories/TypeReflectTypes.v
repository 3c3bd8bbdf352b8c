(* Types and the Go variables for their values: ReflectType of TypeReflect.v. *)
From Coq Require Import ZArith List Bool Lia.
From Coq Require Import Floats.SpecFloat.
From Coq Require Import Sorting.Permutation.
From Verif Require Import Int64 HMap HMapBase Data DataSpec DataProofs Arr EqProofs Types TypesSpec TypesCor InstProofs Construct Convert ConvertSpec ConvertProofs Reflect ReflectSpec ReflectProofs TypeReflect TypeReflectSpec TypeReflectProofs.
Import ListNotations.
Open Scope Z_scope.

(* ---------- Unique does not fail ---------- *)

Lemma unique_loop_some {A} (eq : A -> A -> bool) h a : forall tbl, (forall x, 0 <= bucket_of (Z.of_nat (length tbl)) x < Z.of_nat (length tbl)) ->
  exists u, unique_loop A eq h tbl a = Some u.
Proof.
  induction a as [|k r IH]; intros tbl Hb; cbn [unique_loop]; [eauto|].
  destruct (nth_error tbl _) as [chain|] eqn:E; [|apply nth_error_None in E; specialize (Hb (h k)); lia].
  destruct (in_chain A eq k chain); [now apply IH|].
  destruct (IH (upd tbl (Z.to_nat (bucket_of (Z.of_nat (length tbl)) (h k))) (k :: chain))) as [u ->]; [rewrite upd_length; exact Hb|eauto].
Qed.
Lemma unique_some {A} (eq : A -> A -> bool) h a : exists u, unique A eq h a = Some u.
Proof.
  unfold unique. destruct (length a <? 2)%nat; [eauto|]. apply unique_loop_some. intros x.
  set (n := tableSizeFor (Z.of_nat (length a) * 4 / 3)). assert (Hn : 0 < n) by (destruct (bucket_in_table (Z.of_nat (length a) * 4 / 3) 0); subst n; lia).
  rewrite repeat_length, Z2Nat.id by lia. apply bucket_in_table.
Qed.

(* ---------- the common Go type ---------- *)

Definition good_type (g : gty) : Prop := wide g = true /\ g <> RInt KUint8 /\ g <> RValue.
Lemma good_any : good_type RAny. Proof. repeat split; discriminate. Qed.
Lemma common_reflect_spec l : Forall (fun r => exists g, r = Done (Some g) /\ g <> RValue) l -> forall p, p <> RValue ->
  exists g, common_reflect (Some p) l = Done (Some g) /\ (g = RAny \/ (g = p /\ Forall (fun r => r = Done (Some g)) l)).
Proof.
  induction 1 as [|r l (g & -> & Ng) H IH]; intros p Np; [exists p; split; auto|]. cbn [common_reflect rbind].
  destruct (assignable_to g p) eqn:A1; [|destruct (assignable_to p g) eqn:A2].
  - destruct (IH p Np) as (g' & E & C). exists g'. split; [exact E|]. destruct C as [-> |[-> F]]; [now left|]. destruct (assignable_eq _ _ Np A1) as [-> | ->]; [now left|]. right. split; auto.
  - destruct (IH g Ng) as (g' & E & C). exists g'. split; [exact E|]. destruct C as [-> |[-> F]]; [now left|]. destruct (assignable_eq _ _ Ng A2) as [-> | ->]; [now left|]. right. split; auto.
  - exists RAny. auto.
Qed.
Lemma common_all l : l <> [] -> Forall (fun r => exists g, r = Done (Some g) /\ good_type g) l ->
  exists g, common_reflect None l = Done (Some g) /\ good_type g /\ (g = RAny \/ Forall (fun r => r = Done (Some g)) l).
Proof.
  intros N H. destruct H as [|r l (g & -> & Gg) H]; [congruence|]. cbn [common_reflect rbind].
  destruct (common_reflect_spec l) with (p := g) as (g' & E & C); [eapply Forall_impl; [|exact H]; intros r (x & -> & (_ & _ & B)); eauto|apply Gg|].
  exists g'. split; [exact E|]. destruct C as [-> |[-> F]]; [split; [apply good_any|now left]|]. split; [exact Gg|right; auto].
Qed.

(* ---------- the Go types of types ---------- *)

Lemma wide_comparable k : wide_key k = true -> comparable k = true. Proof. destruct k; (reflexivity || discriminate). Qed.
Lemma wide_key_good k : wide_key k = true -> good_type k.
Proof. destruct k as [|[]| | | | | | | | | | |]; try discriminate; intros _; repeat split; discriminate. Qed.
Lemma value_good v : portable v -> exists g, value_reflect v = Done (Some g) /\ good_type g.
Proof.
  intros P. destruct (reflect_wide v P) as (g & E & Wg & _ & N). exists g. unfold value_reflect. rewrite E. split; [reflexivity|]. repeat split; auto.
  intros ->. now apply (reflect_not_value v).
Qed.
Lemma key_value_good v : simple_key v = true -> exists g, value_reflect v = Done (Some g) /\ wide_key g = true.
Proof. intros P. destruct (key_reflect v P) as (g & E & Wg). exists g. unfold value_reflect. now rewrite E. Qed.
Lemma key_good t : key_kind t -> exists g, reflect_ty t = Done (Some g) /\ wide_key g = true.
Proof.
  assert (ALL : forall ts, Forall (fun t => key_kind t -> exists g, reflect_ty t = Done (Some g) /\ wide_key g = true) ts ->
    ts <> [] /\ fold_right and True (map key_kind ts) -> exists g, common_reflect None (map reflect_ty ts) = Done (Some g) /\ wide_key g = true).
  { intros ts IH [N K]. apply fold_and in K.
    assert (H : Forall (fun r => exists g, r = Done (Some g) /\ wide_key g = true) (map reflect_ty ts)) by (rewrite Forall_map, Forall_forall in *; auto).
    destruct (common_all (map reflect_ty ts)) as (g & E & _ & C); [destruct ts; discriminate || congruence| |].
    { eapply Forall_impl; [|exact H]. intros r (g & -> & Wg). exists g. split; auto using wide_key_good. }
    exists g. split; [exact E|]. destruct C as [-> |C]; [reflexivity|]. destruct ts as [|t0 ts]; [congruence|]. inversion C as [|? ? E1 _]; subst. inversion H as [|? ? (g' & E2 & Wg) _]; subst. congruence. }
  induction t as [ | | | |x y i| |x y i| | |x y|s|s|x y| | |p v|p t IHt| |p e x y IHe|p ts b IHts| |p k v x y IHk IHv|p a es IHes|p ts IHts|p vs|p ts IHts|p ts IHts|p t IHt| |t IHt] using ty_ind';
    cbn [key_kind]; intros K; try (exfalso; exact K); try (eexists; split; reflexivity); try (now apply ALL).
  now apply key_value_good.
Qed.

(* the element type of a tuple *)
Definition elements_reflect (ps : list (ty * res (option gty))) : res (option gty) :=
  match ps with
  | [] => Done (Some RAny)
  | [p] => snd p
  | ps => match unique (ty * res (option gty)) (fun p q => type_eq (fst p) (fst q)) (fun p => thash (fst p)) ps with
          | None => Panic
          | Some [p] => snd p
          | Some us => common_reflect None (map snd us)
          end
  end.
Lemma tuple_reflect p ts b : reflect_ty (TTuple p ts b) = rbind (elements_reflect (map (fun t => (t, reflect_ty t)) ts)) slice_of.
Proof. destruct ts as [|t1 [|t2 ts]]; reflexivity. Qed.
Lemma elements_good ps : Forall (fun p => exists g, snd p = Done (Some g) /\ good_type g) ps ->
  exists g, elements_reflect ps = Done (Some g) /\ good_type g /\
    (g = RAny \/ exists us, Forall (fun q => In q ps /\ snd q = Done (Some g)) us /\ forall p, In p ps -> exists q, In q us /\ (q = p \/ type_eq (fst p) (fst q) = true)).
Proof.
  intros H. destruct ps as [|p [|p2 ps]]; [exists RAny; split; [reflexivity|split; [apply good_any|now left]]| |].
  - inversion H as [|? ? (g & E & Gg) _]; subst. exists g. split; [exact E|]. split; [exact Gg|]. right. exists [p]. split; [constructor; [split; [now left|exact E]|constructor]|].
    intros q [<- |[]]. exists p. split; [now left|now left].
  - set (l := p :: p2 :: ps) in *. change (elements_reflect l) with (match unique (ty * res (option gty)) (fun p q => type_eq (fst p) (fst q)) (fun p => thash (fst p)) l with
          | None => Panic
          | Some [p] => snd p
          | Some us => common_reflect None (map snd us)
          end).
    destruct (unique_some (fun p q : ty * res (option gty) => type_eq (fst p) (fst q)) (fun p => thash (fst p)) l) as [us U]. rewrite U.
    pose proof (unique_nonempty _ _ _ _ U ltac:(discriminate)) as Nu. destruct (unique_covers _ _ _ _ U) as [U1 U2].
    assert (G : Forall (fun p => exists g, snd p = Done (Some g) /\ good_type g) us) by (apply Forall_forall; rewrite Forall_forall in H; auto).
    assert (C : forall g, Forall (fun q => snd q = Done (Some g)) us -> exists us, Forall (fun q => In q l /\ snd q = Done (Some g)) us /\ forall p, In p l -> exists q, In q us /\ (q = p \/ type_eq (fst p) (fst q) = true)).
    { intros g F. exists us. split; [rewrite Forall_forall in *; auto|]. intros q Hq. destruct (U2 q Hq) as [Hu|(u & Hu & E)]; [exists q|exists u]; split; auto. }
    destruct us as [|q [|q' us]]; [congruence| |].
    + inversion G as [|? ? (g & E & Gg) _]; subst. exists g. split; [exact E|]. split; [exact Gg|]. right. apply C. auto.
    + destruct (common_all (map snd (q :: q' :: us))) as (g & E & Gg & Cg); [discriminate|rewrite Forall_map; exact G|]. exists g. split; [exact E|]. split; [exact Gg|].
      destruct Cg as [-> |Cg]; [now left|]. right. apply C. rewrite Forall_map in Cg. exact Cg.
Qed.

Theorem reflect_total t : storable t -> exists g, reflect_ty t = Done (Some g) /\ good_type g.
Proof.
  assert (ALL : forall ts, Forall (fun t => storable t -> exists g, reflect_ty t = Done (Some g) /\ good_type g) ts ->
    ts <> [] -> Forall storable ts -> exists g, common_reflect None (map reflect_ty ts) = Done (Some g) /\ good_type g).
  { intros ts IH N K.
    assert (H : Forall (fun r => exists g, r = Done (Some g) /\ good_type g) (map reflect_ty ts)) by (rewrite Forall_map, Forall_forall in *; auto).
    destruct (common_all (map reflect_ty ts)) as (g & E & Gg & C); [destruct ts; discriminate || congruence|exact H|]. eauto. }
  induction t as [ | | | |x y i| |x y i| | |x y|s|s|x y| | |p v|p t IHt| |p e x y IHe|p ts b IHts| |p k v x y IHk IHv|p a es IHes|p ts IHts|p vs|p ts IHts|p ts IHts|p t IHt| |t IHt] using ty_ind';
    unfold storable; cbn [ty_all storable_node]; intros [K S]; try (exfalso; exact K); try (eexists; split; [reflexivity|repeat split; discriminate]);
    try (apply ALL; [assumption|exact K|apply fold_and; exact S]).
  - now apply value_good.
  - destruct (IHe S) as (g & E & Wg & N & _). cbn [reflect_ty]. rewrite E. exists (RSlice g). split; [reflexivity|]. split; [|split; discriminate].
    cbn [wide]. destruct g as [|[]| | | | | | | | | | |]; auto.
  - apply fold_and in S. cbn [reflect_ty].
    destruct (elements_good (map (fun t => (t, reflect_ty t)) ts)) as (g & E & (Wg & N & _) & _);
      [rewrite Forall_map; rewrite Forall_forall in *; intros t Ht; exact (IHts t Ht (S t Ht))|].
    change (exists g, reflect_ty (TTuple p ts b) = Done (Some g) /\ good_type g). rewrite tuple_reflect, E. cbn [rbind slice_of]. exists (RSlice g). split; [reflexivity|]. split; [|split; discriminate]. cbn [wide]. destruct g as [|[]| | | | | | | | | | |]; auto.
  - destruct S as [Sk Sv]. destruct (key_good k K) as (gk & Ek & Wk). destruct (IHv Sv) as (gv & Ev & Wv & Nv & _). cbn [reflect_ty]. rewrite Ek, Ev. cbn [rbind map_of_types]. unfold map_of.
    rewrite (wide_comparable gk Wk). cbn [rbind]. exists (RMap gk gv). split; [reflexivity|]. split; [cbn [wide]; now rewrite Wk|split; discriminate].
  - destruct K as [_ K]. apply fold_and in S. cbn [reflect_ty]. destruct es as [|e0 es]; [eexists; split; [reflexivity|repeat split; discriminate]|]. set (l := e0 :: es) in *.
    assert (HK : Forall (fun r => exists g, r = Done (Some g) /\ wide_key g = true) (map (fun e : value * ty * bool => value_reflect (fst (fst e))) l)).
    { rewrite Forall_map. eapply Forall_impl; [|exact K]. intros e. apply key_value_good. }
    destruct (common_all (map (fun e : value * ty * bool => value_reflect (fst (fst e))) l)) as (gk & Ek & _ & Ck); [discriminate| |].
    { eapply Forall_impl; [|exact HK]. intros r (g & -> & Wg). exists g. split; auto using wide_key_good. }
    assert (Wk : wide_key gk = true). { destruct Ck as [-> |C]; [reflexivity|]. inversion C as [|? ? E1 _]; subst. inversion HK as [|? ? (g' & E2 & Wg) _]; subst. congruence. }
    destruct (common_all (map (fun e : value * ty * bool => reflect_ty (snd (fst e))) l)) as (gv & Ev & (Wv & Nv & _) & _); [discriminate| |].
    { rewrite Forall_map. rewrite Forall_forall in *. intros e He. apply IHes; auto. apply S. exact He. }
    rewrite Ek, Ev. cbn [rbind map_of_types]. unfold map_of. rewrite (wide_comparable gk Wk). cbn [rbind]. exists (RMap gk gv). split; [reflexivity|]. split; [cbn [wide]; now rewrite Wk|split; discriminate].
  - destruct K as [N K]. cbn [reflect_ty]. destruct (common_all (map value_reflect vs)) as (g & E & Gg & _); [destruct vs; discriminate || congruence| |eauto].
    rewrite Forall_map. eapply Forall_impl; [|exact K]. intros v. apply value_good.
Qed.
