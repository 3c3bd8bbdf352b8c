(* Assignable is sound on the types described in TypesSpec.v when the recursion guard is not hit. *)
From Coq Require Import ZArith List Bool Lia Permutation.
From Coq Require Import Floats.SpecFloat.
From Verif Require Import Int64 HMap Data DataSpec DataProofs Arr Types TypesSpec InstProofs GuardProofs SemProofs EqProofs SubProofs Assign.
Import ListNotations.
Open Scope Z_scope.

(* ---------- a hit is not forgotten ---------- *)

Lemma mono_andm m n : mono m -> mono n -> mono (andm m n).
Proof. apply mon_andm; auto using mono_ret, mono_bind. Qed.
Lemma mono_orm m n : mono m -> mono n -> mono (orm m n).
Proof. apply mon_orm; auto using mono_ret, mono_bind. Qed.
Lemma mono_notm m : mono m -> mono (notm m).
Proof. apply mon_notm; auto using mono_ret, mono_bind. Qed.
Lemma mono_all {A} (f : A -> M bool) l : (forall x, mono (f x)) -> mono (all_m f l).
Proof. apply mon_all; auto using mono_ret, mono_bind. Qed.
Lemma mono_any {A} (f : A -> M bool) l : (forall x, mono (f x)) -> mono (any_m f l).
Proof. apply mon_any; auto using mono_ret, mono_bind. Qed.
Lemma mono_one {A} (f : A -> M bool) l b : (forall x, mono (f x)) -> mono (one_m f b l).
Proof. apply mon_one; auto using mono_ret, mono_bind. Qed.
Lemma mono_new_types vs : mono (new_types vs).
Proof.
  induction vs; cbn; [apply mono_ret|]. apply mono_bind; [apply mono_fresh|]. intros. apply mono_bind; auto. intros. apply mono_ret.
Qed.
Lemma mono_scan R want bts matched i : (forall t, mono (R t)) -> mono (scan R want bts matched i).
Proof.
  intros H. revert matched i. induction bts as [|t r IH]; intros [|m matched] i; cbn; try apply mono_ret.
  destruct (Bool.eqb m want); auto. apply mono_bind; auto. intros []; auto using mono_ret.
Qed.
Lemma mono_match_all R ats bts matched : (forall a b, mono (R a b)) -> mono (match_all R ats bts matched).
Proof.
  intros H. revert matched. induction ats as [|t r IH]; intros matched; cbn; [apply mono_ret|].
  apply mono_bind; [now apply mono_scan|]. intros [i|]; auto.
  apply mono_bind; [now apply mono_scan|]. intros [j|]; auto using mono_ret.
Qed.
Lemma mono_no_lessening R ats bts matched : (forall a b, mono (R a b)) -> mono (no_lessening R ats bts matched).
Proof.
  intros H. revert matched. induction bts as [|t r IH]; intros [|m matched]; cbn; try apply mono_ret.
  destruct m; auto. apply mono_andm; auto. apply mono_notm, mono_any. auto.
Qed.
Lemma mono_less_restrictive R ats bts : (forall a b, mono (R a b)) -> mono (less_restrictive R ats bts).
Proof.
  intros H. apply mono_bind; [now apply mono_match_all|]. intros [m|]; [|apply mono_ret].
  apply mono_with_guard. now apply mono_no_lessening.
Qed.
Lemma mono_tuple_loop {A} (R : A -> A -> M bool) n ts os tv ov : (forall a b, mono (R a b)) -> mono (tuple_loop R n ts os tv ov).
Proof.
  intros H. revert ts os. induction n as [|n IH]; intros ts os; cbn; [apply mono_ret|].
  destruct (match ts with t :: _ => Some t | [] => tv end); [|apply mono_ret].
  destruct (match os with t :: _ => Some t | [] => ov end); [|apply mono_ret]. apply mono_andm; auto.
Qed.
Lemma mono_struct_assignable R ad es oad os oc : (forall a b, mono (R a b)) -> mono (struct_assignable R ad es oad os oc).
Proof.
  intros H. revert oc. induction es as [|[[k t] rq] r IH]; intros oc; cbn; [apply mono_ret|].
  destruct (struct_find k os) as [[o orq]|].
  - destruct (rq && negb orq); [apply mono_ret|]. apply mono_bind; auto. intros []; auto using mono_ret.
  - destruct (rq || oad); auto using mono_ret.
Qed.
Lemma mono_element_type t : mono (element_type t).
Proof.
  destruct t; cbn; auto using mono_ret.
  - destruct v; auto using mono_ret. destruct l as [|x [|y l]]; try apply mono_ret; apply mono_fresh.
  - destruct ts as [|x [|y l]]; auto using mono_ret.
    destruct (unique _ _ _ _) as [[|u [|u' us]]|]; auto using mono_ret, mono_fail; apply mono_fresh.
Qed.
Lemma mono_key_type t : mono (key_type t).
Proof.
  destruct t; cbn; auto using mono_ret.
  - destruct v as [ | | | | | | | | | |m]; auto using mono_ret. destruct m; try apply mono_ret; apply mono_fresh.
  - destruct es as [|x [|y l]]; try apply mono_ret; apply mono_fresh.
Qed.
Lemma mono_value_type t : mono (value_type t).
Proof.
  destruct t; cbn; auto using mono_ret.
  - destruct v as [ | | | | | | | | | |m]; auto using mono_ret. destruct m; try apply mono_ret; apply mono_fresh.
  - destruct es as [|x [|y l]]; try apply mono_ret; apply mono_fresh.
Qed.

Create HintDb mono_db.
#[local] Hint Resolve mono_ret mono_fail mono_bind mono_fresh mono_with_guard mono_andm mono_orm mono_notm mono_all mono_any mono_one
  mono_new_types mono_less_restrictive mono_tuple_loop mono_struct_assignable mono_element_type mono_key_type mono_value_type : mono_db.

Section Mono.
Variables (R : bool -> ty -> ty -> M bool) (I : ty -> value -> M bool) (W : world).
Hypothesis HR : forall fn a b, mono (R fn a b).
Hypothesis HI : forall t v, mono (I t v).

Lemma mono_check b a : mono (check_assignable_to R b a).
Proof.
  destruct b; cbn; auto with mono_db; apply mono_with_guard; auto with mono_db.
  apply mono_all. intros v. apply mono_bind; [apply mono_fresh|]. auto.
Qed.

Ltac split_match :=
  repeat match goal with |- mono (match ?x with _ => _ end) => destruct x end.

Lemma mono_deep_assignable_to a b : mono (deep_assignable_to R I a b).
Proof.
  pose proof mono_check as C.
  destruct a; cbn [deep_assignable_to]; try apply mono_ret; auto with mono_db.
  - destruct b; auto.
  - assert (K : forall o, mono (match o with Some (bmin, bmax) => if (min <=? bmin) && (bmax <=? max)
                   then bind (element_type b) (R false a) else ret false | None => check_assignable_to R b (TArrSized p a min max) end)).
    { intros [[x y]|]; auto. destruct (_ && _); auto with mono_db. }
    destruct b; try apply K; apply mono_ret.
  - destruct b; auto with mono_db.
    + destruct v; auto.
    + unfold tuple_assignable_array. cbn zeta. destruct (_ && _); [|apply mono_ret]. apply mono_andm; auto with mono_db.
      destruct variadic; [|apply mono_ret]. destruct (tuple_rest ts true); auto with mono_db.
    + unfold tuple_assignable_tuple. cbn zeta. destruct (_ || _); auto with mono_db.
  - destruct (map_bounds b) as [[x y]|]; auto. destruct (_ && _); auto with mono_db.
  - destruct b; auto with mono_db. destruct v; auto.
  - destruct b; auto with mono_db.
  - destruct b; auto with mono_db; apply mono_all; intros ?; apply mono_bind; auto with mono_db; apply mono_fresh.
  - destruct ts; auto with mono_db.
  - destruct ts; auto with mono_db.
Qed.

Lemma mono_flat_assignable_to a b : mono (flat_assignable_to W R a b).
Proof.
  pose proof mono_check as C.
  destruct a; cbn [flat_assignable_to]; try apply mono_ret; auto with mono_db;
    try (destruct b; auto with mono_db; destruct v; auto with mono_db; fail).
  - destruct b; auto with mono_db; [|destruct v; auto with mono_db]. destruct (_ <? _); auto with mono_db.
  - destruct b; auto with mono_db; [|destruct v; auto with mono_db]. destruct (SFltb _ _); auto with mono_db. destruct (_ || _); auto with mono_db.
Qed.
End Mono.

Section World.
Variable W : world.

Lemma asgn_mono n : forall fn a b, mono (asgn W n fn a b).
Proof.
  induction n as [|n IH]; intros fn a b; cbn [asgn]; [apply mono_fail|].
  assert (D : forall x y both, mono (enter x y both (deep_assignable_to (asgn W n) (instn W n true) a b))).
  { intros. apply mono_enter, mono_deep_assignable_to; auto. intros. apply instn_mono. }
  assert (F : mono (with_nil (flat_assignable_to W (asgn W n) a b))) by (apply mono_with_guard, mono_flat_assignable_to; auto).
  destruct fn.
  - destruct (same_type a b); [apply mono_ret|]. destruct (deep_assignable a); auto.
  - destruct (deep_assignable a); auto. destruct a; apply mono_with_guard; auto.
Qed.

(* ---------- what a result of true implies ---------- *)

Definition ok (m : M bool) (Q : Prop) : Prop := yields m (fun r => r = true -> Q).

Lemma ok_ret (b : bool) (Q : Prop) : (b = true -> Q) -> ok (ret b) Q.
Proof. intros H. now apply yields_ret. Qed.
Lemma ok_false (Q : Prop) : ok (ret false) Q.
Proof. apply ok_ret. discriminate. Qed.
Lemma ok_imp m (P Q : Prop) : ok m P -> (P -> Q) -> ok m Q.
Proof. intros H HPQ. eapply yields_imp; [exact H|]. cbn. auto. Qed.
Lemma ok_andm m n (P Q : Prop) : ok m P -> mono n -> (P -> ok n Q) -> ok (andm m n) Q.
Proof.
  intros Hm Hn H. eapply yields_bind; [exact Hm| |].
  - intros []; [exact Hn|apply mono_ret].
  - intros [] HP; [apply H; auto|apply ok_false].
Qed.
Lemma ok_orm m n (Q : Prop) : ok m Q -> mono n -> ok n Q -> ok (orm m n) Q.
Proof.
  intros Hm Hn H. eapply yields_bind; [exact Hm| |].
  - intros []; [apply mono_ret|exact Hn].
  - intros [] HP; [apply ok_ret; auto|exact H].
Qed.
Lemma ok_all {A} (f : A -> M bool) (Q : A -> Prop) l : (forall x, mono (f x)) -> (forall x, In x l -> ok (f x) (Q x)) ->
  ok (all_m f l) (forall x, In x l -> Q x).
Proof.
  intros Hm H. induction l as [|x r IH]; cbn.
  - apply ok_ret. intros _ x [].
  - eapply ok_andm; [apply H; now left|now apply mono_all|]. intros Hx.
    eapply ok_imp; [apply IH; intros; apply H; now right|]. intros Hr y [<-|Hy]; auto.
Qed.
Lemma ok_any {A} (f : A -> M bool) (Q : A -> Prop) l : (forall x, mono (f x)) -> (forall x, In x l -> ok (f x) (Q x)) ->
  ok (any_m f l) (exists x, In x l /\ Q x).
Proof.
  intros Hm H. induction l as [|x r IH]; cbn.
  - apply ok_false.
  - apply ok_orm; [|now apply mono_any|].
    + eapply ok_imp; [apply H; now left|]. eauto.
    + eapply ok_imp; [apply IH; intros; apply H; now right|]. intros (y & Hy & Q'). eauto.
Qed.

Lemma yields_scan R (Q : ty -> Prop) want bts : (forall t, mono (R t)) -> (forall t, In t bts -> ok (R t) (Q t)) ->
  forall matched i, yields (scan R want bts matched i) (fun o => o <> None -> exists t, In t bts /\ Q t).
Proof.
  intros Hm. induction bts as [|t r IH]; intros H [|m matched] i; cbn; try (apply yields_ret; congruence).
  assert (IH' : forall matched i, yields (scan R want r matched i) (fun o => o <> None -> exists t0, (t = t0 \/ In t0 r) /\ Q t0)).
  { intros. eapply yields_imp; [apply IH; intros; apply H; now right|]. cbn. intros o Ho No. destruct (Ho No) as (u & Hu & Qu). eauto. }
  destruct (Bool.eqb m want); [|apply IH'].
  eapply yields_bind; [apply H; now left| |].
  - intros []; auto using mono_ret, mono_scan.
  - intros [] Hx; [|apply IH']. apply yields_ret. intros _. exists t. auto.
Qed.

Lemma yields_match_all R (Q : ty -> ty -> Prop) ats bts : (forall a b, mono (R a b)) ->
  (forall a b, In a ats -> In b bts -> ok (R a b) (Q a b)) ->
  forall matched, yields (match_all R ats bts matched) (fun o => o <> None -> forall a, In a ats -> exists b, In b bts /\ Q a b).
Proof.
  intros Hm. induction ats as [|a r IH]; intros H matched; cbn.
  - apply yields_ret. intros _ a [].
  - assert (IH' : (exists b, In b bts /\ Q a b) -> forall matched, yields (match_all R r bts matched)
       (fun o => o <> None -> forall a0, a = a0 \/ In a0 r -> exists b, In b bts /\ Q a0 b)).
    { intros Ha m. eapply yields_imp; [apply IH; intros; apply H; auto; now right|]. cbn. intros o Ho No a0 [<-|Ha0]; auto. }
    assert (SC : forall want matched i, yields (scan (R a) want bts matched i) (fun o => o <> None -> exists t, In t bts /\ Q a t)).
    { intros. apply yields_scan; auto. intros. apply H; auto. now left. }
    assert (MM : forall m, mono (match_all R r bts m)) by (intros; now apply mono_match_all).
    eapply yields_bind; [apply SC| |].
    + intros [i|]; auto. apply mono_bind; [now apply mono_scan|]. intros [j|]; auto using mono_ret.
    + intros [i|] Hi; [apply IH', Hi; discriminate|].
      eapply yields_bind; [apply SC| |].
      * intros [j|]; auto using mono_ret.
      * intros [j|] Hj; [apply IH', Hj; discriminate|]. apply yields_ret. congruence.
Qed.

Lemma ok_less_restrictive R (Q : ty -> ty -> Prop) ats bts : (forall a b, mono (R a b)) ->
  (forall a b, In a ats -> In b bts -> ok (R a b) (Q a b)) ->
  ok (less_restrictive R ats bts) (forall a, In a ats -> exists b, In b bts /\ Q a b).
Proof.
  intros Hm H. eapply yields_bind; [apply yields_match_all with (Q := Q); auto| |].
  - intros [m|]; [|apply mono_ret]. apply mono_with_guard. now apply mono_no_lessening.
  - intros [m|] Ho; [|apply ok_false]. apply yields_with_guard. intros s x s' E N Hx. apply Ho. discriminate.
Qed.

Lemma ok_tuple_loop {A} (R : A -> A -> M bool) (Q : A -> A -> Prop) tv ov n : forall ts os, (forall a b, mono (R a b)) ->
  (forall t o, In t ts \/ tv = Some t -> In o os \/ ov = Some o -> ok (R t o) (Q t o)) ->
  ok (tuple_loop R n ts os tv ov) (forall i, (i < n)%nat -> exists t o, t_at ts tv i = Some t /\ t_at os ov i = Some o /\ Q t o).
Proof.
  induction n as [|n IH]; intros ts os Hm H; cbn; [apply ok_ret; intros _ i Hi; lia|].
  destruct (match ts with t :: _ => Some t | [] => tv end) as [t|] eqn:Et; [|apply ok_false].
  destruct (match os with t :: _ => Some t | [] => ov end) as [o|] eqn:Eo; [|apply ok_false].
  eapply ok_andm.
  - apply (H t o); [destruct ts|destruct os]; auto; injection Et as <- || injection Eo as <-; left; now left.
  - now apply mono_tuple_loop.
  - intros Qto. eapply ok_imp.
    + apply IH; auto. intros t' o' Ht' Ho'. apply H.
      * destruct Ht' as [Ht'|]; auto. left. destruct ts; [destruct Ht'|now right].
      * destruct Ho' as [Ho'|]; auto. left. destruct os; [destruct Ho'|now right].
    + intros HI [|i] Hi.
      * exists t, o. unfold t_at. destruct ts, os; auto.
      * destruct (HI i ltac:(lia)) as (t' & o' & E1 & E2 & E3). exists t', o'. unfold t_at in *.
        split; [|split; [|assumption]]; [destruct ts|destruct os]; auto; now destruct i.
Qed.

Lemma ok_struct_assignable R (Q : ty -> ty -> Prop) ad oad os es : (forall a b, mono (R a b)) ->
  (forall e o, In e es -> In o os -> ok (R (snd (fst e)) (snd (fst o))) (Q (snd (fst e)) (snd (fst o)))) ->
  forall oc, ok (struct_assignable R ad es oad os oc)
     ((forall e, In e es -> match struct_find (fst (fst e)) os with
                        | Some (o, orq) => (snd e = true -> orq = true) /\ Q (snd (fst e)) o
                        | None => snd e = false /\ oad = false
                        end) /\ (ad = true \/ oc + Z.of_nat (common_keys es os) = length_z os)).
Proof.
  intros Hm. induction es as [|[[k t] rq] r IH]; intros H oc; cbn [struct_assignable].
  - apply ok_ret. intros E. split; [intros e []|]. apply orb_true_iff in E as [->|E]; auto. right. apply Z.eqb_eq in E.
    unfold common_keys. cbn. lia.
  - destruct (struct_find k os) as [[o orq]|] eqn:S.
    + destruct (rq && negb orq) eqn:RQ; [apply ok_false|].
      pose proof S as S'. apply struct_find_some in S' as (eo & Heo & _ & -> & ->).
      eapply yields_bind; [exact (H (k, t, rq) eo (or_introl eq_refl) Heo)| |].
      * intros []; auto using mono_ret, mono_struct_assignable.
      * intros [] Hb; [|apply ok_false]. eapply ok_imp; [apply IH; intros; apply H; auto; now right|].
        intros [H1 H2]. split.
        -- intros e [<-|He]; [|exact (H1 e He)]. cbn [fst snd]. rewrite S. split; [|exact (Hb eq_refl)]. intros ->. destruct (snd eo); [reflexivity|discriminate RQ].
        -- destruct H2 as [H2|H2]; auto. right. unfold common_keys. cbn [filter fst snd]. rewrite S. cbn [length]. unfold common_keys in H2. lia.
    + destruct (rq || oad) eqn:RQ; [apply ok_false|]. apply orb_false_iff in RQ as [-> ->].
      eapply ok_imp; [apply IH; intros; apply H; auto; now right|].
      intros [H1 H2]. split.
      * intros e [<-|He]; [|exact (H1 e He)]. cbn [fst snd]. rewrite S. auto.
      * destruct H2 as [H2|H2]; auto. right. unfold common_keys. cbn [filter fst snd]. rewrite S. exact H2.
Qed.

(* ---------- the conditions are inherited ---------- *)

Lemma member_all P u t : ty_all P t -> member u t -> (forall p vs, t <> TAllOfValue p vs) -> ty_all P u.
Proof.
  destruct t as [ | | | |x y i| |x y i| | |x y|s|s|x y| | |p w|p t| |p e x y|p ts b| |p kt vt x y|p a es|p ts|p vs|p ts|p ts|p t|[t|]];
    cbn [ty_all member]; intros [N H] Hu NV; try contradiction; subst; try assumption.
  - rewrite fold_and, Forall_forall in H. auto.
  - destruct H as [H1 H2], Hu as [->| ->]; assumption.
  - destruct Hu as (e & He & ->). apply (fold_and (fun e => ty_all P (snd (fst e)))) in H. rewrite Forall_forall in H. exact (H e He).
  - rewrite fold_and, Forall_forall in H. auto.
  - exfalso. eapply NV. reflexivity.
  - rewrite fold_and, Forall_forall in H. auto.
  - rewrite fold_and, Forall_forall in H. auto.
Qed.

Variable L : allowed.

Lemma target_member u t : target_ok L t -> member u t -> target_ok L u.
Proof.
  intros [H1 H2] Hu. split; [now apply member_type_ok with t|].
  apply member_all with t; auto. intros p vs ->. cbn in H2. destruct H2 as [[] _].
Qed.

Lemma generic_source t : generic_shape t -> ty_all (source_node L) t.
Proof. induction 1; cbn; auto. Qed.
Lemma type_of_source p v : wf v -> source_ok L (type_of p v).
Proof.
  intros Wv. split; [now apply type_of_type_ok|]. destruct v; try (cbn; auto; fail).
  cbn [type_of]. cbn [ty_all]. split; [exact I|]. apply generic_source, gen_value_shape.
Qed.

Lemma source_member u t : source_ok L t -> member u t -> source_ok L u.
Proof.
  intros [H1 H2] Hu.
  assert (D : (exists p vs, t = TAllOfValue p vs) \/ (forall p vs, t <> TAllOfValue p vs)).
  { destruct t; try (right; intros; discriminate). left. eauto. }
  destruct D as [(p & vs & ->)|D].
  - destruct Hu as (q & v & Hv & ->). apply type_of_source. destruct H1 as [H1 _]. cbn in H1. rewrite Forall_forall in H1. auto.
  - split; [now apply member_type_ok with t|]. now apply member_all with t.
Qed.

(* the parts of a type that stands for the types of several elements *)
Definition parts (b : ty) : list ty :=
  match b with
  | TAllOf _ ts => ts
  | TAllOfValue _ vs => map (type_of 0%nat) vs
  | _ => []
  end.
Definition good (a b : ty) : Prop := sub W a b /\ (no_all_of a -> forall u, In u (parts b) -> sub W a u).

Lemma good_sub a b : parts b = [] -> sub W a b -> good a b.
Proof. intros E H. split; [assumption|]. rewrite E. intros _ u []. Qed.

Section Step.
Variables (R : bool -> ty -> ty -> M bool) (I : ty -> value -> M bool).
Hypothesis HR : forall fn a b, mono (R fn a b).
Hypothesis HI : forall t v, mono (I t v).
Hypothesis SR : forall fn a b, target_ok L a -> source_ok L b -> ok (R fn a b) (good a b).
Hypothesis SI : forall t v, ty_all tuple_ok t -> ok (I t v) (inst W t v = true).

Lemma ok_check a b : target_ok L a -> source_ok L b -> ok (check_assignable_to R b a) (good a b).
Proof.
  intros Ta Sb.
  destruct b as [ | | | |x y i| |x y i| | |x y|s|s|x y| | |p w|p t| |p e x y|p ts b| |p kt vt x y|p ad es|p ts|p vs|p ts|p ts|p t|t]; cbn [check_assignable_to]; try apply ok_false; apply yields_with_guard.
  - eapply ok_imp; [apply ok_all with (Q := fun t => good a t); auto|].
    + intros t Ht. apply SR; auto. now apply source_member with (TAllOf p ts).
    + intros H. assert (Ne : ts <> []) by exact (proj1 (proj2 Sb)). split.
      * intros v Wv Fv E. rewrite inst_allof in E. rewrite forallb_forall in E.
        destruct ts as [|t r]; [congruence|]. apply (H t (or_introl eq_refl)); auto. apply E. now left.
      * intros _ u Hu. cbn in Hu. now apply H.
  - eapply ok_imp; [apply ok_all with (Q := fun v => sub W a (type_of 0%nat v))|].
    + intros v. apply mono_bind; [apply mono_fresh|]. auto.
    + intros v Hv. eapply yields_bind with (P := fun t => exists q, t = type_of q v).
      * apply yields_fresh. eauto.
      * auto.
      * intros t (q & ->). eapply ok_imp; [apply SR; auto|].
        -- apply source_member with (TAllOfValue p vs); auto. exists q, v. auto.
        -- intros [H _]. now apply sub_type_of_addr with q.
    + intros H. assert (Ne : vs <> []) by exact (proj1 (proj2 Sb)). split.
      * intros v Wv Fv E. rewrite (inst_allofvalue W p 0%nat) in E. rewrite forallb_forall in E.
        destruct vs as [|x r]; [congruence|]. apply (H x (or_introl eq_refl)); auto. apply E. now left.
      * intros _ u Hu. cbn in Hu. apply in_map_iff in Hu as (x & <- & Hx). now apply H.
  - eapply ok_andm with (P := forall t, In t ts -> good a t); [apply ok_all; auto| |].
    + intros t Ht. apply SR; auto. now apply source_member with (TAnyOf p ts).
    + apply mono_ret.
    + intros H. apply ok_ret. intros _. apply good_sub; [reflexivity|]. intros v Wv Fv E.
      rewrite inst_anyof in E. apply existsb_exists in E as (t & Ht & E). apply (H t Ht); auto.
  - eapply ok_andm with (P := forall t, In t ts -> good a t); [apply ok_all; auto| |].
    + intros t Ht. apply SR; auto. now apply source_member with (TOneOf p ts).
    + apply mono_ret.
    + intros H. apply ok_ret. intros _. apply good_sub; [reflexivity|]. intros v Wv Fv E.
      rewrite inst_oneof in E. apply exactly_one_iff in E as (l1 & l2 & E & _).
      assert (Hin : In true (map (fun t => inst W t v) ts)) by (rewrite E; apply in_or_app; right; now left).
      apply in_map_iff in Hin as (t & Et & Ht). apply (H t Ht); auto.
Qed.

(* the element, key and value types *)
Lemma ok_parts a (m : M ty) (us : list ty) fn : target_ok L a -> no_all_of a ->
  mono m ->
  yields m (fun t => source_ok L t /\ (forall u, In u us -> (good a t -> sub W a u))) ->
  ok (bind m (R fn a)) (forall u, In u us -> sub W a u).
Proof.
  intros Ta Na Hm Hy. eapply yields_bind; [exact Hy|auto|].
  intros t [St H]. eapply ok_imp; [apply SR; auto|]. auto.
Qed.

Lemma sub_of_any a u : sub W a TAny -> sub W a u.
Proof. intros H v Wv Fv _. apply H; auto. Qed.

Lemma yields_element_type a b : no_all_of a -> source_ok L b ->
  yields (element_type b) (fun t => source_ok L t /\ forall u,
    In u (match b with TArrSized _ e _ _ => [e] | TTuple _ ts _ => ts | TExact _ (VArr l) => map (type_of 0%nat) l | _ => [] end) ->
    good a t -> sub W a u).
Proof.
  intros Na Sb.
  destruct b as [ | | | |x y i| |x y i| | |x y|s|s|x y| | |p w|p t| |p e x y|p ts b| |p kt vt x y|p ad es|p ts|p vs|p ts|p ts|p t|t];
    cbn [element_type]; try (apply yields_ret; split; [split; cbn; auto|intros u []]; fail).
  - assert (Ww : wf w) by exact (proj1 (proj1 Sb)).
    destruct w as [ | | | | | | | | |l| ]; try (apply yields_ret; split; [split; cbn; auto|intros u []]; fail).
    apply data_arr_inv in Ww. destruct l as [|x [|y l]].
    + apply yields_ret. split; [split; cbn; auto|intros u []].
    + apply yields_fresh. intros q. inversion Ww; subst. split; [now apply type_of_source|].
      intros u [<-|[]] [H _]. now apply sub_type_of_addr with q.
    + apply yields_fresh. intros q. split.
      * split; [cbn; split; [assumption|exact Logic.I]|]. cbn. split; [discriminate|exact Logic.I].
      * intros u Hu [_ H]. apply H; auto.
  - apply yields_ret. split; [now apply source_member with (TArrSized p e x y)|]. intros u [<-|[]] [H _]. exact H.
  - destruct ts as [|t1 [|t2 r]].
    + apply yields_ret. split; [split; cbn; auto|intros u []].
    + apply yields_ret. split; [apply source_member with (TTuple p [t1] b); [assumption|now left]|]. intros u [<-|[]] [H _]. exact H.
    + remember (t1 :: t2 :: r) as ts. assert (Ne : ts <> []) by (subst; discriminate). clear Heqts.
      destruct (unique ty type_eq thash ts) as [us|] eqn:U; [|apply yields_fail].
      destruct (unique_covers _ _ _ _ U) as [U1 U2]. pose proof (unique_nonempty _ _ _ _ U Ne) as UN.
      assert (SU : forall t, In t ts -> source_ok L t) by (intros t Ht; now apply source_member with (TTuple p ts b)).
      assert (PL : forall t, In t ts -> plain t).
      { destruct Sb as [_ [[_ Sb] _]]. rewrite Forall_forall in Sb. exact Sb. }
      (* every type of the tuple is equal to one that is kept *)
      assert (COV : (forall u, In u us -> sub W a u) -> forall u, In u ts -> sub W a u).
      { intros H u Hu. destruct (U2 u Hu) as [Hu'|(y & Hy & E)]; [auto|].
        intros v Wv Fv Ev. apply (H y Hy); auto. unfold type_eq in E.
        rewrite <- (teqn_inst W _ u y (proj1 (SU u Hu)) (proj1 (SU y (U1 y Hy))) (PL u Hu) (PL y (U1 y Hy)) E v Wv). exact Ev. }
      assert (ONE : forall t, us = [t] -> source_ok L t /\ (forall u, In u ts -> good a t -> sub W a u)).
      { intros t ->. split; [apply SU, U1; now left|]. intros u Hu [H _]. apply COV; auto. now intros u' [<-|[]]. }
      assert (ALL : forall q, source_ok L (TAllOf q us) /\ (forall u, In u ts -> good a (TAllOf q us) -> sub W a u)).
      { intros q. split.
        - split; cbn [ty_all type_ok].
          + split; [exact Logic.I|]. apply fold_and, Forall_forall. intros u Hu. apply SU. auto.
          + split; [exact UN|]. apply fold_and, Forall_forall. intros u Hu. apply SU. auto.
        - intros u Hu [_ H]. apply COV; auto. }
      destruct us as [|u1 [|u2 us]].
      * congruence.
      * apply yields_ret. now apply ONE.
      * apply yields_fresh. exact ALL.
Qed.

Lemma yields_key_type a b : no_all_of a -> source_ok L b ->
  yields (key_type b) (fun t => source_ok L t /\ forall u,
    In u (match b with TMap => [TAny] | TMapSized _ k _ _ _ => [k] | TStruct _ _ es => map (fun e => TExact 0%nat (fst (fst e))) es
          | TExact _ (VMap m) => map (type_of 0%nat) (map fst m) | _ => [] end) ->
    good a t -> sub W a u).
Proof.
  intros Na Sb.
  destruct b as [ | | | |x y i| |x y i| | |x y|s|s|x y| | |p w|p t| |p e x y|p ts b| |p kt vt x y|p ad es|p ts|p vs|p ts|p ts|p t|t];
    cbn [key_type]; try (apply yields_ret; split; [split; cbn; auto|intros u []]; fail).
  - assert (Ww : wf w) by exact (proj1 (proj1 Sb)).
    destruct w as [ | | | | | | | | | |m]; try (apply yields_ret; split; [split; cbn; auto|intros u []]; fail).
    apply data_map_inv in Ww as [Ww _]. destruct m as [|e m].
    + apply yields_ret. split; [split; cbn; auto|intros u []].
    + apply yields_fresh. intros q. split.
      * split; [|cbn; split; [discriminate|exact Logic.I]]. cbn [type_ok ty_all]. split; [|exact Logic.I].
        cbn [node_ok]. apply Forall_map_iff. rewrite Forall_forall in *. intros e' He'. now apply Ww.
      * intros u Hu [_ H]. apply H; auto.
  - apply yields_ret. split; [split; cbn; auto|]. intros u [<-|[]] [H _]. exact H.
  - apply yields_ret. split; [apply source_member with (TMapSized p kt vt x y); [assumption|now left]|]. intros u [<-|[]] [H _]. exact H.
  - assert (Wk : Forall (fun e => wf (fst (fst e))) es) by exact (proj1 (proj1 (proj1 Sb))).
    destruct es as [|e1 [|e2 r]].
    + apply yields_ret. split; [split; cbn; auto|intros u []].
    + apply yields_fresh. intros q. split; [split; cbn; auto|]. { inversion Wk; subst. auto. } intros u [<-|[]] [H _]. exact H.
    + apply yields_fresh. intros q. remember (e1 :: e2 :: r) as es. split.
      * split; cbn [ty_all type_ok].
        -- split; [exact Logic.I|]. apply fold_and, Forall_map_iff. rewrite Forall_forall in *. intros e He. cbn. auto.
        -- split; [subst; discriminate|]. apply fold_and, Forall_map_iff. rewrite Forall_forall in *. intros e He. cbn. auto.
      * intros u Hu [_ H]. apply in_map_iff in Hu as (e & <- & He).
        apply (H Na (TExact q (fst (fst e)))). cbn [parts]. apply in_map_iff. exists e. auto.
Qed.

Lemma yields_value_type a b : no_all_of a -> source_ok L b ->
  yields (value_type b) (fun t => source_ok L t /\ forall u,
    In u (match b with TMap => [TAny] | TMapSized _ _ v _ _ => [v] | TStruct _ _ es => map (fun e => snd (fst e)) es
          | TExact _ (VMap m) => map (type_of 0%nat) (map snd m) | _ => [] end) ->
    good a t -> sub W a u).
Proof.
  intros Na Sb.
  destruct b as [ | | | |x y i| |x y i| | |x y|s|s|x y| | |p w|p t| |p e x y|p ts b| |p kt vt x y|p ad es|p ts|p vs|p ts|p ts|p t|t];
    cbn [value_type]; try (apply yields_ret; split; [split; cbn; auto|intros u []]; fail).
  - assert (Ww : wf w) by exact (proj1 (proj1 Sb)).
    destruct w as [ | | | | | | | | | |m]; try (apply yields_ret; split; [split; cbn; auto|intros u []]; fail).
    apply data_map_inv in Ww as [Ww _]. destruct m as [|e m].
    + apply yields_ret. split; [split; cbn; auto|intros u []].
    + apply yields_fresh. intros q. split.
      * split; [|cbn; split; [discriminate|exact Logic.I]]. cbn [type_ok ty_all]. split; [|exact Logic.I].
        cbn [node_ok]. apply Forall_map_iff. rewrite Forall_forall in *. intros e' He'. now apply Ww.
      * intros u Hu [_ H]. apply H; auto.
  - apply yields_ret. split; [split; cbn; auto|]. intros u [<-|[]] [H _]. exact H.
  - apply yields_ret. split; [apply source_member with (TMapSized p kt vt x y); [assumption|now right]|]. intros u [<-|[]] [H _]. exact H.
  - assert (SE : forall e, In e es -> source_ok L (snd (fst e))).
    { intros e He. apply source_member with (TStruct p ad es); [assumption|]. exists e. auto. }
    destruct es as [|e1 [|e2 r]].
    + apply yields_ret. split; [split; cbn; auto|intros u []].
    + apply yields_ret. split; [apply SE; now left|]. intros u [<-|[]] [H _]. exact H.
    + apply yields_fresh. intros q. remember (e1 :: e2 :: r) as es. split.
      * split; cbn [ty_all type_ok].
        -- split; [exact Logic.I|]. apply fold_and, Forall_map_iff, Forall_forall. intros e He. now apply SE.
        -- split; [subst; discriminate|]. apply fold_and, Forall_map_iff, Forall_forall. intros e He. now apply SE.
      * intros u Hu [_ H]. apply H; auto.
Qed.


Lemma forall_parts {A} (f : A -> ty) l (Q : ty -> Prop) : (forall u, In u (map f l) -> Q u) -> forall x, In x l -> Q (f x).
Proof. intros H x Hx. apply H. now apply in_map. Qed.

Ltac by_check := apply ok_check; assumption.
Ltac leaf := first [by_check | apply ok_false].
Ltac types b := destruct b as [ | | | |x' y' i'| |x' y' i'| | |x' y'|s'|s'|x' y'| | |p' w'|p' t'| |p' e' x' y'|p' ts' b'| |p' kt' vt' x' y'|p' ad' es'|p' ts'|p' vs'|p' ts'|p' ts'|p' t'|t'].
Ltac values w := destruct w as [ | z | z | z | z | z | z z0 z1 | z | z | l' | m' ].

Lemma ok_deep a b : deep_assignable a = true -> target_ok L a -> source_ok L b -> ok (deep_assignable_to R I a b) (good a b).
Proof.
  intros D Ta Sb. pose proof (ok_check a b Ta Sb) as C.
  pose proof (mono_check R HR b a) as MC.
  destruct a as [ | | | |x y i| |x y i| | |x y|s|s|x y| | |p w|p t| |p e x y|p ts v| |p kt vt x y|p ad es|p ts|p vs|p ts|p ts|p t|t];
    try discriminate D; cbn [deep_assignable_to].
  - (* exact *)
    apply ok_orm; auto. types b; try apply ok_false. apply ok_ret. intros E. apply good_sub; [reflexivity|].
    intros v Wv Fv Ev. change (veq w' v = true) in Ev. change (veq w v = true).
    assert (Ww : wf w) by exact (proj1 (proj1 Ta)). assert (Ww' : wf w') by exact (proj1 (proj1 Sb)). now apply (veq_trans w w' v).
  - (* sensitive *)
    types b; try leaf. eapply ok_imp.
    + apply SR; [apply target_member with (TSens p t)|apply source_member with (TSens p' t')]; auto; reflexivity.
    + intros [H _]. apply good_sub; [reflexivity|]. intros v Wv Fv E. destruct v; try discriminate E. rewrite inst_sens in *.
      inversion Wv; subst. apply H; auto.
  - (* sized array *)
    assert (Te : target_ok L e) by (apply target_member with (TArrSized p e x y); [assumption|reflexivity]).
    assert (Ne : no_all_of e) by exact (proj1 (proj2 Ta)).
    pose proof (ok_parts e (element_type b) _ false Te Ne (mono_element_type b) (yields_element_type e b Ne Sb)) as E.
    types b; try leaf.
    + values w'; try leaf. cbn [array_bounds]. destruct ((x <=? length_z l') && (length_z l' <=? y)) eqn:B; [|apply ok_false].
      apply andb_true_iff in B as [B1 B2]. apply Z.leb_le in B1, B2.
      eapply ok_imp; [exact E|]. intros H. apply good_sub; [reflexivity|].
      apply sub_arr_exact; auto. { exact (proj1 (proj1 Sb)). } intros z Hz. apply H. now apply in_map.
    + cbn [array_bounds]. destruct ((x <=? x') && (y' <=? y)) eqn:B; [|apply ok_false].
      apply andb_true_iff in B as [B1 B2]. apply Z.leb_le in B1, B2.
      eapply ok_imp; [exact E|]. intros H. apply good_sub; [reflexivity|]. apply sub_arr; auto. apply H. now left.
    + cbn [array_bounds]. destruct b'.
      * destruct ((x <=? length_z ts' - 1) && (max_int64 <=? y)) eqn:B; [|apply ok_false].
        apply andb_true_iff in B as [B1 B2]. apply Z.leb_le in B1, B2.
        eapply ok_imp; [exact E|]. intros H. apply good_sub; [reflexivity|]. apply sub_arr_tuple; auto. exact (proj1 (proj1 Sb)).
      * destruct ((x <=? length_z ts') && (length_z ts' <=? y)) eqn:B; [|apply ok_false].
        apply andb_true_iff in B as [B1 B2]. apply Z.leb_le in B1, B2.
        eapply ok_imp; [exact E|]. intros H. apply good_sub; [reflexivity|]. apply sub_arr_tuple; auto. discriminate.
  - (* tuple *)
    assert (Tt : forall t, In t ts -> target_ok L t) by (intros t Ht; now apply target_member with (TTuple p ts v)).
    assert (Nv : v = true -> ts <> []) by exact (proj1 (proj1 Ta)).
    assert (TH : forall t, In t (tuple_head ts v) -> In t ts).
    { unfold tuple_head. destruct v; auto. intros t. apply In_firstn. }
    assert (TR : forall t, tuple_rest ts v = Some t -> In t ts).
    { unfold tuple_rest. destruct v; [|discriminate]. intros t. apply nth_error_In. }
    types b; try leaf.
    + values w'; try leaf. eapply ok_imp; [apply SI; exact (type_ok_tuple_ok _ (proj1 Ta))|].
      intros H. apply good_sub; [reflexivity|]. intros u Wu Fu E. change (veq (VArr l') u = true) in E.
      rewrite <- (inst_veq W (TTuple p ts v) (VArr l') u); auto; [exact (proj1 Ta)|exact (proj1 (proj1 Sb))].
    + unfold tuple_assignable_array. cbn zeta.
      destruct (((if v then length_z ts - 1 else length_z ts) <=? x') && (y' <=? (if v then max_int64 else length_z ts))) eqn:B; [|apply ok_false].
      apply andb_true_iff in B as [B1 B2]. apply Z.leb_le in B1, B2.
      assert (Se : source_ok L e') by (apply source_member with (TArrSized p' e' x' y'); [assumption|reflexivity]).
      eapply ok_andm with (P := forall t, In t (tuple_head ts v) -> sub W t e').
      * apply ok_all; auto. intros t Ht. eapply ok_imp; [apply SR; auto|]. intros [H _]. exact H.
      * destruct v; [|apply mono_ret]. destruct (tuple_rest ts true); [apply HR|apply mono_fail].
      * intros H1. eapply ok_imp with (P := forall t, tuple_rest ts v = Some t -> sub W t e').
        -- destruct v; [|apply ok_ret; intros _ t E; discriminate E]. destruct (tuple_rest ts true) as [t|] eqn:E; [|apply yields_fail].
           eapply ok_imp; [apply SR; auto|]. intros [H _] t0 E0. injection E0 as <-. exact H.
        -- intros H2. apply good_sub; [reflexivity|]. now apply sub_tuple_arr.
    + unfold tuple_assignable_tuple. cbn zeta.
      destruct (((if b' then length_z ts' - 1 else length_z ts') <? (if v then length_z ts - 1 else length_z ts)) ||
                ((if v then max_int64 else length_z ts) <? (if b' then max_int64 else length_z ts'))) eqn:B; [apply ok_false|].
      apply orb_false_iff in B as [B1 B2]. apply Z.ltb_ge in B1, B2.
      assert (SH : forall t, In t (tuple_head ts' b') -> In t ts').
      { unfold tuple_head. destruct b'; auto. intros t. apply In_firstn. }
      assert (SRe : forall t, tuple_rest ts' b' = Some t -> In t ts').
      { unfold tuple_rest. destruct b'; [|discriminate]. intros t. apply nth_error_In. }
      assert (St : forall t, In t ts' -> source_ok L t) by (intros t Ht; now apply source_member with (TTuple p' ts' b')).
      eapply ok_imp.
      * apply ok_tuple_loop with (Q := sub W); auto. intros t o Ht Ho. eapply ok_imp; [apply SR|intros [H _]; exact H].
        -- apply Tt. destruct Ht; auto. -- apply St. destruct Ho; auto.
      * intros H. apply good_sub; [reflexivity|]. apply sub_tuple_tuple; auto.
        -- exact (proj1 (proj1 Sb)).
        -- intros -> ->. pose proof (proj1 (proj2 Ta) eq_refl) as V1. pose proof (proj1 (proj1 (proj2 Sb)) eq_refl) as V2. congruence.
  - (* sized map *)
    assert (Tk : target_ok L kt) by (apply target_member with (TMapSized p kt vt x y); [assumption|now left]).
    assert (Tv : target_ok L vt) by (apply target_member with (TMapSized p kt vt x y); [assumption|now right]).
    destruct (proj1 (proj2 Ta)) as (Op & Nk & Nv).
    pose proof (ok_parts kt (key_type b) _ true Tk Nk (mono_key_type b) (yields_key_type kt b Nk Sb)) as EK.
    pose proof (ok_parts vt (value_type b) _ true Tv Nv (mono_value_type b) (yields_value_type vt b Nv Sb)) as EV.
    assert (MV : mono (bind (value_type b) (R true vt))) by (apply mono_bind; [apply mono_value_type|auto]).
    types b; try leaf.
    + values w'; try leaf. cbn [map_bounds]. destruct ((x <=? length_z m') && (length_z m' <=? y)) eqn:B; [|apply ok_false].
      apply andb_true_iff in B as [B1 B2]. apply Z.leb_le in B1, B2.
      eapply ok_andm; [exact EK|exact MV|]. intros HK. eapply ok_imp; [exact EV|]. intros HV. apply good_sub; [reflexivity|].
      apply sub_map_exact; auto. { exact (proj1 (proj1 Sb)). }
      * intros z Hz. apply HK. now apply in_map. * intros z Hz. apply HV. now apply in_map.
    + cbn [map_bounds]. destruct ((x <=? 0) && (max_int64 <=? y)) eqn:B; [|apply ok_false].
      apply andb_true_iff in B as [B1 B2]. apply Z.leb_le in B1, B2.
      eapply ok_andm; [exact EK|exact MV|]. intros HK. eapply ok_imp; [exact EV|]. intros HV. apply good_sub; [reflexivity|].
      apply sub_map_any; auto; [apply HK|apply HV]; now left.
    + cbn [map_bounds]. destruct ((x <=? x') && (y' <=? y)) eqn:B; [|apply ok_false].
      apply andb_true_iff in B as [B1 B2]. apply Z.leb_le in B1, B2.
      eapply ok_andm; [exact EK|exact MV|]. intros HK. eapply ok_imp; [exact EV|]. intros HV. apply good_sub; [reflexivity|].
      apply sub_map_map; auto; [apply HK|apply HV]; now left.
    + cbn [map_bounds]. destruct ad'. { pose proof (proj1 (proj2 Sb) eq_refl). congruence. } rewrite orb_false_r.
      destruct ((x <=? count_required es') && ((if Nat.eqb (length es') 0 then max_int64 else length_z es') <=? y)) eqn:B; [|apply ok_false].
      apply andb_true_iff in B as [B1 B2]. apply Z.leb_le in B1, B2.
      eapply ok_andm; [exact EK|exact MV|]. intros HK. eapply ok_imp; [exact EV|]. intros HV. apply good_sub; [reflexivity|].
      destruct (proj1 (proj1 Sb)) as [Wk Dk]. apply sub_map_struct; auto.
      * intros e He. apply HK. apply (in_map (fun e => TExact 0%nat (fst (fst e)))). assumption.
      * intros e He. apply HV. apply (in_map (fun e => snd (fst e))). assumption.
  - (* struct *)
    assert (Tt : forall e, In e es -> target_ok L (snd (fst e))).
    { intros e He. apply target_member with (TStruct p ad es); [assumption|]. exists e. auto. }
    types b; try leaf.
    + values w'; try leaf. eapply ok_imp; [apply SI; exact (type_ok_tuple_ok _ (proj1 Ta))|].
      intros H. apply good_sub; [reflexivity|]. intros u Wu Fu E. change (veq (VMap m') u = true) in E.
      rewrite <- (inst_veq W (TStruct p ad es) (VMap m') u); auto; [exact (proj1 Ta)|exact (proj1 (proj1 Sb))].
    + eapply ok_imp.
      * apply ok_struct_assignable with (Q := sub W); auto. intros e o He Ho. eapply ok_imp; [apply SR; auto|intros [H _]; exact H].
        apply source_member with (TStruct p' ad' es'); [assumption|]. exists o. auto.
      * intros [H1 H2]. apply good_sub; [reflexivity|]. destruct (proj1 (proj1 Sb)) as [Wo Do], (proj1 (proj1 Ta)) as [We De].
        apply sub_struct_struct; auto.
        -- intros ->. apply (proj1 (proj2 Ta)). exact (proj1 (proj2 Sb) eq_refl).
        -- destruct H2 as [H2|H2]; auto. right. unfold length_z in H2. lia.
  - (* allOf *)
    assert (Tt : forall t, In t ts -> target_ok L t) by (intros t Ht; now apply target_member with (TAllOf p ts)).
    assert (GEN : (forall t, In t ts -> sub W t b) -> good (TAllOf p ts) b).
    { intros H. split; [|intros []]. intros v Wv Fv E. rewrite inst_allof. apply forallb_forall. intros t Ht. apply (H t Ht); auto. }
    assert (ALL : ok (all_m (fun t => R true t b) ts) (good (TAllOf p ts) b)).
    { eapply ok_imp; [apply ok_all with (Q := fun t => good t b); auto|]. intros H. apply GEN. intros t Ht. exact (proj1 (H t Ht)). }
    types b; try (apply ok_orm; assumption).
    + eapply ok_imp; [apply ok_less_restrictive with (Q := fun t u => sub W t u); auto|].
      * intros t u Ht Hu. eapply ok_imp; [apply SR; auto|intros [H _]; exact H]. now apply source_member with (TAllOf p' ts').
      * intros H. apply GEN. intros t Ht. destruct (H t Ht) as (u & Hu & S). intros v Wv Fv E. apply S; auto.
        rewrite inst_allof, forallb_forall in E. auto.
    + assert (Wv' : forall z, In z vs' -> wf z) by (apply Forall_forall; exact (proj1 (proj1 Sb))).
      eapply yields_bind with (P := fun os => Forall2 (fun o z => exists q, o = type_of q z) os vs').
      * clear. induction vs' as [|z r IH]; cbn; [apply yields_ret; constructor|].
        eapply yields_bind with (P := fun t => exists q, t = type_of q z).
        -- apply yields_fresh. eauto.
        -- intros t. apply mono_bind; [apply mono_new_types|]. intros. apply mono_ret.
        -- intros t Ht. eapply yields_bind; [exact IH|intros; apply mono_ret|]. intros os Hos. apply yields_ret. now constructor.
      * intros os. now apply mono_less_restrictive.
      * intros os Hos. eapply ok_imp; [apply ok_less_restrictive with (Q := fun t u => sub W t u); auto|].
        -- intros t u Ht Hu. eapply ok_imp; [apply SR; auto|intros [H _]; exact H].
           destruct (Forall2_in_l _ _ _ _ Hos Hu) as (z & Hz & q & ->). apply type_of_source; auto.
        -- intros H. apply GEN. intros t Ht. destruct (H t Ht) as (u & Hu & S). intros v Wv Fv E. apply S; auto.
           destruct (Forall2_in_l _ _ _ _ Hos Hu) as (z & Hz & q & ->).
           rewrite (inst_allofvalue W p' q), forallb_forall in E. auto.
  - (* allOfValue *) destruct (proj2 Ta) as [[] _].
  - (* anyOf *)
    assert (Tt : forall t, In t ts -> target_ok L t) by (intros t Ht; now apply target_member with (TAnyOf p ts)).
    assert (Ne : ts <> []) by exact (proj1 (proj2 Ta)).
    assert (ANY : ok (any_m (fun t => R true t b) ts) (good (TAnyOf p ts) b)).
    { eapply ok_imp; [apply ok_any with (Q := fun t => good t b); auto|]. intros (t & Ht & G1 & G2). split.
      - intros v Wv Fv E. rewrite inst_anyof. apply existsb_exists. exists t. split; [assumption|]. now apply G1.
      - intros Na u Hu v Wv Fv E. rewrite inst_anyof. apply existsb_exists. exists t. split; [assumption|]. apply (G2) with u; auto.
        cbn in Na. apply fold_and in Na. rewrite Forall_forall in Na. auto. }
    destruct ts as [|t r]; [congruence|]. now apply ok_orm.
  - (* oneOf *) destruct (proj2 Ta) as [[] _].
Qed.

Lemma good_any b : good TAny b.
Proof. split; [|intros _ u _]; intros v _ _ _; reflexivity. Qed.

Lemma veq_str s v : veq (VStr s) v = true -> v = VStr s.
Proof. destruct v; try discriminate. cbn. intros H. apply bytes_eqb_eq in H as ->. reflexivity. Qed.
Lemma veq_bin s v : veq (VBin s) v = true -> v = VBin s.
Proof. destruct v; try discriminate. cbn. intros H. apply bytes_eqb_eq in H as ->. reflexivity. Qed.
Lemma veq_int s v : veq (VInt s) v = true -> v = VInt s.
Proof. destruct v; try discriminate. cbn. intros H. apply Z.eqb_eq in H as ->. reflexivity. Qed.

Ltac sub_tac := apply good_sub; [reflexivity|]; intros v Wv Fv E; destruct v; try discriminate E; try reflexivity.

Lemma ok_flat a b : deep_assignable a = false -> target_ok L a -> source_ok L b -> ok (flat_assignable_to W R a b) (good a b).
Proof.
  intros D Ta Sb. pose proof (ok_check a b Ta Sb) as C. pose proof (mono_check R HR b a) as MC.
  destruct a as [ | | | |x y i| |x y i| | |x y|s|s|x y| | |p w|p t| |p e x y|p ts v| |p kt vt x y|p ad es|p ts|p vs|p ts|p ts|p t|t];
    try discriminate D; cbn [flat_assignable_to].
  - apply ok_ret. intros _. apply good_any.
  - types b; try leaf. apply ok_ret. intros _. apply good_sub; [reflexivity|apply sub_refl].
  - types b; try leaf. { apply ok_ret. intros _. sub_tac. } values w'; try leaf. apply ok_ret. intros _. sub_tac.
  - types b; try leaf; try (apply ok_ret; intros _; sub_tac; fail). values w'; try leaf. apply ok_ret. intros _. sub_tac.
  - destruct (proj1 (proj2 Ta)) as (I1 & I2 & I3). types b; try leaf.
    + destruct (proj1 (proj2 Sb)) as (I4 & I5). destruct (Z.ltb_spec x' x) as [Lx|Lx]; [apply ok_false|]. cbn zeta.
      apply ok_ret. intros E. apply Z.leb_le in E. apply good_sub; [reflexivity|]. now apply sub_int_range.
    + values w'; try leaf. apply ok_ret. intros Ei. apply good_sub; [reflexivity|]. intros v Wv Fv E. apply veq_int in E as ->. exact Ei.
  - types b; try leaf; try (apply ok_ret; intros _; sub_tac; fail). values w'; try leaf. apply ok_ret. intros _. sub_tac.
  - destruct (proj1 (proj1 Ta)) as (N1 & N2). types b; try leaf.
    + destruct (proj1 (proj1 Sb)) as (N3 & N4). destruct (SFltb x' x) eqn:Lx; [apply ok_false|].
      destruct (i || Bool.eqb i i') eqn:Ei; apply ok_ret; intros E; (apply good_sub; [reflexivity|]); apply sub_float_range; auto; now rewrite Ei.
    + values w'; try leaf. apply ok_ret. intros Ei. apply good_sub; [reflexivity|]. intros v Wv Fv E. change (veq (VFloat z) v = true) in E.
      rewrite <- (inst_veq W (TFloatRange x y i) (VFloat z) v); auto. { exact (proj1 Ta). } exact (proj1 (proj1 Sb)).
  - types b; try leaf; try (apply ok_ret; intros _; sub_tac; fail). values w'; try leaf. apply ok_ret. intros _. sub_tac.
  - types b; try leaf. { apply ok_ret. intros _. apply good_sub; [reflexivity|apply sub_refl]. }
    values w'; try leaf. apply ok_ret. intros Ed. apply good_sub; [reflexivity|]. intros v Wv Fv E. apply veq_str in E as ->. exact Ed.
  - assert (T : text_source L = false) by exact (proj1 (proj2 Ta)). types b; try leaf.
    + pose proof (proj1 (proj2 Sb)) as T'. cbn in T'. congruence.
    + apply ok_ret. intros B. apply andb_true_iff in B as [B1 B2]. apply Z.leb_le in B1, B2. apply good_sub; [reflexivity|].
      intros v Wv Fv E. destruct v; try discriminate E. change (size_in x' y' (length_z s) = true) in E. change (size_in x y (length_z s) = true).
      apply size_in_iff in E. apply size_in_iff. lia.
    + pose proof (proj1 (proj2 Sb)) as T'. cbn in T'. congruence.
    + values w'; try leaf. apply ok_ret. intros Ed. apply good_sub; [reflexivity|]. intros v Wv Fv E. apply veq_str in E as ->. exact Ed.
  - types b; try leaf.
    + apply ok_orm; auto. apply ok_ret. intros B. apply bytes_eqb_eq in B as ->. apply good_sub; [reflexivity|apply sub_refl].
    + values w'; try leaf. apply ok_ret. intros Ed. apply good_sub; [reflexivity|]. intros v Wv Fv E. apply veq_str in E as ->. exact Ed.
  - types b; try leaf.
    + apply ok_ret. intros B. apply bytes_eqb_eq in B as ->. apply good_sub; [reflexivity|apply sub_refl].
    + values w'; try leaf. apply ok_ret. intros Ed. apply good_sub; [reflexivity|]. intros v Wv Fv E. apply veq_str in E as ->. exact Ed.
  - types b; try leaf.
    + apply ok_ret. intros B. apply andb_true_iff in B as [B1 B2]. apply Z.leb_le in B1, B2. apply good_sub; [reflexivity|].
      intros v Wv Fv E. destruct v; try discriminate E. change (size_in x' y' (length_z s) = true) in E. change (size_in x y (length_z s) = true).
      apply size_in_iff in E. apply size_in_iff. lia.
    + values w'; try leaf. apply ok_ret. intros Ed. apply good_sub; [reflexivity|]. intros v Wv Fv E. apply veq_bin in E as ->. exact Ed.
  - types b; try leaf; try (apply ok_ret; intros _; sub_tac; fail). values w'; try leaf. apply ok_ret. intros _. sub_tac.
  - types b; try leaf; try (apply ok_ret; intros _; sub_tac; fail). values w'; try leaf. apply ok_ret. intros _. sub_tac.
  - apply ok_orm; auto. types b; try apply ok_false. apply ok_ret. intros E. apply good_sub; [reflexivity|].
    intros v Wv Fv Ev. change (veq w' v = true) in Ev. change (veq w v = true).
    assert (Ww : wf w) by exact (proj1 (proj1 Ta)). assert (Ww' : wf w') by exact (proj1 (proj1 Sb)). now apply (veq_trans w w' v).
  - types b; try leaf; try (apply ok_ret; intros _; sub_tac; fail). values w'; try leaf. apply ok_ret. intros _. sub_tac.
  - types b; try leaf; try (apply ok_ret; intros _; sub_tac; fail). values w'; try leaf. apply ok_ret. intros _. sub_tac.
  - destruct (proj2 Ta) as [[] _].
  - types b; try leaf. apply ok_ret. intros _. sub_tac.
Qed.

End Step.

Theorem asgn_sound n : forall fn a b, target_ok L a -> source_ok L b -> ok (asgn W n fn a b) (good a b).
Proof.
  induction n as [|n IH]; intros fn a b Ta Sb; cbn [asgn]; [apply yields_fail|].
  assert (SI : forall t v, ty_all tuple_ok t -> ok (instn W n true t v) (inst W t v = true)).
  { intros t v Ht. eapply yields_imp; [apply instn_returns; exact Ht|]. cbn. intros x <-. auto. }
  assert (D : deep_assignable a = true -> forall x y both, ok (enter x y both (deep_assignable_to (asgn W n) (instn W n true) a b)) (good a b)).
  { intros Da x y both. apply yields_enter, ok_deep; auto using asgn_mono, instn_mono. }
  assert (F : deep_assignable a = false -> ok (with_nil (flat_assignable_to W (asgn W n) a b)) (good a b)).
  { intros Da. apply yields_with_guard, ok_flat; auto using asgn_mono. }
  destruct fn.
  - unfold same_type. destruct (type_eq_dec a b) as [<-|Ne].
    + apply ok_ret. intros _. split; [apply sub_refl|]. intros Na u Hu. exfalso.
      destruct a; try (destruct Hu; fail); cbn in Na; [contradiction|]. destruct (proj2 Ta) as [[] _].
    + destruct (deep_assignable a) eqn:Da; auto.
  - destruct (deep_assignable a) eqn:Da; auto.
    assert (R' : ok (with_nil (asgn W n true a b)) (good a b)) by (apply yields_with_guard, IH; auto).
    destruct a; try exact R'. apply yields_with_guard. now apply D.
Qed.

(* the guard was not hit *)
Theorem assignable_sound_no_hit n p a b s : target_ok L a -> source_ok L b ->
  asgn W n false a b (start p) = Some (true, s) -> s_hit s = false -> sub W a b.
Proof. intros Ta Sb E N. exact (proj1 (asgn_sound n false a b Ta Sb _ _ _ E N eq_refl)). Qed.

End World.
