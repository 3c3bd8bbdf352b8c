(* Proofs about native values. *)
From Coq Require Import ZArith List Bool Lia.
From Coq Require Import Floats.SpecFloat.
From Verif Require Import Int64 Data DataProofs Native NativeSpec.
Import ListNotations.
Open Scope Z_scope.

(* ---------- induction ---------- *)

Lemma nval_ind' (P : nval -> Prop)
  (Hleaf : forall v, (match v with NvArr _ _ | NvStruct _ _ | NvAny (Some _) | NvIface _ (Some _) => False | _ => True end) -> P v)
  (Harr : forall t l, Forall P l -> P (NvArr t l))
  (Hstruct : forall t fs, Forall (fun e => P (snd e)) fs -> P (NvStruct t fs))
  (Hany : forall x, P x -> P (NvAny (Some x)))
  (Hiface : forall t x, P x -> P (NvIface t (Some x))) : forall v, P v.
Proof.
  fix IH 1. intros v. destruct v as [b|z|f|s|t z|t p|t p|t l|t fs|t p|t p|[x|]|t [x|]|p|s k]; try (apply Hleaf; exact I).
  - apply Harr. induction l as [|x r IHl]; constructor; [apply IH|exact IHl].
  - apply Hstruct. induction fs as [|[e x] r IHl]; constructor; [cbn; apply IH|exact IHl].
  - apply Hany. apply IH.
  - apply Hiface. apply IH.
Qed.

Fixpoint alike_ind' (R : nat -> nat -> Prop) (P : nval -> nval -> Prop)
  (Hleaf : forall a b, alike R a b -> (match a with NvArr _ _ | NvStruct _ _ | NvAny (Some _) | NvIface _ (Some _) => False | _ => True end) -> P a b)
  (Harr : forall t l l', Forall2 (alike R) l l' -> Forall2 P l l' -> P (NvArr t l) (NvArr t l'))
  (Hstruct : forall t fs gs, Forall2 (fun e e' => fst e = fst e' /\ alike R (snd e) (snd e')) fs gs ->
     Forall2 (fun e e' => fst e = fst e' /\ P (snd e) (snd e')) fs gs -> P (NvStruct t fs) (NvStruct t gs))
  (Hany : forall x y, alike R x y -> P x y -> P (NvAny (Some x)) (NvAny (Some y)))
  (Hiface : forall t x y, alike R x y -> P x y -> P (NvIface t (Some x)) (NvIface t (Some y)))
  a b (H : alike R a b) {struct H} : P a b.
Proof.
  destruct H; try (apply Hleaf; [constructor; assumption|exact I]).
  - apply Harr; [assumption|]. induction H as [|x y r r' Hx Hr IHr]; constructor; [|exact IHr].
    exact (alike_ind' R P Hleaf Harr Hstruct Hany Hiface _ _ Hx).
  - apply Hstruct; [assumption|]. induction H as [|x y r r' Hx Hr IHr]; constructor; [|exact IHr].
    destruct Hx as [He Hx]. split; [exact He|]. exact (alike_ind' R P Hleaf Harr Hstruct Hany Hiface _ _ Hx).
  - apply Hany; [assumption|]. exact (alike_ind' R P Hleaf Harr Hstruct Hany Hiface _ _ H).
  - apply Hiface; [assumption|]. exact (alike_ind' R P Hleaf Harr Hstruct Hany Hiface _ _ H).
Qed.

(* ---------- the relation ---------- *)

Lemma at_same_mono (R S : nat -> nat -> Prop) p q : (forall p q, R p q -> S p q) -> at_same R p q -> at_same S p q.
Proof. intros HI [H|H]; [left; exact H|right; exact (HI _ _ H)]. Qed.

Lemma alike_mono (R S : nat -> nat -> Prop) a b : (forall p q, R p q -> S p q) -> alike R a b -> alike S a b.
Proof.
  intros HI H. induction H as [a b H L|t l l' _ H|t fs gs _ H|x y _ H|t x y _ H] using alike_ind'; try (constructor; assumption).
  destruct H; try contradiction; constructor; try assumption; try (eapply at_same_mono; eassumption).
Qed.

Lemma SFeqb_not_nan f g : SFeqb f g = true -> f <> S754_nan /\ g <> S754_nan.
Proof. destruct f, g; cbn; intros H; split; try discriminate; discriminate H. Qed.
Lemma SFeqb_sym f g : SFeqb f g = true -> SFeqb g f = true.
Proof.
  intros H. destruct (SFeqb_not_nan _ _ H) as [A B]. apply SFeqb_key; [assumption|assumption|]. symmetry.
  exact (proj1 (SFeqb_key _ _ A B) H).
Qed.
Lemma SFeqb_trans f g k : SFeqb f g = true -> SFeqb g k = true -> SFeqb f k = true.
Proof.
  intros H H'. destruct (SFeqb_not_nan _ _ H) as [A B]. destruct (SFeqb_not_nan _ _ H') as [_ C].
  apply SFeqb_key; [assumption|assumption|]. etransitivity; [exact (proj1 (SFeqb_key _ _ A B) H)|exact (proj1 (SFeqb_key _ _ B C) H')].
Qed.
Lemma SFeqb_refl f : f <> S754_nan -> SFeqb f f = true.
Proof. intros H. apply SFeqb_key; auto. Qed.

Lemma alike_sym R a b : alike R a b -> alike (fun p q => R q p) b a.
Proof.
  intros H. induction H as [a b H L|t l l' _ H|t fs gs _ H|x y _ H|t x y _ H] using alike_ind'.
  - destruct H; try contradiction; constructor; try (apply SFeqb_sym; assumption);
    match goal with H : at_same _ _ _ |- _ => destruct H; [left; congruence|right; assumption] end.
  - constructor. induction H; constructor; assumption.
  - constructor. induction H as [|x y r r' [He H] Hr IHr]; constructor; [split; [congruence|assumption]|assumption].
  - constructor. assumption.
  - constructor. assumption.
Qed.

Definition comp (R S : nat -> nat -> Prop) : nat -> nat -> Prop := fun p q => R p q \/ S p q \/ exists m, R p m /\ S m q.
Lemma at_same_comp R S p q r : at_same R p q -> at_same S q r -> at_same (comp R S) p r.
Proof. unfold at_same, comp. intros [->|H] [->|H']; eauto 6. Qed.

Lemma alike_trans R S a b : alike R a b -> forall c, alike S b c -> alike (comp R S) a c.
Proof.
  intros H. induction H as [a b H L|t l l' _ H|t fs gs _ H|x y _ H|t x y _ H] using alike_ind'; intros c Hc.
  - destruct H; try contradiction; inversion Hc; subst; constructor; try (eapply SFeqb_trans; eassumption);
    try (eapply at_same_comp; eassumption).
  - inversion Hc as [| | | | | | |t' m m' HF| | | | | | | | | | |]; subst. constructor.
    clear Hc. revert m' HF. induction H as [|x y r r' Hx Hr IHr]; intros m' HF; inversion HF; subst; constructor; eauto.
  - inversion Hc as [| | | | | | | |t' m m' HF| | | | | | | | | |]; subst. constructor.
    clear Hc. revert m' HF. induction H as [|x y r r' [He Hx] Hr IHr]; intros m' HF; inversion HF as [|? y' ? ? [He' Hy] HF']; subst; constructor.
    + split; [congruence|]. apply Hx. exact Hy.
    + apply IHr. exact HF'.
  - inversion Hc; subst. constructor. apply H. assumption.
  - inversion Hc; subst. constructor. apply H. assumption.
Qed.

Theorem same_sym h a b : same h a b -> same h b a.
Proof.
  intros (R & HM & H). exists (fun p q => R q p). split; [|apply alike_sym; exact H].
  intros p q Hpq. destruct (HM _ _ Hpq) as (x & y & A & B & C). exists y, x. split; [exact B|]. split; [exact A|]. apply alike_sym. exact C.
Qed.

Theorem same_trans h a b c : same h a b -> same h b c -> same h a c.
Proof.
  intros (R & HR & H) (S & HS & H'). exists (comp R S). split; [|eapply alike_trans; eassumption].
  intros p q [Hpq|[Hpq|(m & Hp & Hq)]].
  - destruct (HR _ _ Hpq) as (x & y & A & B & C). exists x, y. split; [exact A|]. split; [exact B|]. eapply alike_mono; [|exact C]. unfold comp. tauto.
  - destruct (HS _ _ Hpq) as (x & y & A & B & C). exists x, y. split; [exact A|]. split; [exact B|]. eapply alike_mono; [|exact C]. unfold comp. tauto.
  - destruct (HR _ _ Hp) as (x & y & A & B & C). destruct (HS _ _ Hq) as (y' & z & A' & B' & C'). exists x, z.
    split; [exact A|]. split; [exact B'|]. rewrite B in A'. injection A' as <-. eapply alike_trans; eassumption.
Qed.

Lemma plain_alike v : plain v -> alike (fun _ _ => False) v v.
Proof.
  induction v as [v L|t l IH|t fs IH|x IH|t x IH] using nval_ind'; intros H.
  - destruct v as [b|z|f|s|t z|t p|t p|t l|t fs|t [p|]|t [p|]|[x|]|t [x|]|p|s k]; try contradiction; try constructor; try (left; reflexivity).
    + apply SFeqb_refl. inversion H. assumption.
    + inversion H. constructor.
  - inversion H as [| | | | | | |? ? HF| | | | | | | | |]; subst. constructor. clear H. induction HF; constructor.
    + inversion IH; subst. auto.
    + inversion IH; subst. auto.
  - inversion H as [| | | | | | | |? ? HF| | | | | | | |]; subst. constructor. clear H. induction HF; constructor.
    + inversion IH; subst. auto.
    + inversion IH; subst. auto.
  - inversion H; subst. constructor. auto.
  - inversion H; subst. constructor. auto.
Qed.
Lemma alike_plain R v : alike R v v -> plain v.
Proof.
  induction v as [v L|t l IH|t fs IH|x IH|t x IH] using nval_ind'; intros H.
  - destruct v as [b|z|f|s|t z|t p|t p|t l|t fs|t p|t p|[x|]|t [x|]|p|s k]; try contradiction; try constructor.
    + inversion H; subst. match goal with E : SFeqb f f = true |- _ => exact (proj1 (SFeqb_not_nan _ _ E)) end.
    + inversion H; subst. constructor.
  - inversion H as [| | | | | | |? ? ? HF| | | | | | | | | | |]; subst. constructor. clear H.
    induction l as [|x r IHr]; constructor; inversion IH; inversion HF; subst; auto.
  - inversion H as [| | | | | | | |? ? ? HF| | | | | | | | | |]; subst. constructor. clear H.
    induction fs as [|x r IHr]; constructor; inversion IH; inversion HF as [|? ? ? ? [_ Hx] HF']; subst; auto.
  - inversion H; subst. constructor. auto.
  - inversion H; subst. constructor. auto.
Qed.
Theorem same_plain h v : same h v v <-> plain v.
Proof.
  split.
  - intros (R & _ & H). exact (alike_plain _ _ H).
  - intros H. exists (fun _ _ => False). split; [intros p q []|exact (plain_alike _ H)].
Qed.

(* ---------- DeepEqual ---------- *)

Lemma met_in seen p q : met seen p q = true <-> In (p, q) seen.
Proof.
  unfold met. rewrite existsb_exists. split.
  - intros ((x & y) & H & E). apply andb_true_iff in E. destruct E as [E1 E2]. apply Nat.eqb_eq in E1, E2. cbn in E1, E2. subst. exact H.
  - intros H. exists (p, q). split; [exact H|]. cbn. rewrite !Nat.eqb_refl. reflexivity.
Qed.
Lemma same_flags_iff fs gs : same_flags fs gs = true <-> map fst fs = map fst gs.
Proof.
  revert gs. induction fs as [|[e x] r IH]; intros [|[e' y] r']; cbn; split; try discriminate; try reflexivity.
  - intros H. apply andb_true_iff in H. destruct H as [H H']. apply Bool.eqb_prop in H. apply IH in H'. congruence.
  - intros H. injection H as <- H. rewrite Bool.eqb_reflx. apply IH. exact H.
Qed.

Definition within (s : pairs) : nat -> nat -> Prop := fun p q => In (p, q) s.
(* what is known when DeepEqual said yes *)
Definition justified (h : heap) (seen seen' : pairs) : Prop :=
  incl seen seen' /\
  forall p q, In (p, q) seen' -> In (p, q) seen \/ exists x y, cell h p = Some x /\ cell h q = Some y /\ alike (within seen') x y.

Lemma justified_refl h s : justified h s s.
Proof. split; [apply incl_refl|]. intros p q H. left. exact H. Qed.
Lemma within_mono s s' a b : incl s s' -> alike (within s) a b -> alike (within s') a b.
Proof. intros H. apply alike_mono. intros p q. apply H. Qed.
Lemma justified_trans h a b c : justified h a b -> justified h b c -> justified h a c.
Proof.
  intros [I J] [I' J']. split; [eapply incl_tran; eassumption|]. intros p q H. destruct (J' _ _ H) as [H'|H']; [|right; exact H'].
  destruct (J _ _ H') as [H''|(x & y & A & B & C)]; [left; exact H''|]. right. exists x, y. split; [exact A|]. split; [exact B|].
  eapply within_mono; eassumption.
Qed.

Section Heap.
Variable h : heap.

Lemma deq_list_sound f : (forall seen a b s, f seen a b = Some (true, s) -> justified h seen s /\ alike (within s) a b) ->
  forall l l' seen s, deq_list f seen l l' = Some (true, s) -> justified h seen s /\ Forall2 (alike (within s)) l l'.
Proof.
  intros Hf l. induction l as [|x r IH]; intros [|y r'] seen s H; cbn in H; try discriminate.
  - injection H as <-. split; [apply justified_refl|constructor].
  - destruct (f seen x y) as [[[|] s1]|] eqn:E; try discriminate.
    destruct (Hf _ _ _ _ E) as [J A]. destruct (IH _ _ _ H) as [J' A']. split; [eapply justified_trans; eassumption|].
    constructor; [|exact A']. eapply within_mono; [exact (proj1 J')|exact A].
Qed.

Lemma deq_ref_sound f : (forall seen a b s, f seen a b = Some (true, s) -> justified h seen s /\ alike (within s) a b) ->
  forall p q seen s, deq_ref h f seen p q = Some (true, s) ->
  justified h seen s /\ (p = None /\ q = None \/ exists p' q', p = Some p' /\ q = Some q' /\ at_same (within s) p' q').
Proof.
  intros Hf [p|] [q|] seen s H; cbn in H; try discriminate.
  - destruct (Nat.eqb p q || met seen p q) eqn:E.
    + injection H as <-. split; [apply justified_refl|]. right. exists p, q. split; [reflexivity|]. split; [reflexivity|].
      apply orb_true_iff in E. destruct E as [E|E]; [left; apply Nat.eqb_eq; exact E|right; apply met_in; exact E].
    + destruct (cell h p) as [x|] eqn:Ex; [|discriminate]. destruct (cell h q) as [y|] eqn:Ey; [|discriminate].
      destruct (Hf _ _ _ _ H) as [[I J] A]. split.
      * split; [intros e He; apply I; right; exact He|]. intros p' q' H'. destruct (J _ _ H') as [[H''|H'']|H'']; [|left; exact H''|right; exact H''].
        injection H'' as <- <-. right. exists x, y. auto.
      * right. exists p, q. split; [reflexivity|]. split; [reflexivity|]. right. apply I. left. reflexivity.
  - injection H as <-. split; [apply justified_refl|]. left. split; reflexivity.
Qed.

Ltac leaf H := injection H as H <-; split; [apply justified_refl|].

Lemma fields_alike R : forall fs gs, map fst fs = map fst gs -> Forall2 (alike R) (map snd fs) (map snd gs) ->
  Forall2 (fun e e' : bool * nval => fst e = fst e' /\ alike R (snd e) (snd e')) fs gs.
Proof.
  induction fs as [|[e x] r IH]; intros [|[e' y] r'] H HF; cbn in *; try discriminate; constructor.
  - injection H as H _. inversion HF; subst. split; [reflexivity|assumption].
  - injection H as _ H. inversion HF; subst. apply IH; assumption.
Qed.
Lemma fields_split R fs gs : Forall2 (fun e e' : bool * nval => fst e = fst e' /\ alike R (snd e) (snd e')) fs gs ->
  map fst fs = map fst gs /\ Forall2 (alike R) (map snd fs) (map snd gs).
Proof.
  intros H. induction H as [|[e x] [e' y] r r' [He Hx] Hr [IH1 IH2]]; cbn in *; [split; [reflexivity|constructor]|].
  split; [congruence|constructor; assumption].
Qed.

Lemma deq_sound n : forall seen a b s, deq h n seen a b = Some (true, s) -> justified h seen s /\ alike (within s) a b.
Proof.
  induction n as [|n IH]; intros seen a b s H; [discriminate|].
  destruct a as [b0|z|f|s0|t z|t p|t p|t l|t fs|t p|t p|[x|]|t [x|]|p|s0 k];
  destruct b as [b0'|z'|f'|s0'|t' z'|t' p'|t' p'|t' l'|t' fs'|t' p'|t' p'|[x'|]|t' [x'|]|p'|s0' k']; cbn [deq] in H; try discriminate.
  - leaf H. apply Bool.eqb_prop in H. subst. constructor.
  - leaf H. apply Z.eqb_eq in H. subst. constructor.
  - leaf H. constructor. exact H.
  - leaf H. apply bytes_eqb_eq in H. subst. constructor.
  - leaf H. apply andb_true_iff in H. destruct H as [H H']. apply Nat.eqb_eq in H. apply Z.eqb_eq in H'. subst. constructor.
  - leaf H. apply andb_true_iff in H. destruct H as [H H']. apply Nat.eqb_eq in H. apply Z.eqb_eq in H'. subst. constructor.
  - leaf H. apply andb_true_iff in H. destruct H as [H H2]. apply andb_true_iff in H. destruct H as [H H']. apply Nat.eqb_eq in H.
    apply Z.eqb_eq in H', H2. subst. constructor.
  - destruct (Nat.eqb t t') eqn:E; [|discriminate]. apply Nat.eqb_eq in E. subst. destruct (deq_list_sound _ IH _ _ _ _ H) as [J A].
    split; [exact J|]. constructor. exact A.
  - destruct (Nat.eqb t t' && same_flags fs fs') eqn:E; [|discriminate]. apply andb_true_iff in E. destruct E as [E E']. apply Nat.eqb_eq in E. subst.
    destruct (deq_list_sound _ IH _ _ _ _ H) as [J A]. split; [exact J|]. constructor. apply fields_alike; [apply same_flags_iff; exact E'|exact A].
  - destruct (Nat.eqb t t') eqn:E; [|discriminate]. apply Nat.eqb_eq in E. subst. destruct (deq_ref_sound _ IH _ _ _ _ H) as [J A].
    split; [exact J|]. destruct A as [[-> ->]|(a & b & -> & -> & A)]; constructor; exact A.
  - destruct (Nat.eqb t t') eqn:E; [|discriminate]. apply Nat.eqb_eq in E. subst. destruct (deq_ref_sound _ IH _ _ _ _ H) as [J A].
    split; [exact J|]. destruct A as [[-> ->]|(a & b & -> & -> & A)]; constructor; exact A.
  - destruct (IH _ _ _ _ H) as [J A]. split; [exact J|constructor; exact A].
  - injection H as <-. split; [apply justified_refl|constructor].
  - destruct (Nat.eqb t t') eqn:E; [|discriminate]. apply Nat.eqb_eq in E. subst. destruct (IH _ _ _ _ H) as [J A]. split; [exact J|constructor; exact A].
  - leaf H. apply Nat.eqb_eq in H. subst. constructor.
  - destruct (deq_ref_sound _ IH _ _ _ _ H) as [J A]. split; [exact J|].
    destruct A as [[A _]|(a & b & A & B & C)]; [discriminate|]. injection A as <-. injection B as <-. constructor. exact C.
  - leaf H. apply andb_true_iff in H. destruct H as [H H']. apply bytes_eqb_eq in H. apply Z.eqb_eq in H'. subst. constructor.
Qed.

Theorem deq_same n a b s : deq h n [] a b = Some (true, s) -> same h a b.
Proof.
  intros H. destruct (deq_sound _ _ _ _ _ H) as [[I J] A]. exists (within s). split; [|exact A].
  intros p q Hpq. destruct (J _ _ Hpq) as [[]|K]. exact K.
Qed.

(* the other direction *)
Section Complete.
Variable R : nat -> nat -> Prop.
Hypothesis HR : matching h R.

Lemma deq_list_complete f : (forall seen a b r s, alike R a b -> f seen a b = Some (r, s) -> r = true) ->
  forall l l', Forall2 (alike R) l l' -> forall seen r s, deq_list f seen l l' = Some (r, s) -> r = true.
Proof.
  intros Hf l l' HF. induction HF as [|x y l l' Hx HF IH]; intros seen r s H; cbn in H; [congruence|].
  destruct (f seen x y) as [[[|] s1]|] eqn:E; [|specialize (Hf _ _ _ _ _ Hx E); discriminate|discriminate].
  eapply IH. exact H.
Qed.
Lemma deq_ref_complete f : (forall seen a b r s, alike R a b -> f seen a b = Some (r, s) -> r = true) ->
  forall p q seen r s, at_same R p q -> deq_ref h f seen (Some p) (Some q) = Some (r, s) -> r = true.
Proof.
  intros Hf p q seen r s Hpq H. cbn in H. destruct (Nat.eqb p q || met seen p q) eqn:E; [congruence|].
  destruct Hpq as [->|Hpq]; [rewrite Nat.eqb_refl in E; discriminate|].
  destruct (HR _ _ Hpq) as (x & y & A & B & C). rewrite A, B in H. eapply Hf; eassumption.
Qed.

Lemma deq_complete n : forall seen a b r s, alike R a b -> deq h n seen a b = Some (r, s) -> r = true.
Proof.
  induction n as [|n IH]; intros seen a b r s HA H; [discriminate|].
  destruct HA; cbn [deq] in H; rewrite ?Nat.eqb_refl, ?Z.eqb_refl in H; cbn [andb] in H; try congruence.
  - rewrite Bool.eqb_reflx in H. congruence.
  - rewrite (proj2 (bytes_eqb_eq s0 s0) eq_refl) in H. congruence.
  - eapply deq_list_complete; eassumption.
  - apply fields_split in H0. destruct H0 as [H1 H2]. rewrite (proj2 (same_flags_iff _ _) H1) in H.
    eapply deq_list_complete; eassumption.
  - cbn in H. congruence.
  - eapply deq_ref_complete; eassumption.
  - cbn in H. congruence.
  - eapply deq_ref_complete; eassumption.
  - eapply IH; eassumption.
  - eapply IH; eassumption.
  - eapply deq_ref_complete; eassumption.
  - rewrite (proj2 (bytes_eqb_eq s0 s0) eq_refl) in H. cbn in H. congruence.
Qed.
End Complete.

Theorem same_deq n a b r s : same h a b -> deq h n [] a b = Some (r, s) -> r = true.
Proof. intros (R & HR & HA) H. exact (deq_complete R HR _ _ _ _ _ _ HA H). Qed.
End Heap.

(* ---------- DeepEqual ends ---------- *)

Section Ends.
Variable h : heap.

Lemma deq_list_mono (f g : pairs -> nval -> nval -> option (bool * pairs)) : (forall s a b r, f s a b = Some r -> g s a b = Some r) ->
  forall l l' seen r, deq_list f seen l l' = Some r -> deq_list g seen l l' = Some r.
Proof.
  intros Hf l. induction l as [|x r0 IH]; intros [|y r'] seen r H; cbn in *; try assumption.
  destruct (f seen x y) as [[[|] s1]|] eqn:E; try discriminate; rewrite (Hf _ _ _ _ E); auto.
Qed.
Lemma deq_ref_mono (f g : pairs -> nval -> nval -> option (bool * pairs)) : (forall s a b r, f s a b = Some r -> g s a b = Some r) ->
  forall p q seen r, deq_ref h f seen p q = Some r -> deq_ref h g seen p q = Some r.
Proof.
  intros Hf [p|] [q|] seen r H; cbn in *; try assumption. destruct (Nat.eqb p q || met seen p q); [assumption|].
  destruct (cell h p), (cell h q); auto; discriminate.
Qed.
Lemma deq_mono1 n : forall seen a b r, deq h n seen a b = Some r -> deq h (S n) seen a b = Some r.
Proof.
  induction n as [|n IH]; intros seen a b r H; [discriminate|].
  destruct a as [b0|z|f|s0|t z|t p|t p|t l|t fs|t p|t p|[x|]|t [x|]|p|s0 k];
  destruct b as [b0'|z'|f'|s0'|t' z'|t' p'|t' p'|t' l'|t' fs'|t' p'|t' p'|[x'|]|t' [x'|]|p'|s0' k'];
  cbn [deq] in H; try exact H; change (deq h (S (S n))) with (fun seen a b => deq h (S (S n)) seen a b); cbv beta;
  match goal with |- deq _ (S ?m) _ _ _ = _ => set (m' := m) end; cbn [deq]; subst m'.
  - destruct (Nat.eqb t t'); [|exact H]. eapply deq_list_mono; [exact IH|exact H].
  - destruct (Nat.eqb t t' && same_flags fs fs'); [|exact H]. eapply deq_list_mono; [exact IH|exact H].
  - destruct (Nat.eqb t t'); [|exact H]. eapply deq_ref_mono; [exact IH|exact H].
  - destruct (Nat.eqb t t'); [|exact H]. eapply deq_ref_mono; [exact IH|exact H].
  - apply IH. exact H.
  - destruct (Nat.eqb t t'); [|exact H]. apply IH. exact H.
  - eapply deq_ref_mono; [exact IH|exact H].
Qed.
Lemma deq_mono n m seen a b r : (n <= m)%nat -> deq h n seen a b = Some r -> deq h m seen a b = Some r.
Proof. intros L H. induction L; [exact H|]. apply deq_mono1. exact IHL. Qed.

(* pairs of addresses that were not met *)
Definition all_pairs : pairs := list_prod (seq 0 (List.length h)) (seq 0 (List.length h)).
Definition left (seen : pairs) : nat := List.length (filter (fun e => negb (met seen (fst e) (snd e))) all_pairs).

Lemma filter_le {A} (f g : A -> bool) l : (forall x, f x = true -> g x = true) -> (List.length (filter f l) <= List.length (filter g l))%nat.
Proof.
  intros H. induction l as [|x r IH]; cbn; [lia|]. destruct (f x) eqn:E; [rewrite (H _ E); cbn; lia|]. destruct (g x); cbn; lia.
Qed.
Lemma filter_lt {A} (f g : A -> bool) l x : (forall x, f x = true -> g x = true) -> In x l -> f x = false -> g x = true ->
  (List.length (filter f l) < List.length (filter g l))%nat.
Proof.
  intros H Hin Hf Hg. induction l as [|y r IH]; [destruct Hin|]. cbn. destruct Hin as [->|Hin].
  - rewrite Hf, Hg. cbn. pose proof (filter_le f g r H). lia.
  - specialize (IH Hin). destruct (f y) eqn:E; [rewrite (H _ E); cbn; lia|]. destruct (g y); cbn; lia.
Qed.
Lemma left_mono s s' : incl s s' -> (left s' <= left s)%nat.
Proof.
  intros I. apply filter_le. intros [p q]. cbn. rewrite !negb_true_iff. intros H. destruct (met s p q) eqn:E; [|reflexivity].
  apply met_in in E. apply I in E. apply met_in in E. congruence.
Qed.
Lemma left_lt s p q x y : cell h p = Some x -> cell h q = Some y -> met s p q = false -> (left ((p, q) :: s) < left s)%nat.
Proof.
  intros Hp Hq Hm. apply filter_lt with (x := (p, q)).
  - intros [a b]. cbn. rewrite !negb_true_iff. intros H. apply orb_false_iff in H. exact (proj2 H).
  - apply in_prod; apply in_seq; (split; [lia|]); apply nth_error_Some; unfold cell in *; congruence.
  - cbn. rewrite !Nat.eqb_refl. reflexivity.
  - cbn. rewrite Hm. reflexivity.
Qed.

Definition ends (seen : pairs) (a b : nval) : Prop := exists n r, deq h n seen a b = Some r.

Lemma list_ends k l : forall l' seen, (left seen <= k)%nat ->
  (forall x y s, In x l -> In y l' -> (left s <= k)%nat -> ends s x y) ->
  exists n r, deq_list (deq h n) seen l l' = Some r.
Proof.
  induction l as [|x r IH]; intros [|y r'] seen L H; try (exists 0%nat; eexists; reflexivity).
  destruct (H x y seen (or_introl eq_refl) (or_introl eq_refl) L) as (n & [[|] s] & E).
  - assert (Ls : (left s <= k)%nat).
    { pose proof (left_mono _ _ (proj1 (proj1 (deq_sound h _ _ _ _ _ E)))). lia. }
    destruct (IH r' s Ls) as (m & o & E').
    { intros x' y' s' Hx Hy. apply H; right; assumption. }
    exists (Nat.max n m), o. cbn. rewrite (deq_mono n (Nat.max n m) _ _ _ _ ltac:(lia) E).
    eapply deq_list_mono; [|exact E']. intros. eapply deq_mono; [|eassumption]. lia.
  - exists n, (false, s). cbn. rewrite E. reflexivity.
Qed.

Hypothesis Hh : heap_ok h.

Lemma value_ok_arr t l x : value_ok h (NvArr t l) -> In x l -> value_ok h x.
Proof. intros H Hin k p Hr. apply H. econstructor; eassumption. Qed.
Lemma value_ok_struct t fs x : value_ok h (NvStruct t fs) -> In x (map snd fs) -> value_ok h x.
Proof. intros H Hin k p Hr. apply in_map_iff in Hin. destruct Hin as (e & <- & He). apply H. econstructor; eassumption. Qed.

Lemma ref_ends k seen p q : (forall seen a b, (left seen < k)%nat -> value_ok h a -> value_ok h b -> ends seen a b) -> (left seen <= k)%nat ->
  (forall x, p = Some x -> exists v, cell h x = Some v) -> (forall x, q = Some x -> exists v, cell h x = Some v) ->
  exists n r, deq_ref h (deq h n) seen p q = Some r.
Proof.
  intros IH L Hp Hq. destruct p as [p|], q as [q|]; try (exists 0%nat; eexists; reflexivity).
  destruct (Nat.eqb p q || met seen p q) eqn:E.
  - exists 0%nat, (true, seen). cbn. rewrite E. reflexivity.
  - destruct (Hp p eq_refl) as [x Hx]. destruct (Hq q eq_refl) as [y Hy].
    destruct (IH ((p, q) :: seen) x y) as (n & r & Er).
    + apply orb_false_iff in E. pose proof (left_lt seen p q x y Hx Hy (proj2 E)). lia.
    + exact (Hh _ _ Hx).
    + exact (Hh _ _ Hy).
    + exists n, r. cbn. rewrite E, Hx, Hy. exact Er.
Qed.

Lemma deq_ends k : forall a b seen, (left seen <= k)%nat -> value_ok h a -> value_ok h b -> ends seen a b.
Proof.
  induction k as [k IHk] using lt_wf_ind.
  assert (IH : forall seen a b, (left seen < k)%nat -> value_ok h a -> value_ok h b -> ends seen a b).
  { intros seen a b L. apply (IHk (left seen) L). lia. }
  clear IHk. intros a. induction a as [a La|t l IHa|t fs IHa|x IHa|t x IHa] using nval_ind'; intros b seen L Ha Hb.
  - destruct a as [b0|z|f|s0|t z|t p|t p|t l|t fs|t p|t p|[x|]|t [x|]|p|s0 k0]; try contradiction;
    destruct b as [b0'|z'|f'|s0'|t' z'|t' p'|t' p'|t' l'|t' fs'|t' p'|t' p'|[x'|]|t' [x'|]|p'|s0' k0'];
    try (exists 1%nat; eexists; reflexivity).
    + destruct (Nat.eqb t t') eqn:E; [|exists 1%nat; eexists; cbn; rewrite E; reflexivity].
      destruct (ref_ends k seen p p' IH L) as (n & r & Er).
      * intros y ->. destruct (Ha KSlice y) as (v & Hv & _); [constructor|]. exists v. exact Hv.
      * intros y ->. destruct (Hb KSlice y) as (v & Hv & _); [constructor|]. exists v. exact Hv.
      * exists (S n), r. cbn [deq]. rewrite E. exact Er.
    + destruct (Nat.eqb t t') eqn:E; [|exists 1%nat; eexists; cbn; rewrite E; reflexivity].
      destruct (ref_ends k seen p p' IH L) as (n & r & Er).
      * intros y ->. destruct (Ha KPtr y) as (v & Hv & _); [constructor|]. exists v. exact Hv.
      * intros y ->. destruct (Hb KPtr y) as (v & Hv & _); [constructor|]. exists v. exact Hv.
      * exists (S n), r. cbn [deq]. rewrite E. exact Er.
    + destruct (ref_ends k seen (Some p) (Some p') IH L) as (n & r & Er).
      * intros y Hy. injection Hy as <-. destruct (Ha KStr p) as (v & Hv & _); [constructor|]. exists v. exact Hv.
      * intros y Hy. injection Hy as <-. destruct (Hb KStr p') as (v & Hv & _); [constructor|]. exists v. exact Hv.
      * exists (S n), r. exact Er.
  - destruct b as [| | | | | | |t' l'| | | | | | |]; try (exists 1%nat; eexists; reflexivity).
    destruct (Nat.eqb t t') eqn:E; [|exists 1%nat; eexists; cbn; rewrite E; reflexivity].
    destruct (list_ends k l l' seen L) as (n & r & Er).
    + intros x y s Hx Hy Ls. apply (proj1 (Forall_forall _ _) IHa x Hx); [exact Ls|exact (value_ok_arr _ _ _ Ha Hx)|exact (value_ok_arr _ _ _ Hb Hy)].
    + exists (S n), r. cbn [deq]. rewrite E. exact Er.
  - destruct b as [| | | | | | | |t' fs'| | | | | |]; try (exists 1%nat; eexists; reflexivity).
    destruct (Nat.eqb t t' && same_flags fs fs') eqn:E; [|exists 1%nat; eexists; cbn; rewrite E; reflexivity].
    destruct (list_ends k (map snd fs) (map snd fs') seen L) as (n & r & Er).
    + intros x y s Hx Hy Ls. pose proof (value_ok_struct _ _ _ Ha Hx) as Vx. pose proof (value_ok_struct _ _ _ Hb Hy) as Vy.
      apply in_map_iff in Hx. destruct Hx as (e & <- & He).
      apply (proj1 (Forall_forall _ _) IHa e He); assumption.
    + exists (S n), r. cbn [deq]. rewrite E. exact Er.
  - destruct b as [| | | | | | | | | | |[y|]| | |]; try (exists 1%nat; eexists; reflexivity).
    destruct (IHa y seen L) as (n & r & Er).
    + intros k0 p Hr. apply Ha. constructor. exact Hr.
    + intros k0 p Hr. apply Hb. constructor. exact Hr.
    + exists (S n), r. exact Er.
  - destruct b as [| | | | | | | | | | | |t' [y|]| |]; try (exists 1%nat; eexists; reflexivity).
    destruct (Nat.eqb t t') eqn:E; [|exists 1%nat; eexists; cbn; rewrite E; reflexivity].
    destruct (IHa y seen L) as (n & r & Er).
    + intros k0 p Hr. apply Ha. constructor. exact Hr.
    + intros k0 p Hr. apply Hb. constructor. exact Hr.
    + exists (S n), r. cbn [deq]. rewrite E. exact Er.
Qed.

(* natives are equal iff they are the same value *)
Theorem native_equals a b : value_ok h a -> value_ok h b ->
  exists n, forall m, (n <= m)%nat -> exists r, native_eq h m a (NoNative b) = Some r /\ (r = true <-> same h a b).
Proof.
  intros Ha Hb. destruct (deq_ends (left []) a b [] (le_n _) Ha Hb) as (n & [r s] & E). exists n. intros m L. exists r.
  pose proof (deq_mono _ _ _ _ _ _ L E) as E'. split.
  - cbn. rewrite E'. reflexivity.
  - split; [intros ->; exact (deq_same h _ _ _ _ E')|intros H; exact (same_deq h _ _ _ _ _ H E')].
Qed.
End Ends.
