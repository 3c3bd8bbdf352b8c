(* Proofs about Replace and Resolve. *)
From Coq Require Import ZArith List Bool Lia.
From Verif Require Import Int64 HMap Data DataSpec Types TypesSpec Graph RecTypes RecTypesSpec Resolve ResolveSpec.
Import ListNotations.
Open Scope Z_scope.

(* ---------- nodes ---------- *)

Lemma set_nth_length {A} (l : list A) i x : length (set_nth l i x) = length l.
Proof. revert i. induction l as [|y l IH]; intros [|i]; cbn; [reflexivity|reflexivity|reflexivity|now rewrite IH]. Qed.
Lemma set_nth_get {A} (l : list A) i x : (i < length l)%nat -> nth_error (set_nth l i x) i = Some x.
Proof. revert i. induction l as [|y l IH]; intros [|i] H; cbn in *; try lia; [reflexivity|apply IH; lia]. Qed.
Lemma set_nth_other {A} (l : list A) i j x : i <> j -> nth_error (set_nth l i x) j = nth_error l j.
Proof.
  revert i j. induction l as [|y l IH]; intros [|i] j H; cbn; try reflexivity; destruct j as [|j]; cbn; try reflexivity; try congruence.
  apply IH. congruence.
Qed.
Lemma set_nth_same {A} (l : list A) i x : nth_error l i = Some x -> set_nth l i x = l.
Proof. revert i. induction l as [|y l IH]; intros [|i] H; cbn in *; try discriminate; [now injection H as ->|f_equal; now apply IH]. Qed.
Lemma nth_ext_error {A} (l l' : list A) : length l = length l' -> (forall i x, nth_error l' i = Some x -> nth_error l i = Some x) -> l = l'.
Proof.
  revert l'. induction l as [|x l IH]; intros [|y l'] L H; cbn in L; try discriminate; [reflexivity|].
  pose proof (H O y eq_refl) as E. cbn in E. injection E as ->. f_equal. apply IH; [lia|]. intros i z Hz. exact (H (S i) z Hz).
Qed.

Definition is_vals (n : hnode) : bool := match n with HVals _ => true | _ => false end.
Definition guarded (n : hnode) : bool := container n && negb (is_vals n).

Lemma struct_kids es ks : length ks = length es ->
  map (fun e : value * nat * bool => snd (fst e)) (map (fun e : value * nat * bool * nat => (fst (fst (fst e)), snd e, snd (fst e))) (combine es ks)) = ks.
Proof. revert ks. induction es as [|e es IH]; intros [|k ks] L; cbn in *; try discriminate; [reflexivity|]. f_equal. apply IH. lia. Qed.
Lemma struct_again (es : list (value * nat * bool)) ks ks' : length ks = length es -> length ks' = length es ->
  map (fun e : value * nat * bool * nat => (fst (fst (fst e)), snd e, snd (fst e)))
    (combine (map (fun e : value * nat * bool * nat => (fst (fst (fst e)), snd e, snd (fst e))) (combine es ks)) ks') =
  map (fun e : value * nat * bool * nat => (fst (fst (fst e)), snd e, snd (fst e))) (combine es ks').
Proof. revert ks ks'. induction es as [|e es IH]; intros [|k ks] [|k' ks'] L L'; cbn in *; try discriminate; [reflexivity|]. f_equal. apply IH; lia. Qed.
Lemma struct_same (es : list (value * nat * bool)) :
  map (fun e : value * nat * bool * nat => (fst (fst (fst e)), snd e, snd (fst e))) (combine es (map (fun e => snd (fst e)) es)) = es.
Proof. induction es as [|[[k t] b] es IH]; cbn; [reflexivity|now rewrite IH]. Qed.

Ltac len1 ks L := destruct ks as [|? [|? ?]]; cbn in L; try discriminate L.
Ltac len2 ks L := destruct ks as [|? [|? [|? ?]]]; cbn in L; try discriminate L.

Lemma hwith_kids n ks : length ks = length (hkids n) -> hkids (hwith n ks) = ks.
Proof.
  destruct n as [s|[]| |]; cbn [hkids]; intros L; try (destruct ks; [reflexivity|discriminate L]); try reflexivity; try (now len1 ks L); try (now len2 ks L).
  cbn. rewrite map_length in L. now apply struct_kids.
Qed.
Lemma hwith_same n : hwith n (hkids n) = n.
Proof. destruct n as [s|[]| |]; cbn; try reflexivity. now rewrite struct_same. Qed.
Lemma hwith_hwith n ks ks' : length ks = length (hkids n) -> length ks' = length (hkids n) -> hwith (hwith n ks) ks' = hwith n ks'.
Proof.
  destruct n as [s|[]| |]; cbn [hkids]; intros L L'; try reflexivity; try (len1 ks L; now len1 ks' L'); try (len2 ks L; now len2 ks' L').
  cbn. rewrite map_length in L, L'. now rewrite struct_again.
Qed.
Lemma hwith_shape n ks : length ks = length (hkids n) -> container (hwith n ks) = container n /\ is_vals (hwith n ks) = is_vals n.
Proof. destruct n as [s|[]| |]; cbn [hkids]; intros L; try (split; reflexivity); try (now len1 ks L); try (now len2 ks L). Qed.
Lemma hwith_clear any n ks : guarded n = true -> length ks = length (hkids n) -> hclear any (hwith n ks) = hclear any n.
Proof.
  destruct n as [s|[]| |]; cbn [hkids]; intros Hg L; try discriminate Hg; try reflexivity; try (now len1 ks L); try (now len2 ks L).
  cbn. rewrite map_length in L. destruct es as [|e es], ks as [|k ks]; cbn in L; try discriminate L; reflexivity.
Qed.
Lemma clear_clear any n : hclear any (hclear any n) = hclear any n.
Proof. destruct n as [s|[]| |]; cbn; try reflexivity. now destruct es. Qed.
Lemma clear_kids any n : guarded n = true -> Forall (eq any) (hkids (hclear any n)).
Proof. destruct n as [s|[]| |]; cbn; intros H; try discriminate H; repeat constructor. destruct es; constructor. Qed.
Lemma clear_shape any n : container (hclear any n) = container n /\ is_vals (hclear any n) = is_vals n.
Proof. destruct n as [s|[]| |]; split; reflexivity. Qed.
Lemma kids_points n : container n = true -> points_to n = hkids n.
Proof. destruct n as [s|[]| |]; cbn; intros H; try discriminate H; reflexivity. Qed.
Lemma alias_not_container n : is_alias n -> container n = false.
Proof. intros [s ->]. reflexivity. Qed.
Lemma not_container_kids n : container n = false -> hkids n = [].
Proof. destruct n as [s|[]| |]; cbn; intros H; try discriminate H; reflexivity. Qed.
Lemma not_container_with n ks : container n = false -> hwith n ks = n.
Proof. destruct n as [s|[]| |]; cbn; intros H; try discriminate H; reflexivity. Qed.

(* ---------- the invariant ---------- *)

Section Invariant.
Variable any : nat.
Variable types : list Z -> option nat.
Variable h0 : heap.
Hypothesis OK : heap_ok types any h0.
Hypothesis NC : no_chains types h0.
(* addresses that may be written to *)
Variable U : nat -> Prop.

Definition target (q : nat) : nat :=
  match nth_error h0 q with
  | Some (HAlias s) => match types s with Some t => t | None => q end
  | _ => q
  end.
Hypothesis UC : forall p n0 k, U p -> nth_error h0 p = Some n0 -> In k (hkids n0) -> U k /\ U (target k).

Lemma target_alias p s : nth_error h0 p = Some (HAlias s) -> exists q, types s = Some q /\ target p = q /\ in_heap h0 q.
Proof. intros H. destruct OK as (_ & _ & N). destruct (N p s H) as (q & E & I). exists q. unfold target. rewrite H, E. auto. Qed.
Lemma target_plain p n : nth_error h0 p = Some n -> ~ is_alias n -> target p = p.
Proof. unfold target. intros -> H. destruct n as [s| | |]; try reflexivity. destruct H. now exists s. Qed.
Lemma alias_dec n : is_alias n \/ ~ is_alias n.
Proof. destruct n as [s|nd|t|l]; [left; now exists s|right; now intros [s H]..]. Qed.
Lemma in_heap_get p : in_heap h0 p -> exists n, nth_error h0 p = Some n.
Proof. intros H. destruct (nth_error h0 p) eqn:E; [eauto|]. apply nth_error_None in E. unfold in_heap in H. lia. Qed.
Lemma get_in_heap p n : nth_error h0 p = Some n -> in_heap h0 p.
Proof. intros H. unfold in_heap. apply nth_error_Some. congruence. Qed.
Lemma target_in p : in_heap h0 p -> in_heap h0 (target p).
Proof.
  intros H. destruct (in_heap_get p H) as [n E]. destruct (alias_dec n) as [[s ->]|A].
  - destruct (target_alias p s E) as (q & _ & -> & I). exact I.
  - now rewrite (target_plain p n E A).
Qed.
Lemma target_no_alias p n : in_heap h0 p -> nth_error h0 (target p) = Some n -> ~ is_alias n.
Proof.
  intros H. destruct (in_heap_get p H) as [m E]. destruct (alias_dec m) as [[s ->]|A].
  - destruct (target_alias p s E) as (q & T & -> & I). apply (NC s q n T).
  - rewrite (target_plain p m E A). congruence.
Qed.
Lemma target_twice p : in_heap h0 p -> target (target p) = target p.
Proof.
  intros H. destruct (in_heap_get _ (target_in p H)) as [n E]. apply (target_plain _ n E). now apply (target_no_alias p).
Qed.
Lemma kids_in p n0 k : nth_error h0 p = Some n0 -> In k (hkids n0) -> in_heap h0 k.
Proof.
  intros H I. destruct OK as (F & _). apply nth_error_In in H. rewrite Forall_forall in F. pose proof (F _ H) as N. unfold node_in_heap in N.
  destruct (container n0) eqn:C; [|rewrite (not_container_kids _ C) in I; destruct I].
  rewrite (kids_points _ C), Forall_forall in N. now apply N.
Qed.
Lemma target_any : target any = any.
Proof. destruct OK as (_ & A & _). apply (target_plain _ _ A). now intros [s H]. Qed.

(* a node as it was, with some references replaced *)
Definition near (n0 n : hnode) : Prop := exists ks, n = hwith n0 ks /\ Forall2 (fun k0 k => k = k0 \/ k = target k0) (hkids n0) ks.
Definition full (n0 : hnode) : hnode := hwith n0 (map target (hkids n0)).
Lemma F2_length {A B} (R : A -> B -> Prop) l l' : Forall2 R l l' -> length l' = length l.
Proof. induction 1; cbn; congruence. Qed.
Lemma near_refl n : near n n.
Proof. exists (hkids n). split; [now rewrite hwith_same|]. induction (hkids n); constructor; auto. Qed.
Lemma near_kids n0 n : near n0 n -> Forall2 (fun k0 k => k = k0 \/ k = target k0) (hkids n0) (hkids n).
Proof. intros (ks & -> & F). rewrite hwith_kids; [exact F|now apply F2_length in F]. Qed.
Lemma near_full n0 : near n0 (full n0).
Proof. exists (map target (hkids n0)). split; [reflexivity|]. induction (hkids n0); constructor; auto. Qed.
Lemma near_shape n0 n : near n0 n -> container n = container n0 /\ is_vals n = is_vals n0.
Proof. intros (ks & -> & F). apply hwith_shape. now apply F2_length in F. Qed.
Lemma near_plain n0 n : near n0 n -> container n0 = false -> n = n0.
Proof. intros (ks & -> & F) C. now apply not_container_with. Qed.
Lemma near_alias n0 n : near n0 n -> is_alias n -> n = n0.
Proof. intros N A. apply near_plain; [exact N|]. destruct (near_shape _ _ N) as [<- _]. now apply alias_not_container. Qed.
Lemma near_targets p n0 n : nth_error h0 p = Some n0 -> near n0 n -> map target (hkids n) = map target (hkids n0).
Proof.
  intros H N. apply near_kids in N. assert (I : Forall (in_heap h0) (hkids n0)) by (apply Forall_forall; intros k; now apply (kids_in p)).
  induction N as [|k0 k l0 l E N IH]; [reflexivity|]. inversion I; subst. cbn. f_equal; [|auto]. destruct E as [->| ->]; [reflexivity|now apply target_twice].
Qed.
Lemma near_length n0 n : near n0 n -> length (hkids n) = length (hkids n0).
Proof. intros N. apply near_kids in N. now apply F2_length in N. Qed.
Lemma near_with n0 n ks : near n0 n -> length ks = length (hkids n0) -> hwith n ks = hwith n0 ks.
Proof. intros (l & -> & F) L. apply hwith_hwith; [now apply F2_length in F|exact L]. Qed.
Lemma near_kid n0 n k0 : near n0 n -> In k0 (hkids n0) -> In k0 (hkids n) \/ In (target k0) (hkids n).
Proof.
  intros N. apply near_kids in N. induction N as [|x y l l' E N IH]; intros H; [destruct H|].
  destruct H as [->|H]; [destruct E as [->| ->]; cbn; auto|destruct (IH H); cbn; auto].
Qed.
Lemma near_kid_back n0 n k : near n0 n -> In k (hkids n) -> exists k0, In k0 (hkids n0) /\ (k = k0 \/ k = target k0).
Proof.
  intros N. apply near_kids in N. induction N as [|x y l l' E N IH]; intros H; [destruct H|].
  destruct H as [->|H]; [exists x; cbn; auto|]. destruct (IH H) as (k0 & I & J). exists k0. cbn. auto.
Qed.
Lemma near_nth n0 n i k0 : near n0 n -> nth_error (hkids n0) i = Some k0 -> exists k, nth_error (hkids n) i = Some k /\ (k = k0 \/ k = target k0).
Proof.
  intros N. apply near_kids in N. revert i. induction N as [|x y l l' E N IH]; intros [|i] H; cbn in *; try discriminate H; [injection H as <-; eauto|auto].
Qed.
Lemma near_set n0 n i k0 : near n0 n -> nth_error (hkids n0) i = Some k0 -> near n0 (hwith n (set_nth (hkids n) i (target k0))).
Proof.
  intros N H. exists (set_nth (hkids n) i (target k0)). split.
  - apply near_with; [exact N|]. rewrite set_nth_length. now apply near_length.
  - apply near_kids in N. revert i H. induction N as [|x y l l' E N IH]; intros [|i] H; cbn in *; try discriminate H.
    + injection H as <-. constructor; auto.
    + constructor; auto.
Qed.

(* k is done, or being done *)
Definition settled (F : nat -> Prop) (C : list nat) (k : nat) : Prop := exists n, nth_error h0 k = Some n /\ (container n = true -> F k \/ In k C).
Definition quiet (h : heap) : Prop := forall p n0, nth_error h0 p = Some n0 -> (~ U p \/ container n0 = false) -> nth_error h p = Some n0.

(* C: the types that are being resolved; F: those that have been *)
Record Inv (C : list nat) (F : nat -> Prop) (h : heap) : Prop := {
  i_len : length h = length h0;
  i_nodup : NoDup C;
  i_clear : forall p, In p C -> exists n0, nth_error h0 p = Some n0 /\ guarded n0 = true /\ nth_error h p = Some (hclear any n0);
  i_near : forall p n0, nth_error h0 p = Some n0 -> ~ In p C -> exists n, nth_error h p = Some n /\ near n0 n;
  i_full : forall p n0, F p -> nth_error h0 p = Some n0 -> ~ In p C -> nth_error h p = Some (full n0);
  i_closed : forall p n0 k, F p -> nth_error h0 p = Some n0 -> In k (hkids n0) -> settled F C k;
  i_quiet : quiet h }.

(* the i'th reference of p has been replaced *)
Definition got (h : heap) (p i : nat) : Prop :=
  exists n0 k0 n, nth_error h0 p = Some n0 /\ nth_error (hkids n0) i = Some k0 /\ nth_error h p = Some n /\ nth_error (hkids n) i = Some (target k0).
Definition grow (C : list nat) (h h' : heap) : Prop := forall p i, ~ In p C -> got h p i -> got h' p i.
Definition more (F F' : nat -> Prop) : Prop := forall p, F p -> F' p.

Lemma settled_more F F' C k : more F F' -> settled F C k -> settled F' C k.
Proof. intros M (n & H & S). exists n. split; [exact H|]. intros c. destruct (S c); auto. Qed.
Lemma grow_refl C h : grow C h h.
Proof. unfold grow. auto. Qed.
Lemma grow_trans C h h1 h2 : grow C h h1 -> grow C h1 h2 -> grow C h h2.
Proof. unfold grow. auto. Qed.

(* ---------- the number of steps ---------- *)

Variable rank : nat -> nat.
Variable top : nat.
Definition ranked : Prop :=
  (forall p, in_heap h0 p -> (rank p <= top)%nat) /\
  forall p l q, nth_error h0 p = Some (HVals l) -> In q l ->
    (rank q < rank p)%nat /\ forall s q', nth_error h0 q = Some (HAlias s) -> types s = Some q' -> (rank q' < rank p)%nat.
Definition fuel (C : list nat) (p : nat) : nat := (S (length h0 - length C) * S (S top) + rank p + 1)%nat.

Definition post {A} (C : list nat) (F : nat -> Prop) (h : heap) (tr : list heap) (o : hres A) (E : Prop) (Q : A -> (nat -> Prop) -> heap -> Prop) : Prop :=
  match o with
  | HOk x h' tr' => exists F', more F F' /\ Inv C F' h' /\ grow C h h' /\ (Forall quiet tr -> Forall quiet tr') /\ Q x F' h'
  | HPanic _ => False
  | HStuck => ~ E
  end.

Lemma C_small C F h : Inv C F h -> (length C <= length h0)%nat.
Proof.
  intros I. rewrite <- (seq_length (length h0) 0). apply NoDup_incl_length; [apply (i_nodup _ _ _ I)|].
  intros p H. destruct (i_clear _ _ _ I p H) as (n0 & E & _). apply in_seq. apply get_in_heap in E. unfold in_heap in E. lia.
Qed.

Lemma fuel_min C p : (3 <= fuel C p)%nat.
Proof. unfold fuel. set (a := (length h0 - length C)%nat). cbn [Nat.mul]. lia. Qed.
Lemma fuel_push C p k : (S (length C) <= length h0)%nat -> (rank k <= top)%nat -> (fuel (p :: C) k < fuel C p)%nat.
Proof.
  unfold fuel. cbn [length]. intros H K. replace (length h0 - length C)%nat with (S (length h0 - S (length C)))%nat by lia.
  set (a := (length h0 - S (length C))%nat). cbn [Nat.mul]. set (b := (a * S (S top))%nat). lia.
Qed.

(* what replace does at p *)
Definition good (f : nat -> HM nat) (n : nat) : Prop :=
  forall p C F h tr, in_heap h0 p -> U p -> Inv C F h ->
  post C F h tr (f p h tr) (ranked /\ (fuel C p <= n)%nat) (fun q F' h' => q = target p /\ settled F' C p).

Lemma map_good f n : good f n -> forall ks C F h tr, Forall (in_heap h0) ks -> Forall U ks -> Inv C F h ->
  post C F h tr (h_map f ks h tr) (ranked /\ Forall (fun k => (fuel C k <= n)%nat) ks)
    (fun qs F' h' => qs = map target ks /\ Forall (settled F' C) ks).
Proof.
  intros G. induction ks as [|k ks IH]; intros C F h tr K UK I; cbn [h_map map].
  - exists F. split; [now intros p|]. repeat split; auto using grow_refl; apply I.
  - inversion K as [|? ? K1 K2]; subst. inversion UK as [|? ? U1 U2]; subst. pose proof (G k C F h tr K1 U1 I) as P. unfold h_bind, post in *.
    destruct (f k h tr) as [y h1 tr1|tr1|]; [|exact P|intros [R X]; inversion X; subst; auto].
    destruct P as (F1 & M1 & I1 & G1 & Q1 & -> & S1). specialize (IH C F1 h1 tr1 K2 U2 I1). unfold post in IH.
    destruct (h_map f ks h1 tr1) as [ys h2 tr2|tr2|]; [|exact IH|intros [R X]; inversion X; subst; auto].
    destruct IH as (F2 & M2 & I2 & G2 & Q2 & -> & S2). exists F2. split; [intros p H; auto|]. split; [exact I2|]. split; [eapply grow_trans; eauto|].
    split; [auto|]. split; [reflexivity|]. constructor; [now apply (settled_more F1)|exact S2].
Qed.

Lemma inv_get C F h p n0 : Inv C F h -> nth_error h0 p = Some n0 ->
  (In p C /\ guarded n0 = true /\ nth_error h p = Some (hclear any n0)) \/ (~ In p C /\ exists n, nth_error h p = Some n /\ near n0 n).
Proof.
  intros I H. destruct (in_dec Nat.eq_dec p C) as [J|J].
  - left. destruct (i_clear _ _ _ I p J) as (m & E & G & X). rewrite H in E. injection E as <-. auto.
  - right. split; [exact J|]. exact (i_near _ _ _ I p n0 H J).
Qed.
Lemma inv_alias C F h p s : Inv C F h -> nth_error h0 p = Some (HAlias s) -> nth_error h p = Some (HAlias s).
Proof.
  intros I H. destruct (inv_get _ _ _ _ _ I H) as [(_ & G & _)|(_ & n & E & N)]; [discriminate G|]. rewrite E. f_equal. now apply near_plain.
Qed.

(* a write that replaces further references of p, or none *)
Lemma write_near C F h p n0 n n' : Inv C F h -> U p -> nth_error h0 p = Some n0 -> container n0 = true -> ~ In p C -> nth_error h p = Some n ->
  near n0 n' -> (F p -> n' = full n0) -> Inv C F (set_nth h p n').
Proof.
  intros I Up H Ct J E N X. assert (L : (p < length h)%nat) by (apply nth_error_Some; congruence). split.
  - rewrite set_nth_length. apply I.
  - apply I.
  - intros q Q. destruct (i_clear _ _ _ I q Q) as (m & ? & ? & ?). exists m. repeat split; try assumption. rewrite set_nth_other; [assumption|]. intros ->. auto.
  - intros q m Q Jq. destruct (Nat.eq_dec p q) as [<-|D].
    + rewrite set_nth_get by exact L. rewrite H in Q. injection Q as <-. eauto.
    + rewrite set_nth_other by exact D. exact (i_near _ _ _ I q m Q Jq).
  - intros q m Fq Q Jq. destruct (Nat.eq_dec p q) as [<-|D].
    + rewrite set_nth_get by exact L. rewrite H in Q. injection Q as <-. f_equal. auto.
    + rewrite set_nth_other by exact D. exact (i_full _ _ _ I q m Fq Q Jq).
  - apply I.
  - intros q m Q A. destruct (Nat.eq_dec p q) as [<-|D].
    + rewrite H in Q. injection Q as <-. destruct A; [contradiction|congruence].
    + rewrite set_nth_other by exact D. exact (i_quiet _ _ _ I q m Q A).
Qed.

Lemma each_good f n : good f n -> forall p l0, U p -> nth_error h0 p = Some (HVals l0) ->
  forall m i C F h tr, (m + i = length l0)%nat -> Inv C F h -> (forall j, (j < i)%nat -> got h p j) ->
  (forall j k0, (j < i)%nat -> nth_error l0 j = Some k0 -> settled F C k0) ->
  post C F h tr (h_each f p m i h tr) (ranked /\ (fuel C p <= S n)%nat)
    (fun _ F' h' => (forall j, (j < length l0)%nat -> got h' p j) /\ Forall (settled F' C) l0).
Proof.
  intros Gd p l0 Up H. pose proof (get_in_heap _ _ H) as Ip. induction m as [|m IH]; intros i C F h tr L I G0 S0; cbn [h_each].
  - exists F. split; [now intros q|]. split; [exact I|]. split; [apply grow_refl|]. split; [auto|]. split; [intros j J; apply G0; lia|].
    apply Forall_forall. intros k K. apply In_nth_error in K as [j J]. apply (S0 j); [|exact J]. apply nth_error_Some_length in J || (assert (j < length l0)%nat by (apply nth_error_Some; congruence)); lia.
  - destruct (inv_get _ _ _ _ _ I H) as [(_ & X & _)|(J & nd & E & N)]; [discriminate X|].
    assert (K : exists k0, nth_error l0 i = Some k0).
    { destruct (nth_error l0 i) eqn:Q; [eauto|]. apply nth_error_None in Q. lia. }
    destruct K as [k0 K]. destruct (near_nth _ _ _ _ N K) as (x & Hx & Dx).
    assert (Ik : in_heap h0 k0) by (apply (kids_in p _ k0 H); now apply nth_error_In in K).
    destruct (UC p _ k0 Up H (nth_error_In _ _ K)) as [Uk Ut].
    assert (Ix : in_heap h0 x) by (destruct Dx as [->| ->]; [exact Ik|now apply target_in]).
    assert (Ux : U x) by (destruct Dx as [->| ->]; assumption).
    assert (Tx : target x = target k0) by (destruct Dx as [->| ->]; [reflexivity|now apply target_twice]).
    unfold h_bind at 1, h_read at 1. rewrite E, Hx. unfold h_bind at 1.
    pose proof (Gd x C F h tr Ix Ux I) as P. unfold post in P. destruct (f x h tr) as [y h1 tr1|tr1|]; [|exact P|].
    2:{ cbn. intros [R X]. apply P. split; [exact R|]. destruct R as [R1 R2]. destruct (R2 p l0 k0 H (nth_error_In _ _ K)) as [A B].
        assert (rank x < rank p)%nat; [|unfold fuel in *; lia].
        destruct Dx as [->| ->]; [exact A|]. destruct (in_heap_get k0 Ik) as [nk Ek]. destruct (alias_dec nk) as [[s ->]|Na].
        - destruct (target_alias k0 s Ek) as (q & T & -> & _). exact (B s q Ek T).
        - now rewrite (target_plain k0 nk Ek Na). }
    destruct P as (F1 & M1 & I1 & G1 & Q1 & -> & S1). rewrite Tx in *.
    destruct (inv_get _ _ _ _ _ I1 H) as [(_ & X & _)|(_ & n1 & E1 & N1)]; [discriminate X|].
    unfold h_bind at 1, h_read at 1. rewrite E1. unfold h_bind at 1, h_write at 1.
    set (h2 := set_nth h1 p (hwith n1 (set_nth (hkids n1) i (target k0)))).
    assert (Li : (i < length (hkids n1))%nat) by (rewrite (near_length _ _ N1); cbn; lia).
    assert (Ls : length (set_nth (hkids n1) i (target k0)) = length (hkids n1)) by apply set_nth_length.
    assert (I2 : Inv C F1 h2).
    { apply (write_near C F1 h1 p (HVals l0) n1); try assumption; [reflexivity|now apply near_set|].
      intros Fp. pose proof (i_full _ _ _ I1 p _ Fp H J) as Ef. rewrite E1 in Ef. assert (Ef' : n1 = full (HVals l0)) by congruence. rewrite Ef'.
      unfold full. rewrite hwith_kids by (now rewrite map_length). rewrite set_nth_same; [|rewrite nth_error_map; cbn [hkids]; now rewrite K].
      apply hwith_hwith; now rewrite map_length. }
    assert (Lp : (p < length h1)%nat) by (apply nth_error_Some; congruence).
    assert (G2 : grow C h1 h2).
    { intros q j Cq (m0 & c0 & mq & A1 & A2 & A3 & A4). exists m0, c0. destruct (Nat.eq_dec p q) as [<-|D].
      - rewrite H in A1. injection A1 as <-. rewrite E1 in A3. injection A3 as <-.
        eexists. split; [exact H|]. split; [exact A2|]. split; [unfold h2; now rewrite set_nth_get|].
        rewrite hwith_kids by exact Ls. destruct (Nat.eq_dec i j) as [<-|D].
        + cbn [hkids] in A2. rewrite K in A2. injection A2 as <-. now rewrite set_nth_get.
        + now rewrite set_nth_other.
      - exists mq. unfold h2. rewrite set_nth_other by exact D. auto. }
    assert (Gi : got h2 p i).
    { exists (HVals l0), k0. eexists. split; [exact H|]. split; [exact K|]. split; [unfold h2; now rewrite set_nth_get|].
      rewrite hwith_kids by exact Ls. now rewrite set_nth_get. }
    specialize (IH (S i) C F1 h2 (h2 :: tr1)). unfold post in IH.
    assert (A1 : (m + S i = length l0)%nat) by lia.
    assert (A2 : forall j, (j < S i)%nat -> got h2 p j).
    { intros j Hj. destruct (Nat.eq_dec j i) as [->|D]; [exact Gi|]. apply G2; [exact J|]. apply G1; [exact J|]. apply G0. lia. }
    assert (A3 : forall j c0, (j < S i)%nat -> nth_error l0 j = Some c0 -> settled F1 C c0).
    { intros j c0 Hj Hc. destruct (Nat.eq_dec j i) as [->|D].
      - rewrite K in Hc. injection Hc as <-. destruct Dx as [->| ->]; [exact S1|].
        destruct (in_heap_get k0 Ik) as [nk Ek]. destruct (alias_dec nk) as [A|A].
        + exists nk. split; [exact Ek|]. rewrite (alias_not_container _ A). discriminate.
        + now rewrite (target_plain k0 nk Ek A) in S1.
      - apply (settled_more F); [exact M1|]. apply (S0 j); [lia|exact Hc]. }
    specialize (IH A1 I2 A2 A3). unfold h_bind. unfold post. destruct (h_each f p m (S i) h2 (h2 :: tr1)) as [u h3 tr3|tr3|]; [|exact IH|exact IH].
    destruct IH as (F2 & M2 & I3 & G3 & Q3 & R). exists F2. split; [intros q Hq; auto|]. split; [exact I3|]. split; [eapply grow_trans; [eapply grow_trans|]; eassumption|].
    split; [|exact R]. intros Qt. apply Q3. constructor; [apply I2|auto].
Qed.

Lemma any_stays C F h : Inv C F h -> nth_error h any = Some (HNode (NLeaf TAny)).
Proof.
  intros I. destruct OK as (_ & A & _). destruct (inv_get _ _ _ _ _ I A) as [(_ & X & _)|(_ & n & E & N)]; [discriminate X|].
  rewrite E. f_equal. now apply near_plain.
Qed.
Lemma map_any n ks h tr : Forall (eq any) ks -> nth_error h any = Some (HNode (NLeaf TAny)) ->
  h_map (replace any types (S n)) ks h tr = HOk ks h tr.
Proof.
  intros K A. assert (R : replace any types (S n) any h tr = HOk any h tr). { cbn [replace]. unfold h_bind, h_read. rewrite A. reflexivity. }
  induction K as [|k ks <- K IH]; [reflexivity|]. cbn [h_map]. unfold h_bind at 1. rewrite R. unfold h_bind. rewrite IH. reflexivity.
Qed.

(* entering p *)
Lemma inv_push C F h p n0 : Inv C F h -> U p -> nth_error h0 p = Some n0 -> guarded n0 = true -> ~ In p C -> Inv (p :: C) F (set_nth h p (hclear any n0)).
Proof.
  intros I Up H G J. assert (L : (p < length h)%nat) by (rewrite (i_len _ _ _ I); now apply get_in_heap in H). split.
  - rewrite set_nth_length. apply I.
  - constructor; [exact J|apply I].
  - intros q [<-|Q].
    + exists n0. rewrite set_nth_get by exact L. auto.
    + destruct (i_clear _ _ _ I q Q) as (m & ? & ? & ?). exists m. rewrite set_nth_other; [auto|]. intros ->. auto.
  - intros q m Q Jq. rewrite set_nth_other by (intros ->; apply Jq; now left). apply (i_near _ _ _ I q m Q). intros X. apply Jq. now right.
  - intros q m Fq Q Jq. rewrite set_nth_other by (intros ->; apply Jq; now left). apply (i_full _ _ _ I q m Fq Q). intros X. apply Jq. now right.
  - intros q m k Fq Q K. destruct (i_closed _ _ _ I q m k Fq Q K) as (nk & Ek & S). exists nk. split; [exact Ek|]. intros c. destruct (S c); [auto|]. right. now right.
  - intros q m Q A. destruct (Nat.eq_dec p q) as [<-|D].
    + rewrite H in Q. injection Q as <-. destruct A as [A|A]; [contradiction|]. unfold guarded in G. rewrite A in G. discriminate G.
    + rewrite set_nth_other by exact D. exact (i_quiet _ _ _ I q m Q A).
Qed.
(* leaving p *)
Lemma inv_pop C F h p n0 : Inv (p :: C) F h -> U p -> nth_error h0 p = Some n0 -> (forall k, In k (hkids n0) -> settled F (p :: C) k) ->
  Inv C (fun x => F x \/ x = p) (set_nth h p (full n0)).
Proof.
  intros I Up H K. assert (L : (p < length h)%nat) by (rewrite (i_len _ _ _ I); now apply get_in_heap in H).
  assert (G : guarded n0 = true). { destruct (i_clear _ _ _ I p (or_introl eq_refl)) as (m & E & G & _). congruence. }
  pose proof (i_nodup _ _ _ I) as ND. inversion ND as [|? ? J ND']; subst.
  assert (ST : forall k, settled F (p :: C) k -> settled (fun x => F x \/ x = p) C k).
  { intros k (nk & Ek & S). exists nk. split; [exact Ek|]. intros c. destruct (S c) as [X|[X|X]]; auto. }
  split.
  - rewrite set_nth_length. apply I.
  - exact ND'.
  - intros q Q. destruct (i_clear _ _ _ I q (or_intror Q)) as (m & ? & ? & ?). exists m. rewrite set_nth_other; [auto|]. intros ->. auto.
  - intros q m Q Jq. destruct (Nat.eq_dec p q) as [<-|D].
    + rewrite set_nth_get by exact L. rewrite H in Q. injection Q as <-. exists (full n0). split; [reflexivity|apply near_full].
    + rewrite set_nth_other by exact D. apply (i_near _ _ _ I q m Q). intros [X|X]; auto.
  - intros q m Fq Q Jq. destruct (Nat.eq_dec p q) as [<-|D].
    + rewrite set_nth_get by exact L. rewrite H in Q. now injection Q as <-.
    + rewrite set_nth_other by exact D. destruct Fq as [Fq|X]; [|congruence]. apply (i_full _ _ _ I q m Fq Q). intros [X|X]; auto.
  - intros q m k [Fq| ->] Q Hk; apply ST; [exact (i_closed _ _ _ I q m k Fq Q Hk)|]. rewrite H in Q. injection Q as <-. auto.
  - intros q m Q A. destruct (Nat.eq_dec p q) as [<-|D].
    + rewrite H in Q. injection Q as <-. destruct A as [A|A]; [contradiction|]. unfold guarded in G. rewrite A in G. discriminate G.
    + rewrite set_nth_other by exact D. exact (i_quiet _ _ _ I q m Q A).
Qed.

Lemma replace_guarded n p nd h tr : guarded nd = true -> nth_error h p = Some nd ->
  replace any types (S n) p h tr =
  (hdo u <- h_write p (hclear any nd); hdo ks <- h_map (replace any types n) (hkids nd); hdo u <- h_write p (hwith nd ks); h_ret p) h tr.
Proof.
  intros G E. cbn [replace]. unfold h_bind at 1, h_read at 1. rewrite E. unfold guarded in G. apply andb_true_iff in G as [G1 G2].
  destruct nd as [s|nd|t|l]; try discriminate G1; try discriminate G2; rewrite G1; reflexivity.
Qed.

Lemma replace_good n : good (replace any types n) n.
Proof.
  induction n as [|n IH]; intros p C F h tr Ip Up I.
  - change (~ (ranked /\ (fuel C p <= 0)%nat)). intros [_ X]. pose proof (fuel_min C p). lia.
  - destruct (in_heap_get p Ip) as [n0 H]. destruct (guarded n0) eqn:G.
    + assert (Ct : container n0 = true) by (unfold guarded in G; now apply andb_true_iff in G).
      destruct (inv_get _ _ _ _ _ I H) as [(J & _ & E)|(J & nd & E & N)].
      * (* p is being resolved *)
        assert (Gc : guarded (hclear any n0) = true). { unfold guarded. destruct (clear_shape any n0) as [-> ->]. exact G. }
        rewrite (replace_guarded n p _ h tr Gc E). unfold h_bind at 1, h_write at 1. rewrite clear_clear, (set_nth_same _ _ _ E).
        destruct n as [|n].
        { cbn. destruct (hkids (hclear any n0)) as [|k ks] eqn:Ek; cbn.
          - rewrite <- Ek, hwith_same, (set_nth_same _ _ _ E). exists F. split; [now intros q|]. split; [exact I|]. split; [apply grow_refl|].
            split; [intros Q; repeat constructor; try exact Q; apply I|]. split; [symmetry; apply (target_plain p n0 H); intros A; apply alias_not_container in A; congruence|].
            exists n0. auto.
          - change (~ (ranked /\ (fuel C p <= 1)%nat)). intros [_ X]. pose proof (fuel_min C p). lia. }
        unfold h_bind at 1. rewrite (map_any n _ _ _ (clear_kids any n0 G) (any_stays _ _ _ I)). cbn.
        rewrite hwith_same, (set_nth_same _ _ _ E). exists F. split; [now intros q|]. split; [exact I|]. split; [apply grow_refl|].
        split; [intros Q; repeat constructor; try exact Q; apply I|]. split; [symmetry; apply (target_plain p n0 H); intros A; apply alias_not_container in A; congruence|].
        exists n0. auto.
      * assert (Gd : guarded nd = true). { unfold guarded. destruct (near_shape _ _ N) as [-> ->]. exact G. }
        assert (Cl : hclear any nd = hclear any n0). { destruct N as (ks & -> & Fk). apply hwith_clear; [exact G|]. now apply F2_length in Fk. }
        rewrite (replace_guarded n p nd h tr Gd E). unfold h_bind at 1, h_write at 1. rewrite Cl.
        pose proof (inv_push C F h p n0 I Up H G J) as I1. set (h1 := set_nth h p (hclear any n0)) in *.
        assert (Ks : forall k, In k (hkids nd) -> in_heap h0 k /\ U k).
        { intros k K. destruct (near_kid_back _ _ _ N K) as (k0 & K0 & D). pose proof (kids_in p n0 k0 H K0). destruct (UC p n0 k0 Up H K0).
          destruct D as [->| ->]; [auto|]. split; [now apply target_in|assumption]. }
        assert (K1 : Forall (in_heap h0) (hkids nd)) by (apply Forall_forall; intros k K; now apply Ks).
        assert (K2 : Forall U (hkids nd)) by (apply Forall_forall; intros k K; now apply Ks).
        pose proof (map_good _ n IH (hkids nd) (p :: C) F h1 (h1 :: tr) K1 K2 I1) as P. unfold h_bind at 1. unfold post in *.
        destruct (h_map (replace any types n) (hkids nd) h1 (h1 :: tr)) as [ks h2 tr2|tr2|]; [|exact P|].
        2:{ intros [R X]. apply P. split; [exact R|]. apply Forall_forall. intros k K. destruct (Ks k K) as [Ik _]. destruct R as [R1 _].
            pose proof (fuel_push C p k (C_small _ _ _ I1) (R1 k Ik)). lia. }
        destruct P as (F1 & M1 & I2 & G2 & Q2 & -> & S2). cbn.
        rewrite (near_targets p n0 nd H N). rewrite (near_with n0 nd) by (exact N || now rewrite map_length).
        fold (full n0). set (h3 := set_nth h2 p (full n0)).
        assert (Sk : forall k, In k (hkids n0) -> settled F1 (p :: C) k).
        { intros k K. pose proof (kids_in p n0 k H K) as Ik. destruct (in_heap_get k Ik) as [nk Ek]. destruct (alias_dec nk) as [A|A].
          - exists nk. split; [exact Ek|]. rewrite (alias_not_container _ A). discriminate.
          - rewrite Forall_forall in S2. destruct (near_kid _ _ _ N K) as [X|X]; [now apply S2|]. rewrite (target_plain k nk Ek A) in X. now apply S2. }
        pose proof (inv_pop C F1 h2 p n0 I2 Up H Sk) as I3. fold h3 in I3.
        exists (fun x => F1 x \/ x = p). split; [intros q Hq; left; now apply M1|]. split; [exact I3|]. split.
        { intros q i Cq Gq. destruct (Nat.eq_dec p q) as [<-|D].
          - destruct Gq as (m0 & k0 & m & A1 & A2 & A3 & A4). exists m0, k0, (full n0). split; [exact A1|]. split; [exact A2|].
            rewrite H in A1. injection A1 as <-. split; [unfold h3; apply set_nth_get; rewrite (i_len _ _ _ I2); exact Ip|].
            unfold full. rewrite hwith_kids by (now rewrite map_length). now rewrite nth_error_map, A2.
          - assert (Gq1 : got h1 q i). { destruct Gq as (m0 & k0 & m & A1 & A2 & A3 & A4). exists m0, k0, m. unfold h1. rewrite set_nth_other by exact D. auto. }
            apply G2 in Gq1; [|intros [X|X]; auto]. destruct Gq1 as (m0 & k0 & m & A1 & A2 & A3 & A4). exists m0, k0, m. unfold h3. rewrite set_nth_other by exact D. auto. }
        split; [intros Q; constructor; [apply I3|]; apply Q2; constructor; [apply I1|exact Q]|].
        split; [symmetry; apply (target_plain p n0 H); intros A; apply alias_not_container in A; congruence|]. exists n0. auto.
    + destruct (inv_get _ _ _ _ _ I H) as [(_ & X & _)|(J & nd & E & N)]; [congruence|].
      destruct (container n0) eqn:Ct.
      * (* values *)
        destruct n0 as [s|n0|t|l0]; unfold guarded in G; cbn [is_vals negb] in G; rewrite ?andb_true_r in G; try congruence.
        assert (V : exists l, nd = HVals l). { destruct (near_shape _ _ N) as [_ V]. destruct nd; try discriminate V. eauto. } destruct V as [l ->].
        pose proof (near_length _ _ N) as L. cbn [hkids] in L. cbn [replace]. unfold h_bind at 1, h_read at 1. rewrite E. unfold h_bind at 1. rewrite L.
        pose proof (each_good _ n IH p l0 Up H (length l0) 0%nat C F h tr ltac:(lia) I ltac:(intros; lia) ltac:(intros; lia)) as P. unfold post in *.
        destruct (h_each (replace any types n) p (length l0) 0 h tr) as [u h1 tr1|tr1|]; [|exact P|exact P].
        destruct P as (F1 & M1 & I1 & G1 & Q1 & Gt & S1). cbn. exists (fun x => F1 x \/ x = p). split; [intros q Hq; left; now apply M1|].
        assert (Ef : nth_error h1 p = Some (full (HVals l0))).
        { destruct (inv_get _ _ _ _ _ I1 H) as [(_ & X & _)|(_ & n1 & E1 & N1)]; [discriminate X|]. rewrite E1. f_equal.
          assert (V : exists l', n1 = HVals l'). { destruct (near_shape _ _ N1) as [_ V]. destruct n1; try discriminate V. eauto. } destruct V as [l' ->].
          unfold full. cbn [hwith hkids]. f_equal. pose proof (near_length _ _ N1) as L1. cbn [hkids] in L1.
          apply nth_ext_error; [now rewrite map_length|]. intros i x Hx. rewrite nth_error_map in Hx. destruct (nth_error l0 i) as [k0|] eqn:Ek; [|discriminate Hx].
          injection Hx as <-. destruct (Gt i) as (m0 & c0 & m & A1 & A2 & A3 & A4); [apply nth_error_Some; congruence|].
          rewrite H in A1. injection A1 as <-. cbn [hkids] in A2. rewrite Ek in A2. injection A2 as <-. rewrite E1 in A3. injection A3 as <-. exact A4. }
        split.
        { split; try apply I1.
          - intros q m [Fq| ->] Q Jq; [exact (i_full _ _ _ I1 q m Fq Q Jq)|]. rewrite H in Q. injection Q as <-. exact Ef.
          - intros q m k Fq Q K. apply (settled_more F1); [intros x Hx; now left|]. destruct Fq as [Fq| ->]; [exact (i_closed _ _ _ I1 q m k Fq Q K)|].
            rewrite H in Q. injection Q as <-. rewrite Forall_forall in S1. now apply S1. }
        split; [exact G1|]. split; [exact Q1|]. split; [symmetry; apply (target_plain p _ H); now intros [s X]|]. exists (HVals l0). auto.
      * (* not a container *)
        assert (Eq : nd = n0) by (now apply near_plain). subst nd. cbn [replace]. unfold h_bind at 1, h_read at 1. rewrite E.
        assert (Pp : forall q, q = target p -> post C F h tr (HOk q h tr) (ranked /\ (fuel C p <= S n)%nat) (fun q F' h' => q = target p /\ settled F' C p)).
        { intros q ->. exists F. split; [now intros x|]. split; [exact I|]. split; [apply grow_refl|]. split; [auto|]. split; [reflexivity|].
          exists n0. split; [exact H|]. rewrite Ct. discriminate. }
        destruct n0 as [s|n0|t|l0]; cbn in Ct; try discriminate Ct.
        -- destruct (target_alias p s H) as (q & T & Tq & _). rewrite T. cbn. apply Pp. now symmetry.
        -- cbn [container]. rewrite Ct. apply Pp. symmetry. apply (target_plain p _ H). now intros [s X].
Qed.
End Invariant.

(* ---------- conclusions ---------- *)

Section Conclusions.
Variable any : nat.
Variable types : list Z -> option nat.
Variable h0 : heap.
Variable l : list nat.
Hypothesis OK : heap_ok types any h0.
Hypothesis NC : no_chains types h0.
Hypothesis L : Forall (in_heap h0) l.

Let U := touched types h0 l.
Lemma touched_closed p n0 k : U p -> nth_error h0 p = Some n0 -> In k (hkids n0) -> U k /\ U (target types h0 k).
Proof.
  intros H E K. assert (Ct : container n0 = true) by (destruct (container n0) eqn:C; [reflexivity|rewrite (not_container_kids _ C) in K; destruct K]).
  assert (Uk : U k). { eapply touched_part; [exact H|exact E|]. now rewrite (kids_points _ Ct). } split; [exact Uk|].
  unfold target. destruct (nth_error h0 k) as [[s| | |]|] eqn:Ek; try exact Uk. destruct (types s) as [t|] eqn:T; [|exact Uk]. eapply touched_name; eauto.
Qed.
Lemma inv_start : Inv any types h0 U [] (fun _ => False) h0.
Proof.
  split; try (intros; contradiction).
  - reflexivity.
  - constructor.
  - intros p n0 H _. exists n0. split; [exact H|]. apply near_refl.
  - intros p n0 H _. exact H.
Qed.
Lemma update_good n rank top :
  post any types h0 U [] (fun _ => False) h0 [] (update any types n l h0 [])
    (ranked types h0 rank top /\ Forall (fun k => (fuel h0 rank top [] k <= n)%nat) l)
    (fun qs F' h' => qs = map (target types h0) l /\ Forall (settled h0 F' []) l).
Proof.
  apply map_good; [|exact L| |exact inv_start].
  - apply replace_good; [exact OK|exact NC|exact touched_closed].
  - apply Forall_forall. intros p. apply touched_root.
Qed.

Lemma in_stands p : in_heap h0 p -> stands_for types h0 p (target types h0 p).
Proof.
  intros H. destruct (in_heap_get h0 p H) as [n E]. destruct (alias_dec n) as [[s ->]|A].
  - destruct (target_alias any types h0 OK p s E) as (q & T & -> & _). left. eauto.
  - right. split; [eauto|]. now apply (target_plain types h0 p n).
Qed.

Theorem update_returns : values_finite types h0 -> exists N, forall n, (N <= n)%nat -> exists rs h' tr, update any types n l h0 [] = HOk rs h' tr.
Proof.
  intros [rank R]. set (top := list_max (map rank (seq 0 (length h0)))).
  assert (T : forall p, in_heap h0 p -> (rank p <= top)%nat).
  { intros p H. assert (X : Forall (fun k => (k <= top)%nat) (map rank (seq 0 (length h0)))) by (now apply list_max_le).
    rewrite Forall_forall in X. apply X, in_map, in_seq. unfold in_heap in H. lia. }
  exists (list_max (map (fuel h0 rank top []) l)). intros n Hn. pose proof (update_good n rank top) as P. unfold post in P.
  destruct (update any types n l h0 []) as [rs h' tr|tr|]; [eauto|destruct P|]. destruct P. split; [split; [exact T|exact R]|].
  apply list_max_le in Hn. rewrite Forall_map in Hn. exact Hn.
Qed.

Section Done.
Variable n : nat.
Variable rs : list nat.
Variable h' : heap.
Variable tr : list heap.
Hypothesis E : update any types n l h0 [] = HOk rs h' tr.

Lemma done : exists F, Inv any types h0 U [] F h' /\ Forall (quiet h0 U) tr /\ rs = map (target types h0) l /\ Forall (settled h0 F []) l.
Proof.
  pose proof (update_good n (fun _ => O) O) as P. unfold post in P. rewrite E in P. destruct P as (F & _ & I & _ & Q & -> & S). exists F. auto.
Qed.

Lemma all_stand ps : Forall (in_heap h0) ps -> Forall2 (stands_for types h0) ps (map (target types h0) ps).
Proof. induction 1 as [|p ps H _ IH]; cbn; constructor; [now apply in_stands|exact IH]. Qed.
Theorem update_names : Forall2 (stands_for types h0) l rs.
Proof. destruct done as (F & _ & _ & -> & _). now apply all_stand. Qed.

Theorem update_quiet p n0 g : nth_error h0 p = Some n0 -> ~ touched types h0 l p -> In g (h' :: tr) -> nth_error g p = Some n0.
Proof.
  destruct done as (F & I & Q & _). intros H T [<-|G].
  - apply (i_quiet _ _ _ _ _ _ _ I); auto.
  - rewrite Forall_forall in Q. apply (Q g G); auto.
Qed.

Lemma reaches_more h p q k m : reaches h p q -> nth_error h q = Some m -> In k (points_to m) -> reaches h p k.
Proof. intros R Q K. eapply reaches_step; eauto. Qed.
Lemma reaches_trans h p q k : reaches h p q -> reaches h q k -> reaches h p k.
Proof. intros A B. revert A. induction B as [|q k m k' B IH Em K]; intros A; [exact A|]. exact (reaches_step h p k m k' (IH A) Em K). Qed.

Lemma points_in p m k : nth_error h0 p = Some m -> In k (points_to m) -> in_heap h0 k.
Proof.
  intros H K. destruct OK as (F & _). apply nth_error_In in H. rewrite Forall_forall in F. pose proof (F _ H) as N. unfold node_in_heap in N.
  rewrite Forall_forall in N. auto.
Qed.

Theorem update_resolved : added types h0 l -> no_sensitive h0 -> Forall (resolved h') rs.
Proof.
  intros A NS. destruct done as (F & I & _ & -> & S).
  set (nice := fun q => exists n0, nth_error h0 q = Some n0 /\ ~ is_alias n0 /\ (container n0 = true -> F q \/ resolved h0 q)).
  assert (R0 : forall t, resolved h0 t -> in_heap h0 t -> nice t).
  { intros t R H. destruct (in_heap_get h0 t H) as [m Em]. exists m. split; [exact Em|]. split; [|auto]. apply (R t m); [constructor|exact Em]. }
  assert (T0 : forall k, in_heap h0 k -> settled h0 F [] k -> nice (target types h0 k)).
  { intros k Hk (nk & Ek & Sk). destruct (alias_dec nk) as [[s ->]|Na].
    - destruct (target_alias any types h0 OK k s Ek) as (t & T & -> & It). destruct (in_heap_get h0 t It) as [m Em]. exists m. split; [exact Em|].
      split; [exact (NC s t m T Em)|]. intros Ct. destruct (A s t T) as [X|X]; [|now right]. rewrite Forall_forall in S. destruct (S t X) as (m' & Em' & Sm).
      rewrite Em in Em'. injection Em' as <-. destruct (Sm Ct) as [Y|[]]. now left.
    - rewrite (target_plain types h0 k nk Ek Na). exists nk. split; [exact Ek|]. split; [exact Na|]. intros Ct. destruct (Sk Ct) as [X|[]]. now left. }
  assert (ST : forall q m k, nice q -> nth_error h' q = Some m -> In k (points_to m) -> nice k).
  { intros q m k (n0 & E0 & Na & Ct) Em K. destruct (i_near _ _ _ _ _ _ _ I q n0 E0 (fun X => X)) as (m' & Em' & N). rewrite Em in Em'. injection Em' as <-.
    destruct (container n0) eqn:C0.
    - assert (Cm : container m = true) by (destruct (near_shape _ _ _ _ N) as [-> _]; exact C0). rewrite (kids_points _ Cm) in K.
      destruct (Ct eq_refl) as [Fq|Rq].
      + pose proof (i_full _ _ _ _ _ _ _ I q n0 Fq E0 (fun X => X)) as Ef. rewrite Em in Ef. injection Ef as ->.
        unfold full in K. rewrite hwith_kids in K by (now rewrite map_length). apply in_map_iff in K as (k0 & <- & K0).
        apply T0; [exact (kids_in any types h0 OK q n0 k0 E0 K0)|]. exact (i_closed _ _ _ _ _ _ _ I q n0 k0 Fq E0 K0).
      + destruct (near_kid_back _ _ _ _ _ N K) as (k0 & K0 & D). pose proof (kids_in any types h0 OK q n0 k0 E0 K0) as Ik.
        assert (Rk : resolved h0 k0).
        { intros x nx Rx Ex. apply (Rq x nx); [|exact Ex]. eapply reaches_trans; [|exact Rx]. eapply reaches_more; [constructor|exact E0|]. now rewrite (kids_points _ C0). }
        destruct (in_heap_get h0 k0 Ik) as [nk Ek]. assert (Nk : ~ is_alias nk) by (apply (Rk k0 nk); [constructor|exact Ek]).
        rewrite (target_plain types h0 k0 nk Ek Nk) in D. assert (k = k0) by (destruct D; congruence). subst k. now apply R0.
    - assert (m = n0) by (now apply (near_plain types h0)). subst m. pose proof (points_in q n0 k E0 K) as Ik.
      destruct n0 as [s|[]|t|vs]; cbn in C0; try discriminate C0; cbn in K; try contradiction.
      destruct K as [<-|[]]. apply R0; [|exact Ik]. exact (NS q _ E0). }
  apply Forall_map, Forall_forall. intros p Hp q m R. assert (Ip : in_heap h0 p) by (rewrite Forall_forall in L; auto).
  assert (Nq : nice q). { rewrite Forall_forall in S. specialize (T0 p Ip (S p Hp)). induction R; eauto. }
  intros Em. destruct Nq as (n0 & E0 & Na & _). destruct (i_near _ _ _ _ _ _ _ I q n0 E0 (fun X => X)) as (m' & Em' & N). rewrite Em in Em'. injection Em' as <-.
  intros Am. apply Na. rewrite <- (near_alias _ _ _ _ N Am). exact Am.
Qed.

(* ---------- meaning ---------- *)

Lemma F2_map_l {A B C} (R : B -> C -> Prop) (f : A -> B) xs ys : Forall2 R (map f xs) ys <-> Forall2 (fun x y => R (f x) y) xs ys.
Proof.
  split.
  - revert ys. induction xs as [|x xs IH]; intros ys H; inversion H; subst; constructor; auto.
  - induction 1; cbn; constructor; auto.
Qed.
Lemma F2_iff {A B} (R R' : A -> B -> Prop) xs ys : (forall x y, In y ys -> (R x y <-> R' x y)) -> Forall2 R xs ys -> Forall2 R' xs ys.
Proof. intros H F. induction F; constructor; [apply H; [now left|assumption]|apply IHF; intros a b K; apply H; now right]. Qed.
Lemma Forall_within {A} (R R' : A -> Prop) xs : (forall x, In x xs -> R x -> R' x) -> Forall R xs -> Forall R' xs.
Proof. intros H F. rewrite Forall_forall in *. auto. Qed.
Lemma holds_iff W G (P P' : nat -> gval -> Prop) nd x : (forall p y, y = x \/ part G x y -> (P p y <-> P' p y)) -> holds W G P nd x -> holds W G P' nd x.
Proof.
  intros H. assert (Hx : forall p, P p x <-> P' p x) by (intros p; apply H; now left). destruct nd as [t|e a b|ts v|k v a b|ad es|ts|ts|ts|t|t]; cbn [holds].
  - auto.
  - intros (xs & A & B & C). exists xs. split; [exact A|]. split; [exact B|]. revert C. apply Forall_within. intros y Hy. apply H. right. eapply part_element; eauto.
  - intros (xs & A & B). assert (K : forall p y, In y xs -> (P p y <-> P' p y)) by (intros p y Hy; apply H; right; eapply part_element; eauto).
    exists xs. split; [exact A|]. destruct v.
    + destruct B as (us & t & l1 & l2 & -> & -> & B1 & B2). exists us, t, l1, l2. repeat split.
      * apply (F2_iff P); [|exact B1]. intros p y Hy. apply K, in_or_app. now left.
      * revert B2. apply Forall_within. intros y Hy. apply K, in_or_app. now right.
    + apply (F2_iff P); [|exact B]. intros p y Hy. now apply K.
  - intros (xs & A & B & C). exists xs. split; [exact A|]. split; [exact B|]. revert C. apply Forall_within. intros [k' y] Hy [C D]. cbn [fst snd] in *. split; apply H; try assumption; right.
    + eapply part_key; eauto.
    + eapply part_value; eauto.
  - intros (xs & A & B & C). exists xs. split; [exact A|]. split; [|exact C]. revert B. apply Forall_impl. intros e [(k & y & B1 & B2 & B3)|B]; [left|now right].
    exists k, y. split; [exact B1|]. split; [exact B2|]. apply H; [|exact B3]. right. eapply part_value; eauto.
  - apply Forall_impl. intros t. apply Hx.
  - intros B. apply Exists_exists in B as (t & Ht & B). apply Exists_exists. exists t. split; [exact Ht|]. now apply Hx.
  - intros (l1 & t & l2 & -> & A & B). exists l1, t, l2. split; [reflexivity|]. split; [now apply Hx|]. revert B. apply Forall_impl. intros u B C. apply B. now apply Hx.
  - intros A B. apply A. now apply Hx.
  - intros (y & A & B). exists y. split; [exact A|]. apply H; [|exact B]. right. now apply part_wrapped.
Qed.
Definition node_of (n : hnode) : rnode := match n with HNode nd => nd | _ => NLeaf TAny end.
Lemma holds_rename W G P f nd x : holds W G P (node_of (hwith (HNode nd) (map f (hkids (HNode nd))))) x <->
  match nd with NSens t => holds W G P nd x | _ => holds W G (fun p => P (f p)) nd x end.
Proof.
  destruct nd as [t|e a b|ts v|k v a b|ad es|ts|ts|ts|t|t]; cbn [hkids hwith node_of holds map].
  - tauto.
  - tauto.
  - split; intros (xs & A & B); exists xs; (split; [exact A|]); destruct v.
    + destruct B as (us & t & l1 & l2 & Et & -> & B1 & B2). apply map_eq_app in Et as (us' & t' & -> & <- & Et). 
      destruct t' as [|t' [|? ?]]; try discriminate Et. injection Et as <-. exists us', t', l1, l2. repeat split; [exact (proj1 (F2_map_l P f us' l1) B1)|exact B2].
    + exact (proj1 (F2_map_l P f ts xs) B).
    + destruct B as (us & t & l1 & l2 & -> & -> & B1 & B2). exists (map f us), (f t), l1, l2. rewrite map_app. repeat split; [exact (proj2 (F2_map_l P f us l1) B1)|exact B2].
    + exact (proj2 (F2_map_l P f ts xs) B).
  - tauto.
  - assert (Q : map (fun e : value * nat * bool * nat => (fst (fst (fst e)), snd e, snd (fst e))) (combine es (map f (map (fun e => snd (fst e)) es))) =
      map (fun e : value * nat * bool => (fst (fst e), f (snd (fst e)), snd e)) es).
    { clear. induction es as [|[[k t] b] es IH]; cbn; [reflexivity|now rewrite IH]. }
    rewrite Q. split; intros (xs & A & B & C); exists xs; (split; [exact A|]).
    + rewrite Forall_map in B. split; [exact B|]. destruct C as [C|C]; [now left|right]. intros k y Hk. destruct (C k y Hk) as (e & He & V).
      apply in_map_iff in He as (e' & <- & He'). eauto.
    + split; [now apply Forall_map|]. destruct C as [C|C]; [now left|right]. intros k y Hk. destruct (C k y Hk) as (e & He & V).
      eexists. split; [apply in_map_iff; exists e; split; [reflexivity|exact He]|exact V].
  - now rewrite Forall_map.
  - rewrite !Exists_exists. split; intros (t & Ht & B).
    + apply in_map_iff in Ht as (t' & <- & Ht). eauto.
    + exists (f t). split; [now apply in_map|exact B].
  - split; intros (l1 & t & l2 & Et & A & B).
    + apply map_eq_app in Et as (l1' & l2' & -> & <- & Et). destruct l2' as [|t' l2']; [discriminate Et|]. injection Et as <- <-.
      exists l1', t', l2'. split; [reflexivity|]. split; [exact A|]. now rewrite <- map_app, Forall_map in B.
    + subst ts. exists (map f l1), (f t), (map f l2). rewrite map_app. split; [reflexivity|]. split; [exact A|]. now rewrite <- map_app, Forall_map.
  - tauto.
  - tauto.
Qed.

Lemma near_node nd m : near types h0 (HNode nd) m -> exists nd', m = HNode nd'.
Proof. intros (ks & -> & _). destruct nd; cbn; eauto; destruct ks as [|? [|? [|? ?]]]; eauto. Qed.
Lemma near_holds W G P p nd nd' x : (forall p y, y = x \/ part G x y -> (P p y <-> P (target types h0 p) y)) -> nth_error h0 p = Some (HNode nd) -> near types h0 (HNode nd) (HNode nd') ->
  (holds W G P nd x <-> holds W G P nd' x).
Proof.
  intros H Ep N.
  assert (K : forall nd, holds W G P nd x <-> holds W G P (node_of (hwith (HNode nd) (map (target types h0) (hkids (HNode nd))))) x).
  { intros d. rewrite holds_rename. destruct d; try tauto; split; apply holds_iff; intros q y Y; rewrite <- H by exact Y; reflexivity. }
  rewrite (K nd), (K nd'). rewrite (near_targets any types h0 OK NC p _ _ Ep N).
  rewrite (near_with types h0 (HNode nd) (HNode nd')) by (exact N || now rewrite map_length). reflexivity.
Qed.

Lemma same_aliases : forall p s, nth_error h0 p = Some (HAlias s) <-> nth_error h' p = Some (HAlias s).
Proof.
  destruct done as (F & I & _). intros p s. split; intros H.
  - exact (inv_alias any types h0 U _ _ _ p s I H).
  - destruct (nth_error h0 p) as [m|] eqn:Em.
    + destruct (i_near _ _ _ _ _ _ _ I p m Em (fun X => X)) as (m' & Em' & N). rewrite H in Em'. injection Em' as <-. f_equal. symmetry. apply (near_alias types h0 m); [exact N|now exists s].
    + apply nth_error_None in Em. rewrite <- (i_len _ _ _ _ _ _ _ I) in Em. apply nth_error_None in Em. congruence.
Qed.
Lemma after p m : nth_error h' p = Some m -> exists m0, nth_error h0 p = Some m0 /\ near types h0 m0 m.
Proof.
  destruct done as (F & I & _). intros Em. assert (P0 : exists m0, nth_error h0 p = Some m0).
  { apply in_heap_get. unfold in_heap. rewrite <- (i_len _ _ _ _ _ _ _ I). apply nth_error_Some. congruence. }
  destruct P0 as [m0 E0]. destruct (i_near _ _ _ _ _ _ _ I p m0 E0 (fun X => X)) as (m' & Em' & N). rewrite Em in Em'. injection Em' as <-. eauto.
Qed.

Theorem update_meaning W G D P : with_parts G D -> (names_mean types W G D h0 P <-> names_mean types W G D h' P).
Proof.
  intros WP. pose proof same_aliases as AL.
  assert (RS : forall h, (forall p s, nth_error h0 p = Some (HAlias s) -> nth_error h p = Some (HAlias s)) -> names_mean types W G D h P ->
    forall x, D x -> forall p y, y = x \/ part G x y -> (P p y <-> P (target types h0 p) y)).
  { intros h Hh M x Dx p y Y. unfold target. destruct (nth_error h0 p) as [[s| | |]|] eqn:Ep; try reflexivity. destruct (types s) as [t|] eqn:T; [|reflexivity].
    assert (Dy : D y) by (destruct Y as [->|Y]; [exact Dx|exact (WP x y Dx Y)]).
    specialize (M p (HAlias s) y Dy (Hh p s Ep)). cbn in M. now rewrite T in M. }
  split; intros M.
  - intros p m x Dx Em. destruct (after p m Em) as (m0 & E0 & N).
    destruct m as [s|nd|t|vs]; try exact Logic.I.
    + apply AL in Em. exact (M p _ x Dx Em).
    + destruct m0 as [s0|nd0|t0|vs0].
      * assert (X : HNode nd = HAlias s0) by (apply (near_plain types h0); [exact N|reflexivity]). discriminate X.
      * rewrite (M p _ x Dx E0). apply (near_holds W G P p); [apply (RS h0); auto|exact E0|exact N].
      * destruct N as (ks & Ek & _). destruct ks as [|? [|? ?]]; discriminate Ek.
      * destruct N as (ks & Ek & _). destruct ks as [|? [|? ?]]; discriminate Ek.
  - intros p m0 x Dx E0. destruct done as (F & I & _). destruct (i_near _ _ _ _ _ _ _ I p m0 E0 (fun X => X)) as (m & Em & N). destruct m0 as [s|nd|t|vs]; try exact Logic.I.
    + apply AL in E0. exact (M p _ x Dx E0).
    + destruct (near_node _ _ N) as [nd' ->]. rewrite (M p _ x Dx Em). symmetry. apply (near_holds W G P p); [|exact E0|exact N].
      apply (RS h'); [|exact M|exact Dx]. intros q s. apply AL.
Qed.

(* ---------- Instance afterwards ---------- *)

Lemma only_after : only_types h0 -> only_types h'.
Proof.
  intros H p m Em. destruct (after p m Em) as (m0 & E0 & N). specialize (H p m0 E0). destruct m0 as [s|nd| |]; try contradiction.
  - assert (m = HAlias s) as -> by (now apply (near_plain types h0)). exact Logic.I.
  - destruct (near_node _ _ N) as [nd' ->]. exact Logic.I.
Qed.
Lemma linked_meaning W G D P : only_types h0 -> names_mean types W G D h' P -> meaning W (linked types h') G D P.
Proof.
  intros O M p nd x Dx Ep. unfold linked in Ep. rewrite nth_error_map in Ep. destruct (nth_error h' p) as [m|] eqn:Em; [|discriminate Ep].
  injection Ep as <-. pose proof (only_after O) as O'. pose proof (O' p m Em) as Om. destruct m as [s|nd| |]; try contradiction.
  - cbn [linked_node]. pose proof (M p _ x Dx Em) as Ms. cbn in Ms. apply same_aliases in Em as E0. destruct OK as (_ & _ & NK).
    destruct (NK p s E0) as (q & T & Iq). rewrite T in *. rewrite Ms. destruct done as (F & I & _). unfold in_heap in Iq. rewrite <- (i_len _ _ _ _ _ _ _ I) in Iq.
    destruct (nth_error h' q) as [mq|] eqn:Eq; [|apply nth_error_None in Eq; lia].
    assert (Aq : ~ is_alias mq). { intros [s' ->]. apply same_aliases in Eq. apply (NC s q _ T Eq). now exists s'. }
    specialize (O' q mq Eq). destruct mq as [s'|nd| |]; try contradiction; [destruct Aq; now exists s'|]. exact (M q _ x Dx Eq).
  - exact (M p _ x Dx Em).
Qed.
End Done.
End Conclusions.
