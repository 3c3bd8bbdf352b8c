(* For types whose alternatives are no containers the recursion guard of Assignable is never hit. *)
From Coq Require Import ZArith List Bool Lia.
From Coq Require Import Floats.SpecFloat.
From Verif Require Import Int64 HMap Data DataSpec DataProofs Arr ArrProofs Types TypesSpec Assign InstProofs GuardProofs SemProofs EqProofs.
Import ListNotations.
Open Scope nat_scope.

Lemma container_deep t : container t = deep_assignable t.
Proof. destruct t as [ | | | |x y i| |x y i| | |x y|s|s|x y| | |p w|p t| |p e x y|p ts b| |p kt vt x y|p a es|p ts|p vs|p ts|p ts|p t|[t|]]; try reflexivity. Qed.

(* ---------- a measure that decreases along the second type ---------- *)

Fixpoint mu (t : ty) : nat :=
  match t with
  | TExact _ v => 3 * value_size v
  | TSens _ t => S (mu t)
  | TArrSized _ e _ _ => S (mu e)
  | TTuple _ ts _ => S (S (list_max (map mu ts)))
  | TMap => 2
  | TMapSized _ k v _ _ => S (Nat.max (mu k) (mu v))
  | TStruct _ _ es => S (S (list_max (map (fun e => Nat.max (3 * value_size (fst (fst e))) (mu (snd (fst e)))) es)))
  | TAllOf _ ts | TAnyOf _ ts | TOneOf _ ts => S (list_max (map mu ts))
  | TAllOfValue _ vs => S (list_max (map (fun v => 3 * value_size v) vs))
  | _ => 1
  end.

Lemma list_max_in {A} (f : A -> nat) l x : In x l -> f x <= list_max (map f l).
Proof.
  induction l as [|y r IH]; intros H; [destruct H|]. cbn. destruct H as [->|H]; [lia|]. specialize (IH H). fold (list_max (map f r)). lia.
Qed.

Lemma mu_pos t : 1 <= mu t.
Proof. destruct t; cbn; try lia. destruct v; cbn; lia. Qed.

Lemma value_size_pos v : 1 <= value_size v.
Proof. destruct v; cbn; lia. Qed.

Lemma mu_common p {A} (f : A -> value) (l : list A) n : (forall x, In x l -> mu (gen_value p (f x)) <= n) -> 1 <= n ->
  mu (or_any (common gen_assignable TAny (map (fun x => gen_value p (f x)) l))) <= n.
Proof.
  intros H Hn. destruct l as [|x r]; cbn [map common]; [cbn; lia|]. destruct (forallb _ _); cbn [or_any]; [apply H; now left|cbn; lia].
Qed.

Lemma mu_gen p v : mu (gen_value p v) <= 3 * value_size v.
Proof.
  induction v as [ |x|x|x|x|x|s1 n1 z1|x|x IHx|l IHl|m IHm] using value_ind'; cbn [gen_value]; try (cbn; lia).
  - cbn [mu value_size]. rewrite Forall_forall in IHl.
    pose proof (mu_common p (fun x => x) l (3 * S (list_sum (map value_size l)))) as C.
    assert (H : mu (or_any (common gen_assignable TAny (map (gen_value p) l))) <= 3 * S (list_sum (map value_size l))); [|lia].
    apply C; [|lia]. intros x Hx. pose proof (IHl x Hx). pose proof (list_sum_in value_size l x Hx). lia.
  - rewrite Forall_forall in IHm.
    set (s := list_sum (map (fun e : value * value => value_size (fst e) + value_size (snd e)) m)).
    assert (K : mu (or_any (common gen_assignable TAny (map (fun e => gen_value p (fst e)) m))) <= 3 * S s).
    { apply (mu_common p fst); [|lia]. intros e He. destruct (IHm e He) as [H _].
      pose proof (list_sum_in (fun e : value * value => value_size (fst e) + value_size (snd e)) m e He) as E. fold s in E. cbn beta in E. lia. }
    assert (V : mu (or_any (common gen_assignable TAny (map (fun e => gen_value p (snd e)) m))) <= 3 * S s).
    { apply (mu_common p snd); [|lia]. intros e He. destruct (IHm e He) as [_ H].
      pose proof (list_sum_in (fun e : value * value => value_size (fst e) + value_size (snd e)) m e He) as E. fold s in E. cbn beta in E. lia. }
    cbn zeta. cbn [value_size]. fold s. destruct (is_any _ && is_any _); [cbn; lia|]. cbn [mu]. lia.
Qed.

Lemma mu_type_of p v : mu (type_of p v) <= 3 * value_size v.
Proof.
  destruct v as [ | | | | | | | |x| | ]; cbn [type_of]; try (cbn [mu]; lia). { cbn. lia. }
  cbn [mu value_size]. pose proof (mu_gen p x). lia.
Qed.

(* ---------- conditions that all new types satisfy ---------- *)

Lemma ty_all_or_any (P : ty -> Prop) l : P TAny -> Forall (ty_all P) l -> ty_all P (or_any (common gen_assignable TAny l)).
Proof.
  intros H0 H. destruct l as [|t r]; [cbn; auto|]. cbn [common]. inversion H; subst.
  destruct (forallb _ _); cbn [or_any]; [assumption|cbn; auto].
Qed.

Lemma gen_value_all (P : ty -> Prop) p v :
  P TAny -> P TNil -> P TBool -> P TInt -> P TFloat -> P TString -> P TTime -> P TRegexp -> P TMap ->
  (forall v, P (TExact p v)) -> (forall t, P (TSens p t)) -> (forall t x y, P (TArrSized p t x y)) ->
  (forall k v x y, P (TMapSized p k v x y)) -> ty_all P (gen_value p v).
Proof.
  intros. induction v as [ |x|x|x|x|x|s1 n1 z1|x|x IHx|l IHl|m IHm] using value_ind'; cbn [gen_value]; try (cbn; auto; fail).
  - cbn [ty_all]. split; auto. apply ty_all_or_any; auto. now apply Forall_map_iff.
  - rewrite Forall_forall in IHm. cbn zeta. destruct (is_any _ && is_any _); [cbn; auto|]. cbn [ty_all]. split; auto.
    split; apply ty_all_or_any; auto; apply Forall_map_iff, Forall_forall; intros e He; now apply IHm.
Qed.

Lemma type_of_all (P : ty -> Prop) p v :
  P TAny -> P TNil -> P TBool -> P TInt -> P TFloat -> P TString -> P TTime -> P TRegexp -> P TMap ->
  (forall v, P (TExact p v)) -> (forall t, P (TSens p t)) -> (forall t x y, P (TArrSized p t x y)) ->
  (forall k v x y, P (TMapSized p k v x y)) -> ty_all P (type_of p v).
Proof.
  intros. destruct v; cbn [type_of]; try (cbn; auto; fail). cbn [ty_all]. split; auto. now apply gen_value_all.
Qed.

Lemma single_type_of p v : single_alternatives (type_of p v).
Proof. apply type_of_all; cbn; auto. Qed.
Lemma objects_type_of (P : ptr -> Prop) p v : P p -> objects P (type_of p v).
Proof. intros H. apply type_of_all; cbn; auto. Qed.
Lemma alternatives_type_of p v : alternatives (type_of p v) = false.
Proof. now destruct v. Qed.

(* ---------- computations that leave the guard alone ---------- *)

Section Guard.
(* the objects of the first type *)
Variable PA : ptr -> Prop.

Definition in_a (t : ty) : Prop := exists p, object t = Some p /\ PA p.
Definition in_b (t : ty) : Prop := exists p, object t = Some p /\ ~ PA p.

Definition entry (k l : nat) (x : node) : Prop :=
  match x with
  | NT t | NE t => (in_a t /\ k < type_size t) \/ (in_b t /\ l < mu t)
  | NV _ => False
  end.

(* new objects are not of the first type; the guard saw nothing twice, what it holds is larger than what
   is looked at; k and k' are for the types of a in the lists aSeen and bSeen, l for the types of b *)
Definition inv (k k' l : nat) (s : st) : Prop :=
  (forall q, s_next s <= q -> ~ PA q) /\
  match s_guard s with
  | None => True
  | Some g => seenInA g = false /\ seenInB g = false /\
              Forall (entry k l) (aSeen g) /\ Forall (entry k' l) (bSeen g)
  end.

Definition quiet {A} (k k' l : nat) (m : M A) (Q : A -> Prop) : Prop :=
  forall s x s', inv k k' l s -> m s = Some (x, s') ->
    s_guard s' = s_guard s /\ s_hit s' = s_hit s /\ s_next s <= s_next s' /\ Q x.
(* the guard may be changed *)
Definition calm {A} (k k' l : nat) (m : M A) : Prop :=
  forall s x s', inv k k' l s -> m s = Some (x, s') -> s_hit s' = s_hit s /\ s_next s <= s_next s'.

Definition any {A} (_ : A) : Prop := True.

Lemma quiet_calm {A} k k' l (m : M A) Q : quiet k k' l m Q -> calm k k' l m.
Proof. intros H s x s' I E. destruct (H s x s' I E) as (_ & H1 & H2 & _). auto. Qed.

Lemma inv_later k k' l s s' : inv k k' l s -> s_guard s' = s_guard s -> s_next s <= s_next s' -> inv k k' l s'.
Proof. intros [H1 H2] G N. split; [intros q Hq; apply H1; lia|]. now rewrite G. Qed.

Lemma entry_le k l k2 l2 x : k2 <= k -> l2 <= l -> entry k l x -> entry k2 l2 x.
Proof. destruct x; cbn; auto; intros L1 L2 [[H1 H2]|[H1 H2]]; [left|right|left|right]; split; auto; lia. Qed.

Lemma q_weaken {A} k k' l k2 k2' l2 (m : M A) Q : k2 <= k -> k2' <= k' -> l2 <= l -> quiet k2 k2' l2 m Q -> quiet k k' l m Q.
Proof.
  intros L1 L2 L3 H s x s' [I1 I2] E. apply (H s x s'); auto. split; auto. destruct (s_guard s); auto.
  destruct I2 as (H1 & H2 & H3 & H4). repeat split; auto; eapply Forall_impl; [|exact H3| |exact H4]; intros; eapply entry_le; eauto.
Qed.

Lemma q_imp {A} k k' l (m : M A) (P Q : A -> Prop) : quiet k k' l m P -> (forall x, P x -> Q x) -> quiet k k' l m Q.
Proof. intros H HPQ s x s' I E. destruct (H s x s' I E) as (H1 & H2 & H3 & H4). auto. Qed.
Lemma q_ret {A} k k' l (x : A) (Q : A -> Prop) : Q x -> quiet k k' l (ret x) Q.
Proof. intros H s y s' I E. injection E as <- <-. auto. Qed.
Lemma q_fail {A} k k' l (Q : A -> Prop) : quiet k k' l fail Q.
Proof. intros s y s' I E. discriminate. Qed.
Lemma q_bind {A B} k k' l (m : M A) (f : A -> M B) P Q : quiet k k' l m P -> (forall x, P x -> quiet k k' l (f x) Q) ->
  quiet k k' l (bind m f) Q.
Proof.
  intros Hm Hf s y s' I E. unfold bind in E. destruct (m s) as [[x s1]|] eqn:Em; [|discriminate].
  destruct (Hm s x s1 I Em) as (G & H & N & Px). pose proof (inv_later _ _ _ _ _ I G N) as I1.
  destruct (Hf x Px s1 y s' I1 E) as (G' & H' & N' & Qy). repeat split; auto; try congruence; lia.
Qed.
Lemma q_fresh {A} k k' l (f : ptr -> A) (Q : A -> Prop) : (forall p, ~ PA p -> Q (f p)) -> quiet k k' l (fresh f) Q.
Proof. intros H s y s' [I _] E. injection E as <- <-. cbn. repeat split; auto. Qed.
Lemma q_andm k k' l m n : quiet k k' l m any -> quiet k k' l n any -> quiet k k' l (andm m n) any.
Proof. intros Hm Hn. eapply q_bind; [exact Hm|]. intros [] _; [exact Hn|now apply q_ret]. Qed.
Lemma q_orm k k' l m n : quiet k k' l m any -> quiet k k' l n any -> quiet k k' l (orm m n) any.
Proof. intros Hm Hn. eapply q_bind; [exact Hm|]. intros [] _; [now apply q_ret|exact Hn]. Qed.
Lemma q_notm k k' l m : quiet k k' l m any -> quiet k k' l (notm m) any.
Proof. intros Hm. eapply q_bind; [exact Hm|]. intros x _. now apply q_ret. Qed.
Lemma q_all {A} k k' l (f : A -> M bool) xs : (forall x, In x xs -> quiet k k' l (f x) any) -> quiet k k' l (all_m f xs) any.
Proof.
  induction xs as [|x r IH]; intros H; cbn; [now apply q_ret|]. apply q_andm; [apply H; now left|].
  apply IH. intros. apply H. now right.
Qed.
Lemma q_any {A} k k' l (f : A -> M bool) xs : (forall x, In x xs -> quiet k k' l (f x) any) -> quiet k k' l (any_m f xs) any.
Proof.
  induction xs as [|x r IH]; intros H; cbn; [now apply q_ret|]. apply q_orm; [apply H; now left|].
  apply IH. intros. apply H. now right.
Qed.
Lemma q_one {A} k k' l (f : A -> M bool) xs : forall b, (forall x, In x xs -> quiet k k' l (f x) any) -> quiet k k' l (one_m f b xs) any.
Proof.
  induction xs as [|x r IH]; intros b H; cbn; [now apply q_ret|]. eapply q_bind; [apply H; now left|].
  assert (R : forall b, quiet k k' l (one_m f b r) any) by (intros; apply IH; intros; apply H; now right).
  intros [] _; [destruct b; [now apply q_ret|]|]; apply R.
Qed.
Lemma q_with_nil {A} k k' l j j' i (m : M A) Q : quiet j j' i m Q -> quiet k k' l (with_nil m) Q.
Proof.
  intros H s x s' [I _] E. unfold with_nil, with_guard in E. destruct (m _) as [[y s1]|] eqn:Em; [|discriminate].
  injection E as <- <-. destruct (H (set_guard s None) y s1) as (G & H1 & N & Qy); [split; [exact I|exact Logic.I]|exact Em|].
  cbn in *. auto.
Qed.
Lemma q_swapped {A} k k' l (m : M A) Q : quiet k' k l m Q -> quiet k k' l (swapped m) Q.
Proof.
  intros H s x s' [I1 I2] E. unfold swapped, with_guard in E. destruct (m _) as [[y s1]|] eqn:Em; [|discriminate].
  injection E as <- <-. destruct (H (set_guard s (option_map guard_swap (s_guard s))) y s1) as (G & H1 & N & Qy); [|exact Em|cbn in *; auto].
  split; [exact I1|]. cbn. destruct (s_guard s) as [g|]; cbn; auto. destruct I2 as (A1 & A2 & A3 & A4). auto.
Qed.

Lemma not_seen k l xs x : Forall (entry k l) xs -> (forall t, In (NT t) xs -> NT t <> x) -> (forall t, In (NE t) xs -> NE t <> x) ->
  recursion_hit xs x = false.
Proof.
  intros F H1 H2. unfold recursion_hit. destruct (existsb _ _) eqn:E; [|reflexivity]. apply existsb_exists in E as (y & Hy & E).
  rewrite Forall_forall in F. specialize (F y Hy). destruct y as [u|u|u]; [| |destruct F]; destruct x as [t|t|t]; try discriminate E;
    cbn in E; apply same_type_eq in E as ->; exfalso.
  - now apply (H1 u). - now apply (H2 u).
Qed.

(* a is of the first type, b of the second *)
Lemma q_enter (e : bool) a b both m k k' l :
  in_a a -> (both = true -> in_b b) -> type_size a <= k -> mu b <= l ->
  (both = true -> calm (pred (type_size a)) k' (pred (mu b)) m) ->
  (both = false -> quiet k k' l m any) ->
  quiet k k' l (enter (if e then NE a else NT a) (NT b) both m) any.
Proof.
  intros Ia Ib La Lb Hc Hq. destruct both; [|exact (Hq eq_refl)]. specialize (Ib eq_refl). specialize (Hc eq_refl).
  intros s x s' [I1 I2] E. unfold enter in E.
  set (na := if e then NE a else NT a) in *.
  assert (EA : forall k, k < type_size a -> entry k (pred (mu b)) na) by (intros j Hj; destruct e; left; auto).
  assert (EB : forall k, entry k (pred (mu b)) (NT b)) by (intros j; right; pose proof (mu_pos b); split; auto; lia).
  pose proof (type_size_pos a) as Pa.
  destruct (s_guard s) as [g|] eqn:Eg.
  - destruct I2 as (F1 & F2 & F3 & F4).
    assert (NA : recursion_hit (aSeen g) na = false).
    { apply (not_seen k l); auto; intros t Ht Q; rewrite Forall_forall in F3; specialize (F3 _ Ht); cbn in F3;
        (assert (t = a) as -> by (destruct e; unfold na in Q; congruence));
        (destruct F3 as [[_ F3]|[(p & F5 & F6) _]]; [lia|]); destruct Ia as (q & Iq & Jq); congruence. }
    assert (NB : recursion_hit (bSeen g) (NT b) = false).
    { apply (not_seen k' l); auto; intros t Ht Q; rewrite Forall_forall in F4; specialize (F4 _ Ht); cbn in F4;
        (assert (t = b) as -> by congruence);
        (destruct F4 as [[(p & F5 & F6) _]|[_ F4]]; [|lia]); destruct Ib as (q & Iq & Jq); congruence. }
    unfold guard_append in E. rewrite F1, F2, NA, NB in E. cbn [orb guard_hit seenInA seenInB andb] in E.
    unfold with_guard in E. destruct (m _) as [[y s1]|] eqn:Em; [|discriminate]. injection E as <- <-.
    pose proof (fun I => Hc _ _ _ I Em) as HC.
    match type of HC with ?P -> _ => assert (HI : P); [|destruct (HC HI) as [H1 H2]] end.
    + split; [exact I1|]. cbn. repeat split; auto; apply Forall_app; split; auto.
      * eapply Forall_impl; [|exact F3]. intros z. apply entry_le; lia.
      * constructor; [|constructor]. apply EA. lia.
      * eapply Forall_impl; [|exact F4]. intros z. apply entry_le; lia.
    + cbn in *. repeat split; auto. f_equal. destruct g; cbn in *; congruence.
  - unfold with_guard in E. destruct (m _) as [[y s1]|] eqn:Em; [|discriminate]. injection E as <- <-.
    pose proof (fun I => Hc _ _ _ I Em) as HC.
    match type of HC with ?P -> _ => assert (HI : P); [|destruct (HC HI) as [H1 H2]] end.
    + split; [exact I1|]. cbn. repeat split; auto; constructor; auto. apply EA. lia.
    + cbn in *. repeat split; auto.
Qed.

(* ---------- Instance as a part of Assignable ---------- *)

Section World.
Variable W : world.

(* no value of the list is looked at again *)
Definition vinv (k : nat) (s : st) : Prop :=
  match s_guard s with
  | None => True
  | Some g => seenInB g = false /\ Forall (fun x => match x with NV v => k < value_size v | _ => True end) (bSeen g)
  end.
Definition vquiet (k : nat) (m : M bool) : Prop :=
  forall s x s', vinv k s -> m s = Some (x, s') -> vinv k s' /\ s_hit s' = s_hit s /\ s_next s <= s_next s'.

Lemma v_ret k b : vquiet k (ret b).
Proof. intros s x s' I E. injection E as <- <-. auto. Qed.
Lemma v_fail k : vquiet k fail.
Proof. intros s x s' I E. discriminate. Qed.
Lemma v_bind k m f : vquiet k m -> (forall x, vquiet k (f x)) -> vquiet k (bind m f).
Proof.
  intros Hm Hf s y s' I E. unfold bind in E. destruct (m s) as [[x s1]|] eqn:Em; [|discriminate].
  destruct (Hm s x s1 I Em) as (G & H & N). destruct (Hf x s1 y s' G E) as (G' & H' & N'). repeat split; auto; try congruence; lia.
Qed.
Lemma v_andm k m n : vquiet k m -> vquiet k n -> vquiet k (andm m n).
Proof. intros. apply v_bind; auto. intros []; auto using v_ret. Qed.
Lemma v_orm k m n : vquiet k m -> vquiet k n -> vquiet k (orm m n).
Proof. intros. apply v_bind; auto. intros []; auto using v_ret. Qed.
Lemma v_all {A} k (f : A -> M bool) xs : (forall x, In x xs -> vquiet k (f x)) -> vquiet k (all_m f xs).
Proof.
  induction xs as [|x r IH]; intros H; cbn; [now apply v_ret|]. apply v_andm; [apply H; now left|].
  apply IH. intros. apply H. now right.
Qed.
Lemma v_any {A} k (f : A -> M bool) xs : (forall x, In x xs -> vquiet k (f x)) -> vquiet k (any_m f xs).
Proof.
  induction xs as [|x r IH]; intros H; cbn; [now apply v_ret|]. apply v_orm; [apply H; now left|].
  apply IH. intros. apply H. now right.
Qed.
Lemma v_one {A} k (f : A -> M bool) xs : forall b, (forall x, In x xs -> vquiet k (f x)) -> vquiet k (one_m f b xs).
Proof.
  induction xs as [|x r IH]; intros b H; cbn; [now apply v_ret|]. apply v_bind; [apply H; now left|].
  assert (R : forall b, vquiet k (one_m f b r)) by (intros; apply IH; intros; apply H; now right).
  intros []; [destruct b; [now apply v_ret|]|]; apply R.
Qed.
Lemma v_zip {A B} k (f : A -> B -> M bool) xs : forall ys, (forall x y, In x xs -> In y ys -> vquiet k (f x y)) -> vquiet k (zip_m f xs ys).
Proof.
  induction xs as [|x r IH]; intros [|y ys] H; cbn; auto using v_ret, v_fail. apply v_andm; [apply H; now left|].
  apply IH. intros. apply H; now right.
Qed.
Lemma v_tuple k f ts b xs : (forall t x, In t ts -> In x xs -> vquiet k (f t x)) -> vquiet k (tuple_instance f ts b xs).
Proof.
  intros H. unfold tuple_instance. destruct b.
  - destruct (_ <? _); [apply v_ret|]. destruct (nth_error ts _) as [t|] eqn:E; [|apply v_fail]. apply v_andm.
    + apply v_zip. intros. apply H; auto. eapply In_firstn; eauto.
    + apply v_all. intros. apply H; [eapply nth_error_In; eauto|eapply In_skipn; eauto].
  - destruct (Nat.eqb _ _); [|apply v_ret]. now apply v_zip.
Qed.
Lemma v_struct k f ad es m : forall oc, (forall e x, In e es -> In x (map snd m) -> vquiet k (f (snd (fst e)) x)) ->
  vquiet k (struct_instance f ad es m oc).
Proof.
  induction es as [|[[ky t] b] r IH]; intros oc H; cbn; [apply v_ret|].
  assert (R : forall oc, vquiet k (struct_instance f ad r m oc)) by (intros; apply IH; intros; apply H; auto; now right).
  destruct (get_with (veq ky) m) as [x|] eqn:E.
  - apply v_bind; [|intros []; auto using v_ret]. apply (H (ky, t, b)); [now left|]. destruct (get_with_some _ _ _ E) as (k0 & Hin & _).
    apply in_map_iff. exists (k0, x). auto.
  - destruct b; auto using v_ret.
Qed.
Lemma v_nil k j m : vquiet j m -> vquiet k (with_nil m).
Proof.
  intros H s x s' I E. unfold with_nil, with_guard in E. destruct (m _) as [[y s1]|] eqn:Em; [|discriminate].
  injection E as <- <-. destruct (H (set_guard s None) y s1 Logic.I Em) as (_ & H1 & N). auto.
Qed.
Lemma v_enter k t v both m : (both = true -> value_size v <= k) -> vquiet k m -> (both = true -> vquiet (pred (value_size v)) m) ->
  vquiet k (enter (NT t) (NV v) both m).
Proof.
  intros Lv Hm Hm' s x s' I E. unfold enter in E. destruct both; [|exact (Hm s x s' I E)].
  specialize (Lv eq_refl). specialize (Hm' eq_refl). pose proof (value_size_pos v) as Pv. unfold vinv in I.
  destruct (s_guard s) as [g|] eqn:Eg.
  - destruct I as [I1 I2].
    assert (NB : recursion_hit (bSeen g) (NV v) = false).
    { unfold recursion_hit. destruct (existsb _ _) eqn:X; [|reflexivity]. apply existsb_exists in X as (y & Hy & X).
      rewrite Forall_forall in I2. specialize (I2 y Hy). destruct y as [u|u|u]; try discriminate X. cbn in X.
      destruct (value_eq_dec v u) as [<-|]; [lia|discriminate]. }
    unfold guard_append in E. rewrite I1, NB in E. unfold guard_hit in E. cbn [orb seenInA seenInB] in E. rewrite andb_false_r in E.
    unfold with_guard in E. destruct (m _) as [[y s1]|] eqn:Em; [|discriminate]. injection E as <- <-.
    pose proof (fun I => Hm' _ _ _ I Em) as HC.
    match type of HC with ?P -> _ => assert (HI : P); [|destruct (HC HI) as (_ & H1 & H2)] end.
    + cbn. split; auto. apply Forall_app. split; [eapply Forall_impl; [|exact I2]; intros []; auto; lia|]. constructor; auto. lia.
    + cbn in *. repeat split; auto.
  - unfold with_guard in E. destruct (m _) as [[y s1]|] eqn:Em; [|discriminate]. injection E as <- <-.
    pose proof (fun I => Hm' _ _ _ I Em) as HC.
    match type of HC with ?P -> _ => assert (HI : P); [|destruct (HC HI) as (_ & H1 & H2)] end.
    + cbn. split; auto. constructor; auto. lia.
    + cbn in *. repeat split; auto. unfold vinv. cbn. now rewrite Eg.
Qed.

Definition flat_target (t : ty) : Prop := flat_alternatives t /\ ty_all (fun t => match t with TAllOfValue _ _ => False | _ => True end) t.

Lemma ty_all_member P u t : ty_all P t -> (match t with TAllOfValue _ _ => False | _ => True end) -> member u t -> ty_all P u.
Proof.
  destruct t as [ | | | |x y i| |x y i| | |x y|s|s|x y| | |p w|p t| |p e x y|p ts b| |p kt vt x y|p a es|p ts|p vs|p ts|p ts|p t|[t|]];
    cbn [ty_all member]; intros [_ H] N Hu; try contradiction; subst; try assumption.
  - rewrite fold_and, Forall_forall in H. auto.
  - destruct H as [H1 H2], Hu as [->| ->]; assumption.
  - destruct Hu as (e & He & ->). rewrite fold_and, Forall_forall in H. exact (H e He).
  - rewrite fold_and, Forall_forall in H. auto.
  - rewrite fold_and, Forall_forall in H. auto.
  - rewrite fold_and, Forall_forall in H. auto.
Qed.

Lemma flat_member u t : flat_target t -> member u t -> flat_target u.
Proof.
  intros [H1 H2] Hu. pose proof (ty_all_self _ _ H2) as N. split; eapply ty_all_member; eauto.
Qed.

Lemma instn_quiet n : forall fn t v k, flat_target t -> (fn = true -> deep_instance t = true -> value_size v <= k) -> vquiet k (instn W n fn t v).
Proof.
  induction n as [|n IH]; intros fn t v k Ft Lv; cbn [instn]; [apply v_fail|].
  assert (IHm : forall fn u x k, member u t -> (fn = true -> deep_instance u = true -> value_size x <= k) -> vquiet k (instn W n fn u x)).
  { intros. apply IH; auto. eapply flat_member; eauto. }
  destruct (deep_instance t) eqn:D.
  - destruct fn; [|apply (v_nil k (value_size v)); apply IH; auto]. specialize (Lv eq_refl eq_refl).
    assert (B : forall j, value_size v <= S j -> vquiet j (deep_instance_of (instn W n) t v)).
    { intros j Lj.
      assert (AL : forall ts, Forall (fun t => container t = false) ts -> (forall u, In u ts -> member u t) -> forall u, In u ts -> vquiet j (instn W n true u v)).
      { intros ts F Hm u Hu. apply IHm; auto. intros _ Du. rewrite Forall_forall in F. specialize (F u Hu). rewrite container_deep in F.
        destruct u; cbn in *; congruence. }
      destruct Ft as [Ft1 Ft2]. pose proof (ty_all_self _ _ Ft1) as N1. pose proof (ty_all_self _ _ Ft2) as N2.
      destruct t as [ | | | |x y i| |x y i| | |x y|s|s|x y| | |p w|p t| |p e x y|p ts b| |p kt vt x y|p a es|p ts|p vs|p ts|p ts|p t|[t|]];
        try discriminate D; cbn [deep_instance_of]; try apply v_ret.
      - destruct v as [ | | | | | | | | |l|m]; try apply v_ret. destruct (size_in _ _ _); [|apply v_ret]. destruct (is_any e); [apply v_ret|].
        apply v_all. intros z Hz. apply IHm; [reflexivity|]. intros _ _. pose proof (list_sum_in value_size l z Hz). cbn in Lj. lia.
      - destruct v as [ | | | | | | | | |l|m]; try apply v_ret. apply v_tuple. intros t z Ht Hz. apply IHm; [exact Ht|]. intros _ _.
        pose proof (list_sum_in value_size l z Hz). cbn in Lj. lia.
      - destruct v as [ | | | | | | | | |l|m]; try apply v_ret. destruct (size_in _ _ _); [|apply v_ret].
        assert (K : forall fn e, In e m -> vquiet j (instn W n fn kt (fst e))).
        { intros fn e He. apply IHm; [now left|]. intros _ _.
          pose proof (list_sum_in (fun e : value * value => value_size (fst e) + value_size (snd e)) m e He) as E. cbn in *. lia. }
        assert (V : forall fn e, In e m -> vquiet j (instn W n fn vt (snd e))).
        { intros fn e He. apply IHm; [now right|]. intros _ _.
          pose proof (list_sum_in (fun e : value * value => value_size (fst e) + value_size (snd e)) m e He) as E. cbn in *. lia. }
        destruct (is_any kt), (is_any vt); try apply v_ret; apply v_all; auto using v_andm.
      - destruct v as [ | | | | | | | | |l|m]; try apply v_ret. apply v_struct. intros e z He Hz. apply IHm; [exists e; auto|]. intros _ _.
        apply in_map_iff in Hz as (e' & <- & He').
        pose proof (list_sum_in (fun e : value * value => value_size (fst e) + value_size (snd e)) m e' He') as E. cbn in *. lia.
      - apply v_all. apply (AL ts); auto.
      - destruct N2.
      - apply v_any. apply (AL ts); auto.
      - apply v_one. apply (AL ts); auto. }
    apply v_enter; auto. intros _. apply B. pose proof (value_size_pos v). lia.
  - apply (v_nil k 0). destruct t; try discriminate D; cbn [flat_instance_of]; try apply v_ret.
    + destruct v; try apply v_ret. apply IHm; [reflexivity|discriminate].
    + apply v_bind; [|intros; apply v_ret]. apply IHm; [reflexivity|discriminate].
Qed.

Lemma instn_calm n t v k k' l : flat_target t -> calm k k' l (instn W n true t v).
Proof.
  intros Ft s x s' [_ I] E.
  destruct (instn_quiet n true t v (value_size v) Ft ltac:(auto) s x s') as (_ & H); auto.
  unfold vinv. destruct (s_guard s); auto. destruct I as (_ & I1 & _ & I2). split; auto.
  eapply Forall_impl; [|exact I2]. intros []; cbn; auto. intros [].
Qed.

(* ---------- Assignable with a type without containers as its second ---------- *)

Definition simple (b : ty) : Prop := container b = false /\ match b with TNot _ _ => False | _ => True end.

Lemma q_new_types k k' l vs : quiet k k' l (new_types vs) any.
Proof.
  induction vs as [|v r IH]; cbn; [now apply q_ret|]. apply q_bind with (P := any); [apply q_fresh; intros; exact I|].
  intros t _. eapply q_bind; [exact IH|]. intros ts _. now apply q_ret.
Qed.

Lemma check_simple R b a : simple b -> check_assignable_to R b a = ret false.
Proof. intros [H1 H2]. destruct b; try discriminate H1; reflexivity. Qed.

Lemma q_check_simple k k' l R b a : simple b -> quiet k k' l (check_assignable_to R b a) any.
Proof. intros H. rewrite check_simple by assumption. now apply q_ret. Qed.

Lemma asgn_simple n : forall fn a b k k' l, simple b -> quiet k k' l (asgn W n fn a b) any.
Proof.
  assert (A : simple TAny) by (split; cbn; auto).
  induction n as [|n IH]; intros fn a b k k' l Hb; cbn [asgn]; [apply q_fail|].
  assert (C : forall k k' l R a, quiet k k' l (check_assignable_to R b a) any) by (intros; now apply q_check_simple).
  assert (Db : deep_assignable b = false) by (rewrite <- container_deep; apply Hb).
  assert (D : forall k k' l I, quiet k k' l (deep_assignable_to (asgn W n) I a b) any).
  { intros k0 k0' l0 I0. destruct Hb as [Hb1 Hb2]. rewrite container_deep in Hb1.
    destruct a as [ | | | |x y i| |x y i| | |x y|s|s|x y| | |p w|p t| |p e x y|p ts v| |p kt vt x y|p ad es|p ts|p vs|p ts|p ts|p t|t];
      cbn [deep_assignable_to]; try (apply q_ret; exact I).
    - apply q_orm; [now apply q_ret|auto].
    - destruct b; try discriminate Hb1; auto; now apply q_ret.
    - destruct b as [ | | | | | | | | | | | | | | |p' w'| | | | | | | | | | | | | ]; try discriminate Hb1; auto; try (now apply q_ret). destruct w'; try discriminate Hb1; auto; now apply q_ret.
    - destruct b as [ | | | | | | | | | | | | | | |p' w'| | | | | | | | | | | | | ]; try discriminate Hb1; auto; try (now apply q_ret). destruct w'; try discriminate Hb1; auto; now apply q_ret.
    - destruct b as [ | | | | | | | | | | | | | | |p' w'| | | | | | | | | | | | | ]; try discriminate Hb1; auto; try (now apply q_ret).
      + destruct w'; try discriminate Hb1; auto; now apply q_ret.
      + cbn [map_bounds key_type value_type]. destruct (_ && _)%bool; [|now apply q_ret].
        apply q_andm; (eapply q_bind with (P := fun t => t = TAny); [now apply q_ret|]); intros t ->; now apply IH.
    - destruct b as [ | | | | | | | | | | | | | | |p' w'| | | | | | | | | | | | | ]; try discriminate Hb1; auto. destruct w'; try discriminate Hb1; auto; now apply q_ret.
    - assert (X : quiet k0 k0' l0 (orm (all_m (fun t => asgn W n true t b) ts) (check_assignable_to (asgn W n) b (TAllOf p ts))) any).
      { apply q_orm; auto. apply q_all. intros. apply IH. split; auto. now rewrite container_deep. }
      destruct b; try discriminate Hb1; exact X.
    - assert (X : quiet k0 k0' l0 (all_m (fun v => bind (new_type v) (fun t => asgn W n true t b)) vs) any).
      { apply q_all. intros v _. apply q_bind with (P := any); [apply q_fresh; intros; exact I|]. intros t _. apply IH. split; auto. now rewrite container_deep. }
      destruct b; try discriminate Hb1; exact X.
    - destruct ts as [|t r]; [now apply q_ret|]. apply q_orm; auto. apply q_any. intros. apply IH. split; auto. now rewrite container_deep.
    - destruct ts as [|t r]; [now apply q_ret|]. apply q_orm; auto. apply q_one. intros. apply IH. split; auto. now rewrite container_deep. }
  assert (F : forall k k' l, quiet k k' l (flat_assignable_to W (asgn W n) a b) any).
  { intros k0 k0' l0. pose proof Hb as Hb0. destruct Hb as [Hb1 Hb2]. rewrite container_deep in Hb1.
    destruct a as [ | | | |x y i| |x y i| | |x y|s|s|x y| | |p w|p t| |p e x y|p ts v| |p kt vt x y|p ad es|p ts|p vs|p ts|p ts|p t|t];
      cbn [flat_assignable_to]; try (apply q_ret; exact I);
      try (destruct b as [ | | | |x' y' i'| |x' y' i'| | |x' y'|s'|s'|x' y'| | |p' w'|p' t'| |p' e' x' y'|p' ts' b'| |p' kt' vt' x' y'|p' ad' es'|p' ts'|p' vs'|p' ts'|p' ts'|p' t'|t'];
        try discriminate Hb1; try contradiction; auto; try (now apply q_ret);
        try (destruct w'; try discriminate Hb1; auto; now apply q_ret); fail).
    - destruct b; try discriminate Hb1; auto; try (destruct (_ <? _)%Z; now apply q_ret). destruct v; try discriminate Hb1; auto; now apply q_ret.
    - destruct b; try discriminate Hb1; auto; try (destruct (SFltb _ _); [|destruct (_ || _)%bool]; now apply q_ret). destruct v; try discriminate Hb1; auto; now apply q_ret.
    - destruct b; try discriminate Hb1; auto. { apply q_orm; auto. now apply q_ret. } destruct v; try discriminate Hb1; auto; now apply q_ret.
    - apply q_orm; auto. now apply q_ret.
    - assert (X : quiet k0 k0' l0 (notm (asgn W n false t b)) any) by now apply q_notm, IH.
      destruct b; try discriminate Hb1; try contradiction; exact X. }
  assert (E : forall k k' l x y I, quiet k k' l (enter x y (deep_assignable b) (deep_assignable_to (asgn W n) I a b)) any).
  { intros. rewrite Db. apply D. }
  destruct fn.
  - destruct (same_type a b); [now apply q_ret|]. destruct (deep_assignable a); [apply E|]. eapply q_with_nil, F.
  - destruct (deep_assignable a); [|eapply q_with_nil, F].
    destruct a; try (eapply q_with_nil, IH, Hb). eapply q_with_nil, E.
Unshelve. all: exact 0.
Qed.

(* ---------- Assignable with a type without containers as its first ---------- *)

Lemma q_check k k' l R b a :
  (forall t, In t (match b with TAllOf _ ts | TAnyOf _ ts | TOneOf _ ts => ts | _ => [] end) -> quiet k' k l (R true a t) any) ->
  (forall p v, ~ PA p -> In v (match b with TAllOfValue _ vs => vs | _ => [] end) -> quiet k' k l (R true a (type_of p v)) any) ->
  quiet k k' l (check_assignable_to R b a) any.
Proof.
  intros H1 H2. destruct b; cbn [check_assignable_to]; try (now apply q_ret); apply q_swapped.
  - now apply q_all.
  - apply q_all. intros v Hv. apply q_bind with (P := fun t => exists p, ~ PA p /\ t = type_of p v).
    + apply q_fresh. intros q Hq. exists q. auto.
    + intros t (p0 & Hp & ->). now apply H2.
  - apply q_andm; [now apply q_all|now apply q_ret].
  - apply q_andm; [now apply q_all|now apply q_ret].
Qed.

Lemma asgn_flat n : forall fn a b k k' l, simple a -> quiet k k' l (asgn W n fn a b) any.
Proof.
  induction n as [|n IH]; intros fn a b k k' l Ha; cbn [asgn]; [apply q_fail|].
  assert (Da : deep_assignable a = false) by (rewrite <- container_deep; apply Ha).
  assert (C : quiet k k' l (check_assignable_to (asgn W n) b a) any) by (apply q_check; intros; now apply IH).
  assert (F : quiet k k' l (flat_assignable_to W (asgn W n) a b) any).
  { destruct Ha as [Ha1 Ha2]. rewrite container_deep in Ha1.
    destruct a as [ | | | |x y i| |x y i| | |x y|s|s|x y| | |p w|p t| |p e x y|p ts v| |p kt vt x y|p ad es|p ts|p vs|p ts|p ts|p t|t];
      try discriminate Ha1; cbn [flat_assignable_to]; try (apply q_ret; exact I);
      try (destruct b as [ | | | |x' y' i'| |x' y' i'| | |x' y'|s'|s'|x' y'| | |p' w'|p' t'| |p' e' x' y'|p' ts' b'| |p' kt' vt' x' y'|p' ad' es'|p' ts'|p' vs'|p' ts'|p' ts'|p' t'|t'];
        auto; try (now apply q_ret);
        try (destruct w'; auto; now apply q_ret); fail).
    - destruct b; auto; try (destruct (_ <? _)%Z; now apply q_ret). destruct v; auto; now apply q_ret.
    - destruct b; auto; try (destruct (SFltb _ _); [|destruct (_ || _)%bool]; now apply q_ret). destruct v; auto; now apply q_ret.
    - destruct b; auto. { apply q_orm; auto. now apply q_ret. } destruct v; auto; now apply q_ret.
    - apply q_orm; auto. now apply q_ret.
    - destruct Ha2. }
  rewrite Da. destruct fn; [destruct (same_type a b); [now apply q_ret|]|]; eapply q_with_nil; exact F.
Qed.

(* ---------- Assignable ---------- *)

Definition a_ok (a : ty) : Prop := flat_target a /\ objects PA a /\ ty_all (fun t => match t with TNot _ _ => False | _ => True end) a.
Definition b_ok (b : ty) : Prop := single_alternatives b /\ objects (fun p => ~ PA p) b.

Lemma a_ok_member u t : a_ok t -> member u t -> a_ok u.
Proof.
  intros (H1 & H2 & H3) Hu. pose proof (ty_all_self _ _ (proj2 H1)) as N. repeat split.
  - apply (flat_member u t H1 Hu). - apply (flat_member u t H1 Hu).
  - eapply ty_all_member; eauto. - eapply ty_all_member; eauto.
Qed.
Lemma b_ok_type_of p v : ~ PA p -> b_ok (type_of p v).
Proof. intros H. split; [apply single_type_of|now apply objects_type_of]. Qed.
Lemma b_ok_member u t : b_ok t -> (match t with TAllOfValue _ _ => False | _ => True end) -> member u t -> b_ok u.
Proof. intros (H1 & H2) N Hu. split; eapply ty_all_member; eauto. Qed.

Lemma a_in a : a_ok a -> container a = true -> in_a a.
Proof. intros (_ & H & _) C. apply ty_all_self in H. destruct a; try discriminate C; cbn in H; eexists; split; try reflexivity; exact H. Qed.
Lemma b_in b : b_ok b -> container b = true -> in_b b.
Proof. intros (_ & H) C. apply ty_all_self in H. destruct b; try discriminate C; cbn in H; eexists; split; try reflexivity; exact H. Qed.

Lemma b_any : b_ok TAny.
Proof. split; cbn; auto. Qed.

Lemma q_element b k k' l : b_ok b -> quiet k k' l (element_type b) (fun t =>
  match array_bounds b with Some _ => match b with TArray => True | _ => b_ok t /\ mu t < mu b end | None => True end).
Proof.
  intros Hb.
  destruct b as [ | | | |x y i| |x y i| | |x y|s|s|x y| | |p w|p t| |p e x y|p ts v| |p kt vt x y|p ad es|p ts|p vs|p ts|p ts|p t|t];
    cbn [element_type array_bounds]; try (now apply q_ret).
  - destruct w as [ | | | | | | | | |l0| ]; try (now apply q_ret). destruct l0 as [|z [|z' r]].
    + apply q_ret. split; [exact b_any|cbn; lia].
    + apply q_fresh. intros q Hq. split; [now apply b_ok_type_of|]. pose proof (mu_type_of q z). cbn in *. lia.
    + apply q_fresh. intros q Hq. split; [split; cbn; auto|]. cbn [mu value_size].
      assert (list_max (map (fun v => 3 * value_size v) (z :: z' :: r)) <= 3 * list_sum (map value_size (z :: z' :: r))); [|lia].
      apply list_max_le, Forall_map_iff, Forall_forall. intros u Hu. pose proof (list_sum_in value_size _ u Hu). lia.
  - apply q_ret. split; [apply b_ok_member with (TArrSized p e x y); cbn; auto|cbn; lia].
  - assert (HM : forall t, In t ts -> b_ok t /\ mu t < mu (TTuple p ts v)).
    { intros t Ht. split; [apply b_ok_member with (TTuple p ts v); cbn; auto|]. cbn [mu]. pose proof (list_max_in mu ts t Ht). lia. }
    destruct ts as [|t1 [|t2 r]].
    + apply q_ret. split; [exact b_any|cbn; lia].
    + apply q_ret. apply HM. now left.
    + remember (t1 :: t2 :: r) as ts. assert (Ne : ts <> []) by (subst; discriminate). clear Heqts.
      destruct (unique ty type_eq thash ts) as [us|] eqn:U; [|apply q_fail].
      destruct (unique_covers _ _ _ _ U) as [U1 _].
      assert (ALL : forall q, ~ PA q -> b_ok (TAllOf q us) /\ mu (TAllOf q us) < mu (TTuple p ts v)).
      { intros q Hq. split; [split|].
        - split; [|apply fold_and, Forall_forall; intros u Hu; apply HM; auto].
          cbn. destruct Hb as [Hb _]. apply ty_all_self in Hb. cbn in Hb. rewrite Forall_forall in *. auto.
        - split; [exact Hq|]. apply fold_and, Forall_forall. intros u Hu. apply HM; auto.
        - cbn [mu]. assert (list_max (map mu us) <= list_max (map mu ts)); [|lia].
          apply list_max_le, Forall_map_iff, Forall_forall. intros u Hu. apply list_max_in. auto. }
      destruct us as [|u1 [|u2 us]].
      * apply q_fresh. exact ALL.
      * apply q_ret. apply HM, U1. now left.
      * apply q_fresh. exact ALL.
Qed.

Lemma q_key b k k' l : b_ok b -> quiet k k' l (key_type b) (fun t =>
  match map_bounds b with Some _ => b_ok t /\ mu t < mu b | None => True end).
Proof.
  intros Hb.
  destruct b as [ | | | |x y i| |x y i| | |x y|s|s|x y| | |p w|p t| |p e x y|p ts v| |p kt vt x y|p ad es|p ts|p vs|p ts|p ts|p t|t];
    cbn [key_type map_bounds]; try (now apply q_ret).
  - destruct w as [ | | | | | | | | | |m]; try (now apply q_ret). destruct m as [|e m].
    + apply q_ret. split; [exact b_any|cbn; lia].
    + apply q_fresh. intros q Hq. split; [split; cbn; auto|]. remember (e :: m) as m'. cbn [mu value_size]. rewrite map_map.
      assert (list_max (map (fun e : value * value => 3 * value_size (fst e)) m') <= 3 * list_sum (map (fun e => value_size (fst e) + value_size (snd e)) m')); [|lia].
      apply list_max_le, Forall_map_iff, Forall_forall. intros u Hu.
      pose proof (list_sum_in (fun e : value * value => value_size (fst e) + value_size (snd e)) m' u Hu) as E. cbn beta in E. lia.
  - apply q_ret. split; [exact b_any|cbn; lia].
  - apply q_ret. split; [apply b_ok_member with (TMapSized p kt vt x y); cbn; auto|cbn; lia].
  - assert (HM : forall e, In e es -> 3 * value_size (fst (fst e)) <= list_max (map (fun e => Nat.max (3 * value_size (fst (fst e))) (mu (snd (fst e)))) es)).
    { intros e He. pose proof (list_max_in (fun e : value * ty * bool => Nat.max (3 * value_size (fst (fst e))) (mu (snd (fst e)))) es e He) as E. cbn beta in E. lia. }
    destruct es as [|e1 [|e2 r]].
    + apply q_ret. split; [exact b_any|cbn; lia].
    + apply q_fresh. intros q Hq. split; [split; cbn; auto|]. specialize (HM e1 (or_introl eq_refl)). cbn [mu] in *. lia.
    + apply q_fresh. intros q Hq. remember (e1 :: e2 :: r) as es. split; [split|].
      * split; [cbn; apply Forall_map_iff, Forall_forall; reflexivity|]. apply fold_and, Forall_map_iff, Forall_forall. cbn. auto.
      * split; [exact Hq|]. apply fold_and, Forall_map_iff, Forall_forall. cbn. auto.
      * cbn [mu]. rewrite map_map. cbn [mu]. assert (H : list_max (map (fun e : value * ty * bool => 3 * value_size (fst (fst e))) es) <=
          list_max (map (fun e => Nat.max (3 * value_size (fst (fst e))) (mu (snd (fst e)))) es)); [|lia].
        apply list_max_le, Forall_map_iff, Forall_forall. exact HM.
Qed.

Lemma q_value b k k' l : b_ok b -> quiet k k' l (value_type b) (fun t =>
  match map_bounds b with Some _ => b_ok t /\ mu t < mu b | None => True end).
Proof.
  intros Hb.
  destruct b as [ | | | |x y i| |x y i| | |x y|s|s|x y| | |p w|p t| |p e x y|p ts v| |p kt vt x y|p ad es|p ts|p vs|p ts|p ts|p t|t];
    cbn [value_type map_bounds]; try (now apply q_ret).
  - destruct w as [ | | | | | | | | | |m]; try (now apply q_ret). destruct m as [|e m].
    + apply q_ret. split; [exact b_any|cbn; lia].
    + apply q_fresh. intros q Hq. split; [split; cbn; auto|]. remember (e :: m) as m'. cbn [mu value_size]. rewrite map_map.
      assert (list_max (map (fun e : value * value => 3 * value_size (snd e)) m') <= 3 * list_sum (map (fun e => value_size (fst e) + value_size (snd e)) m')); [|lia].
      apply list_max_le, Forall_map_iff, Forall_forall. intros u Hu.
      pose proof (list_sum_in (fun e : value * value => value_size (fst e) + value_size (snd e)) m' u Hu) as E. cbn beta in E. lia.
  - apply q_ret. split; [exact b_any|cbn; lia].
  - apply q_ret. split; [apply b_ok_member with (TMapSized p kt vt x y); cbn; auto|cbn; lia].
  - assert (HM : forall e, In e es -> b_ok (snd (fst e)) /\ mu (snd (fst e)) <= list_max (map (fun e => Nat.max (3 * value_size (fst (fst e))) (mu (snd (fst e)))) es)).
    { intros e He. split; [apply b_ok_member with (TStruct p ad es); cbn; eauto|].
      pose proof (list_max_in (fun e : value * ty * bool => Nat.max (3 * value_size (fst (fst e))) (mu (snd (fst e)))) es e He) as E. cbn beta in E. lia. }
    destruct es as [|e1 [|e2 r]].
    + apply q_ret. split; [exact b_any|cbn; lia].
    + apply q_ret. destruct (HM e1 (or_introl eq_refl)) as [H1 H2]. split; auto. cbn [mu] in *. lia.
    + apply q_fresh. intros q Hq. remember (e1 :: e2 :: r) as es. split; [split|].
      * split.
        -- cbn. apply Forall_map_iff. destruct Hb as [Hb _]. apply ty_all_self in Hb. exact Hb.
        -- apply fold_and, Forall_map_iff, Forall_forall. intros e He. apply HM. assumption.
      * split; [exact Hq|]. apply fold_and, Forall_map_iff, Forall_forall. intros e He. apply HM. assumption.
      * cbn [mu]. rewrite map_map. assert (H : list_max (map (fun e : value * ty * bool => mu (snd (fst e))) es) <=
          list_max (map (fun e => Nat.max (3 * value_size (fst (fst e))) (mu (snd (fst e)))) es)); [|lia].
        apply list_max_le, Forall_map_iff, Forall_forall. intros e He. now apply HM.
Qed.

Lemma q_tuple_loop {A} k k' l (R : A -> A -> M bool) n : forall ts os tv ov,
  (forall t o, In t ts \/ tv = Some t -> In o os \/ ov = Some o -> quiet k k' l (R t o) any) ->
  quiet k k' l (tuple_loop R n ts os tv ov) any.
Proof.
  induction n as [|n IH]; intros ts os tv ov H; cbn [tuple_loop]; [now apply q_ret|].
  assert (REC : quiet k k' l (tuple_loop R n (tl ts) (tl os) tv ov) any).
  { apply IH. intros t o Ht Ho. apply H; [destruct Ht as [Ht|Ht]; auto|destruct Ho as [Ho|Ho]; auto]; left; [destruct ts|destruct os]; cbn in *; auto. }
  destruct ts as [|t ts]; [destruct tv as [t|]|]; try (now apply q_ret);
    (destruct os as [|o os]; [destruct ov as [o|]|]); try (now apply q_ret); apply q_andm; auto; apply H; cbn; auto.
Qed.

Lemma q_struct_assignable k k' l R ad es oad os : forall oc,
  (forall e o r, In e es -> (exists k, In (k, o, r) os) -> quiet k k' l (R (snd (fst e)) o) any) ->
  quiet k k' l (struct_assignable R ad es oad os oc) any.
Proof.
  induction es as [|[[ky t] rq] r IH]; intros oc H; cbn [struct_assignable]; [now apply q_ret|].
  assert (REC : forall oc, quiet k k' l (struct_assignable R ad r oad os oc) any).
  { intros. apply IH. intros e o r0 He Ho. eapply H; eauto. now right. }
  destruct (struct_find ky os) as [[o orq]|] eqn:E.
  - destruct (rq && negb orq)%bool; [now apply q_ret|]. apply q_bind with (P := any).
    + apply (H (ky, t, rq) o orq); [now left|]. clear -E. induction os as [|[[k0 t0] r0] os IH]; cbn in E; [discriminate|].
      destruct (veq ky k0); [injection E as -> ->; eexists; left; reflexivity|]. destruct (IH E) as (k1 & H1). exists k1. now right.
    + intros [] _; auto. now apply q_ret.
  - destruct (rq || oad)%bool; auto. now apply q_ret.
Qed.

Lemma q_scan k k' l R want bts : forall matched i, (forall t, In t bts -> quiet k k' l (R t) any) ->
  quiet k k' l (scan R want bts matched i) any.
Proof.
  induction bts as [|t r IH]; intros [|m matched] i H; cbn [scan]; try (now apply q_ret).
  assert (REC : quiet k k' l (scan R want r matched (S i)) any) by (apply IH; intros; apply H; now right).
  destruct (Bool.eqb m want); auto. apply q_bind with (P := any); [apply H; now left|]. intros [] _; auto. now apply q_ret.
Qed.

Lemma q_less k k' l R ats bts :
  (forall k k' l t u, In t ats -> In u bts -> quiet k k' l (R t u) any) ->
  (forall k k' l t u, In t ats -> In u bts -> quiet k k' l (R u t) any) ->
  quiet k k' l (less_restrictive R ats bts) any.
Proof.
  intros H1 H2. unfold less_restrictive. apply q_bind with (P := any).
  - generalize (map (fun _ => false) bts). revert H1. clear H2. induction ats as [|t r IH]; intros H1 matched; cbn [match_all]; [now apply q_ret|].
    assert (REC : forall m, quiet k k' l (match_all R r bts m) any) by (apply IH; intros; apply H1; auto; now right).
    assert (SC : forall w, quiet k k' l (scan (R t) w bts matched 0) any) by (intros; apply q_scan; intros; apply H1; auto; now left).
    apply q_bind with (P := any); [apply SC|]. intros [i|] _; [apply REC|]. apply q_bind with (P := any); [apply SC|].
    intros [i|] _; [apply REC|now apply q_ret].
  - intros [matched|] _; [|now apply q_ret]. apply q_swapped.
    revert matched. clear H1. induction bts as [|u r IH]; intros [|m matched]; cbn [no_lessening]; try (now apply q_ret).
    assert (REC : quiet k' k l (no_lessening R ats r matched) any) by (apply IH; intros; apply H2; auto; now right).
    destruct m; auto. apply q_andm; auto. apply q_notm, q_any. intros t Ht. apply H2; auto. now left.
Qed.

Lemma simple_of t : container t = false -> a_ok t -> simple t.
Proof. intros H (_ & _ & N). split; auto. now apply ty_all_self in N. Qed.

Lemma step_not_container n a b k k' l I0 : a_ok a -> container b = false ->
  quiet k k' l (deep_assignable_to (asgn W n) I0 a b) any.
Proof.
  intros Ha Cb.
  assert (C : forall a, quiet k k' l (check_assignable_to (asgn W n) b a) any).
  { intros. destruct b; try discriminate Cb; now apply q_ret. }
  assert (FL : forall ts t, Forall (fun t => container t = false) ts -> (forall t, In t ts -> member t a) -> In t ts -> simple t).
  { intros ts t F Hm Ht. rewrite Forall_forall in F. apply simple_of; auto. apply a_ok_member with a; auto. }
  assert (A : simple TAny) by (split; cbn; auto).
  pose proof (proj1 (proj1 Ha)) as Fa. apply ty_all_self in Fa.
  pose proof (proj2 (proj1 Ha)) as Va. apply ty_all_self in Va.
  destruct a as [ | | | |x y i| |x y i| | |x y|s|s|x y| | |p w|p t| |p e x y|p ts v| |p kt vt x y|p ad es|p ts|p vs|p ts|p ts|p t|t];
    cbn [deep_assignable_to]; try (apply q_ret; exact I).
  - apply q_orm; auto. now apply q_ret.
  - destruct b; try discriminate Cb; try exact (C _).
  - destruct b; try discriminate Cb; try exact (C _); try (now apply q_ret). destruct v; try discriminate Cb; try exact (C _).
  - destruct b; try discriminate Cb; try exact (C _); try (now apply q_ret). destruct v0; try discriminate Cb; try exact (C _).
  - destruct b; try discriminate Cb; try exact (C _).
    + destruct v; try discriminate Cb; try exact (C _).
    + cbn [map_bounds key_type value_type]. destruct (_ && _)%bool; [|now apply q_ret].
      apply q_andm; (eapply q_bind with (P := fun t => t = TAny); [now apply q_ret|]); intros t ->; now apply asgn_simple.
  - destruct b; try discriminate Cb; try exact (C _). destruct v; try discriminate Cb; try exact (C _).
  - assert (X : quiet k k' l (orm (all_m (fun t => asgn W n true t b) ts) (check_assignable_to (asgn W n) b (TAllOf p ts))) any).
    { apply q_orm; auto. apply q_all. intros. apply asgn_flat. apply (FL ts); auto. }
    destruct b; try discriminate Cb; exact X.
  - destruct Va.
  - destruct ts as [|t r]; [now apply q_ret|]. apply q_orm; auto. apply q_any. intros. apply asgn_flat. apply (FL (t :: r)); auto.
  - destruct ts as [|t r]; [now apply q_ret|]. apply q_orm; auto. apply q_one. intros. apply asgn_flat. apply (FL (t :: r)); auto.
Qed.

Section Step.
Variables (n : nat) (a b : ty) (k k' l : nat).
Hypothesis (Ha : a_ok a) (Hb : b_ok b).
Hypothesis (L1 : type_size a <= S k) (L2 : type_size a <= S k') (L3 : alternatives b = true -> type_size a <= k') (L4 : mu b <= S l).
Hypothesis IH : forall fn a b k k' l, a_ok a -> b_ok b -> type_size a <= k -> type_size a <= S k' ->
  (alternatives b = true -> type_size a <= k') -> mu b <= l -> quiet k k' l (asgn W n fn a b) any.

Lemma down fn a' b' : member a' a -> b_ok b' -> mu b' < mu b -> quiet k k' l (asgn W n fn a' b') any.
Proof.
  intros M' B' Lb. pose proof (member_size a' a M'). apply IH; auto; try lia. now apply a_ok_member with a.
Qed.

Lemma step_check : quiet k k' l (check_assignable_to (asgn W n) b a) any.
Proof.
  destruct (alternatives b) eqn:E.
  - specialize (L3 eq_refl). apply q_check.
    + intros t Ht.
      assert (Mb : member t b) by (destruct b; try discriminate E; try (destruct Ht; fail); exact Ht).
      assert (Nb : match b with TAllOfValue _ _ => False | _ => True end) by (destruct b; try exact I; destruct Ht).
      assert (At : alternatives t = false).
      { destruct Hb as [Hs _]. apply ty_all_self in Hs. destruct b; try discriminate E; try (destruct Ht; fail); cbn in Hs; rewrite Forall_forall in Hs; auto. }
      apply IH; auto; try lia; [now apply b_ok_member with b|congruence|].
      destruct b; try discriminate E; try (destruct Ht; fail); cbn [mu] in L4; pose proof (list_max_in mu _ _ Ht); lia.
    + intros q v Hq Hv. apply IH; auto; try lia; [now apply b_ok_type_of|rewrite alternatives_type_of; discriminate|].
      pose proof (mu_type_of q v). destruct b; try (destruct Hv; fail). cbn [mu] in L4.
      pose proof (list_max_in (fun v => 3 * value_size v) _ _ Hv) as X. cbn beta in X. lia.
  - destruct b; try discriminate E; now apply q_ret.
Qed.

End Step.

Lemma step_deep n a b k k' l : a_ok a -> b_ok b -> type_size a <= S k -> type_size a <= S k' ->
  (alternatives b = true -> type_size a <= k') -> mu b <= S l ->
  (forall fn a b k k' l, a_ok a -> b_ok b -> type_size a <= k -> type_size a <= S k' ->
    (alternatives b = true -> type_size a <= k') -> mu b <= l -> quiet k k' l (asgn W n fn a b) any) ->
  deep_assignable a = true -> calm k k' l (deep_assignable_to (asgn W n) (instn W n true) a b).
Proof.
  intros Ha Hb L1 L2 L3 L4 IH D. pose proof (step_check n a b k k' l Ha Hb L1 L2 L3 L4 IH) as C.
  pose proof (down n a b k k' l Ha L1 L2 L3 L4 IH) as DN. clear L1 L2 L3 IH.
  assert (FL : forall ts p, Forall (fun t => container t = false) ts -> (forall t, In t ts -> member t a) -> In p ts -> simple p).
  { intros ts t F Hm Ht. rewrite Forall_forall in F. apply simple_of; auto. apply a_ok_member with a; auto. }
  pose proof (proj1 (proj1 Ha)) as Fa. apply ty_all_self in Fa.
  pose proof (proj2 (proj1 Ha)) as Va. apply ty_all_self in Va.
  destruct a as [ | | | |x y i| |x y i| | |x y|s|s|x y| | |p w|p t| |p e x y|p ts v| |p kt vt x y|p ad es|p ts|p vs|p ts|p ts|p t|t];
    try discriminate D; cbn [deep_assignable_to].
  - apply quiet_calm with (Q := any), q_orm; [now apply q_ret|exact C].
  - apply quiet_calm with (Q := any). destruct b; try exact C. apply DN; [reflexivity| |cbn; lia]. apply b_ok_member with (TSens p0 b); cbn; auto.
  - apply quiet_calm with (Q := any). pose proof (q_element b k k' l Hb) as E.
    assert (X : match b with TArray => False | _ => True end -> forall z, array_bounds b = Some z -> quiet k k' l (bind (element_type b) (asgn W n false e)) any).
    { intros N z Ez. eapply q_bind; [exact E|]. intros t. cbn beta. rewrite Ez. destruct b; try contradiction; intros [B1 B2]; now apply DN. }
    destruct b; try exact C; try (now apply q_ret).
    + cbn [array_bounds] in *. destruct v; try exact C. destruct (_ && _)%bool; [|now apply q_ret]. eapply X; auto.
    + cbn [array_bounds] in *. destruct (_ && _)%bool; [|now apply q_ret]. eapply X; auto.
    + cbn [array_bounds] in *. destruct variadic; destruct (_ && _)%bool; try (now apply q_ret); eapply X; auto.
  - assert (TH : forall t, In t (tuple_head ts v) -> In t ts).
    { unfold tuple_head. destruct v; auto. intros t. apply In_firstn. }
    assert (TR : forall t, tuple_rest ts v = Some t -> In t ts).
    { unfold tuple_rest. destruct v; [|discriminate]. intros t. apply nth_error_In. }
    destruct b as [ | | | |x' y' i'| |x' y' i'| | |x' y'|s'|s'|x' y'| | |p' w'|p' t'| |p' e' x' y'|p' ts' b'| |p' kt' vt' x' y'|p' ad' es'|p' ts'|p' vs'|p' ts'|p' ts'|p' t'|t'];
      try (apply quiet_calm with (Q := any); exact C).
    + destruct w'; try (apply quiet_calm with (Q := any); exact C). apply instn_calm. apply Ha.
    + assert (B : b_ok e') by (apply b_ok_member with (TArrSized p' e' x' y'); cbn; auto).
      apply quiet_calm with (Q := any). unfold tuple_assignable_array. cbn zeta. destruct (_ && _)%bool; [|now apply q_ret]. apply q_andm.
      * apply q_all. intros t Ht. apply DN; [exact (TH t Ht)|exact B|cbn; lia].
      * destruct v; [|now apply q_ret]. destruct (tuple_rest ts true) eqn:E; [|apply q_fail]. apply DN; [exact (TR _ eq_refl)|exact B|cbn; lia].
    + apply quiet_calm with (Q := any). unfold tuple_assignable_tuple. cbn zeta. destruct (_ || _)%bool; [now apply q_ret|].
      assert (SH : forall t, In t (tuple_head ts' b') -> In t ts').
      { unfold tuple_head. destruct b'; auto. intros t. apply In_firstn. }
      assert (SRe : forall t, tuple_rest ts' b' = Some t -> In t ts').
      { unfold tuple_rest. destruct b'; [|discriminate]. intros t. apply nth_error_In. }
      apply q_tuple_loop. intros t o Ht Ho.
      assert (It : In t ts) by (destruct Ht; auto). assert (Io : In o ts') by (destruct Ho; auto).
      apply DN; [exact It| |cbn [mu]; pose proof (list_max_in mu ts' o Io); lia].
      apply b_ok_member with (TTuple p' ts' b'); cbn; auto.
  - apply quiet_calm with (Q := any). pose proof (q_key b k k' l Hb) as E1. pose proof (q_value b k k' l Hb) as E2.
    destruct (map_bounds b) as [[bmin bmax]|]; [|exact C]. destruct (_ && _)%bool; [|now apply q_ret].
    apply q_andm; [eapply q_bind; [exact E1|]|eapply q_bind; [exact E2|]]; intros t [B1 B2]; apply DN; auto; cbn; auto.
  - destruct b as [ | | | |x' y' i'| |x' y' i'| | |x' y'|s'|s'|x' y'| | |p' w'|p' t'| |p' e' x' y'|p' ts' b'| |p' kt' vt' x' y'|p' ad' es'|p' ts'|p' vs'|p' ts'|p' ts'|p' t'|t'];
      try (apply quiet_calm with (Q := any); exact C).
    + destruct w'; try (apply quiet_calm with (Q := any); exact C). apply instn_calm. apply Ha.
    + apply quiet_calm with (Q := any). apply q_struct_assignable. intros e o r He (k0 & Ho). apply DN.
      * exists e. auto.
      * apply b_ok_member with (TStruct p' ad' es'); cbn; auto. exists (k0, o, r). auto.
      * cbn [mu]. pose proof (list_max_in (fun e : value * ty * bool => Nat.max (3 * value_size (fst (fst e))) (mu (snd (fst e)))) es' _ Ho) as X. cbn in X. cbn. lia.
  - assert (S : forall t, In t ts -> simple t) by (intros t Ht; apply (FL ts); auto).
    assert (X : quiet k k' l (orm (all_m (fun t => asgn W n true t b) ts) (check_assignable_to (asgn W n) b (TAllOf p ts))) any).
    { apply q_orm; auto. apply q_all. intros t Ht. apply asgn_flat. auto. }
    assert (Y : forall os, quiet k k' l (less_restrictive (asgn W n true) ts os) any).
    { intros os. apply q_less; intros; [apply asgn_flat|apply asgn_simple]; auto. }
    apply quiet_calm with (Q := any). destruct b; try exact X; auto. apply q_bind with (P := any); auto. apply q_new_types.
  - destruct Va.
  - assert (S : forall t, In t ts -> simple t) by (intros t Ht; apply (FL ts); auto).
    apply quiet_calm with (Q := any). destruct ts as [|t r]; [now apply q_ret|]. apply q_orm; auto. apply q_any. intros u Hu. apply asgn_flat. auto.
  - assert (S : forall t, In t ts -> simple t) by (intros t Ht; apply (FL ts); auto).
    apply quiet_calm with (Q := any). destruct ts as [|t r]; [now apply q_ret|]. apply q_orm; auto. apply q_one. intros u Hu. apply asgn_flat. auto.
Qed.

Theorem asgn_quiet n : forall fn a b k k' l, a_ok a -> b_ok b -> type_size a <= k -> type_size a <= S k' ->
  (alternatives b = true -> type_size a <= k') -> mu b <= l -> quiet k k' l (asgn W n fn a b) any.
Proof.
  induction n as [|n IH]; intros fn a b k k' l Ha Hb L1 L2 L3 L4; cbn [asgn]; [apply q_fail|].
  destruct (container a) eqn:Ca.
  - assert (Da : deep_assignable a = true) by now rewrite <- container_deep. rewrite Da.
    assert (E : forall e k k' l, type_size a <= k -> type_size a <= S k' -> (alternatives b = true -> type_size a <= k') -> mu b <= l ->
      quiet k k' l (enter (if e : bool then NE a else NT a) (NT b) (deep_assignable b) (deep_assignable_to (asgn W n) (instn W n true) a b)) any).
    { intros e j j' i M1 M2 M3 M4. rewrite <- container_deep. pose proof (type_size_pos a). pose proof (mu_pos b). apply q_enter; auto.
      - now apply a_in.
      - intros Cb. now apply b_in.
      - intros Cb. apply step_deep; auto; lia.
      - intros Cb. now apply step_not_container. }
    destruct fn.
    + destruct (same_type a b); [now apply q_ret|]. apply (E false); auto.
    + assert (R : forall k k' l, quiet k k' l (with_nil (asgn W n true a b)) any).
      { intros. apply q_with_nil with (type_size a) (type_size a) (mu b). apply IH; auto. }
      destruct a; auto. apply q_with_nil with (type_size (TExact p v)) (type_size (TExact p v)) (mu b). apply (E true); auto.
  - pose proof (asgn_flat (S n) fn a b k k' l (simple_of a Ca Ha)) as F. cbn [asgn] in F. exact F.
Qed.

Theorem asgn_no_hit n fn a b p r s : a_ok a -> b_ok b -> (forall q, p <= q -> ~ PA q) ->
  asgn W n fn a b (start p) = Some (r, s) -> s_hit s = false.
Proof.
  intros Ha Hb Hp E. destruct (asgn_quiet n fn a b (type_size a) (type_size a) (mu b) Ha Hb ltac:(auto) ltac:(auto) ltac:(auto) ltac:(auto) (start p) r s) as (_ & H & _); auto.
  split; cbn; auto.
Qed.

End World.
End Guard.
