(* Generic: idempotence, the generic type of a value, and widening. *)
From Coq Require Import ZArith List Bool Lia.
From Verif Require Import Int64 HMap Data DataSpec DataProofs Arr ArrSpec ArrProofs Types TypesSpec InstProofs GuardProofs SemProofs EqProofs SubProofs Construct Generic GenericSpec AssignProofs Assign.
Import ListNotations.
Open Scope Z_scope.

Section World.
Variable W : world.

(* ---------- Assignable on generic types ---------- *)

Definition above (t : ty) (x : node) : Prop := match x with NT u | NE u => (type_size t < type_size u)%nat | NV _ => True end.
(* the guard has seen larger types only *)
Definition larger_seen (a b : ty) (s : st) : Prop :=
  match s_guard s with
  | None => True
  | Some g => seenInA g = false /\ seenInB g = false /\ Forall (above a) (aSeen g) /\ Forall (above b) (bSeen g)
  end.

Lemma not_hit t l : Forall (above t) l -> recursion_hit l (NT t) = false.
Proof.
  intros H. unfold recursion_hit. apply not_true_iff_false. intros E. apply existsb_exists in E as (x & Hx & E).
  rewrite Forall_forall in H. specialize (H x Hx). destruct x as [u|u|v]; cbn [same_node above] in *; try discriminate.
  apply same_type_eq in E as <-. lia.
Qed.

Lemma gen_assignable_refl a : generic_shape a -> gen_assignable a a = true.
Proof.
  induction 1 as [ | | | | | | | |p s|p t Ha IH|p e Ha IH| |p k v Hk IHk Hv IHv]; cbn [gen_assignable]; try reflexivity; try assumption.
  - apply (veq_refl (VBin s)). constructor.
  - now rewrite IHk, IHv.
Qed.

Lemma set_guard_self s : set_guard s (s_guard s) = s.
Proof. destruct s; reflexivity. Qed.

Lemma same_type_false a b : same_type a b = false -> a <> b.
Proof. intros H ->. assert (X : same_type b b = true) by now apply same_type_eq. congruence. Qed.

Lemma enter_calm (b : bool) a c m s r : larger_seen a c s ->
  (b = true -> forall s1, (forall a' c', (type_size a' < type_size a)%nat -> (type_size c' < type_size c)%nat -> larger_seen a' c' s1) -> m s1 = Some (r, s1)) ->
  (b = false -> m s = Some (r, s)) -> enter (NT a) (NT c) b m s = Some (r, s).
Proof.
  intros L H Hb. unfold enter. destruct b; [|auto]. unfold larger_seen in L. destruct s as [g p h]. cbn [s_guard] in *. destruct g as [[la lb sa sb]|].
  - cbn [aSeen bSeen seenInA seenInB] in L. destruct L as (-> & -> & La & Lb). unfold guard_append. cbn [aSeen bSeen seenInA seenInB orb].
    rewrite !not_hit by assumption. unfold guard_hit. cbn [seenInA seenInB andb]. unfold with_guard, set_guard. cbn [s_guard s_next s_hit].
    rewrite H; [reflexivity|reflexivity|]. intros a' c' A C. unfold larger_seen. cbn [s_guard aSeen bSeen seenInA seenInB]. split; [auto|]. split; [auto|].
    split; apply Forall_app; (split; [|constructor; [cbn; assumption|constructor]]).
    + eapply Forall_impl; [|exact La]. intros [u|u|v]; cbn; lia.
    + eapply Forall_impl; [|exact Lb]. intros [u|u|v]; cbn; lia.
  - unfold with_guard, set_guard. cbn [s_guard s_next s_hit]. rewrite H; [reflexivity|reflexivity|]. intros a' c' A C. unfold larger_seen. cbn.
    split; [auto|]. split; [auto|]. split; constructor; auto.
Qed.

Lemma smaller_seen a b a' b' s : (type_size a' <= type_size a)%nat -> (type_size b' <= type_size b)%nat -> larger_seen a b s -> larger_seen a' b' s.
Proof.
  unfold larger_seen. destruct (s_guard s) as [g|]; [|auto]. intros A B (C & D & E & F). split; [auto|]. split; [auto|].
  split; (eapply Forall_impl; [|eassumption]); intros [u|u|v]; cbn; lia.
Qed.

Theorem asgn_generic n : forall (fn : bool) a b s, generic_shape a -> generic_shape b -> (2 * type_size a + (if fn then 0 else 1) <= n)%nat ->
  (fn = true -> larger_seen a b s) -> asgn W n fn a b s = Some (gen_assignable a b, s).
Proof.
  induction n as [|n IH]; intros fn a b s Ha Hb Hn L. { pose proof (type_size_pos a). destruct fn; lia. }
  assert (NIL : forall (m : M bool) r, m {| s_guard := None; s_next := s_next s; s_hit := s_hit s |} = Some (r, {| s_guard := None; s_next := s_next s; s_hit := s_hit s |}) -> with_nil m s = Some (r, s)).
  { intros m r E. unfold with_nil, with_guard, set_guard. rewrite E. cbn. now destruct s. }
  destruct fn.
  - specialize (L eq_refl). cbn [asgn]. destruct (same_type a b) eqn:E.
    { apply same_type_eq in E as ->. now rewrite gen_assignable_refl. }
    apply same_type_false in E.
    assert (REC : forall a' b' s1, generic_shape a' -> generic_shape b' -> (type_size a' < type_size a)%nat -> (type_size b' < type_size b)%nat ->
       (forall a' c', (type_size a' < type_size a)%nat -> (type_size c' < type_size b)%nat -> larger_seen a' c' s1) -> asgn W n true a' b' s1 = Some (gen_assignable a' b', s1)).
    { intros a' b' s1 G G' A B X. apply IH; auto; try lia. }
    destruct Ha as [ | | | | | | | |p s1|p t Ht|p e He| |p k v Hk Hv]; cbn [deep_assignable];
      try (apply NIL; destruct Hb; cbn; try reflexivity; try congruence).
    + destruct (bytes_eqb s1 s0); reflexivity.
    + apply enter_calm; [exact L| |].
      * intros D s1 X. destruct Hb; cbn [deep_assignable_to check_assignable_to gen_assignable]; try reflexivity. apply REC; auto; cbn; lia.
      * intros D. destruct Hb; cbn [deep_assignable_to check_assignable_to gen_assignable]; try reflexivity; discriminate D.
    + apply enter_calm; [exact L| |].
      * intros D s1 X. destruct Hb; cbn [deep_assignable_to check_assignable_to gen_assignable array_bounds]; try reflexivity. cbn [element_type bind ret].
        rewrite Z.leb_refl, Z.leb_refl. cbn [andb]. unfold bind, ret.
        rewrite (IH false); auto; try discriminate. cbn [type_size] in Hn. lia.
      * intros D. destruct Hb; cbn [deep_assignable_to check_assignable_to gen_assignable]; try reflexivity; discriminate D.
    + apply enter_calm; [exact L| |].
      * intros D s1 X. destruct Hb as [ | | | | | | | |p0 s0|p0 t0 Ht0|p0 e0 He0| |p0 k0 v0 Hk0 Hv0]; cbn [deep_assignable_to check_assignable_to gen_assignable map_bounds]; try reflexivity; cbn [key_type value_type bind ret];
          rewrite Z.leb_refl, Z.leb_refl; cbn [andb]; unfold andm, bind, ret.
        -- discriminate D.
        -- rewrite (REC k k0); auto; try (cbn; lia). destruct (gen_assignable k k0); [|reflexivity]. cbn [andb]. rewrite (REC v v0); auto; cbn; lia.
      * intros D. destruct Hb; cbn [deep_assignable_to check_assignable_to gen_assignable]; try reflexivity; try discriminate D.
        cbn [map_bounds]. rewrite Z.leb_refl, Z.leb_refl. cbn [andb key_type value_type]. unfold andm, bind, ret.
        assert (LK : larger_seen k TAny s) by (eapply smaller_seen; [| |exact L]; cbn; lia).
        assert (LV : larger_seen v TAny s) by (eapply smaller_seen; [| |exact L]; cbn; lia).
        cbn [type_size] in Hn. rewrite (IH true k TAny); try constructor; auto; try lia.
        destruct (gen_assignable k TAny); [|reflexivity]. cbn [andb]. apply (IH true v TAny); try constructor; auto; lia.
  - assert (D : deep_assignable a = true -> with_nil (asgn W n true a b) s = Some (gen_assignable a b, s)).
    { intros _. apply NIL. apply IH; auto; [lia|]. intros _. exact Logic.I. }
    cbn [asgn]. destruct Ha as [ | | | | | | | |p s1|p t Ht|p e He| |p k v Hk Hv]; cbn [deep_assignable]; try (apply D; reflexivity);
      try (apply NIL; destruct Hb; cbn; try reflexivity).
    destruct (bytes_eqb s1 s0); reflexivity.
Qed.

(* ---------- the generic type of a value ---------- *)

Definition gives {A} (m : M A) (Q : A -> Prop) : Prop :=
  forall s, exists x s', m s = Some (x, s') /\ s_guard s' = s_guard s /\ s_hit s' = s_hit s /\ Q x.
Lemma gives_ret {A} (x : A) (Q : A -> Prop) : Q x -> gives (ret x) Q.
Proof. intros H s. exists x, s. auto. Qed.
Lemma gives_fresh {A} (f : ptr -> A) (Q : A -> Prop) : (forall p, Q (f p)) -> gives (fresh f) Q.
Proof. intros H s. eexists _, _. split; [reflexivity|]. auto. Qed.
Lemma gives_bind {A B} (m : M A) (f : A -> M B) P Q : gives m P -> (forall x, P x -> gives (f x) Q) -> gives (bind m f) Q.
Proof.
  intros H K s. destruct (H s) as (x & s1 & E & G & H1 & Px). destruct (K x Px s1) as (y & s2 & E' & G' & H' & Qy).
  exists y, s2. unfold bind. rewrite E. split; [exact E'|]. split; [congruence|]. split; [congruence|exact Qy].
Qed.
Lemma gives_imp {A} (m : M A) (P Q : A -> Prop) : gives m P -> (forall x, P x -> Q x) -> gives m Q.
Proof. intros H K s. destruct (H s) as (x & s1 & E & G & H1 & Px). exists x, s1. auto. Qed.

Lemma readdr_shape t : generic_shape (readdr 0%nat t) -> generic_shape t.
Proof.
  induction t as [ | | | |x y i| |x y i| | |x y|s|s|x y| | |p v|p t IHt| |p e x y IHe|p ts b IHts| |p k v x y IHk IHv|p a es IHes|p ts IHts|p vs|p ts IHts|p ts IHts|p t IHt| |t IHt] using ty_ind'; cbn [readdr]; intros H; inversion H; subst; constructor; auto.
Qed.
Lemma readdr_size t : type_size (readdr 0%nat t) = type_size t.
Proof.
  assert (L : forall ts, Forall (fun t => type_size (readdr 0%nat t) = type_size t) ts -> list_sum (map type_size (map (readdr 0%nat) ts)) = list_sum (map type_size ts)).
  { induction 1 as [|u l E F IHF]; [reflexivity|]. cbn [map list_sum fold_right] in *. unfold list_sum in *. cbn [fold_right]. lia. }
  induction t as [ | | | |x y i| |x y i| | |x y|s|s|x y| | |p v|p t IHt| |p e x y IHe|p ts b IHts| |p k v x y IHk IHv|p a es IHes|p ts IHts|p vs|p ts IHts|p ts IHts|p t IHt| |t IHt] using ty_ind'; cbn [readdr type_size]; auto.
  do 2 f_equal. rewrite map_map. cbn [fst snd]. f_equal. apply map_ext_in. intros e He. rewrite Forall_forall in IHes. now rewrite IHes.
Qed.
Lemma readdr_idem t : readdr 0%nat (readdr 0%nat t) = readdr 0%nat t.
Proof.
  induction t as [ | | | |x y i| |x y i| | |x y|s|s|x y| | |p v|p t IHt| |p e x y IHe|p ts b IHts| |p k v x y IHk IHv|p a es IHes|p ts IHts|p vs|p ts IHts|p ts IHts|p t IHt| |t IHt] using ty_ind'; cbn [readdr]; try congruence; try reflexivity; f_equal;
    try (rewrite map_map; apply map_ext_in; rewrite ?Forall_forall in *; intros; cbn [fst snd]; rewrite ?IHes by assumption; auto).
Qed.
Lemma readdr_any t : is_any (readdr 0%nat t) = is_any t.
Proof. destruct t as [ | | | | | | | | | | | | | | | | | | | | | | | | | | | |[|]]; reflexivity. Qed.

Lemma common_loop {A} n (gen : A -> M (option ty)) (F : A -> ty) l q : generic_shape q -> (2 * type_size q + 1 <= n)%nat ->
  Forall (fun x => generic_shape (F x) /\ gives (gen x) (fun o => exists g, o = Some g /\ readdr 0%nat g = F x)) l ->
  gives (common_generic W n gen (Some q) l)
    (fun o => exists g, o = Some g /\ readdr 0%nat g = if forallb (gen_assignable (readdr 0%nat q)) (map F l) then readdr 0%nat q else TAny).
Proof.
  intros Hq Hn H. induction H as [|x l [Hx G] Hl IH]; cbn [common_generic map forallb]; [apply gives_ret; eauto|].
  eapply gives_bind; [exact G|]. intros o (g & -> & Eg). intros s. unfold bind. rewrite asgn_generic; auto; try discriminate.
  - rewrite <- Eg, gen_assignable_readdr. destruct (gen_assignable q g); [apply IH|]. exact (gives_ret (Some TAny) _ (ex_intro _ TAny (conj eq_refl eq_refl)) s).
  - apply readdr_shape. now rewrite Eg.
Qed.

Lemma common_gives {A} n (gen : A -> M (option ty)) (F : A -> ty) l : Forall (fun x => (2 * type_size (F x) + 1 <= n)%nat) l ->
  Forall (fun x => generic_shape (F x) /\ gives (gen x) (fun o => exists g, o = Some g /\ readdr 0%nat g = F x)) l ->
  gives (common_generic W n gen None l) (fun o => option_map (readdr 0%nat) o = common gen_assignable TAny (map F l)).
Proof.
  intros N H. destruct H as [|x l [Hx G] Hl]; cbn [common_generic]; [apply gives_ret; reflexivity|].
  eapply gives_bind; [exact G|]. intros o (g & -> & Eg). inversion N; subst.
  eapply gives_imp; [apply (common_loop n gen F l g)|]; auto.
  - now apply readdr_shape; rewrite Eg.
  - now rewrite <- readdr_size, Eg.
  - intros o (g' & -> & E). rewrite Eg in E. cbn [option_map common map]. rewrite E. destruct (forallb _ _); reflexivity.
Qed.

Lemma common_readdr_or o c : option_map (readdr 0%nat) o = c -> readdr 0%nat (or_any o) = or_any c.
Proof. intros <-. destruct o; reflexivity. Qed.

Theorem generic_value v : forall n m q, (2 * value_size v + 1 <= n)%nat -> (value_size v <= m)%nat ->
  gives (generic W n m (type_of q v)) (fun o => exists g, o = Some g /\ readdr 0%nat g = gen_value 0%nat v).
Proof.
  induction v as [ |x|x|x|x|x|s1 n1 z1|x|x IHx|l IHl|mm IHm] using value_ind'; intros n m q Hn Hm;
    (destruct m as [|m]; [cbn in Hm; lia|]); cbn [type_of generic gen_value]; try (apply gives_ret; eexists; split; reflexivity).
  - apply gives_ret. eexists. split; [reflexivity|]. cbn [readdr]. f_equal. symmetry. apply gen_value_readdr.
  - cbn [value_size] in Hn, Hm.
    assert (X : gives (bind (element_type (TExact q (VArr l))) (generic W n m)) (fun o => option_map (readdr 0%nat) o = common gen_assignable TAny (map (gen_value 0%nat) l) \/ (l = [] /\ o = Some TAny))).
    { destruct l as [|x [|y r]]; cbn [element_type].
      - eapply gives_bind; [apply (gives_ret TAny (fun t => t = TAny)); reflexivity|]. intros t ->. destruct m; [lia|]. cbn. apply gives_ret. auto.
      - inversion IHl; subst. eapply gives_bind; [apply (gives_fresh _ (fun t => exists p, t = type_of p x)); eauto|]. intros t (p & ->).
        cbn [map list_sum fold_right] in *. eapply gives_imp; [apply H1; lia|]. intros o (g & -> & E). left. cbn. now rewrite E.
      - eapply gives_bind; [apply (gives_fresh _ (fun t => exists p, t = TAllOfValue p (x :: y :: r))); eauto|]. intros t (p & ->). destruct m as [|m]; [lia|]. cbn [generic].
        eapply gives_imp; [apply (common_gives n _ (gen_value 0%nat))|intros o E; left; exact E].
        + apply Forall_forall. intros z Hz. apply (list_sum_in' value_size) in Hz. pose proof (gen_value_size 0%nat z). lia.
        + rewrite Forall_forall in *. intros z Hz. split; [apply gen_value_shape|]. eapply gives_bind; [apply (gives_fresh _ (fun t => exists p, t = type_of p z)); eauto|]. intros t (p' & ->).
          pose proof (list_sum_in' value_size _ _ Hz). apply IHl; auto; lia. }
    eapply gives_bind; [exact X|]. intros o Ho. apply gives_fresh. intros p. eexists. split; [reflexivity|]. cbn [readdr]. f_equal.
    destruct Ho as [Ho|[-> ->]]; [now apply common_readdr_or|reflexivity].
  - cbn [value_size] in Hn, Hm.
    assert (X : forall (f : value * value -> value), (f = fst \/ f = snd) -> gives (bind (match mm with [] => ret TAny | _ => fresh (fun p => TAllOfValue p (map f mm)) end) (generic W n m))
       (fun o => readdr 0%nat (or_any o) = or_any (common gen_assignable TAny (map (fun e => gen_value 0%nat (f e)) mm)))).
    { intros f Hf. destruct mm as [|e r].
      - eapply gives_bind; [apply (gives_ret TAny (fun t => t = TAny)); reflexivity|]. intros t ->. destruct m; [lia|]. cbn. apply gives_ret. auto.
      - eapply gives_bind; [apply (gives_fresh _ (fun t => exists p, t = TAllOfValue p (map f (e :: r)))); eauto|]. intros t (p & ->). destruct m as [|m]; [lia|]. cbn [generic].
        assert (SZ : forall z, In z (map f (e :: r)) -> (value_size z <= list_sum (map (fun e => value_size (fst e) + value_size (snd e)) (e :: r)))%nat).
        { intros z Hz. apply in_map_iff in Hz as (e0 & <- & He). apply (list_sum_in' (fun e => value_size (fst e) + value_size (snd e))%nat) in He. destruct Hf as [-> | ->]; lia. }
        eapply gives_imp; [apply (common_gives n _ (gen_value 0%nat))|intros o E; rewrite (common_readdr_or _ _ E), map_map; reflexivity].
        + apply Forall_forall. intros z Hz. apply SZ in Hz. pose proof (gen_value_size 0%nat z). lia.
        + rewrite Forall_forall in *. intros z Hz. split; [apply gen_value_shape|]. eapply gives_bind; [apply (gives_fresh _ (fun t => exists p, t = type_of p z)); eauto|]. intros t (p' & ->).
          pose proof (SZ z Hz). apply in_map_iff in Hz as (e0 & <- & He). destruct (IHm e0 He) as [I1 I2]. destruct Hf as [-> | ->]; [apply I1|apply I2]; lia. }
    assert (KT : key_type (TExact q (VMap mm)) = match mm with [] => ret TAny | _ => fresh (fun p => TAllOfValue p (map fst mm)) end) by reflexivity.
    assert (VT : value_type (TExact q (VMap mm)) = match mm with [] => ret TAny | _ => fresh (fun p => TAllOfValue p (map snd mm)) end) by reflexivity.
    rewrite KT, VT. eapply gives_bind; [apply (X fst); auto|]. intros k Hk. eapply gives_bind; [apply (X snd); auto|]. intros v Hv. cbv beta in Hk, Hv.
    rewrite <- Hk, <- Hv, !readdr_any. destruct (is_any (or_any k) && is_any (or_any v)); [apply gives_ret; eexists; split; reflexivity|].
    apply gives_fresh. intros p. eexists. split; reflexivity.
Qed.

(* ---------- Generic of a generic type ---------- *)

(* Generic returns the type itself *)
Definition fixed (t : ty) : bool :=
  match t with
  | TExact _ (VNil | VBin _ | VSens _) => true
  | TExact _ _ | TCiStr _ | TPattern _ | TTuple _ _ _ | TStruct _ _ _ | TAllOf _ _ | TAllOfValue _ _ => false
  | _ => true
  end.
Lemma generic_fixed n m t : fixed t = true -> generic W n (S m) t = ret (Some t).
Proof.
  destruct t as [ | | | |x y i| |x y i| | |x y|s|s|x y| | |p v|p t| |p e x y|p ts b| |p k v x y|p a es|p ts|p vs|p ts|p ts|p t|[t|]]; cbn [fixed generic]; intros H; try discriminate; try reflexivity.
  destruct v; try discriminate; reflexivity.
Qed.

(* whatever the state *)
Definition always {A} (m : M A) (Q : A -> Prop) : Prop := forall s x s', m s = Some (x, s') -> Q x.
Lemma always_ret {A} (x : A) (Q : A -> Prop) : Q x -> always (ret x) Q.
Proof. intros H s y s' E. injection E as <- <-. assumption. Qed.
Lemma always_fresh {A} (f : ptr -> A) (Q : A -> Prop) : (forall p, Q (f p)) -> always (fresh f) Q.
Proof. intros H s y s' E. injection E as <- <-. apply H. Qed.
Lemma always_bind {A B} (m : M A) (f : A -> M B) P Q : always m P -> (forall x, P x -> always (f x) Q) -> always (bind m f) Q.
Proof. intros H K s y s' E. unfold bind in E. destruct (m s) as [[x s1]|] eqn:Em; [|discriminate]. exact (K x (H _ _ _ Em) _ _ _ E). Qed.

Lemma new_array_fixed p e g : new_array_type p e 0 max_int64 = Some g -> fixed g = true.
Proof.
  unfold new_array_type. change (0 <? 0) with false. change (max_int64 <? 0) with false. change (max_int64 <? 0) with false. cbv iota zeta.
  change (0 =? 0) with true. change (max_int64 =? max_int64) with true. change (0 =? 1) with false. cbn [andb]. destruct (is_any _); intros E; injection E as <-; reflexivity.
Qed.
Lemma new_map_fixed p k v : fixed (new_map_type p k v 0 max_int64) = true.
Proof.
  unfold new_map_type. change (0 <? 0) with false. change (max_int64 <? 0) with false. change (max_int64 <? 0) with false. cbv iota zeta.
  destruct (_ && _); reflexivity.
Qed.

Definition is_fixed (o : option ty) : Prop := forall g, o = Some g -> fixed g = true.
Lemma common_fixed {A} n (gen : A -> M (option ty)) l : (forall x, always (gen x) is_fixed) -> forall prev, is_fixed prev -> always (common_generic W n gen prev l) is_fixed.
Proof.
  intros H. induction l as [|x l IH]; intros prev Hp; cbn [common_generic]; [now apply always_ret|].
  apply always_bind with (P := is_fixed); [apply H|]. intros rt Hr. destruct prev as [q|]; [|now apply IH].
  destruct rt as [u|]; [|intros s y s' E; discriminate E]. apply always_bind with (P := fun _ => True); [intros ? ? ? ?; exact Logic.I|].
  intros [] _; [now apply IH|]. apply always_ret. intros g E. injection E as <-. reflexivity.
Qed.

Lemma generic_is_fixed n m : forall t, always (generic W n m t) is_fixed.
Proof.
  assert (R : forall g, fixed g = true -> always (ret (Some g)) is_fixed).
  { intros g H. apply always_ret. intros g' E. injection E as <-. assumption. }
  assert (T : forall {A} (x : M A), always x (fun _ => True)) by (intros A x ? ? ? ?; exact Logic.I).
  induction m as [|m IH]; intros t; [intros s y s' E; discriminate E|].
  destruct t as [ | | | |x y i| |x y i| | |x y|s|s|x y| | |p v|p t| |p e x y|p ts b| |p k v x y|p a es|p ts|p vs|p ts|p ts|p t|[t|]]; cbn [generic]; try (apply R; reflexivity).
  - destruct v; cbn [generic]; try (apply R; reflexivity).
    + eapply always_bind; [apply T|]. intros e _. apply always_fresh. intros q g E. injection E as <-. reflexivity.
    + eapply always_bind; [apply T|]. intros k _. eapply always_bind; [apply T|]. intros v _.
      destruct (_ && _); [apply R; reflexivity|]. apply always_fresh. intros q g E. injection E as <-. reflexivity.
  - eapply always_bind; [apply T|]. intros e _. apply always_fresh. intros q g E. now apply new_array_fixed in E.
  - eapply always_bind; [apply T|]. intros k _. eapply always_bind; [apply T|]. intros v _.
    apply always_fresh. intros q g E. injection E as <-. apply new_map_fixed.
  - apply common_fixed; [exact IH|]. discriminate.
  - apply common_fixed; [|discriminate]. intros v. eapply always_bind; [apply T|]. intros t _. apply IH.
Qed.

Theorem generic_idempotent n m t s g s' : generic W n m t s = Some (Some g, s') -> forall n' m' s2, generic W n' (S m') g s2 = Some (Some g, s2).
Proof. intros E n' m' s2. rewrite generic_fixed; [reflexivity|]. exact (generic_is_fixed n m t s _ s' E g eq_refl). Qed.

(* ---------- Generic widens ---------- *)

Lemma sub_any t : sub W TAny t.
Proof. intros v _ _ _. reflexivity. Qed.

Lemma sub_trans a b c : sub W a b -> sub W b c -> sub W a c.
Proof. intros H K v Wv Fv E. auto. Qed.

Lemma wide_arr_exact p e q l : wf (VArr l) -> (forall z, In z l -> sub W e (type_of 0%nat z)) -> sub W (TArrSized p e 0 max_int64) (TExact q (VArr l)).
Proof.
  intros Wl H v Wv Fv E. assert (Fl : fits (VArr l)) by (apply fits_veq with v; auto).
  refine (sub_arr_exact W p e 0 max_int64 q l Wl _ _ H v Wv Fv E); unfold length_z; apply fits_arr in Fl as [Fl _]; lia.
Qed.
Lemma wide_arr_tuple p e q ts b : (b = true -> ts <> []) -> (forall t, In t ts -> sub W e t) -> sub W (TArrSized p e 0 max_int64) (TTuple q ts b).
Proof.
  intros Hb H v Wv Fv E. destruct v as [ | | | | | | | | |l| ]; try discriminate E. rewrite inst_tuple' in E.
  rewrite inst_arr_sized. apply data_arr_inv in Wv. apply fits_arr in Fv as [Fl Fv]. rewrite Forall_forall in *.
  apply andb_true_iff. split; [apply size_in_iff; unfold length_z in *; lia|].
  apply forallb_forall. intros z Hz. destruct (tuple_elems W _ _ _ E Hb z Hz) as (t & Ht & It). apply (H t Ht); auto.
Qed.
Lemma wide_map_exact p k v q m : wf (VMap m) ->
  (forall z, In z (map fst m) -> sub W k (type_of 0%nat z)) -> (forall z, In z (map snd m) -> sub W v (type_of 0%nat z)) ->
  sub W (TMapSized p k v 0 max_int64) (TExact q (VMap m)).
Proof.
  intros Wm Hk Hv w Ww Fw E. assert (Fm : fits (VMap m)) by (apply fits_veq with w; auto).
  refine (sub_map_exact W p k v 0 max_int64 q m Wm _ _ Hk Hv w Ww Fw E); unfold length_z; apply fits_map in Fm as [Fm _]; lia.
Qed.
Lemma wide_map_struct p k v q es :
  Forall (fun e => wf (fst (fst e))) es ->
  ForallOrdPairs (fun e e' : value * ty * bool => veq (fst (fst e)) (fst (fst e')) = false) es ->
  (forall e, In e es -> sub W k (TExact 0%nat (fst (fst e)))) -> (forall e, In e es -> sub W v (snd (fst e))) ->
  sub W (TMapSized p k v 0 max_int64) (TStruct q false es).
Proof.
  intros We Hes Hk Hv w Ww Fw E. destruct w as [ | | | | | | | | | |m]; try discriminate E.
  rewrite inst_struct' in E. rewrite inst_map_sized. apply fits_map in Fw as [F Fw].
  apply andb_true_iff. split; [apply size_in_iff; unfold length_z in *; lia|].
  apply struct_inst_facts in E as [E1 [E2|E2]]; auto; [discriminate|]. rewrite Forall_forall in *.
  apply forallb_forall. intros [z1 z2] Hz. destruct (E2 z1 z2 Hz) as (e & He & Ek).
  destruct (wf_map_entry _ _ _ Ww Hz), (Fw _ Hz). cbn [fst snd] in *. specialize (E1 e He).
  rewrite (assoc_unique m (fst (fst e)) z1 z2) in E1; auto.
  apply andb_true_iff. split; [apply (Hk e)|apply (Hv e)]; auto.
Qed.
Lemma sub_array p e x y t : sub W (TArrSized p e x y) t -> sub W TArray t.
Proof. intros H v Wv Fv E. specialize (H v Wv Fv E). destruct v; try discriminate H. reflexivity. Qed.
Lemma sub_map p k e x y t : sub W (TMapSized p k e x y) t -> sub W TMap t.
Proof. intros H v Wv Fv E. specialize (H v Wv Fv E). destruct v; try discriminate H. reflexivity. Qed.

Variable L : allowed.
Hypothesis closed : open_source L = false.

Definition usable (g : ty) : Prop := target_ok L g /\ source_ok L g /\ no_all_of g.

Lemma usable_any : usable TAny.
Proof. repeat split; exact Logic.I. Qed.
Lemma usable_shape t : type_ok t -> generic_shape t -> usable t.
Proof.
  intros T H. assert (ty_all (target_node L) t /\ no_all_of t).
  { clear T. induction H; cbn [ty_all no_all_of target_node]; try tauto.
    }
  destruct H0. repeat split; auto. now apply generic_source.
Qed.
Lemma usable_arr p e x y : usable e -> usable (TArrSized p e x y).
Proof. intros ((T1 & T2) & (S1 & S2) & N). repeat split; cbn; auto. Qed.
Lemma usable_map p k e x y : usable k -> usable e -> usable (TMapSized p k e x y).
Proof. intros ((T1 & T2) & (S1 & S2) & N) ((T1' & T2') & (S1' & S2') & N'). repeat split; cbn; auto. Qed.

(* what Generic returns for t *)
Definition widens (t : ty) (o : option ty) : Prop := exists g, o = Some g /\ usable g /\ good W g t.

Lemma type_of_generic_ok p v : wf v -> generic_ok L (type_of p v).
Proof.
  intros Wv. destruct v; cbn [type_of generic_ok]; auto; try (repeat split; exact Logic.I).
  assert (U : usable (TSens p (gen_value p v))).
  { apply usable_shape; [exact (type_of_type_ok p (VSens v) Wv)|]. constructor. apply gen_value_shape. }
  destruct U as (U1 & _ & U2). auto.
Qed.

Lemma widens_common {A} n (gen : A -> M (option ty)) (F : A -> ty) l : (forall x, mono (gen x)) ->
  (forall x, In x l -> yields (gen x) (fun o => exists g, o = Some g /\ usable g /\ sub W g (F x))) ->
  forall q, usable q -> yields (common_generic W n gen (Some q) l) (fun o => exists g, o = Some g /\ usable g /\ sub W g q /\ forall x, In x l -> sub W g (F x)).
Proof.
  intros HM H q Uq. assert (MC : forall l q, mono (common_generic W n gen q l)).
  { clear -HM. induction l as [|x l IH]; intros q; cbn [common_generic]; [apply mono_ret|]. apply mono_bind; [apply HM|]. intros rt.
    destruct q as [q|]; [|apply IH]. destruct rt as [u|]; [|apply mono_fail]. apply mono_bind; [apply asgn_mono|]. intros []; [apply IH|apply mono_ret]. }
  induction l as [|x l IH]; cbn [common_generic].
  - apply yields_ret. exists q. split; [auto|]. split; [auto|]. split; [apply sub_refl|]. intros x [].
  - eapply yields_bind; [apply H; now left| |].
    + intros [u|]; [|apply mono_fail]. apply mono_bind; [apply asgn_mono|]. intros []; [apply MC|apply mono_ret].
    + intros o (u & -> & Uu & Su). eapply yields_bind; [apply (asgn_sound W L n false q u (proj1 Uq) (proj1 (proj2 Uu)))| |].
      * intros []; [apply MC|apply mono_ret].
      * intros [] G.
        -- eapply yields_imp; [apply IH; intros; apply H; now right|]. intros o (g & -> & Ug & Sq & Sl). exists g. split; [auto|]. split; [auto|]. split; [auto|].
           intros y [<-|Hy]; [|auto]. apply sub_trans with q; [assumption|]. apply sub_trans with u; [|assumption]. exact (proj1 (G eq_refl)).
        -- apply yields_ret. exists TAny. split; [auto|]. split; [apply usable_any|]. split; intros; apply sub_any.
Qed.
Lemma widens_common_all {A} n (gen : A -> M (option ty)) (F : A -> ty) l : l <> [] -> (forall x, mono (gen x)) ->
  (forall x, In x l -> yields (gen x) (fun o => exists g, o = Some g /\ usable g /\ sub W g (F x))) ->
  yields (common_generic W n gen None l) (fun o => exists g, o = Some g /\ usable g /\ forall x, In x l -> sub W g (F x)).
Proof.
  intros Nl HM H. destruct l as [|x l]; [congruence|]. cbn [common_generic]. eapply yields_bind; [apply H; now left| |].
  - clear -HM. induction l as [|y l IH]; intros q; cbn [common_generic]; [apply mono_ret|]. apply mono_bind; [apply HM|]. intros rt.
    destruct q as [q|]; [|apply IH]. destruct rt as [u|]; [|apply mono_fail]. apply mono_bind; [apply asgn_mono|]. intros []; [apply IH|apply mono_ret].
  - intros o (u & -> & Uu & Su). eapply yields_imp; [apply (widens_common n gen F l HM); auto; intros; apply H; now right|].
    intros o (g & -> & Ug & Sq & Sl). exists g. split; [auto|]. split; [auto|]. intros y [<-|Hy]; [|auto]. now apply sub_trans with u.
Qed.

Lemma generic_mono n m : forall t, mono (generic W n m t).
Proof.
  assert (C : forall {A} (gen : A -> M (option ty)) l q, (forall x, mono (gen x)) -> mono (common_generic W n gen q l)).
  { intros A gen l. induction l as [|x l IH]; intros q HM; cbn [common_generic]; [apply mono_ret|]. apply mono_bind; [apply HM|]. intros rt.
    destruct q as [q|]; [|now apply IH]. destruct rt as [u|]; [|apply mono_fail]. apply mono_bind; [apply asgn_mono|]. intros []; [now apply IH|apply mono_ret]. }
  induction m as [|m IH]; intros t; [apply mono_fail|].
  destruct t as [ | | | |x y i| |x y i| | |x y|s|s|x y| | |p v|p t| |p e x y|p ts b| |p k v x y|p a es|p ts|p vs|p ts|p ts|p t|[t|]]; cbn [generic]; try apply mono_ret.
  - destruct v; cbn [generic]; try apply mono_ret.
    + apply mono_bind; [apply mono_bind; [apply mono_element_type|apply IH]|]. intros e. apply mono_fresh.
    + apply mono_bind; [apply mono_bind; [apply mono_key_type|apply IH]|]. intros k. apply mono_bind; [apply mono_bind; [apply mono_value_type|apply IH]|]. intros v.
      destruct (_ && _); [apply mono_ret|apply mono_fresh].
  - apply mono_bind; [apply mono_bind; [apply mono_element_type|apply IH]|]. intros e. apply mono_fresh.
  - apply mono_bind; [apply mono_bind; [apply mono_key_type|apply IH]|]. intros k. apply mono_bind; [apply mono_bind; [apply mono_value_type|apply IH]|]. intros v. apply mono_fresh.
  - apply C, IH.
  - apply C. intros v. apply mono_bind; [apply mono_fresh|apply IH].
Qed.

Lemma yields_all {A B} (m : M A) (Q : B -> A -> Prop) : (forall b, yields m (Q b)) -> yields m (fun x => forall b, Q b x).
Proof. intros H s x s' E N b. exact (H b s x s' E N). Qed.
Lemma yields_and {A} (m : M A) (P Q : A -> Prop) : yields m P -> yields m Q -> yields m (fun x => P x /\ Q x).
Proof. intros H K s x s' E N. split; [exact (H s x s' E N)|exact (K s x s' E N)]. Qed.

Lemma member_generic_ok ts : fold_right and True (map (generic_ok L) ts) -> forall t, In t ts -> generic_ok L t.
Proof. intros H. apply fold_and in H. now rewrite Forall_forall in H. Qed.

Lemma element_generic_ok t : source_ok L t -> generic_ok L t -> (match t with TArrSized _ _ _ _ => False | _ => True end) -> yields (element_type t) (generic_ok L).
Proof.
  intros St H X. assert (A : generic_ok L TAny) by (repeat split; exact Logic.I).
  destruct t as [ | | | |x y i| |x y i| | |x y|s|s|x y| | |p v|p t| |p e x y|p ts b| |p k v x y|p a es|p ts|p vs|p ts|p ts|p t|[t|]]; cbn [element_type]; try (apply yields_ret; exact A); try contradiction.
  - destruct v; try (apply yields_ret; exact A). assert (Wl : wf (VArr l)) by exact (proj1 (proj1 St)). apply data_arr_inv in Wl.
    destruct l as [|x [|y r]]; [apply yields_ret; exact A| |]; apply yields_fresh; intros q; [|exact Logic.I]. apply type_of_generic_ok. now inversion Wl.
  - cbn [generic_ok] in H. pose proof (member_generic_ok _ H) as M. destruct ts as [|x [|y r]]; [apply yields_ret; exact A| |].
    + apply yields_ret. apply M. now left.
    + remember (x :: y :: r) as ts. clear Heqts. destruct (unique ty type_eq thash ts) as [us|] eqn:U; [|apply yields_fail].
      destruct (unique_covers _ _ _ _ U) as [U1 _].
      assert (MU : forall t, In t us -> generic_ok L t) by auto. destruct us as [|u1 [|u2 us]].
      * apply yields_fresh. intros q. exact Logic.I.
      * apply yields_ret, MU. now left.
      * apply yields_fresh. intros q. change (fold_right and True (map (generic_ok L) (u1 :: u2 :: us))). apply fold_and, Forall_forall. exact MU.
Qed.
Lemma key_generic_ok t : source_ok L t -> generic_ok L t -> (match t with TMapSized _ _ _ _ _ => False | _ => True end) -> yields (key_type t) (generic_ok L).
Proof.
  intros St H X. assert (A : generic_ok L TAny) by (repeat split; exact Logic.I).
  destruct t as [ | | | |x y i| |x y i| | |x y|s|s|x y| | |p v|p t| |p e x y|p ts b| |p k v x y|p a es|p ts|p vs|p ts|p ts|p t|[t|]]; cbn [key_type]; try (apply yields_ret; exact A); try contradiction.
  - destruct v as [ |?|?|?|?|?|? ? ?|?|?|l|m]; try (apply yields_ret; exact A). destruct m as [|e r]; [apply yields_ret; exact A|]. apply yields_fresh. intros q. exact Logic.I.
  - destruct es as [|e1 [|e2 r]]; [apply yields_ret; exact A| |]; apply yields_fresh; intros q; [exact Logic.I|].
    remember (e1 :: e2 :: r) as es. apply fold_and, Forall_map_iff, Forall_forall. intros e _. exact Logic.I.
Qed.
Lemma value_generic_ok t : source_ok L t -> generic_ok L t -> (match t with TMapSized _ _ _ _ _ => False | _ => True end) -> yields (value_type t) (generic_ok L).
Proof.
  intros St H X. assert (A : generic_ok L TAny) by (repeat split; exact Logic.I).
  destruct t as [ | | | |x y i| |x y i| | |x y|s|s|x y| | |p v|p t| |p e x y|p ts b| |p k v x y|p a es|p ts|p vs|p ts|p ts|p t|[t|]]; cbn [value_type]; try (apply yields_ret; exact A); try contradiction.
  - destruct v as [ |?|?|?|?|?|? ? ?|?|?|l|m]; try (apply yields_ret; exact A). destruct m as [|e r]; [apply yields_ret; exact A|]. apply yields_fresh. intros q. exact Logic.I.
  - cbn [generic_ok] in H. apply (fold_and (fun e => generic_ok L (snd (fst e)))) in H. rewrite Forall_forall in H.
    destruct es as [|e1 [|e2 r]]; [apply yields_ret; exact A| |]; [apply yields_ret; apply H; now left|]. apply yields_fresh; intros q.
    remember (e1 :: e2 :: r) as es. apply fold_and, Forall_map_iff, Forall_forall. exact H.
Qed.

Theorem generic_widens n m : forall t, source_ok L t -> generic_ok L t -> yields (generic W n m t) (widens t).
Proof.
  induction m as [|m IH]; intros t St Gt; [apply yields_fail|].
  assert (K : target_ok L t -> no_all_of t -> yields (ret (Some t)) (widens t)).
  { intros T N. apply yields_ret. exists t. split; [auto|]. split; [repeat split; try apply T; try apply St; auto|]. split; [apply sub_refl|].
    destruct t; cbn [parts]; try (intros _ u []; fail); [destruct N|]. destruct T as [_ [[] _]]. }
  assert (S : forall g, usable g -> parts t = [] -> sub W g t -> widens t (Some g)).
  { intros g U P H. exists g. split; [auto|]. split; [auto|]. now apply good_sub. }
  (* the element, key and value types *)
  assert (E : forall (part : M ty) us, mono part -> yields part (generic_ok L) ->
     (forall a, no_all_of a -> yields part (fun u => source_ok L u /\ forall x, In x us -> good W a u -> sub W a x)) ->
     yields (bind part (generic W n m)) (fun o => exists g, o = Some g /\ usable g /\ forall x, In x us -> sub W g x)).
  { intros part us M Y Z. eapply yields_bind with (P := fun u => generic_ok L u /\ source_ok L u /\ forall a, no_all_of a -> forall x, In x us -> good W a u -> sub W a x).
    - apply yields_and; [exact Y|]. intros s x s' Em N. split; [exact (proj1 (Z TAny Logic.I s x s' Em N))|]. intros a Na. exact (proj2 (Z a Na s x s' Em N)).
    - apply generic_mono.
    - intros u (Gu & Su & H). eapply yields_imp; [apply IH; assumption|]. intros o (g & -> & Ug & Go). exists g. split; [auto|]. split; [auto|].
      intros x Hx. apply H; auto. apply Ug. }
  assert (EA : (match t with TArrSized _ _ _ _ => False | _ => True end) -> yields (bind (element_type t) (generic W n m)) (fun o => exists g, o = Some g /\ usable g /\ forall x,
     In x (match t with TArrSized _ e _ _ => [e] | TTuple _ ts _ => ts | TExact _ (VArr l) => map (type_of 0%nat) l | _ => [] end) -> sub W g x)).
  { intros X. apply E; [apply mono_element_type|now apply element_generic_ok|]. intros a Na. now apply yields_element_type. }
  assert (EK : (match t with TMapSized _ _ _ _ _ => False | _ => True end) -> yields (bind (key_type t) (generic W n m)) (fun o => exists g, o = Some g /\ usable g /\ forall x,
     In x (match t with TMap => [TAny] | TMapSized _ k _ _ _ => [k] | TStruct _ _ es => map (fun e => TExact 0%nat (fst (fst e))) es
          | TExact _ (VMap m) => map (type_of 0%nat) (map fst m) | _ => [] end) -> sub W g x)).
  { intros X. apply E; [apply mono_key_type|now apply key_generic_ok|]. intros a Na. now apply yields_key_type. }
  assert (EV : (match t with TMapSized _ _ _ _ _ => False | _ => True end) -> yields (bind (value_type t) (generic W n m)) (fun o => exists g, o = Some g /\ usable g /\ forall x,
     In x (match t with TMap => [TAny] | TMapSized _ _ v _ _ => [v] | TStruct _ _ es => map (fun e => snd (fst e)) es
          | TExact _ (VMap m) => map (type_of 0%nat) (map snd m) | _ => [] end) -> sub W g x)).
  { intros X. apply E; [apply mono_value_type|now apply value_generic_ok|]. intros a Na. now apply yields_value_type. }
  clear E.
  destruct t as [ | | | |x y i| |x y i| | |x y|s|s|x y| | |p v|p t| |p e x y|p ts b| |p k v x y|p a es|p ts|p vs|p ts|p ts|p t|[t|]]; cbn [generic]; cbn [generic_ok] in Gt;
    try (apply K; apply Gt; fail).
  - (* case independent string *) apply yields_ret, S; [repeat split; exact Logic.I|reflexivity|]. intros [] _ _ X; try discriminate X. reflexivity.
  - (* pattern *) apply yields_ret, S; [repeat split; exact Logic.I|reflexivity|]. intros [] _ _ X; try discriminate X. reflexivity.
  - (* exact *)
    assert (Wv : wf v) by exact (proj1 (proj1 St)).
    assert (B : forall g, usable g -> (forall w, veq v w = true -> inst W g w = true) -> yields (ret (Some g)) (widens (TExact p v))).
    { intros g U H. apply yields_ret, S; [exact U|reflexivity|]. intros w _ _ X. apply H. exact X. }
    destruct v as [ |b|z|f|s|s|s ns z|s|w|l|mm];
      try (apply B; [repeat split; exact Logic.I|intros [] X; try discriminate X; reflexivity]).
    + apply B; [repeat split; try exact Logic.I; exact Wv|]. intros w X. exact X.
    + apply B; [repeat split; try exact Logic.I; exact Wv|]. intros w X. exact X.
    + apply B; [repeat split; try exact Logic.I; exact Wv|]. intros w' X. exact X.
    + eapply yields_bind; [apply EA; exact Logic.I|intros; apply mono_fresh|]. intros o (g & -> & Ug & H). apply yields_fresh. intros q. cbn [or_any].
      apply S; [now apply usable_arr|reflexivity|]. apply wide_arr_exact; [assumption|]. intros z Hz. apply H. now apply in_map.
    + eapply yields_bind; [apply EK; exact Logic.I| |].
      { intros k. apply mono_bind; [apply mono_bind; [apply mono_value_type|apply generic_mono]|]. intros v. destruct (_ && _); [apply mono_ret|apply mono_fresh]. }
      intros ok (k & -> & Uk & Hk). eapply yields_bind; [apply EV; exact Logic.I| |].
      { intros v. destruct (_ && _); [apply mono_ret|apply mono_fresh]. }
      intros ov (v & -> & Uv & Hv). cbn [or_any].
      assert (SW : forall q, sub W (TMapSized q k v 0 max_int64) (TExact p (VMap mm))).
      { intros q. apply wide_map_exact; [assumption| |]; intros z Hz; [apply Hk|apply Hv]; now apply in_map. }
      destruct (_ && _).
      * apply yields_ret, S; [repeat split; exact Logic.I|reflexivity|]. apply (sub_map _ _ _ _ _ _ (SW 0%nat)).
      * apply yields_fresh. intros q. apply S; [now apply usable_map|reflexivity|apply SW].
  - (* tuple *)
    eapply yields_bind; [apply EA; exact Logic.I|intros; apply mono_fresh|]. intros o (g & -> & Ug & H). apply yields_fresh. intros q.
    assert (SW : sub W (TArrSized q g 0 max_int64) (TTuple p ts b)) by (apply wide_arr_tuple; [exact (proj1 (proj1 St))|exact H]).
    unfold new_array_type. change (0 <? 0) with false. change (max_int64 <? 0) with false. change (max_int64 <? 0) with false. cbv iota zeta.
    change (0 =? 0) with true. change (max_int64 =? max_int64) with true. change (0 =? 1) with false. cbn [andb or_any]. destruct (is_any g).
    + apply S; [repeat split; exact Logic.I|reflexivity|]. exact (sub_array _ _ _ _ _ SW).
    + apply S; [now apply usable_arr|reflexivity|exact SW].
  - (* struct *)
    assert (a = false). { destruct a; [|reflexivity]. pose proof (proj1 (proj2 St) eq_refl). congruence. } subst a.
    eapply yields_bind; [apply EK; exact Logic.I| |].
    { intros k. apply mono_bind; [apply mono_bind; [apply mono_value_type|apply generic_mono]|]. intros v. apply mono_fresh. }
    intros ok (k & -> & Uk & Hk). eapply yields_bind; [apply EV; exact Logic.I|intros v; apply mono_fresh|].
    intros ov (v & -> & Uv & Hv). apply yields_fresh. intros q. destruct (proj1 (proj1 St)) as [Wk Dk].
    assert (SW : sub W (TMapSized q k v 0 max_int64) (TStruct p false es)).
    { apply wide_map_struct; auto; intros e He; [apply Hk|apply Hv]; apply in_map_iff; eauto. }
    unfold new_map_type. change (0 <? 0) with false. change (max_int64 <? 0) with false. change (max_int64 <? 0) with false. cbv iota zeta. cbn [or_any].
    destruct (_ && _).
    + apply S; [repeat split; exact Logic.I|reflexivity|]. exact (sub_map _ _ _ _ _ _ SW).
    + apply S; [now apply usable_map|reflexivity|exact SW].
  - (* allOf *)
    assert (Nt : ts <> []) by exact (proj1 (proj2 St)). pose proof (member_generic_ok _ Gt) as M.
    eapply yields_imp; [apply (widens_common_all n (generic W n m) (fun t => t) ts Nt)|].
    + apply generic_mono.
    + intros t Ht. eapply yields_imp; [apply IH; [now apply source_member with (TAllOf p ts)|auto]|].
      intros o (g & -> & Ug & [Sg _]). eauto.
    + intros o (g & -> & Ug & H). exists g. split; [auto|]. split; [auto|]. split; [|intros _; exact H].
      destruct ts as [|t0 r]; [congruence|]. intros v Wv Fv Ev. apply (H t0); [now left|auto|auto|]. cbn in Ev. apply andb_true_iff in Ev. apply Ev.
  - (* allOfValue *)
    assert (Nv : vs <> []) by exact (proj1 (proj2 St)). assert (Wv : Forall wf vs) by exact (proj1 (proj1 St)). rewrite Forall_forall in Wv.
    eapply yields_imp; [apply (widens_common_all n _ (type_of 0%nat) vs Nv)|].
    + intros v. apply mono_bind; [apply mono_fresh|apply generic_mono].
    + intros v Hv. eapply yields_bind; [apply (yields_fresh _ (fun u => exists q, u = type_of q v)); eauto|apply generic_mono|].
      intros u (q & ->). eapply yields_imp; [apply IH; [apply type_of_source|apply type_of_generic_ok]; auto|].
      intros o (g & -> & Ug & [Sg _]). exists g. split; [auto|]. split; [auto|]. now apply sub_type_of_addr with q.
    + intros o (g & -> & Ug & H). exists g. split; [auto|]. split; [auto|]. split.
      * destruct vs as [|v0 r]; [congruence|]. intros v Wv' Fv Ev. apply (H v0); [now left|auto|auto|]. rewrite inst_type_of. cbn in Ev. apply andb_true_iff in Ev. apply Ev.
      * intros _ u Hu. apply in_map_iff in Hu as (v & <- & Hv). auto.
Qed.
End World.
