(* Assignable and Instance return, whatever the guard holds. *)
From Coq Require Import ZArith List Bool Lia.
From Coq Require Import Floats.SpecFloat.
From Verif Require Import Int64 HMap HMapBase Data DataSpec DataProofs Arr ArrProofs Types TypesSpec InstProofs GuardProofs SemProofs EqProofs Assign.
Import ListNotations.
Open Scope Z_scope.

(* m returns, and what it returns satisfies Q *)
Definition done {A} (m : M A) (Q : A -> Prop) : Prop := forall s, exists x s', m s = Some (x, s') /\ Q x.
Definition any_r {A} (_ : A) : Prop := True.
Definition fin (m : M bool) : Prop := done m any_r.

Lemma d_ret {A} (x : A) (Q : A -> Prop) : Q x -> done (ret x) Q.
Proof. intros H s. exists x, s. auto. Qed.
Lemma d_bind {A B} (m : M A) (f : A -> M B) P Q : done m P -> (forall x, P x -> done (f x) Q) -> done (bind m f) Q.
Proof. intros Hm Hf s. destruct (Hm s) as (x & s1 & E & Hx). unfold bind. rewrite E. now apply Hf. Qed.
Lemma d_fresh {A} (g : ptr -> A) (Q : A -> Prop) : (forall p, Q (g p)) -> done (fresh g) Q.
Proof. intros H s. eexists _, _. split; [reflexivity|apply H]. Qed.
Lemma d_imp {A} (m : M A) (P Q : A -> Prop) : done m P -> (forall x, P x -> Q x) -> done m Q.
Proof. intros H I s. destruct (H s) as (x & s1 & E & Hx). eauto. Qed.
Lemma d_guard {A} f (m : M A) Q : done m Q -> done (with_guard f m) Q.
Proof. intros H s. unfold with_guard. destruct (H (set_guard s (f (s_guard s)))) as (x & s1 & E & Hx). rewrite E. eexists _, _. split; [reflexivity|assumption]. Qed.
Lemma d_enter a b both m (Q : bool -> Prop) : done m Q -> Q true -> done (enter a b both m) Q.
Proof.
  intros H T s. unfold enter. destruct both; [|apply H]. destruct (s_guard s) as [g|].
  - destruct (guard_append g a b) as [g' c]. destruct (guard_hit c); [eexists _, _; split; [reflexivity|assumption]|]. now apply d_guard.
  - now apply d_guard.
Qed.

Lemma f_ret b : fin (ret b).
Proof. now apply d_ret. Qed.
Lemma f_andm m n : fin m -> fin n -> fin (andm m n).
Proof. intros H1 H2. eapply d_bind; [exact H1|]. intros [] _; [exact H2|apply f_ret]. Qed.
Lemma f_orm m n : fin m -> fin n -> fin (orm m n).
Proof. intros H1 H2. eapply d_bind; [exact H1|]. intros [] _; [apply f_ret|exact H2]. Qed.
Lemma f_notm m : fin m -> fin (notm m).
Proof. intros H1. eapply d_bind; [exact H1|]. intros; apply f_ret. Qed.
Lemma f_all {A} (f : A -> M bool) l : (forall x, In x l -> fin (f x)) -> fin (all_m f l).
Proof. induction l as [|x r IH]; intros H; cbn; [apply f_ret|]. apply f_andm; [apply H; now left|]. apply IH. intros. apply H. now right. Qed.
Lemma f_any {A} (f : A -> M bool) l : (forall x, In x l -> fin (f x)) -> fin (any_m f l).
Proof. induction l as [|x r IH]; intros H; cbn; [apply f_ret|]. apply f_orm; [apply H; now left|]. apply IH. intros. apply H. now right. Qed.
Lemma f_one {A} (f : A -> M bool) l : forall b, (forall x, In x l -> fin (f x)) -> fin (one_m f b l).
Proof.
  induction l as [|x r IH]; intros b H; cbn; [apply f_ret|]. eapply d_bind; [apply H; now left|].
  intros [] _; [destruct b; [apply f_ret|]|]; apply IH; intros; apply H; now right.
Qed.
Lemma f_zip {A B} (f : A -> B -> M bool) l : forall l', (length l <= length l')%nat -> (forall x y, In x l -> In y l' -> fin (f x y)) -> fin (zip_m f l l').
Proof.
  induction l as [|x r IH]; intros [|y r'] L H; cbn in *; try lia; try apply f_ret.
  apply f_andm; [apply H; now left|]. apply IH; [lia|]. intros. apply H; now right.
Qed.
Lemma f_tuple f ts b l : (b = true -> ts <> []) -> (forall t v, In t ts -> In v l -> fin (f t v)) -> fin (tuple_instance f ts b l).
Proof.
  intros N H. unfold tuple_instance. destruct b.
  - destruct (Nat.ltb_spec (length l) (Nat.pred (length ts))) as [L|L]; [apply f_ret|].
    destruct (nth_error ts (Nat.pred (length ts))) as [vt|] eqn:E.
    + apply f_andm.
      * apply f_zip; [rewrite firstn_length; lia|]. intros. apply H; auto. eapply In_firstn; eauto.
      * apply f_all. intros. apply H; [eapply nth_error_In; eauto|eapply In_skipn; eauto].
    + apply nth_error_None in E. specialize (N eq_refl). destruct ts; [congruence|cbn in E; lia].
  - destruct (Nat.eqb_spec (length l) (length ts)) as [L|L]; [|apply f_ret]. apply f_zip; [lia|auto].
Qed.
Lemma f_struct f a es m : forall oc, (forall e v, In e es -> fin (f (snd (fst e)) v)) -> fin (struct_instance f a es m oc).
Proof.
  induction es as [|[[k t] b] r IH]; intros oc H; cbn [struct_instance]; [apply f_ret|].
  assert (R : forall oc, fin (struct_instance f a r m oc)) by (intros; apply IH; intros; apply H; now right).
  destruct (get_with (veq k) m) as [x|].
  - eapply d_bind; [exact (H (k, t, b) x (or_introl eq_refl))|]. intros [] _; [apply R|apply f_ret].
  - destruct b; [apply f_ret|apply R].
Qed.

Section World.
Variable W : world.

Theorem instn_fin n : forall (fn : bool) t v, ty_all tuple_ok t -> (2 * type_size t <= n + (if fn then 1 else 0))%nat ->
  fin (instn W n fn t v).
Proof.
  induction n as [|n IH]; intros fn t v Ht Hn.
  { pose proof (type_size_pos t). destruct fn; lia. }
  assert (HR : forall fn u x, member u t -> fin (instn W n fn u x)).
  { intros fn' u x Hu. pose proof (member_size u t Hu). apply IH; [now apply member_tuple_ok with t|]. destruct fn, fn'; lia. }
  cbn [instn]. destruct (deep_instance t) eqn:D; [destruct fn|].
  - apply d_enter; [|exact Logic.I]. apply ty_all_self in Ht.
    destruct t as [ | | | |x y i| |x y i| | |x y|s|s|x y| | |p w|p t| |p e x y|p ts b| |p kt vt x y|p a es|p ts|p vs|p ts|p ts|p t|[t|]];
      cbn [deep_instance_of]; try apply f_ret.
    + destruct v; try apply f_ret. destruct (size_in _ _ _); [|apply f_ret]. destruct (is_any e); [apply f_ret|]. apply f_all. intros. now apply HR.
    + destruct v; try apply f_ret. apply f_tuple; [exact Ht|]. intros. now apply HR.
    + destruct v; try apply f_ret. destruct (size_in _ _ _); [|apply f_ret].
      destruct (is_any kt), (is_any vt); try apply f_ret; apply f_all; intros; try apply f_andm; apply HR; cbn; auto.
    + destruct v; try apply f_ret. apply f_struct. intros e z He. apply HR. exists e. auto.
    + apply f_all. intros. now apply HR.
    + apply f_all. intros z Hz. eapply d_bind; [apply d_fresh with (Q := fun t => exists p, t = type_of p z); eauto|].
      intros t (q & ->). apply HR. exists q, z. auto.
    + apply f_any. intros. now apply HR.
    + apply f_one. intros. now apply HR.
  - apply d_guard. apply IH; auto. lia.
  - apply d_guard. destruct t; cbn [flat_instance_of]; try apply f_ret.
    + destruct v; try apply f_ret. now apply HR.
    + apply f_notm. now apply HR.
Qed.

Lemma unique_total {A} (eq : A -> A -> bool) h a : exists u, unique A eq h a = Some u.
Proof.
  unfold unique. destruct (length a <? 2)%nat; [eauto|].
  set (m := tableSizeFor (Z.of_nat (length a) * 4 / 3)).
  assert (Hm : forall x, 0 <= bucket_of m x < m) by (intros; apply bucket_in_table).
  assert (L : Z.of_nat (length (repeat (@nil A) (Z.to_nat m))) = m).
  { rewrite repeat_length. specialize (Hm 0). lia. }
  revert L. generalize (repeat (@nil A) (Z.to_nat m)). intros tbl.
  assert (H : forall a' tbl, Z.of_nat (length tbl) = m -> exists u, unique_loop A eq h tbl a' = Some u).
  { clear tbl. clearbody m. clear a. intros a. induction a as [|k r IH]; intros tbl L; cbn [unique_loop]; [eauto|].
    rewrite L. destruct (nth_error tbl (Z.to_nat (bucket_of m (h k)))) as [ch|] eqn:E.
    - destruct (in_chain A eq k ch); [now apply IH|]. destruct (IH (upd tbl (Z.to_nat (bucket_of m (h k))) (k :: ch))) as (u & ->); [now rewrite upd_length|eauto].
    - apply nth_error_None in E. specialize (Hm (h k)). lia. }
  apply H.
Qed.

Lemma unique_size a u : unique ty type_eq thash a = Some u -> (list_sum (map type_size u) <= list_sum (map type_size a))%nat /\ (forall x, In x u -> In x a).
Proof.
  unfold unique. destruct (length a <? 2)%nat; [intros E; injection E as ->; auto|].
  generalize (repeat (@nil ty) (Z.to_nat (tableSizeFor (Z.of_nat (length a) * 4 / 3)))). revert u.
  induction a as [|k r IH]; intros u tbl; cbn [unique_loop]; [intros E; injection E as <-; auto|].
  destruct (nth_error _ _) as [ch|]; [|discriminate]. destruct (in_chain ty type_eq k ch).
  - intros E. apply IH in E as [E1 E2]. rewrite map_cons, list_sum_cons. split; [lia|]. intros. right. auto.
  - destruct (unique_loop _ _ _ _ _) as [w|] eqn:E; [|discriminate]. intros F. injection F as <-. apply IH in E as [E1 E2].
    rewrite !map_cons, !list_sum_cons. split; [lia|]. intros x [->|Hx]; [now left|right; auto].
Qed.

Definition t_ok (t : ty) : Prop := ty_all tuple_ok t.
Definition smaller (b t : ty) : Prop := t_ok t /\ (type_size t <= type_size b)%nat /\ (type_size t < type_size b \/ t = TAny)%nat.
Definition below (b t : ty) : Prop := t_ok t /\ (type_size t < type_size b)%nat.

Lemma below_any b : (1 < type_size b)%nat -> below b TAny.
Proof. intros. split; [split; exact Logic.I|exact H]. Qed.

Lemma t_ok_list P p ts : ty_all P (TAllOf p ts) -> Forall (ty_all P) ts.
Proof. intros [_ H]. now apply fold_and in H. Qed.

Lemma d_element b : t_ok b -> (match b with TArrSized _ _ _ _ | TExact _ (VArr _) | TTuple _ _ _ => True | _ => False end) -> done (element_type b) (below b).
Proof.
  intros Hb Hs. destruct b as [ | | | |x y i| |x y i| | |x y|s|s|x y| | |p w|p t| |p e x y|p ts v| |p kt vt x y|p a es|p ts|p vs|p ts|p ts|p t|[t|]]; try contradiction.
  - destruct w; try contradiction. cbn [element_type]. destruct l as [|v [|v' l]].
    + apply d_ret, below_any. cbn. lia.
    + apply d_fresh. intros q. split; [apply type_of_tuple_ok|]. pose proof (type_of_size q v). cbn. lia.
    + apply d_fresh. intros q. split; [split; exact Logic.I|]. cbn. lia.
  - cbn [element_type]. apply d_ret. split; [apply Hb|cbn; lia].
  - cbn [element_type]. destruct ts as [|t [|t' ts]].
    + apply d_ret, below_any. cbn. lia.
    + apply d_ret. split; [apply Hb|cbn; lia].
    + destruct (unique_total type_eq thash (t :: t' :: ts)) as (u & E). rewrite E. apply unique_size in E as [E1 E2].
      destruct Hb as [_ Hb]. apply fold_and in Hb. rewrite Forall_forall in Hb.
      assert (OK : Forall t_ok u) by (apply Forall_forall; intros z Hz; exact (Hb z (E2 z Hz))).
      assert (SZ : (type_size (TTuple p (t :: t' :: ts) v) = S (S (list_sum (map type_size (t :: t' :: ts)))))%nat) by reflexivity.
      assert (F : forall q, below (TTuple p (t :: t' :: ts) v) (TAllOf q u)).
      { intros q. split. { split; [exact Logic.I|]. now apply fold_and. } rewrite SZ. change (type_size (TAllOf q u)) with (S (list_sum (map type_size u))). lia. }
      destruct u as [|w [|w' u]]; try (apply d_fresh; exact F).
      apply d_ret. split; [now inversion OK|]. rewrite SZ. cbn [map list_sum fold_right] in *. unfold list_sum in *. cbn [fold_right] in *. lia.
Qed.

Lemma size_keys p (es : list (value * ty * bool)) : (list_sum (map type_size (map (fun e => TExact p (fst (fst e))) es)) <=
   list_sum (map (fun e => value_size (fst (fst e)) + type_size (snd (fst e))) es))%nat.
Proof. induction es as [|e r IH]; [cbn; lia|]. rewrite !map_cons, !list_sum_cons. cbn [type_size]. lia. Qed.
Lemma size_values (es : list (value * ty * bool)) : (list_sum (map type_size (map (fun e => snd (fst e)) es)) <=
   list_sum (map (fun e => value_size (fst (fst e)) + type_size (snd (fst e))) es))%nat.
Proof. induction es as [|e r IH]; [cbn; lia|]. rewrite !map_cons, !list_sum_cons. lia. Qed.
Lemma size_fst (m : list (value * value)) : (list_sum (map value_size (map fst m)) <= list_sum (map (fun e => value_size (fst e) + value_size (snd e)) m))%nat.
Proof. induction m as [|e r IH]; [cbn; lia|]. rewrite !map_cons, !list_sum_cons. lia. Qed.
Lemma size_snd (m : list (value * value)) : (list_sum (map value_size (map snd m)) <= list_sum (map (fun e => value_size (fst e) + value_size (snd e)) m))%nat.
Proof. induction m as [|e r IH]; [cbn; lia|]. rewrite !map_cons, !list_sum_cons. lia. Qed.

Definition a_map (b : ty) : Prop := match b with TMapSized _ _ _ _ _ | TExact _ (VMap _) | TStruct _ _ _ => True | _ => False end.

Lemma d_key b : t_ok b -> a_map b -> done (key_type b) (below b).
Proof.
  intros Hb Hs. destruct b as [ | | | |x y i| |x y i| | |x y|s|s|x y| | |p w|p t| |p e x y|p ts v| |p kt vt x y|p a es|p ts|p vs|p ts|p ts|p t|[t|]]; try contradiction.
  - destruct w as [ | | | | | | | | | |m]; try contradiction. cbn [key_type]. destruct m as [|e m].
    + apply d_ret, below_any. cbn. lia.
    + apply d_fresh. intros q. split; [split; exact Logic.I|]. pose proof (size_fst (e :: m)).
      change (type_size (TExact p (VMap (e :: m)))) with (S (S (list_sum (map (fun e => value_size (fst e) + value_size (snd e))%nat (e :: m))))).
      change (type_size (TAllOfValue q (map fst (e :: m)))) with (S (list_sum (map value_size (map fst (e :: m))))). lia.
  - cbn [key_type]. apply d_ret. split; [apply Hb|cbn; lia].
  - cbn [key_type]. 
    assert (SZ : type_size (TStruct p a es) = S (S (list_sum (map (fun e => value_size (fst (fst e)) + type_size (snd (fst e)))%nat es)))) by reflexivity.
    assert (F : forall q, below (TStruct p a es) (TAllOf q (map (fun e => TExact q (fst (fst e))) es))).
    { intros q. split. { split; [exact Logic.I|]. apply fold_and, Forall_map_iff, Forall_forall. intros; split; exact Logic.I. }
      rewrite SZ. pose proof (size_keys q es). change (type_size (TAllOf q ?l)) with (S (list_sum (map type_size l))). lia. }
    destruct es as [|e [|e' es]].
    + apply d_ret, below_any. rewrite SZ. lia.
    + apply d_fresh. intros q. split; [split; exact Logic.I|]. rewrite SZ. cbn [map]. rewrite list_sum_cons. cbn [type_size]. lia.
    + apply d_fresh. exact F.
Qed.

Lemma d_value b : t_ok b -> a_map b -> done (value_type b) (below b).
Proof.
  intros Hb Hs. destruct b as [ | | | |x y i| |x y i| | |x y|s|s|x y| | |p w|p t| |p e x y|p ts v| |p kt vt x y|p a es|p ts|p vs|p ts|p ts|p t|[t|]]; try contradiction.
  - destruct w as [ | | | | | | | | | |m]; try contradiction. cbn [value_type]. destruct m as [|e m].
    + apply d_ret, below_any. cbn. lia.
    + apply d_fresh. intros q. split; [split; exact Logic.I|]. pose proof (size_snd (e :: m)).
      change (type_size (TExact p (VMap (e :: m)))) with (S (S (list_sum (map (fun e => value_size (fst e) + value_size (snd e))%nat (e :: m))))).
      change (type_size (TAllOfValue q (map snd (e :: m)))) with (S (list_sum (map value_size (map snd (e :: m))))). lia.
  - cbn [value_type]. apply d_ret. split; [apply Hb|cbn; lia].
  - cbn [value_type]. 
    assert (SZ : type_size (TStruct p a es) = S (S (list_sum (map (fun e => value_size (fst (fst e)) + type_size (snd (fst e)))%nat es)))) by reflexivity.
    destruct Hb as [_ Hb]. apply (fold_and (fun e => ty_all tuple_ok (snd (fst e)))) in Hb.
    assert (F : forall q, below (TStruct p a es) (TAllOf q (map (fun e => snd (fst e)) es))).
    { intros q. split. { split; [exact Logic.I|]. now apply fold_and, Forall_map_iff. }
      rewrite SZ. pose proof (size_values es). change (type_size (TAllOf q ?l)) with (S (list_sum (map type_size l))). lia. }
    destruct es as [|e [|e' es]].
    + apply d_ret, below_any. rewrite SZ. lia.
    + apply d_ret. split; [now inversion Hb|]. rewrite SZ. cbn [map]. rewrite list_sum_cons. lia.
    + apply d_fresh. exact F.
Qed.

(* ---------- the loops of Assignable ---------- *)

Definition fine (ats bts : list ty) (R : ty -> ty -> M bool) : Prop :=
  forall a b, In a ats -> In b bts -> fin (R a b).

Lemma f_tuple_loop {A} (R : A -> A -> M bool) n tv ov : forall ts os,
  (forall t o, In t ts \/ tv = Some t -> In o os \/ ov = Some o -> fin (R t o)) -> fin (tuple_loop R n ts os tv ov).
Proof.
  induction n as [|n IH]; intros ts os H; cbn [tuple_loop]; [apply f_ret|].
  assert (N : fin (tuple_loop R n (tl ts) (tl os) tv ov)).
  { apply IH. intros t o Ht Ho. apply H; [destruct ts; cbn in *; tauto|destruct os; cbn in *; tauto]. }
  destruct ts as [|t ts], os as [|o os]; cbn [tl] in N |- *.
  - destruct tv; [destruct ov|]; try apply f_ret. apply f_andm; auto.
  - destruct tv; try apply f_ret. apply f_andm; auto. apply H; cbn; auto.
  - destruct ov; try apply f_ret. apply f_andm; auto. apply H; cbn; auto.
  - apply f_andm; auto. apply H; cbn; auto.
Qed.

Lemma tuple_head_in {A} (ts : list A) v t : In t (tuple_head ts v) -> In t ts.
Proof. unfold tuple_head. destruct v; [apply In_firstn|auto]. Qed.
Lemma tuple_rest_in {A} (ts : list A) v t : tuple_rest ts v = Some t -> In t ts.
Proof. unfold tuple_rest. destruct v; [apply nth_error_In|discriminate]. Qed.

Lemma f_struct_assignable R ad es oad os : forall oc,
  (forall e o, In e es -> In o os -> fin (R (snd (fst e)) (snd (fst o)))) -> fin (struct_assignable R ad es oad os oc).
Proof.
  induction es as [|[[k t] rq] r IH]; intros oc H; cbn [struct_assignable]; [apply f_ret|].
  assert (N : forall oc, fin (struct_assignable R ad r oad os oc)) by (intros; apply IH; intros; apply H; auto; now right).
  destruct (struct_find k os) as [[o orq]|] eqn:E.
  - destruct (rq && negb orq); [apply f_ret|].
    assert (F : exists k' r', In (k', o, r') os).
    { clear -E. induction os as [|[[k' t'] r'] os IH]; cbn in E; [discriminate|]. destruct (veq k k').
      - injection E as -> ->. exists k', orq. now left.
      - destruct (IH E) as (k2 & r2 & I2). exists k2, r2. now right. }
    destruct F as (k' & r' & F). eapply d_bind; [exact (H (k, t, rq) _ (or_introl eq_refl) F)|]. intros [] _; [apply N|apply f_ret].
  - destruct (rq || oad); [apply f_ret|apply N].
Qed.

Lemma d_scan R want bts : forall matched i, (forall t, In t bts -> fin (R t)) -> done (scan R want bts matched i) any_r.
Proof.
  induction bts as [|t r IH]; intros [|m matched] i H; cbn [scan]; try (now apply d_ret).
  destruct (Bool.eqb m want).
  - eapply d_bind; [apply H; now left|]. intros [] _; [now apply d_ret|]. apply IH. intros. apply H. now right.
  - apply IH. intros. apply H. now right.
Qed.

Lemma f_less R ats bts : fine ats bts R -> fine bts ats R -> fin (less_restrictive R ats bts).
Proof.
  intros H1 H2. unfold less_restrictive. generalize (map (fun _ : ty => false) bts). intros matched.
  eapply d_bind with (P := any_r).
  - revert matched. induction ats as [|t r IH]; intros matched; cbn [match_all]; [now apply d_ret|].
    assert (N : forall m, done (match_all R r bts m) any_r).
    { apply IH; [intros x y Hx Hy; apply H1; auto; now right|intros x y Hx Hy; apply H2; auto; now right]. }
    eapply d_bind; [apply d_scan; intros; apply H1; auto; now left|]. intros [i|] _; [apply N|].
    eapply d_bind; [apply d_scan; intros; apply H1; auto; now left|]. intros [i|] _; [apply N|now apply d_ret].
  - intros [m|] _; [|now apply d_ret]. apply d_guard. clear matched. revert m. revert H2. clear H1. generalize ats. intros all H2.
    induction bts as [|t r IH]; intros [|m ms]; cbn [no_lessening]; try apply f_ret.
    assert (N : forall m, fin (no_lessening R all r m)) by (apply IH; intros x y Hx Hy; apply H2; auto; now right).
    destruct m; [apply N|]. apply f_andm; [|apply N]. apply f_notm, f_any. intros. apply H2; auto. now left.
Qed.

Lemma d_new_types vs : done (new_types vs) (fun ts => Forall2 (fun t v => exists p, t = type_of p v) ts vs).
Proof.
  induction vs as [|v r IH]; cbn [new_types]; [apply d_ret; constructor|].
  eapply d_bind; [apply d_fresh with (Q := fun t => exists p, t = type_of p v); eauto|]. intros t Ht.
  eapply d_bind; [exact IH|]. intros ts Hts. apply d_ret. now constructor.
Qed.

Lemma Forall2_in_l {A B} (R : A -> B -> Prop) l l' x : Forall2 R l l' -> In x l -> exists y, In y l' /\ R x y.
Proof. induction 1 as [|a b l l' H1 H2 IH]; intros []; subst; [eexists; split; [now left|eassumption]|]. destruct IH as (y & Hy & Hr); auto. exists y. split; auto. now right. Qed.

(* ---------- Assignable ---------- *)

Theorem asgn_fin n : forall (fn : bool) a b, t_ok a -> t_ok b ->
  (2 * (type_size a + type_size b) <= n + (if fn then 1 else 0))%nat -> fin (asgn W n fn a b).
Proof.
  induction n as [|n IH]; intros fn a b Ha Hb Hn.
  { pose proof (type_size_pos a). destruct fn; lia. }
  assert (IH' : forall fn' x y, t_ok x -> t_ok y -> (type_size x + type_size y < type_size a + type_size b)%nat -> fin (asgn W n fn' x y)).
  { intros fn' x y Hx Hy L. apply IH; auto. destruct fn, fn'; lia. }
  assert (MB : forall fn' y, member y b -> fin (asgn W n fn' a y)).
  { intros fn' y Hy. pose proof (member_size y b Hy). apply IH'; auto; [now apply member_tuple_ok with b|lia]. }
  assert (MA : forall fn' x, member x a -> fin (asgn W n fn' x b)).
  { intros fn' x Hx. pose proof (member_size x a Hx). apply IH'; auto; [now apply member_tuple_ok with a|lia]. }
  assert (MAB : forall fn' x y, member x a -> member y b -> fin (asgn W n fn' x y)).
  { intros fn' x y Hx Hy. pose proof (member_size x a Hx). pose proof (member_size y b Hy). apply IH'; auto;
      [now apply member_tuple_ok with a|now apply member_tuple_ok with b|lia]. }
  assert (MBA : forall fn' x y, member x a -> member y b -> fin (asgn W n fn' y x)).
  { intros fn' x y Hx Hy. pose proof (member_size x a Hx). pose proof (member_size y b Hy). apply IH'; auto;
      [now apply member_tuple_ok with b|now apply member_tuple_ok with a|lia]. }
  assert (CH : fin (check_assignable_to (asgn W n) b a)).
  { destruct b as [ | | | |x y i| |x y i| | |x y|s|s|x y| | |p w|p t| |p e x y|p ts v| |p kt vt x y|p ad es|p ts|p vs|p ts|p ts|p t|[t|]];
      cbn [check_assignable_to]; try apply f_ret; apply d_guard.
    - apply f_all. intros. now apply MB.
    - apply f_all. intros x Hx. eapply d_bind; [apply d_fresh with (Q := fun t => exists p, t = type_of p x); eauto|].
      intros t (q & ->). apply MB. exists q, x. auto.
    - apply f_andm; [|apply f_ret]. apply f_all. intros. now apply MB.
    - apply f_andm; [|apply f_ret]. apply f_all. intros. now apply MB. }
  assert (IN : forall v p, b = TExact p v -> fin (instn W n true a v)).
  { intros v p ->. apply instn_fin; auto. cbn [type_size] in Hn. pose proof (value_size_pos v). destruct fn; lia. }
  assert (BL : forall e (m : M ty), member e a -> done m (below b) -> forall fn', fin (bind m (asgn W n fn' e))).
  { intros e m He Hm fn'. pose proof (member_size e a He). eapply d_bind; [exact Hm|]. intros t [Ht1 Ht2]. apply IH'; auto; [now apply member_tuple_ok with a|lia]. }
  assert (DEEP : fin (deep_assignable_to (asgn W n) (instn W n true) a b)).
  { destruct a as [ | | | |x y i| |x y i| | |x y|s|s|x y| | |p w|p t| |p e x y|p ts v| |p kt vt x y|p ad es|p ts|p vs|p ts|p ts|p t|[t|]];
      cbn [deep_assignable_to]; try apply f_ret.
    - apply f_orm; [apply f_ret|exact CH].
    - destruct b; try exact CH. now apply MAB.
    - assert (G : (match b with TArrSized _ _ _ _ | TExact _ (VArr _) | TTuple _ _ _ => True | _ => False end) ->
               match array_bounds b with
               | Some (bmin, bmax) => fin (if (x <=? bmin) && (bmax <=? y) then bind (element_type b) (asgn W n false e) else ret false)
               | None => fin (check_assignable_to (asgn W n) b (TArrSized p e x y)) end).
      { intros Hs. destruct (array_bounds b) as [[bmin bmax]|]; [|exact CH]. destruct (_ && _); [|apply f_ret].
        apply BL; [reflexivity|]. now apply d_element. }
      destruct b as [ | | | |x' y' i'| |x' y' i'| | |x' y'|s'|s'|x' y'| | |p' w'|p' t'| |p' e' x' y'|p' ts' b'| |p' kt' vt' x' y'|p' a' es'|p' ts'|p' vs'|p' ts'|p' ts'|p' t'|[t'|]];
        try exact CH; try apply f_ret; try exact (G Logic.I).
      + destruct w'; try exact CH. exact (G Logic.I).
      + destruct b'; exact (G Logic.I).
    - destruct b as [ | | | |x' y' i'| |x' y' i'| | |x' y'|s'|s'|x' y'| | |p' w'|p' t'| |p' e' x' y'|p' ts' b'| |p' kt' vt' x' y'|p' a' es'|p' ts'|p' vs'|p' ts'|p' ts'|p' t'|[t'|]];
        try exact CH; try apply f_ret.
      + destruct w'; try exact CH. eapply IN. reflexivity.
      + unfold tuple_assignable_array. destruct (_ && _); [|apply f_ret]. apply f_andm.
        * apply f_all. intros t Ht. apply MAB; [now apply tuple_head_in in Ht|reflexivity].
        * destruct v; [|apply f_ret]. destruct (tuple_rest ts true) as [t|] eqn:E.
          -- apply MAB; [now apply tuple_rest_in in E|reflexivity].
          -- apply ty_all_self in Ha. cbn in Ha. specialize (Ha eq_refl). apply nth_error_None in E. destruct ts; [congruence|cbn in E; lia].
      + unfold tuple_assignable_tuple. destruct (_ || _); [apply f_ret|]. apply f_tuple_loop.
        intros t o Ht Ho. apply MAB; cbn.
        * destruct Ht as [Ht|Ht]; [now apply tuple_head_in in Ht|now apply tuple_rest_in in Ht].
        * destruct Ho as [Ho|Ho]; [now apply tuple_head_in in Ho|now apply tuple_rest_in in Ho].
    - assert (G : a_map b -> forall bmin bmax, fin (if (x <=? bmin) && (bmax <=? y) then
          andm (bind (key_type b) (asgn W n true kt)) (bind (value_type b) (asgn W n true vt)) else ret false)).
      { intros Hm bmin bmax. destruct (_ && _); [|apply f_ret]. apply f_andm.
        - apply BL; [now left|now apply d_key]. - apply BL; [now right|now apply d_value]. }
      destruct b as [ | | | |x' y' i'| |x' y' i'| | |x' y'|s'|s'|x' y'| | |p' w'|p' t'| |p' e' x' y'|p' ts' b'| |p' kt' vt' x' y'|p' a' es'|p' ts'|p' vs'|p' ts'|p' ts'|p' t'|[t'|]];
        cbn [map_bounds]; try exact CH; try exact (G Logic.I _ _).
      + destruct w'; try exact CH; try exact (G Logic.I _ _).
      + (* TMap *) destruct (_ && _); [|apply f_ret]. cbn [key_type value_type].
        apply f_andm; (eapply d_bind; [apply d_ret with (Q := fun t => t = TAny); reflexivity|]); intros t ->; apply IH'; try (split; exact Logic.I); try apply Ha; cbn [type_size];
          pose proof (type_size_pos kt); pose proof (type_size_pos vt); lia.
    - destruct b as [ | | | |x' y' i'| |x' y' i'| | |x' y'|s'|s'|x' y'| | |p' w'|p' t'| |p' e' x' y'|p' ts' b'| |p' kt' vt' x' y'|p' a' es'|p' ts'|p' vs'|p' ts'|p' ts'|p' t'|[t'|]];
        try exact CH.
      + destruct w'; try exact CH. eapply IN. reflexivity.
      + apply f_struct_assignable. intros e o He Ho. apply MAB; cbn; eauto.
    - assert (D : fin (orm (all_m (fun t => asgn W n true t b) ts) (check_assignable_to (asgn W n) b (TAllOf p ts)))).
      { apply f_orm; [|exact CH]. apply f_all. intros. now apply MA. }
      destruct b as [ | | | |x' y' i'| |x' y' i'| | |x' y'|s'|s'|x' y'| | |p' w'|p' t'| |p' e' x' y'|p' ts' b'| |p' kt' vt' x' y'|p' a' es'|p' ts'|p' vs'|p' ts'|p' ts'|p' t'|[t'|]];
        try exact D.
      + apply f_less; intros u w Hu Hw; [now apply MAB|now apply MBA].
      + eapply d_bind; [apply d_new_types|]. intros us Hus. apply f_less; intros u w Hu Hw.
        * destruct (Forall2_in_l _ _ _ _ Hus Hw) as (z & Hz & q & ->). apply MAB; auto. exists q, z. auto.
        * destruct (Forall2_in_l _ _ _ _ Hus Hu) as (z & Hz & q & ->). apply MBA; auto. exists q, z. auto.
    - assert (D : fin (all_m (fun v => bind (new_type v) (fun t => asgn W n true t b)) vs)).
      { apply f_all. intros z Hz. eapply d_bind; [apply d_fresh with (Q := fun t => exists p, t = type_of p z); eauto|]. intros t (q & ->). apply MA. exists q, z. auto. }
      destruct b as [ | | | |x' y' i'| |x' y' i'| | |x' y'|s'|s'|x' y'| | |p' w'|p' t'| |p' e' x' y'|p' ts' b'| |p' kt' vt' x' y'|p' a' es'|p' ts'|p' vs'|p' ts'|p' ts'|p' t'|[t'|]];
        try exact D; try apply f_ret.
      eapply d_bind; [apply d_new_types|]. intros us Hus. apply f_less; intros u w Hu Hw.
      + destruct (Forall2_in_l _ _ _ _ Hus Hu) as (z & Hz & q & ->). apply MAB; auto. exists q, z. auto.
      + destruct (Forall2_in_l _ _ _ _ Hus Hw) as (z & Hz & q & ->). apply MBA; auto. exists q, z. auto.
    - destruct ts as [|t0 ts]; [apply f_ret|]. apply f_orm; [|exact CH]. apply f_any. intros. now apply MA.
    - destruct ts as [|t0 ts]; [apply f_ret|]. apply f_orm; [|exact CH]. apply f_one. intros. now apply MA. }
  assert (FLAT : fin (flat_assignable_to W (asgn W n) a b)).
  { destruct a as [ | | | |x y i| |x y i| | |x y|s|s|x y| | |p w|p t| |p e x y|p ts v| |p kt vt x y|p ad es|p ts|p vs|p ts|p ts|p t|[t|]];
      cbn [flat_assignable_to]; try apply f_ret; try (apply f_orm; [apply f_ret|exact CH]);
      destruct b as [ | | | |x' y' i'| |x' y' i'| | |x' y'|s'|s'|x' y'| | |p' w'|p' t'| |p' e' x' y'|p' ts' b'| |p' kt' vt' x' y'|p' a' es'|p' ts'|p' vs'|p' ts'|p' ts'|p' t'|[t'|]];
      try exact CH; try apply f_ret; try (apply f_notm, MA; reflexivity); try (destruct w'; first [exact CH | apply f_ret]);
      repeat (match goal with |- fin (if ?c then _ else _) => destruct c end; try apply f_ret); try (apply f_orm; [apply f_ret|exact CH]).
    - apply f_all. intros. now apply MB.
    - apply f_any. intros. now apply MB.
    - apply f_one. intros. now apply MB.
    - now apply MBA. }
  cbn [asgn]. destruct fn.
  - destruct (same_type a b); [apply f_ret|]. destruct (deep_assignable a); [apply d_enter; [exact DEEP|exact Logic.I]|now apply d_guard].
  - destruct (deep_assignable a) eqn:D; [|now apply d_guard].
    assert (T : fin (with_nil (asgn W n true a b))) by (apply d_guard, IH; auto; lia).
    destruct a; try exact T. apply d_guard, d_enter; [exact DEEP|exact Logic.I].
Qed.
End World.
