(* Reasoning about the computations of Assign.v, and that Instance computes inst. *)
From Coq Require Import ZArith List Bool Lia.
From Coq Require Import Floats.SpecFloat.
From Verif Require Import Int64 HMap Data DataSpec DataProofs Arr Types TypesSpec Assign InstProofs.
Import ListNotations.
Open Scope Z_scope.

(* ---------- rules that hold for two notions of "m returns x" ---------- *)

Section Logic.
Variable mon : forall A, M A -> Prop.
Variable is : forall A, M A -> A -> Prop.
Arguments mon {A}. Arguments is {A}.
Hypothesis mon_ret : forall A (x : A), mon (ret x).
Hypothesis mon_bind : forall A B (m : M A) (f : A -> M B), mon m -> (forall x, mon (f x)) -> mon (bind m f).
Hypothesis mon_fresh : forall A (g : ptr -> A), mon (fresh g).
Hypothesis mon_fail : forall A, mon (@fail A).
Hypothesis is_ret : forall A (x : A), is (ret x) x.
Hypothesis is_bind : forall A B (m : M A) (f : A -> M B) x y,
  is m x -> (forall x, mon (f x)) -> is (f x) y -> is (bind m f) y.
Hypothesis is_fresh : forall A B (g : ptr -> A) (f : A -> M B) y,
  (forall x, mon (f x)) -> (forall p, is (f (g p)) y) -> is (bind (fresh g) f) y.

Lemma mon_andm m n : mon m -> mon n -> mon (andm m n).
Proof. intros H1 H2. apply mon_bind; [assumption|intros []]; auto. Qed.
Lemma mon_orm m n : mon m -> mon n -> mon (orm m n).
Proof. intros H1 H2. apply mon_bind; [assumption|intros []]; auto. Qed.
Lemma mon_notm m : mon m -> mon (notm m).
Proof. intros H1. apply mon_bind; auto. Qed.
Lemma mon_all {A} (f : A -> M bool) l : (forall x, mon (f x)) -> mon (all_m f l).
Proof. intros H. induction l; cbn; auto using mon_andm. Qed.
Lemma mon_any {A} (f : A -> M bool) l : (forall x, mon (f x)) -> mon (any_m f l).
Proof. intros H. induction l; cbn; auto using mon_orm. Qed.
Lemma mon_one {A} (f : A -> M bool) l : forall b, (forall x, mon (f x)) -> mon (one_m f b l).
Proof. induction l as [|x r IH]; intros b H; cbn; auto. apply mon_bind; auto. intros []; [destruct b|]; auto. Qed.
Lemma mon_zip {A B} (f : A -> B -> M bool) l : forall l', (forall x y, mon (f x y)) -> mon (zip_m f l l').
Proof. induction l as [|x r IH]; intros [|y r'] H; cbn; auto using mon_andm. Qed.
Lemma mon_tuple f ts b l : (forall t v, mon (f t v)) -> mon (tuple_instance f ts b l).
Proof.
  intros H. unfold tuple_instance. destruct b.
  - destruct (_ <? _)%nat; auto. destruct (nth_error _ _); auto using mon_andm, mon_zip, mon_all.
  - destruct (Nat.eqb _ _); auto using mon_zip.
Qed.
Lemma mon_struct f a es m : forall oc, (forall t v, mon (f t v)) -> mon (struct_instance f a es m oc).
Proof.
  induction es as [|[[k t] b] r IH]; intros oc H; cbn; auto.
  destruct (get_with (veq k) m).
  - apply mon_bind; auto. intros []; auto.
  - destruct b; auto.
Qed.

Lemma is_andm m n b c : is m b -> mon n -> (b = true -> is n c) -> is (andm m n) (b && c).
Proof.
  intros Hm Hn H. apply (is_bind _ _ _ _ b); auto. { intros []; auto. }
  destruct b; cbn; auto.
Qed.
Lemma is_orm m n b c : is m b -> mon n -> (b = false -> is n c) -> is (orm m n) (b || c).
Proof.
  intros Hm Hn H. apply (is_bind _ _ _ _ b); auto. { intros []; auto. }
  destruct b; cbn; auto.
Qed.
Lemma is_notm m b : is m b -> is (notm m) (negb b).
Proof. intros H. apply (is_bind _ _ _ _ b); auto. Qed.
Lemma is_all {A} (f : A -> M bool) g l : (forall x, mon (f x)) -> (forall x, In x l -> is (f x) (g x)) ->
  is (all_m f l) (forallb g l).
Proof.
  intros Hm. induction l as [|x r IH]; intros H; cbn; auto. apply is_andm; auto using in_eq, mon_all.
  intros _. apply IH. intros. apply H. now right.
Qed.
Lemma is_any' {A} (f : A -> M bool) g l : (forall x, mon (f x)) -> (forall x, In x l -> is (f x) (g x)) ->
  is (any_m f l) (existsb g l).
Proof.
  intros Hm. induction l as [|x r IH]; intros H; cbn; auto. apply is_orm; auto using in_eq, mon_any.
  intros _. apply IH. intros. apply H. now right.
Qed.
Lemma is_one {A} (f : A -> M bool) g l : forall b, (forall x, mon (f x)) -> (forall x, In x l -> is (f x) (g x)) ->
  is (one_m f b l) (exactly_one b (map g l)).
Proof.
  induction l as [|x r IH]; intros b Hm H; cbn; auto. apply (is_bind _ _ _ _ (g x)); auto using in_eq.
  { intros []; [destruct b|]; auto using mon_one. }
  assert (R : forall b, is (one_m f b r) (exactly_one b (map g r))) by (intros; apply IH; auto; intros; apply H; now right).
  destruct (g x); [destruct b|]; auto.
Qed.
Lemma is_zip {A B} (f : A -> B -> M bool) g l : forall l', (forall x y, mon (f x y)) ->
  (forall x y, In x l -> is (f x y) (g x y)) -> length l = length l' ->
  is (zip_m f l l') (pairwise g l l').
Proof.
  induction l as [|x r IH]; intros [|y r'] Hm H L; cbn in *; try discriminate; auto.
  apply is_andm; auto using mon_zip.
Qed.

Lemma is_zip_prefix {A B} (f : A -> B -> M bool) g l : forall l', (forall x y, mon (f x y)) ->
  (forall x y, In x l -> is (f x y) (g x y)) -> (length l <= length l')%nat ->
  is (zip_m f l l') (pairwise g l (firstn (length l) l')).
Proof.
  induction l as [|x r IH]; intros [|y r'] Hm H L; cbn in *; try lia; auto.
  apply is_andm; auto using mon_zip. intros _. apply IH; auto. lia.
Qed.

Lemma tuple_inst_fixed g ts : forall l, tuple_inst g false ts l = pairwise g ts l.
Proof.
  induction ts as [|t [|t' r] IH]; intros [|x l]; try reflexivity.
  - destruct l; cbn; [now rewrite andb_true_r|now rewrite andb_false_r].
  - change (g t x && tuple_inst g false (t' :: r) l = g t x && pairwise g (t' :: r) l). now rewrite IH.
Qed.

Lemma tuple_inst_cons g b t ts x l : ts <> [] -> tuple_inst g b (t :: ts) (x :: l) = g t x && tuple_inst g b ts l.
Proof. destruct ts; [congruence|reflexivity]. Qed.
Lemma tuple_inst_nil g b t ts : ts <> [] -> tuple_inst g b (t :: ts) [] = false.
Proof. destruct ts; [congruence|reflexivity]. Qed.
Lemma app_one_nonempty {A} (l : list A) x : l ++ [x] <> [].
Proof. now destruct l. Qed.

Lemma tuple_inst_variadic g vt ts : forall l, (length ts <= length l)%nat ->
  tuple_inst g true (ts ++ [vt]) l = pairwise g ts (firstn (length ts) l) && forallb (g vt) (skipn (length ts) l).
Proof.
  induction ts as [|t r IH]; intros l L.
  - cbn [app]. destruct l; reflexivity.
  - destruct l as [|x l]; cbn in L; [lia|]. cbn [app].
    rewrite tuple_inst_cons by apply app_one_nonempty. rewrite IH by lia. cbn [length firstn skipn pairwise].
    now rewrite andb_assoc.
Qed.

Lemma tuple_inst_short g vt ts : forall l, (length l < length ts)%nat -> tuple_inst g true (ts ++ [vt]) l = false.
Proof.
  induction ts as [|t r IH]; intros l L; [cbn in L; lia|]. cbn [app].
  destruct l as [|x l]; [apply tuple_inst_nil, app_one_nonempty|].
  rewrite tuple_inst_cons by apply app_one_nonempty.
  rewrite IH by (cbn in L; lia). now rewrite andb_false_r.
Qed.

Lemma is_tuple f g ts b l : (b = true -> ts <> []) -> (forall t v, mon (f t v)) ->
  (forall t v, In t ts -> is (f t v) (g t v)) -> is (tuple_instance f ts b l) (tuple_inst g b ts l).
Proof.
  intros Hne Hm H. unfold tuple_instance. destruct b.
  - destruct (exists_last (Hne eq_refl)) as (ts' & vt & ->).
    assert (P : Nat.pred (length (ts' ++ [vt])) = length ts') by (rewrite app_length; cbn; lia). rewrite P.
    destruct (Nat.ltb_spec (length l) (length ts')) as [L|L].
    + rewrite tuple_inst_short by assumption. auto.
    + rewrite nth_error_app2, Nat.sub_diag by lia. cbn [nth_error].
      rewrite firstn_app, firstn_all, Nat.sub_diag. cbn [firstn]. rewrite app_nil_r.
      rewrite tuple_inst_variadic by assumption.
      apply is_andm; auto using mon_all.
      * apply is_zip_prefix; auto. intros. apply H. apply in_or_app. now left.
      * intros _. apply is_all; auto. intros. apply H. apply in_or_app. right. now left.
  - rewrite tuple_inst_fixed. destruct (Nat.eqb_spec (length l) (length ts)) as [L|L].
    + now apply is_zip.
    + assert (N : pairwise g ts l = false).
      { clear -L. revert l L. induction ts as [|t r IH]; intros [|x l] L; cbn in *; try congruence.
        rewrite IH by lia. now rewrite andb_false_r. }
      rewrite N. auto.
Qed.

Lemma is_struct f g a es m : forall oc, (forall t v, mon (f t v)) ->
  (forall e v, In e es -> is (f (snd (fst e)) v) (g (snd (fst e)) v)) ->
  is (struct_instance f a es m oc) (struct_inst g a m oc es).
Proof.
  induction es as [|[[k t] b] r IH]; intros oc Hm H; cbn [struct_instance struct_inst]; auto.
  assert (R : forall oc, is (struct_instance f a r m oc) (struct_inst g a m oc r)) by (intros; apply IH; auto; intros; apply H; now right).
  destruct (get_with (veq k) m) as [x|].
  - apply (is_bind _ _ _ _ (g t x)).
    + exact (H (k, t, b) x (or_introl eq_refl)).
    + intros []; auto using mon_struct.
    + destruct (g t x); cbn; auto.
  - destruct b; auto.
Qed.

Variable W : world.

(* the members of t, whose instances the instances of t depend on *)
Definition member (u t : ty) : Prop :=
  match t with
  | TSens _ s | TArrSized _ s _ _ | TNot _ s => u = s
  | TMapSized _ k v _ _ => u = k \/ u = v
  | TTuple _ ts _ | TAllOf _ ts | TAnyOf _ ts | TOneOf _ ts => In u ts
  | TStruct _ _ es => exists e, In e es /\ u = snd (fst e)
  | TAllOfValue _ vs => exists p v, In v vs /\ u = type_of p v
  | _ => False
  end.

(* a variadic tuple has a last type *)
Definition tuple_ok (t : ty) : Prop := match t with TTuple _ ts b => b = true -> ts <> [] | _ => True end.

Lemma mon_deep_instance R t v : (forall fn t v, mon (R fn t v)) -> mon (deep_instance_of R t v).
Proof.
  intros H. destruct t; cbn [deep_instance_of]; auto.
  - destruct v; auto. destruct (size_in _ _ _); auto. destruct (is_any t); auto using mon_all.
  - destruct v; auto using mon_tuple.
  - destruct v; auto. destruct (size_in _ _ _); auto.
    destruct (is_any t1), (is_any t2); auto; apply mon_all; auto using mon_andm.
  - destruct v; auto using mon_struct.
  - apply mon_all; auto.
  - apply mon_all. intros x. apply mon_bind; auto.
  - apply mon_any; auto.
  - apply mon_one; auto.
Qed.

Lemma mon_flat_instance R t v : (forall fn t v, mon (R fn t v)) -> mon (flat_instance_of W R t v).
Proof.
  intros H. destruct t; cbn [flat_instance_of]; auto.
  - destruct v; auto.
  - now apply mon_notm.
Qed.

Lemma forallb_const {A} l : forallb (fun _ : A => true) l = true.
Proof. induction l; auto. Qed.

Lemma inst_any e : is_any e = true -> e = TAny.
Proof. destruct e; try discriminate. reflexivity. Qed.

Lemma is_deep_instance R t v : tuple_ok t -> deep_instance t = true -> (forall fn t v, mon (R fn t v)) ->
  (forall fn u x, member u t -> is (R fn u x) (inst W u x)) ->
  is (deep_instance_of R t v) (inst W t v).
Proof.
  intros Ht Hd Hm H. destruct t as [ | | | |x y i| |x y i| | |x y|s|s|x y| | |p w|p t| |p e x y|p ts b| |p kt vt x y|p a es|p ts|p vs|p ts|p ts|p t|[t|]];
    try discriminate Hd; cbn [deep_instance_of].
  - apply is_ret.
  - destruct v as [ | | | | | | | | |l|m]; try apply is_ret. unfold inst. cbn [inst_with]. fold (inst W).
    destruct (size_in x y (length_z l)); cbn [andb]; [|apply is_ret].
    destruct (is_any e) eqn:E.
    + apply inst_any in E as ->. unfold inst. cbn. rewrite forallb_const. apply is_ret.
    + apply is_all; auto. intros. apply H. reflexivity.
  - destruct v as [ | | | | | | | | |l|m]; try apply is_ret. unfold inst. rewrite inst_tuple. fold (inst W).
    now apply is_tuple; auto.
  - destruct v as [ | | | | | | | | |l|m]; try apply is_ret. unfold inst. cbn [inst_with]. fold (inst W).
    destruct (size_in x y (length_z m)); cbn [andb]; [|apply is_ret].
    assert (Hk : forall fn x, is (R fn kt x) (inst W kt x)) by (intros; apply H; left; reflexivity).
    assert (Hv : forall fn x, is (R fn vt x) (inst W vt x)) by (intros; apply H; right; reflexivity).
    destruct (is_any kt) eqn:Ek; [apply inst_any in Ek as ->|]; (destruct (is_any vt) eqn:Ev; [apply inst_any in Ev as ->|]).
    + replace (forallb _ m) with true; [apply is_ret|]. symmetry. apply (forallb_const m).
    + apply (is_all (fun e : value * value => R true vt (snd e)) (fun e => inst W TAny (fst e) && inst W vt (snd e))); auto.
      intros e _. change (inst W TAny (fst e)) with true. cbn [andb]. apply Hv.
    + apply (is_all (fun e : value * value => R false kt (fst e)) (fun e => inst W kt (fst e) && inst W TAny (snd e))); auto.
      intros e _. change (inst W TAny (snd e)) with true. rewrite andb_true_r. apply Hk.
    + apply is_all; auto using mon_andm. intros e _. apply is_andm; auto.
  - destruct v as [ | | | | | | | | |l|m]; try apply is_ret. unfold inst. rewrite inst_struct. fold (inst W).
    apply is_struct; auto. intros e x He. apply H. exists e. auto.
  - unfold inst. cbn [inst_with]. fold (inst W). apply is_all; auto.
  - unfold inst. cbn [inst_with]. apply is_all.
    + intros x. apply mon_bind; auto.
    + intros x Hx. apply is_fresh; auto. intros q. rewrite <- (inst_type_of W q). apply H. exists q, x. auto.
  - unfold inst. cbn [inst_with]. fold (inst W). apply is_any'; auto.
  - unfold inst. cbn [inst_with]. fold (inst W). apply is_one; auto.
Qed.

Lemma is_flat_instance R t v : deep_instance t = false -> (forall fn t v, mon (R fn t v)) ->
  (forall fn u x, member u t -> is (R fn u x) (inst W u x)) ->
  is (flat_instance_of W R t v) (inst W t v).
Proof.
  intros Hd Hm H.
  assert (S : forall t, no_av t = true -> is (ret (inst_simple W t v)) (inst W t v)).
  { intros u Hu. unfold inst. rewrite <- (inst_no_av W (fun _ _ => false) _ u Hu). apply is_ret. }
  destruct t as [ | | | |x y i| |x y i| | |x y|s|s|x y| | |p w|p t| |p e x y|p ts b| |p kt vt x y|p a es|p ts|p vs|p ts|p ts|p t|[t|]];
    try discriminate Hd; cbn [flat_instance_of]; try (apply S; reflexivity).
  - destruct v as [ | | | | | | | |x| | ]; try apply is_ret. unfold inst. cbn [inst_with]. fold (inst W). apply H. reflexivity.
  - unfold inst. cbn [inst_with]. fold (inst W). apply is_notm. apply H. reflexivity.
Qed.
End Logic.

(* ---------- when the guard is not hit ---------- *)

(* a hit is not forgotten *)
Definition mono A (m : M A) : Prop := forall s x s', m s = Some (x, s') -> s_hit s = true -> s_hit s' = true.
Arguments mono {A}.
(* what is returned when the guard was not hit *)
Definition yields {A} (m : M A) (Q : A -> Prop) : Prop :=
  forall s x s', m s = Some (x, s') -> s_hit s' = false -> Q x.
Definition returns A (m : M A) (x : A) : Prop := yields m (eq x).
Arguments returns {A}.

Lemma mono_ret A (x : A) : mono (ret x).
Proof. intros s y s' E H. injection E as -> ->. assumption. Qed.
Lemma mono_fail A : mono (@fail A).
Proof. intros s y s' E. discriminate. Qed.
Lemma mono_bind A B (m : M A) (f : A -> M B) : mono m -> (forall x, mono (f x)) -> mono (bind m f).
Proof.
  intros Hm Hf s y s' E H. unfold bind in E. destruct (m s) as [[x s1]|] eqn:Em; [|discriminate].
  apply (Hf x s1 y s' E). apply (Hm s x s1 Em H).
Qed.
Lemma mono_fresh A (g : ptr -> A) : mono (fresh g).
Proof. intros s y s' E H. injection E as <- <-. assumption. Qed.
Lemma mono_with_guard A f (m : M A) : mono m -> mono (with_guard f m).
Proof.
  intros Hm s y s' E H. unfold with_guard in E. destruct (m _) as [[x s1]|] eqn:Em; [|discriminate].
  injection E as <- <-. cbn. apply (Hm _ _ _ Em). exact H.
Qed.
Lemma mono_enter a b both m : mono m -> mono (enter a b both m).
Proof.
  intros Hm s y s' E H. unfold enter in E. destruct both; [|now apply (Hm s y s' E)].
  destruct (s_guard s) as [g|].
  - destruct (guard_append g a b) as [g' c]. destruct (guard_hit c).
    + injection E as <- <-. reflexivity.
    + apply (mono_with_guard _ _ m Hm _ _ _ E). exact H.
  - apply (mono_with_guard _ _ m Hm _ _ _ E). exact H.
Qed.

Lemma yields_ret {A} (x : A) (Q : A -> Prop) : Q x -> yields (ret x) Q.
Proof. intros H s y s' E _. injection E as -> ->. assumption. Qed.
Lemma yields_fail {A} (Q : A -> Prop) : yields fail Q.
Proof. intros s y s' E. discriminate. Qed.
Lemma yields_bind {A B} (m : M A) (f : A -> M B) P Q : yields m P -> (forall x, mono (f x)) ->
  (forall x, P x -> yields (f x) Q) -> yields (bind m f) Q.
Proof.
  intros Hm Hf H s y s' E N. unfold bind in E. destruct (m s) as [[x s1]|] eqn:Em; [|discriminate].
  assert (N1 : s_hit s1 = false).
  { destruct (s_hit s1) eqn:E1; [|reflexivity]. rewrite (Hf x s1 y s' E E1) in N. discriminate. }
  exact (H x (Hm s x s1 Em N1) s1 y s' E N).
Qed.
Lemma yields_imp {A} (m : M A) (P Q : A -> Prop) : yields m P -> (forall x, P x -> Q x) -> yields m Q.
Proof. intros H HPQ s x s' E N. apply HPQ. exact (H s x s' E N). Qed.
Lemma yields_fresh {A} (g : ptr -> A) (Q : A -> Prop) : (forall p, Q (g p)) -> yields (fresh g) Q.
Proof. intros H s y s' E _. injection E as <- <-. apply H. Qed.
Lemma yields_with_guard {A} f (m : M A) Q : yields m Q -> yields (with_guard f m) Q.
Proof.
  intros Hm s y s' E N. unfold with_guard in E. destruct (m _) as [[x s1]|] eqn:Em; [|discriminate].
  injection E as <- <-. exact (Hm _ _ _ Em N).
Qed.
Lemma yields_enter a b both m Q : yields m Q -> yields (enter a b both m) Q.
Proof.
  intros Hm s y s' E N. unfold enter in E. destruct both; [|exact (Hm s y s' E N)].
  destruct (s_guard s) as [g|].
  - destruct (guard_append g a b) as [g' c]. destruct (guard_hit c).
    + injection E as <- <-. discriminate N.
    + exact (yields_with_guard _ m Q Hm _ _ _ E N).
  - exact (yields_with_guard _ m Q Hm _ _ _ E N).
Qed.

Lemma returns_ret A (x : A) : returns (ret x) x.
Proof. now apply yields_ret. Qed.
Lemma returns_bind A B (m : M A) (f : A -> M B) x y : returns m x -> (forall x, mono (f x)) ->
  returns (f x) y -> returns (bind m f) y.
Proof. intros Hm Hf H. apply (yields_bind m f (eq x)); auto. now intros ? <-. Qed.
Lemma returns_fresh A B (g : ptr -> A) (f : A -> M B) y : (forall x, mono (f x)) -> (forall p, returns (f (g p)) y) ->
  returns (bind (fresh g) f) y.
Proof.
  intros Hf H. apply (yields_bind _ f (fun x => returns (f x) y)); auto. now apply yields_fresh.
Qed.

Section World.
Variable W : world.

Lemma instn_mono n : forall fn t v, mono (instn W n fn t v).
Proof.
  induction n as [|n IH]; intros fn t v; cbn [instn]; [apply mono_fail|].
  destruct (deep_instance t); [destruct fn|].
  - apply mono_enter. apply mon_deep_instance; auto using mono_ret, mono_bind, mono_fresh, mono_fail.
  - now apply mono_with_guard.
  - apply mono_with_guard. apply mon_flat_instance; auto using mono_ret, mono_bind, mono_fresh, mono_fail.
Qed.

(* members of a type are well-formed *)
Lemma tuple_ok_node t : node_ok t -> tuple_ok t.
Proof. destruct t; cbn; auto. Qed.

Lemma ty_all_self P t : ty_all P t -> P t.
Proof. destruct t; cbn; intros [H _]; exact H. Qed.

Lemma gen_value_tuple_ok p v : ty_all tuple_ok (gen_value p v).
Proof.
  assert (C : forall l, Forall (ty_all tuple_ok) l -> ty_all tuple_ok (or_any (common gen_assignable TAny l))).
  { intros [|t r] H; [cbn; auto|]. cbn [common]. inversion H; subst.
    destruct (forallb _ _); cbn [or_any]; [assumption|cbn; auto]. }
  induction v as [ |x|x|x|x|x|s1 n1 z1|x|x IHx|l IHl|m IHm] using value_ind'; cbn [gen_value]; try (cbn; auto; fail).
  - split; [exact I|]. apply C. now apply Forall_map_iff.
  - rewrite Forall_forall in IHm.
    assert (K : ty_all tuple_ok (or_any (common gen_assignable TAny (map (fun e => gen_value p (fst e)) m)))).
    { apply C. apply Forall_map_iff, Forall_forall. intros e He. now apply IHm. }
    assert (V : ty_all tuple_ok (or_any (common gen_assignable TAny (map (fun e => gen_value p (snd e)) m)))).
    { apply C. apply Forall_map_iff, Forall_forall. intros e He. now apply IHm. }
    destruct (is_any _ && is_any _); cbn [ty_all]; [cbn; auto|]. split; [exact I|]. auto.
Qed.

Lemma type_of_tuple_ok p v : ty_all tuple_ok (type_of p v).
Proof. destruct v; try (cbn; auto; fail). cbn. split; [exact I|]. apply gen_value_tuple_ok. Qed.

Lemma member_tuple_ok u t : ty_all tuple_ok t -> member u t -> ty_all tuple_ok u.
Proof.
  destruct t as [ | | | |x y i| |x y i| | |x y|s|s|x y| | |p w|p t| |p e x y|p ts b| |p kt vt x y|p a es|p ts|p vs|p ts|p ts|p t|[t|]];
    cbn [ty_all member]; intros [_ H] Hu; try contradiction; subst; try assumption.
  - rewrite fold_and, Forall_forall in H. auto.
  - destruct H as [H1 H2], Hu as [->| ->]; assumption.
  - destruct Hu as (e & He & ->). rewrite fold_and, Forall_forall in H. exact (H e He).
  - rewrite fold_and, Forall_forall in H. auto.
  - destruct Hu as (q & v & Hv & ->). apply type_of_tuple_ok.
  - rewrite fold_and, Forall_forall in H. auto.
  - rewrite fold_and, Forall_forall in H. auto.
Qed.

(* without a hit, Instance returns what inst says, whatever the guard was *)
Theorem instn_returns n : forall fn t v, ty_all tuple_ok t -> returns (instn W n fn t v) (inst W t v).
Proof.
  induction n as [|n IH]; intros fn t v Ht; cbn [instn]; [apply yields_fail|].
  assert (HR : forall fn u x, member u t -> returns (instn W n fn u x) (inst W u x)).
  { intros. apply IH. now apply member_tuple_ok with t. }
  destruct (deep_instance t) eqn:D; [destruct fn|].
  - apply yields_enter. apply (is_deep_instance (@mono) (@returns));
      auto using mono_ret, mono_bind, mono_fresh, mono_fail, returns_ret, returns_fresh, instn_mono.
    + exact returns_bind. + now apply ty_all_self.
  - apply yields_with_guard. now apply IH.
  - apply yields_with_guard. apply (is_flat_instance (@mono) (@returns));
      auto using mono_ret, mono_bind, mono_fresh, mono_fail, returns_ret, returns_fresh, instn_mono.
    exact returns_bind.
Qed.

(* ---------- Instance never hits the guard on types that do not refer to themselves ---------- *)

(* the guard was made by Instance, or by the method Assignable, and the types seen so far are larger than k *)
Definition gok (k : nat) (s : st) : Prop :=
  match s_guard s with
  | None => True
  | Some g => seenInA g = false /\
      Forall (fun x => match x with NT t => (k < type_size t)%nat | _ => True end) (aSeen g)
  end.
Definition tot (k : nat) A (m : M A) (x : A) : Prop :=
  forall s, gok k s -> exists s', m s = Some (x, s') /\ gok k s' /\ s_hit s' = s_hit s.
Definition any_computation A (m : M A) : Prop := True.

Lemma tot_ret k A (x : A) : tot k A (ret x) x.
Proof. intros s H. exists s. auto. Qed.
Lemma tot_bind k A B (m : M A) (f : A -> M B) x y : tot k A m x -> (forall x, any_computation B (f x)) ->
  tot k B (f x) y -> tot k B (bind m f) y.
Proof.
  intros Hm _ Hf s H. destruct (Hm s H) as (s1 & E & G & N). destruct (Hf s1 G) as (s2 & E2 & G2 & N2).
  exists s2. unfold bind. rewrite E. repeat split; auto. congruence.
Qed.
Lemma tot_fresh k A B (g : ptr -> A) (f : A -> M B) y : (forall x, any_computation B (f x)) ->
  (forall p, tot k B (f (g p)) y) -> tot k B (bind (fresh g) f) y.
Proof. intros _ H s G. unfold bind, fresh. exact (H (s_next s) {| s_guard := s_guard s; s_next := S (s_next s); s_hit := s_hit s |} G). Qed.

Lemma member_size u t : member u t -> (type_size u < type_size t)%nat.
Proof.
  destruct t as [ | | | |x y i| |x y i| | |x y|s|s|x y| | |p w|p t| |p e x y|p ts b| |p kt vt x y|p a es|p ts|p vs|p ts|p ts|p t|[t|]];
    cbn [type_size member]; intros Hu; try contradiction; subst; try lia.
  - pose proof (list_sum_in type_size ts u Hu). lia.
  - destruct Hu as [->| ->]; lia.
  - destruct Hu as (e & He & ->).
    pose proof (list_sum_in (fun e => value_size (fst (fst e)) + type_size (snd (fst e)))%nat es e He) as E. cbn beta in E. lia.
  - pose proof (list_sum_in type_size ts u Hu). lia.
  - destruct Hu as (q & v & Hv & ->). pose proof (list_sum_in value_size vs v Hv). pose proof (type_of_size q v). lia.
  - pose proof (list_sum_in type_size ts u Hu). lia.
  - pose proof (list_sum_in type_size ts u Hu). lia.
Qed.

Lemma gok_le k k' s : (k' <= k)%nat -> gok k s -> gok k' s.
Proof.
  unfold gok. destruct (s_guard s) as [g|]; [|auto]. intros L [H1 H2]. split; [assumption|].
  eapply Forall_impl; [|exact H2]. intros [t|t|v]; auto. lia.
Qed.

Lemma same_type_eq a b : same_type a b = true <-> a = b.
Proof. unfold same_type. destruct (type_eq_dec a b); split; congruence. Qed.

Theorem instn_total n : forall (fn : bool) t v k, ty_all tuple_ok t -> (2 * type_size t <= n + (if fn then 1 else 0))%nat ->
  (fn = true -> type_size t <= k)%nat -> tot k bool (instn W n fn t v) (inst W t v).
Proof.
  assert (NIL : forall j k m r, tot j bool m r -> tot k bool (with_nil m) r).
  { intros j k m r H s G. destruct (H (set_guard s None) I) as (s' & E & _ & N).
    unfold with_nil, with_guard. rewrite E. eexists. split; [reflexivity|]. split; [exact G|exact N]. }
  induction n as [|n IH]; intros fn t v k Ht Hn Hk.
  { pose proof (type_size_pos t). destruct fn; lia. }
  assert (HR : forall j fn u x, (fn = true -> type_size u <= j)%nat -> member u t -> tot j bool (instn W n fn u x) (inst W u x)).
  { intros j fn' u x Hj Hu. pose proof (member_size u t Hu). apply IH; auto.
    - now apply member_tuple_ok with t.
    - destruct fn, fn'; lia. }
  cbn [instn]. destruct (deep_instance t) eqn:D; [destruct fn|].
  - specialize (Hk eq_refl).
    assert (B : forall j, (type_size t <= S j)%nat -> tot j bool (deep_instance_of (instn W n) t v) (inst W t v)).
    { intros j Hj. apply (is_deep_instance any_computation (tot j)); try (intros; exact I).
      - intros; apply tot_ret. - apply tot_bind. - apply tot_fresh.
      - now apply ty_all_self. - assumption.
      - intros fn u x Hu. apply HR; auto. intros _. pose proof (member_size u t Hu). lia. }
    intros s G. unfold enter. destruct (deep_value v); [|apply B; [lia|assumption]].
    pose proof (type_size_pos t) as Pt.
    destruct (s_guard s) as [g|] eqn:Eg.
    + unfold gok in G. rewrite Eg in G. destruct G as [G1 G2].
      assert (Hn' : recursion_hit (aSeen g) (NT t) = false).
      { unfold recursion_hit. destruct (existsb _ _) eqn:E; [|reflexivity]. apply existsb_exists in E as (x & Hx & E).
        rewrite Forall_forall in G2. specialize (G2 x Hx). destruct x as [u|u|u]; cbn in E; try discriminate.
        apply same_type_eq in E as <-. lia. }
      unfold guard_append. rewrite G1, Hn'. cbn [orb guard_hit seenInA andb].
      set (c := {| aSeen := aSeen g ++ _; bSeen := _; seenInA := _; seenInB := _ |}).
      set (g' := {| aSeen := aSeen g; bSeen := _; seenInA := _; seenInB := _ |}).
      destruct (B (pred (type_size t)) ltac:(lia) (set_guard (set_guard s (Some g')) (Some c))) as (s' & E & _ & N).
      { cbn. split; [reflexivity|]. apply Forall_app. split.
        - eapply Forall_impl; [|exact G2]. intros [u|u|u]; auto. lia.
        - constructor; [|constructor]. lia. }
      unfold with_guard. rewrite E. eexists. split; [reflexivity|]. split; [|exact N].
      cbn. split; [reflexivity|exact G2].
    + destruct (B (pred (type_size t)) ltac:(lia)
        (set_guard s (Some {| aSeen := [NT t]; bSeen := [NV v]; seenInA := false; seenInB := false |}))) as (s' & E & _ & N).
      { cbn. split; [reflexivity|]. constructor; [|constructor]. lia. }
      unfold with_guard. rewrite E. eexists. split; [reflexivity|]. split; [|exact N].
      unfold gok. cbn. now rewrite Eg.
  - apply (NIL (type_size t)). apply IH; auto. lia.
  - apply (NIL (type_size t)). apply (is_flat_instance any_computation (tot (type_size t))); try (intros; exact I).
    + intros; apply tot_ret. + apply tot_bind. + assumption.
    + intros fn' u x Hu. apply HR; auto. intros _. pose proof (member_size u t Hu). lia.
Qed.

Theorem instance_inst n p t v : ty_all tuple_ok t -> (2 * type_size t <= n)%nat ->
  instance W n p t v = Some (inst W t v).
Proof.
  intros Ht Hn. assert (Hn2 : (2 * type_size t <= n + 0)%nat) by lia.
  destruct (instn_total n false t v 0%nat Ht Hn2 ltac:(discriminate) (start p) I) as (s1 & E & _).
  unfold instance. now rewrite E.
Qed.
End World.
