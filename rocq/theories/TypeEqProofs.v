(* Equals of types: the bound of the model suffices, and Equals is an equivalence on types built by the
   constructors from values without sensitive ones. *)
From Coq Require Import ZArith List Bool Lia Permutation.
From Coq Require Import Floats.SpecFloat.
From Verif Require Import Int64 HMap Data DataSpec DataProofs Arr ArrSpec ArrProofs Types TypesSpec TypeEqSpec Assign InstProofs GuardProofs SemProofs EqProofs.
Import ListNotations.
Open Scope Z_scope.

Section SameValues.
Context {A : Type}.
Variables eq eq' : A -> A -> bool.

Lemma strike_ext x vs : (forall y, In (Some y) vs -> eq y x = eq' y x) -> strike A eq x vs = strike A eq' x vs.
Proof.
  induction vs as [|[y|] r IH]; intros H; cbn [strike]; [reflexivity| |].
  - rewrite (H y) by now left. rewrite IH by (intros; apply H; now right). reflexivity.
  - rewrite IH by (intros; apply H; now right). reflexivity.
Qed.

Lemma strike_in x vs vs' y : strike A eq' x vs = Some vs' -> In (Some y) vs' -> In (Some y) vs.
Proof.
  revert vs'. induction vs as [|[z|] r IH]; intros vs'; cbn [strike]; [discriminate| |].
  - destruct (eq' z x); [intros E; injection E as <-; intros [D|H]; [discriminate|now right]|].
    destruct (strike A eq' x r) as [r'|]; [|discriminate]. intros E; injection E as <-. intros [->|H]; [now left|right; eauto].
  - destruct (strike A eq' x r) as [r'|]; [|discriminate]. intros E; injection E as <-. intros [D|H]; [discriminate|right; eauto].
Qed.

Lemma contains_loop_ext n : forall a vs, (forall x y, In x a -> In (Some y) vs -> eq y x = eq' y x) ->
  contains_loop A eq n a vs = contains_loop A eq' n a vs.
Proof.
  induction n as [|n IH]; intros [|x a] vs H; cbn [contains_loop]; try reflexivity.
  rewrite (strike_ext x vs) by (intros; apply H; auto; now left).
  destruct (strike A eq' x vs) as [vs'|] eqn:E; [|reflexivity]. apply IH. intros u y Hu Hy. apply H; [now right|]. eapply strike_in; eauto.
Qed.

Lemma same_values_ext a b : (forall x y, In x a -> In y b -> eq y x = eq' y x) -> same_values A eq a b = same_values A eq' a b.
Proof.
  intros H. unfold same_values, contains_all. destruct (length a =? length b)%nat; [|reflexivity]. destruct (_ <? _)%nat; [reflexivity|].
  destruct a as [|x a]; [reflexivity|]. apply contains_loop_ext. intros u y Hu Hy. apply H; [exact Hu|].
  apply in_map_iff in Hy as (z & E & Hz). injection E as ->. exact Hz.
Qed.
End SameValues.

Lemma same_values_refl {A} (eq : A -> A -> bool) l : (forall x, In x l -> eq x x = true) -> same_values A eq l l = Some true.
Proof.
  intros H. unfold same_values, contains_all. rewrite Nat.eqb_refl, Nat.ltb_irrefl.
  assert (G : forall k l, (forall x, In x l -> eq x x = true) -> contains_loop A eq (length l) l (repeat None k ++ map Some l) = Some true).
  { clear l H. intros k l. revert k. induction l as [|x r IH]; intros k H; cbn [contains_loop length map]; [reflexivity|].
    assert (E : strike A eq x (repeat None k ++ Some x :: map Some r) = Some (repeat None k ++ None :: map Some r)).
    { induction k as [|k IHk]; cbn [repeat app strike]; [now rewrite (H x (or_introl eq_refl))|]. now rewrite IHk. }
    rewrite E. replace (repeat None k ++ None :: map Some r) with (repeat (@None A) (S k) ++ map Some r).
    - apply IH. intros; apply H; now right.
    - cbn [repeat]. clear. induction k as [|k IHk]; cbn; [reflexivity|]. now rewrite <- IHk. }
  destruct l as [|x l]; [reflexivity|]. exact (G O (x :: l) H).
Qed.

Lemma pairwise_ext {A B} (f g : A -> B -> bool) l : forall l', (forall x y, In x l -> In y l' -> f x y = g x y) -> pairwise f l l' = pairwise g l l'.
Proof.
  induction l as [|x r IH]; intros [|y r'] H; cbn [pairwise]; try reflexivity.
  rewrite (H x y) by now left. f_equal. apply IH. intros; apply H; now right.
Qed.

Lemma pairwise_refl {A} (f : A -> A -> bool) l : (forall x, In x l -> f x x = true) -> pairwise f l l = true.
Proof. induction l as [|x r IH]; intros H; cbn [pairwise]; [reflexivity|]. rewrite (H x) by now left. apply IH. intros; apply H; now right. Qed.

Lemma In_size t ts : In t ts -> (type_size t <= list_sum (map type_size ts))%nat.
Proof. apply list_sum_in'. Qed.
Lemma In_vsize v vs : In v vs -> (value_size v <= list_sum (map value_size vs))%nat.
Proof. apply list_sum_in'. Qed.

(* the depth of the recursion is at most the sum of the sizes *)
Theorem teqn_enough n : forall m a b, (type_size a + type_size b <= n)%nat -> (type_size a + type_size b <= m)%nat -> teqn n a b = teqn m a b.
Proof.
  induction n as [|n IH]; intros m a b Hn Hm.
  { pose proof (type_size_pos a). lia. }
  destruct m as [|m]. { pose proof (type_size_pos a). lia. }
  assert (SV : forall ts ts', (forall x y, In x ts -> In y ts' -> (type_size y + type_size x < type_size a + type_size b)%nat) ->
    same_values ty (teqn n) ts ts' = same_values ty (teqn m) ts ts').
  { intros ts ts' H. apply same_values_ext. intros x y Hx Hy. specialize (H x y Hx Hy). apply IH; lia. }
  assert (TV : forall t vs, In t (map (type_of 0%nat) vs) -> (type_size t <= list_sum (map value_size vs))%nat).
  { intros t vs H. apply in_map_iff in H as (v & <- & Hv). apply In_vsize in Hv. pose proof (type_of_size 0%nat v). lia. }
  destruct a as [ | | | |x y i| |x y i| | |x y|s|s|x y| | |p w|p t| |p e x y|p ts b0| |p kt vt x y|p a es|p ts|p vs|p ts|p ts|p t|[t|]];
    destruct b as [ | | | |x' y' i'| |x' y' i'| | |x' y'|s'|s'|x' y'| | |p' w'|p' t'| |p' e' x' y'|p' ts' b'| |p' kt' vt' x' y'|p' a' es'|p' ts'|p' vs'|p' ts'|p' ts'|p' t'|[t'|]];
    try reflexivity; cbn [teqn]; try (destruct w'; reflexivity); cbn [type_size] in Hn, Hm, SV.
  - apply IH; lia.
  - f_equal. apply IH; lia.
  - destruct w'; try reflexivity. f_equal. apply pairwise_ext. intros t z Ht Hz. cbn [value_size] in Hn, Hm. apply In_size in Ht. apply In_vsize in Hz.
    pose proof (type_of_size 0%nat z). apply IH; lia.
  - f_equal. apply pairwise_ext. intros t t' Ht Ht'. apply In_size in Ht, Ht'. apply IH; lia.
  - pose proof (type_size_pos kt). pose proof (type_size_pos vt). f_equal; [f_equal|]; apply IH; lia.
  - f_equal. apply pairwise_ext. intros e e' He He'.
    apply (list_sum_in' (fun e => value_size (fst (fst e)) + type_size (snd (fst e)))%nat) in He, He'. apply IH; lia.
  - f_equal. apply SV. intros u w Hu Hw. apply In_size in Hu, Hw. lia.
  - f_equal. apply SV. intros u w Hu Hw. apply In_size in Hu. apply TV in Hw. lia.
  - f_equal. apply SV. intros u w Hu Hw. apply In_size in Hu. apply TV in Hw. lia.
  - f_equal. apply SV. intros u w Hu Hw. apply In_size in Hu, Hw. lia.
  - f_equal. apply SV. intros u w Hu Hw. apply In_size in Hu, Hw. lia.
  - apply IH; lia.
  - apply IH; lia.
Qed.

Corollary type_eq_any_depth n a b : (type_size a + type_size b <= n)%nat -> teqn n a b = type_eq a b.
Proof. intros H. unfold type_eq. apply teqn_enough; lia. Qed.

Lemma SFeqb_refl x : x <> S754_nan -> SFeqb x x = true.
Proof. intros H. now apply SFeqb_key. Qed.
Lemma bytes_eqb_refl l : bytes_eqb l l = true.
Proof. induction l as [|x r IH]; cbn; [reflexivity|]. now rewrite Z.eqb_refl. Qed.
Lemma bools_eqb_refl l : bools_eqb l l = true.
Proof. induction l as [|[] r IH]; cbn; auto. Qed.

(* ---------- an equivalence ---------- *)

Lemma type_of_nice p v : wf v -> no_sens v = true -> nice (type_of p v).
Proof.
  intros H N. split; [now apply type_of_type_ok|]. split; [now apply type_of_plain|].
  destruct v; try discriminate; split; exact Logic.I.
Qed.

Lemma teqn_of_value n : forall t x, proper_tuples t -> teqn n t (type_of 0%nat x) = true -> of_value t = true.
Proof.
  induction n as [|n IH]; intros t x Pt H; [discriminate|].
  destruct x; cbn [type_of] in H; destruct t as [ | | | |x' y i| |x' y i| | |x' y|s'|s'|x' y| | |p w|p t| |p e x' y|p ts b0| |p kt vt x' y|p a es|p ts|p vs|p ts|p ts|p t|[t|]];
    try discriminate H; try reflexivity.
  exfalso. cbn [teqn] in H. destruct Pt as [Pn Pt]. cbn in Pn. apply fold_and in Pt. apply andb_true_iff in H as [H1 H2].
  apply negb_true_iff in H1 as ->. destruct Pn as [Pn|Pn]; [discriminate|].
  assert (E : forallb of_value ts = true); [|congruence]. clear Pn.
  revert l H2. induction Pt as [|t r Pt Pr IHr]; intros [|x l] H2; cbn in *; try discriminate; [reflexivity|].
  apply andb_true_iff in H2 as [H2 H3]. rewrite (IH t x) by auto. exact (IHr l H3).
Qed.

Lemma tuple_not_exact n p ts b q v : proper_tuples (TTuple p ts b) -> teqn n (TTuple p ts b) (TExact q v) = false.
Proof.
  intros P. destruct (teqn n (TTuple p ts b) (TExact q v)) eqn:E; [|reflexivity]. destruct n; [discriminate|].
  destruct v; try discriminate E. pose proof (teqn_of_value (S n) (TTuple p ts b) (VArr l) P) as H. cbn [type_of] in H. specialize (H E). discriminate.
Qed.

Lemma nice_list p ts : nice (TAllOf p ts) <-> Forall nice ts.
Proof.
  split.
  - intros ((_ & A) & (_ & B) & _ & C). apply fold_and in A, B, C. rewrite Forall_forall in *. intros x Hx.
    split; [exact (A x Hx)|split; [exact (B x Hx)|exact (C x Hx)]].
  - intros H. rewrite Forall_forall in H. split; [|split]; (split; [exact Logic.I|]); apply fold_and, Forall_forall; intros x Hx; now apply H.
Qed.

Lemma pairwise_sym {A} (P : A -> Prop) (f : A -> A -> bool) : (forall a b, P a -> P b -> f a b = true -> f b a = true) ->
  forall l l', Forall P l -> Forall P l' -> pairwise f l l' = true -> pairwise f l' l = true.
Proof.
  intros H l. induction l as [|x r IH]; intros [|y r'] Hl Hl' E; cbn in *; try discriminate; [reflexivity|].
  apply andb_true_iff in E as [E1 E2]. inversion Hl; inversion Hl'; subst. rewrite (H x y); auto. cbn. now apply IH.
Qed.
Lemma pairwise_trans {A} (P : A -> Prop) (f : A -> A -> bool) : (forall a b c, P a -> P b -> P c -> f a b = true -> f b c = true -> f a c = true) ->
  forall l l' l'', Forall P l -> Forall P l' -> Forall P l'' -> pairwise f l l' = true -> pairwise f l' l'' = true -> pairwise f l l'' = true.
Proof.
  intros H l. induction l as [|x r IH]; intros [|y r'] [|z r''] Hl Hl' Hl'' E E'; cbn in *; try discriminate; [reflexivity|].
  apply andb_true_iff in E as [E1 E2]. apply andb_true_iff in E' as [E3 E4]. inversion Hl; inversion Hl'; inversion Hl''; subst.
  rewrite (H x y z); auto. cbn. now apply IH with r'.
Qed.

Section Multiset.
Context {A : Type} (P : A -> Prop) (eq : A -> A -> bool).
Hypothesis r : forall a, P a -> eq a a = true.
Hypothesis s : forall a b, P a -> P b -> eq a b = true -> eq b a = true.
Hypothesis t : forall a b c, P a -> P b -> P c -> eq a b = true -> eq b c = true -> eq a c = true.

Lemma sv_iff a b : Forall P a -> Forall P b -> (bool_or_false (same_values A eq a b) = true <-> same_multiset A eq a b).
Proof.
  intros Ha Hb. destruct (same_values_correct A eq P r s t a b Ha Hb) as (x & E & H). rewrite E. cbn. exact H.
Qed.
Lemma sv_sym a b : Forall P a -> Forall P b -> bool_or_false (same_values A eq a b) = true -> bool_or_false (same_values A eq b a) = true.
Proof.
  intros Ha Hb H. apply sv_iff in H; auto. apply sv_iff; auto. destruct H as (a' & Hp & Hf).
  assert (Hs : Forall2 (fun x y => eq x y = true) b a').
  { assert (Ha' : Forall P a') by now rewrite <- Hp. rewrite Forall_forall in Ha', Hb. clear -Hf Ha' Hb s. induction Hf; constructor.
    - apply s; auto; [apply Ha'|apply Hb]; now left.
    - apply IHHf; intros z Hz; first [apply Ha'; now right|apply Hb; now right]. }
  assert (Hs' : Forall2 (fun x y => eq y x = true) a' b) by (clear -Hs; induction Hs; constructor; auto).
  destruct (Permutation_Forall2 (Permutation_sym Hp) Hs') as (b' & Pb & Fb). exists b'. split; [exact Pb|].
  clear -Fb. induction Fb; constructor; auto.
Qed.
Lemma sv_trans a b c : Forall P a -> Forall P b -> Forall P c -> bool_or_false (same_values A eq a b) = true ->
  bool_or_false (same_values A eq b c) = true -> bool_or_false (same_values A eq a c) = true.
Proof.
  intros Ha Hb Hc H H'. apply sv_iff in H; auto. apply sv_iff in H'; auto. apply sv_iff; auto.
  destruct H as (a' & Pa & Fa), H' as (b' & Pb & Fb).
  assert (Fa' : Forall2 (fun x y => eq y x = true) b a') by (clear -Fa; induction Fa; constructor; auto).
  destruct (Permutation_Forall2 Pb Fa') as (a2 & P2 & F2). exists a2. split; [now rewrite Pa|].
  assert (Q1 : Forall P a2) by now rewrite <- P2, <- Pa. assert (Q2 : Forall P b') by now rewrite <- Pb.
  clear -F2 Fb Q1 Q2 Hc t. revert c Fb Hc. induction F2 as [|x y l l' E F IH]; intros c Fb Hc; inversion Fb; subst; constructor.
  - inversion Q1; inversion Q2; inversion Hc; subst. eapply t; [| | |exact E|]; auto.
  - inversion Q1; inversion Q2; inversion Hc; subst. apply IH; auto.
Qed.
End Multiset.

Lemma list_size_le n ts : (list_sum (map type_size ts) <= n)%nat -> Forall (fun t => (type_size t <= n)%nat) ts.
Proof. intros H. apply Forall_forall. intros t Ht. apply In_size in Ht. lia. Qed.

Definition upto (n : nat) (t : ty) : Prop := nice t /\ (type_size t <= n)%nat.

(* the types of plain values are equal exactly when the values are *)
Lemma teqn_type_of n x y : no_sens x = true -> no_sens y = true -> teqn (S n) (type_of 0%nat x) (type_of 0%nat y) = veq x y.
Proof. intros Hx Hy. destruct x; try discriminate; destruct y; try discriminate; reflexivity. Qed.

Lemma nice_upto n p ts : nice (TAllOf p ts) -> (type_size (TAllOf p ts) <= S n)%nat -> Forall (upto n) ts.
Proof.
  intros H L. apply nice_list in H. cbn [type_size] in L. rewrite Forall_forall in *. intros t Ht. split; [auto|]. apply In_size in Ht. lia.
Qed.

Definition members (t : ty) : list ty :=
  match t with
  | TAllOf _ ts | TAnyOf _ ts | TOneOf _ ts => ts
  | TAllOfValue _ vs => map (type_of 0%nat) vs
  | TTuple _ ts _ => ts
  | TStruct _ _ es => map (fun e => snd (fst e)) es
  | TSens _ t | TArrSized _ t _ _ | TNot _ t | TMeta (Some t) => [t]
  | TMapSized _ k v _ _ => [k; v]
  | _ => []
  end.

Lemma values_upto n vs : Forall wf vs -> forallb no_sens vs = true -> (list_sum (map value_size vs) <= n)%nat -> Forall (upto n) (map (type_of 0%nat) vs).
Proof.
  intros W N L. rewrite Forall_map_iff. rewrite Forall_forall in *. rewrite forallb_forall in N. intros v Hv. split; [apply type_of_nice; auto|].
  pose proof (type_of_size 0%nat v). apply In_vsize in Hv. lia.
Qed.

Lemma members_upto n a : upto (S n) a -> Forall (upto n) (members a).
Proof.
  intros [(O & Pl & Pt) L]. unfold type_ok in O. unfold plain in Pl. unfold proper_tuples in Pt.
  assert (ONE : forall t, ty_all node_ok t -> ty_all plain_node t -> ty_all proper_node t -> (type_size t <= n)%nat -> upto n t).
  { intros t A B C D. split; [split; [exact A|split; [exact B|exact C]]|exact D]. }
  assert (LL : forall ts, Forall (ty_all node_ok) ts -> Forall (ty_all plain_node) ts -> Forall (ty_all proper_node) ts -> (list_sum (map type_size ts) <= n)%nat -> Forall (upto n) ts).
  { intros ts A B C D. rewrite Forall_forall in *. intros t Ht. apply ONE; auto. apply In_size in Ht. lia. }
  destruct a as [ | | | |x y i| |x y i| | |x y|s|s|x y| | |p w|p t| |p e x y|p ts b0| |p kt vt x y|p a es|p ts|p vs|p ts|p ts|p t|[t|]]; cbn [members]; try apply Forall_nil;
    cbn [ty_all] in O, Pl, Pt; cbn [type_size] in L; destruct O as [On O], Pl as [Pn Pl], Pt as [Qn Pt];
    try (apply Forall_cons; [apply ONE; auto; lia|apply Forall_nil]); try (apply fold_and in O, Pl, Pt; apply LL; auto; lia).
  - destruct O, Pl, Pt. apply Forall_cons; [|apply Forall_cons; [|apply Forall_nil]]; apply ONE; auto; lia.
  - apply (fold_and (fun e => ty_all node_ok (snd (fst e)))) in O. apply (fold_and (fun e => ty_all plain_node (snd (fst e)))) in Pl.
    apply (fold_and (fun e => ty_all proper_node (snd (fst e)))) in Pt. apply LL; try (apply Forall_map_iff; assumption).
    assert (Q : (list_sum (map type_size (map (fun e : value * ty * bool => snd (fst e)) es)) <= list_sum (map (fun e : value * ty * bool => value_size (fst (fst e)) + type_size (snd (fst e))) es))%nat).
    { clear. induction es as [|e r IH]; [cbn; lia|]. rewrite !map_cons, !list_sum_cons. lia. }
    lia.
  - apply values_upto; auto. lia.
Qed.

Lemma pairwise_map2 {A B} (f : B -> B -> bool) (g : A -> B) l : forall l', pairwise (fun x y => f (g x) (g y)) l l' = pairwise f (map g l) (map g l').
Proof. induction l as [|x r IH]; intros [|y r']; cbn; auto. now rewrite IH. Qed.

Lemma bools_eqb_iff a b : bools_eqb a b = true <-> a = b.
Proof. split; [apply bools_eqb_eq|intros ->; apply bools_eqb_refl]. Qed.

Lemma same_values_map {A B} (g : A -> B) eq eq' a b : (forall x y, In x a -> In y b -> eq' (g y) (g x) = eq y x) ->
  same_values A eq a b = same_values B eq' (map g a) (map g b).
Proof.
  intros H. unfold same_values, contains_all. rewrite !map_length. destruct (length a =? length b)%nat; [|reflexivity].
  destruct (_ <? _)%nat; [reflexivity|].
  assert (ST : forall x vs, (forall y, In (Some y) vs -> eq' (g y) (g x) = eq y x) ->
     strike B eq' (g x) (map (option_map g) vs) = option_map (map (option_map g)) (strike A eq x vs)).
  { intros x vs. induction vs as [|[y|] r IH]; intros E; cbn [map option_map strike]; [reflexivity| |].
    - rewrite (E y) by now left. destruct (eq y x); [reflexivity|]. rewrite IH by (intros; apply E; now right). destruct (strike A eq x r); reflexivity.
    - rewrite IH by (intros; apply E; now right). destruct (strike A eq x r); reflexivity. }
  assert (LO : forall n a vs, (forall x y, In x a -> In (Some y) vs -> eq' (g y) (g x) = eq y x) ->
     contains_loop A eq n a vs = contains_loop B eq' n (map g a) (map (option_map g) vs)).
  { clear H. clear a b. intros n. induction n as [|n IH]; intros [|x a] vs E; cbn [contains_loop map]; try reflexivity.
    rewrite ST by (intros; apply E; auto; now left). destruct (strike A eq x vs) as [vs'|] eqn:F; cbn [option_map]; [|reflexivity].
    apply IH. intros u y Hu Hy. apply E; [now right|]. eapply strike_in; eauto. }
  destruct a as [|x a]; [reflexivity|]. cbn [map]. change (g x :: map g a) with (map g (x :: a)). rewrite map_map.
  replace (map (fun x => Some (g x)) b) with (map (option_map g) (map Some b)) by (rewrite map_map; reflexivity).
  apply LO. intros u y Hu Hy. apply H; [exact Hu|]. apply in_map_iff in Hy as (z & E & Hz). now injection E as ->.
Qed.

Ltac bools := repeat match goal with H : _ && _ = true |- _ => apply andb_true_iff in H as [? ?] end.

(* on types up to some size teqn with sufficient fuel is an equivalence *)
Theorem teqn_equivalence n : forall k, (2 * n <= k)%nat -> equivalence (upto n) (teqn k).
Proof.
  induction n as [|n IH]; intros k Hk.
  { unfold equivalence, upto. repeat split; intros a; pose proof (type_size_pos a); intros; lia. }
  destruct k as [|[|k]]; try lia. set (k1 := S k). destruct (IH k1 ltac:(lia)) as (R & Sy & T). clear IH.
  assert (AV : forall vs p, upto (S n) (TAllOfValue p vs) -> Forall wf vs /\ forallb no_sens vs = true).
  { intros vs p [((On & _) & (Pn & _) & _) _]. auto. }
  assert (AV2 : forall vs ws, forallb no_sens vs = true -> forallb no_sens ws = true ->
     same_values value veq vs ws = same_values ty (teqn k1) (map (type_of 0%nat) vs) (map (type_of 0%nat) ws)).
  { intros vs ws Hv Hw. rewrite forallb_forall in *. apply same_values_map. intros x y Hx Hy. unfold k1. apply teqn_type_of; auto. }
  (* all cases of AllOf and AllOfValue compare the members *)
  assert (EX : forall a v q, upto (S n) a -> (exists p ts b, a = TTuple p ts b) -> teqn (S k1) a (TExact q v) = false).
  { intros a v q [(_ & _ & Pt) _] (p & ts & b & ->). now apply tuple_not_exact. }
  clear Hk. clearbody k1. clear k.
  assert (KEYS : forall es es' : list (value * ty * bool), pairwise (fun e e' => veq (fst (fst e)) (fst (fst e'))) es es' = pairwise veq (map (fun e => fst (fst e)) es) (map (fun e => fst (fst e)) es')).
  { intros. exact (pairwise_map2 veq (fun e : value * ty * bool => fst (fst e)) es es'). }
  assert (VALS : forall es es' : list (value * ty * bool), pairwise (fun e e' => teqn k1 (snd (fst e)) (snd (fst e'))) es es' = pairwise (teqn k1) (map (fun e => snd (fst e)) es) (map (fun e => snd (fst e)) es')).
  { intros. exact (pairwise_map2 (teqn k1) (fun e : value * ty * bool => snd (fst e)) es es'). }
  split; [|split].
  - intros a Ua. pose proof (members_upto n a Ua) as M. destruct Ua as [(On & Pl & _) L]. apply ty_all_self in On, Pl.
    destruct a as [ | | | |x y i| |x y i| | |x y|s|s|x y| | |p w|p t| |p e x y|p ts b0| |p kt vt x y|p a es|p ts|p vs|p ts|p ts|p t|[t|]];
      cbn [teqn members node_ok] in *; try reflexivity; rewrite ?Z.eqb_refl, ?Bool.eqb_reflx, ?bytes_eqb_refl, ?bools_eqb_refl; cbn [andb]; try reflexivity;
      try (inversion M; subst; apply R; assumption); try (rewrite same_values_refl; [reflexivity|]; intros u Hu; rewrite Forall_forall in M; now apply R, M).
    + destruct On. now rewrite !SFeqb_refl.
    + now apply veq_refl.
    + apply pairwise_refl. rewrite Forall_forall in M. auto.
    + inversion M as [|? ? M1 M2]; inversion M2; subst. now rewrite !R.
    + destruct On as [On _]. rewrite Forall_forall in On, M.
      rewrite !pairwise_refl; [reflexivity| |]; intros e He; [|apply veq_refl; auto]. apply R, M. apply in_map_iff. exists e. auto.
    + rewrite same_values_refl; [reflexivity|]. intros u Hu. apply veq_refl. rewrite Forall_forall in On. auto.
  - intros a b Ua Ub H. pose proof (members_upto n a Ua) as Ma. pose proof (members_upto n b Ub) as Mb.
    destruct a as [ | | | |x y i| |x y i| | |x y|s|s|x y| | |p w|p t| |p e x y|p ts b0| |p kt vt x y|p a es|p ts|p vs|p ts|p ts|p t|[t|]];
    destruct b as [ | | | |x' y' i'| |x' y' i'| | |x' y'|s'|s'|x' y'| | |p' w'|p' t'| |p' e' x' y'|p' ts' b'| |p' kt' vt' x' y'|p' a' es'|p' ts'|p' vs'|p' ts'|p' ts'|p' t'|[t'|]];
    try discriminate H; try reflexivity; try (rewrite EX in H by eauto; discriminate H); cbn [teqn members] in *.
    + bools. apply Z.eqb_eq in H as ->. apply Z.eqb_eq in H1 as ->. apply eqb_prop in H0 as ->. now rewrite !Z.eqb_refl, Bool.eqb_reflx.
    + bools. apply eqb_prop in H0 as ->. rewrite Bool.eqb_reflx, andb_true_r. destruct Ua as [((Na & _) & _) _], Ub as [((Nb & _) & _) _]. cbn in Na, Nb.
      destruct Na, Nb. rewrite SFeqb_key in * by assumption. apply andb_true_iff. rewrite !SFeqb_key by assumption. auto.
    + bools. apply Z.eqb_eq in H as ->. apply Z.eqb_eq in H0 as ->. now rewrite !Z.eqb_refl.
    + apply bytes_eqb_eq in H as ->. apply bytes_eqb_refl.
    + apply bytes_eqb_eq in H as ->. apply bytes_eqb_refl.
    + bools. apply Z.eqb_eq in H as ->. apply Z.eqb_eq in H0 as ->. now rewrite !Z.eqb_refl.
    + destruct Ua as [((Na & _) & _) _], Ub as [((Nb & _) & _) _]. now apply veq_sym.
    + inversion Ma; inversion Mb; subst. auto.
    + bools. apply Z.eqb_eq in H as ->. apply Z.eqb_eq in H1 as ->. rewrite !Z.eqb_refl. inversion Ma; inversion Mb; subst. cbn. auto.
    + bools. apply eqb_prop in H as ->. rewrite Bool.eqb_reflx. cbn. eapply pairwise_sym; [exact Sy| | |]; auto.
    + bools. apply Z.eqb_eq in H as ->. apply Z.eqb_eq in H2 as ->. rewrite !Z.eqb_refl.
      inversion Ma as [|? ? Ma1 Ma2]; inversion Mb as [|? ? Mb1 Mb2]; inversion Ma2; inversion Mb2; subst. cbn. rewrite !Sy; auto.
    + bools. apply eqb_prop in H as ->. rewrite Bool.eqb_reflx. apply bools_eqb_eq in H2 as E. rewrite E, bools_eqb_refl. cbn [andb].
      destruct Ua as [((Na & _) & _) _], Ub as [((Nb & _) & _) _]. cbn in Na, Nb. destruct Na as [Na _], Nb as [Nb _].
      rewrite (KEYS es es') in *. rewrite (KEYS es' es) in *. rewrite (VALS es es') in *. rewrite (VALS es' es) in *.
      apply andb_true_iff. split.
      * eapply pairwise_sym; [exact veq_sym| | |exact H1]; now apply Forall_map_iff.
      * eapply pairwise_sym; [exact Sy| | |exact H0]; auto.
    + now apply (sv_sym _ _ R Sy T).
    + exact H.
    + exact H.
    + destruct (AV _ _ Ua), (AV _ _ Ub). rewrite AV2 in * by auto. now apply (sv_sym _ _ R Sy T).
    + now apply (sv_sym _ _ R Sy T).
    + now apply (sv_sym _ _ R Sy T).
    + inversion Ma; inversion Mb; subst. auto.
    + inversion Ma; inversion Mb; subst. auto.
  - intros a b c Ua Ub Uc H H'. pose proof (members_upto n a Ua) as Ma. pose proof (members_upto n b Ub) as Mb. pose proof (members_upto n c Uc) as Mc.
    destruct a as [ | | | |x y i| |x y i| | |x y|s|s|x y| | |p w|p t| |p e x y|p ts b0| |p kt vt x y|p a es|p ts|p vs|p ts|p ts|p t|[t|]];
    destruct b as [ | | | |x' y' i'| |x' y' i'| | |x' y'|s'|s'|x' y'| | |p' w'|p' t'| |p' e' x' y'|p' ts' b'| |p' kt' vt' x' y'|p' a' es'|p' ts'|p' vs'|p' ts'|p' ts'|p' t'|[t'|]];
    try discriminate H; try (rewrite EX in H by eauto; discriminate H);
    destruct c as [ | | | |x2 y2 i2| |x2 y2 i2| | |x2 y2|s2|s2|x2 y2| | |p2 w2|p2 t2| |p2 e2 x2 y2|p2 ts2 b2| |p2 kt2 vt2 x2 y2|p2 a2 es2|p2 ts2|p2 vs2|p2 ts2|p2 ts2|p2 t2|[t2|]];
    try discriminate H'; try (rewrite EX in H' by eauto; discriminate H'); try reflexivity; cbn [teqn members] in *.
    + bools. repeat match goal with H : _ =? _ = true |- _ => apply Z.eqb_eq in H as -> | H : Bool.eqb _ _ = true |- _ => apply eqb_prop in H as -> end. now rewrite !Z.eqb_refl, Bool.eqb_reflx.
    + bools. repeat match goal with H : Bool.eqb _ _ = true |- _ => apply eqb_prop in H as -> end. rewrite Bool.eqb_reflx, andb_true_r.
      destruct Ua as [((Na & _) & _) _], Ub as [((Nb & _) & _) _], Uc as [((Nc & _) & _) _]. cbn in Na, Nb, Nc. destruct Na, Nb, Nc.
      repeat match goal with H : SFeqb _ _ = true |- _ => rewrite SFeqb_key in H by assumption end. apply andb_true_iff. rewrite !SFeqb_key by assumption. split; congruence.
    + bools. repeat match goal with H : _ =? _ = true |- _ => apply Z.eqb_eq in H as -> end. now rewrite !Z.eqb_refl.
    + apply bytes_eqb_eq in H as ->. exact H'.
    + apply bytes_eqb_eq in H as ->. exact H'.
    + bools. repeat match goal with H : _ =? _ = true |- _ => apply Z.eqb_eq in H as -> end. now rewrite !Z.eqb_refl.
    + destruct Ua as [((Na & _) & _) _], Ub as [((Nb & _) & _) _], Uc as [((Nc & _) & _) _]. now apply veq_trans with w'.
    + inversion Ma; inversion Mb; inversion Mc; subst. eauto.
    + bools. repeat match goal with H : _ =? _ = true |- _ => apply Z.eqb_eq in H as -> end. rewrite !Z.eqb_refl. inversion Ma; inversion Mb; inversion Mc; subst. cbn. eauto.
    + bools. repeat match goal with H : Bool.eqb _ _ = true |- _ => apply eqb_prop in H as -> end. rewrite Bool.eqb_reflx. cbn. eapply pairwise_trans; [exact T| | | | |]; [exact Ma|exact Mb|exact Mc|assumption|assumption].
    + bools. repeat match goal with H : _ =? _ = true |- _ => apply Z.eqb_eq in H as -> end. rewrite !Z.eqb_refl.
      inversion Ma as [|? ? Ma1 Ma2]; inversion Mb as [|? ? Mb1 Mb2]; inversion Mc as [|? ? Mc1 Mc2]; inversion Ma2; inversion Mb2; inversion Mc2; subst. cbn.
      rewrite (T kt kt' kt2), (T vt vt' vt2); auto.
    + bools. repeat match goal with H : Bool.eqb _ _ = true |- _ => apply eqb_prop in H as -> end. rewrite Bool.eqb_reflx.
      match goal with H : bools_eqb (map snd es) _ = true, H2 : bools_eqb (map snd es') _ = true |- _ => apply bools_eqb_eq in H, H2; rewrite H, H2, bools_eqb_refl end. cbn [andb].
      destruct Ua as [((Na & _) & _) _], Ub as [((Nb & _) & _) _], Uc as [((Nc & _) & _) _]. cbn in Na, Nb, Nc. destruct Na as [Na _], Nb as [Nb _], Nc as [Nc _].
      rewrite (KEYS es es'), (KEYS es' es2), (VALS es es'), (VALS es' es2) in *. rewrite (KEYS es es2), (VALS es es2).
      apply andb_true_iff. split.
      * eapply pairwise_trans with (l' := map (fun e => fst (fst e)) es'); [exact veq_trans| | | | |]; try assumption; now apply Forall_map_iff.
      * eapply pairwise_trans with (l' := map (fun e => snd (fst e)) es'); [exact T| | | | |]; assumption.
    + apply (sv_trans _ _ R Sy T) with ts'; auto.
    + apply (sv_trans _ _ R Sy T) with ts'; auto.
    + apply (sv_trans _ _ R Sy T) with (map (type_of 0%nat) vs'); auto. now apply (sv_sym _ _ R Sy T).
    + destruct (AV _ _ Ub), (AV _ _ Uc). rewrite AV2 in H' by auto. apply (sv_trans _ _ R Sy T) with (map (type_of 0%nat) vs'); auto.
    + apply (sv_sym _ _ R Sy T); auto. apply (sv_trans _ _ R Sy T) with ts'; auto. apply (sv_sym _ _ R Sy T); auto.
    + destruct (AV _ _ Ua), (AV _ _ Uc). rewrite AV2 by auto. apply (sv_trans _ _ R Sy T) with ts'; auto. now apply (sv_sym _ _ R Sy T).
    + destruct (AV _ _ Ua), (AV _ _ Ub). rewrite AV2 in H by auto. apply (sv_sym _ _ R Sy T) in H; auto. apply (sv_trans _ _ R Sy T) with (map (type_of 0%nat) vs'); auto.
    + destruct (AV _ _ Ua), (AV _ _ Ub), (AV _ _ Uc). rewrite AV2 in * by auto. apply (sv_trans _ _ R Sy T) with (map (type_of 0%nat) vs'); auto.
    + apply (sv_trans _ _ R Sy T) with ts'; auto.
    + apply (sv_trans _ _ R Sy T) with ts'; auto.
    + inversion Ma; inversion Mb; inversion Mc; subst. eauto.
    + inversion Ma; inversion Mb; inversion Mc; subst. eauto.
Qed.

Theorem type_eq_equivalence : equivalence nice type_eq.
Proof.
  repeat split.
  - intros a Ha. unfold type_eq. destruct (teqn_equivalence (type_size a) (S (type_size a + type_size a))) as (R & _); [lia|]. apply R. split; [exact Ha|lia].
  - intros a b Ha Hb H. set (n := Nat.max (type_size a) (type_size b)). destruct (teqn_equivalence n (2 * n)) as (_ & Sy & _); [lia|].
    rewrite <- (type_eq_any_depth (2 * n)) in * by lia. apply Sy; auto; split; auto; lia.
  - intros a b c Ha Hb Hc H H'. set (n := Nat.max (type_size a) (Nat.max (type_size b) (type_size c))). destruct (teqn_equivalence n (2 * n)) as (_ & _ & T); [lia|].
    rewrite <- (type_eq_any_depth (2 * n)) in * by lia. apply (T a b c); auto; split; auto; lia.
Qed.
