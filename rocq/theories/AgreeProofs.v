(* Assignable(v.Type()) against Instance(v), and reflexivity of Assignable. *)
From Coq Require Import ZArith List Bool Lia.
From Coq Require Import Floats.SpecFloat.
From Verif Require Import Int64 HMap Data DataSpec DataProofs Arr Types TypesSpec InstProofs GuardProofs SemProofs EqProofs SubProofs AgreeSpec Totality TypesCor NoHitProofs AssignProofs Assign.
Import ListNotations.
Open Scope Z_scope.

Section World.
Variable W : world.

Lemma r_andm m n x y : returns m x -> mono n -> returns n y -> returns (andm m n) (x && y).
Proof. intros Hm Hn H. apply returns_bind with x; auto. - intros []; auto using mono_ret. - destruct x; [exact H|apply returns_ret]. Qed.
Lemma r_orm m n x y : returns m x -> mono n -> returns n y -> returns (orm m n) (x || y).
Proof. intros Hm Hn H. apply returns_bind with x; auto. - intros []; auto using mono_ret. - destruct x; [apply returns_ret|exact H]. Qed.
Lemma r_notm m x : returns m x -> returns (notm m) (negb x).
Proof. intros Hm. apply returns_bind with x; auto. - intros; apply mono_ret. - apply returns_ret. Qed.
Lemma r_all {A} (f : A -> M bool) g l : (forall x, mono (f x)) -> (forall x, In x l -> returns (f x) (g x)) -> returns (all_m f l) (forallb g l).
Proof.
  intros HM H. induction l as [|x r IH]; cbn; [apply returns_ret|]. apply r_andm; [apply H; now left|now apply mono_all|]. apply IH. intros. apply H. now right.
Qed.
Lemma r_any {A} (f : A -> M bool) g l : (forall x, mono (f x)) -> (forall x, In x l -> returns (f x) (g x)) -> returns (any_m f l) (existsb g l).
Proof.
  intros HM H. induction l as [|x r IH]; cbn; [apply returns_ret|]. apply r_orm; [apply H; now left|now apply mono_any|]. apply IH. intros. apply H. now right.
Qed.
Lemma r_one {A} (f : A -> M bool) g l : (forall x, mono (f x)) -> (forall x, In x l -> returns (f x) (g x)) -> forall b, returns (one_m f b l) (exactly_one b (map g l)).
Proof.
  intros HM H. induction l as [|x r IH]; intros b; cbn; [apply returns_ret|].
  assert (IH' : forall b, returns (one_m f b r) (exactly_one b (map g r))) by (apply IH; intros; apply H; now right).
  apply returns_bind with (g x); [apply H; now left| |].
  - intros []; [destruct b; [apply mono_ret|]|]; now apply mono_one.
  - destruct (g x); [destruct b; [apply returns_ret|]|]; apply IH'.
Qed.
Lemma r_eq {A} (m : M A) x y : returns m x -> x = y -> returns m y.
Proof. now intros H <-. Qed.

Lemma element_agreeing t : element_ok t -> agreeing t.
Proof.
  induction t as [ | | | |x y i| |x y i| | |x y|s|s|x y| | |p v|p t IHt| |p e x y IHe|p ts b IHts| |p k v x y IHk IHv|p a es IHes|p ts IHts|p vs|p ts IHts|p ts IHts|p t IHt| |t IHt] using ty_ind'; cbn [element_ok agreeing]; try tauto.
  rewrite !fold_and, !Forall_forall in *. auto.
Qed.
Lemma type_of_agreeing q x : agreeing (type_of q x).
Proof. destruct x; cbn; auto; discriminate. Qed.
Lemma solid_arr l : solid (VArr l) -> l <> [] /\ Forall solid l.
Proof. cbn. now rewrite fold_and. Qed.
Lemma solid_map m : solid (VMap m) -> m <> [] /\ Forall (fun e => solid (fst e) /\ solid (snd e)) m.
Proof. cbn. intros [H K]. split; [exact H|]. now apply (fold_and (fun e => solid (fst e) /\ solid (snd e))) in K. Qed.

(* the type of a value without sensitive parts *)
Lemma check_value R q v a : check_assignable_to R (type_of q v) a = ret false.
Proof. destruct v; reflexivity. Qed.
Lemma type_of_self_inst q v : wf v -> solid v -> inst W (type_of q v) v = true.
Proof.
  intros Wv Sv. destruct v; try reflexivity; try (change (veq ?x ?x = true); now apply veq_refl); try contradiction;
    match goal with |- inst W (type_of _ ?x) ?x = true => change (veq x x = true); now apply veq_refl end.
Qed.

Definition value_ok (v : value) : Prop := wf v /\ solid v.

Theorem assignable_of_value n :
  (forall fn a v q, type_ok a -> agreeing a -> value_ok v -> returns (asgn W n fn a (type_of q v)) (inst W a v)) /\
  (forall fn e vs p, type_ok e -> element_ok e -> Forall value_ok vs -> vs <> [] -> returns (asgn W n fn e (TAllOfValue p vs)) (forallb (inst W e) vs)).
Proof.
  induction n as [|n [IA IB]]; [split; intros; apply yields_fail|].
  assert (MR : forall fn a b, mono (asgn W n fn a b)) by (intros; apply asgn_mono).
  assert (MRa : forall a, mono (bind (fresh a) (asgn W n true TAny))) by (intros; apply mono_bind; [apply mono_fresh|auto]).
  (* the deep and the flat cases for the type of a value *)
  assert (DA : forall a v q, deep_assignable a = true -> type_ok a -> agreeing a -> value_ok v -> returns (deep_assignable_to (asgn W n) (instn W n true) a (type_of q v)) (inst W a v)).
  { intros a v q D Ta Aa [Wv Sv].
    assert (EL : forall e vs, type_ok e -> element_ok e -> Forall value_ok vs -> vs <> [] -> returns (bind (fresh (fun p => TAllOfValue p vs)) (asgn W n true e)) (forallb (inst W e) vs)).
    { intros e vs Te Ee Vv Nv. apply returns_fresh; auto. }
    destruct a as [ | | | |x y i| |x y i| | |x y|s|s|x y| | |p w|p t| |p e x y|p ts b| |p kt vt x y|p ad es|p ts|p vs|p ts|p ts|p t|[t|]]; try discriminate D;
      cbn [deep_assignable_to]; rewrite ?check_value; cbn [agreeing] in Aa.
    - apply r_eq with (match type_of q v with TExact _ w' => veq w w' | _ => false end || false); [apply r_orm; [apply returns_ret|apply mono_ret|apply returns_ret]|].
      rewrite orb_false_r. destruct v; try reflexivity; [|contradiction]. destruct w; try discriminate D; reflexivity.
    - destruct v; try (apply returns_ret). contradiction.
    - destruct v as [ |b|z|f|s|s|s ns z|s|w|l|mm]; try (apply returns_ret). cbn [type_of array_bounds]. rewrite inst_arr_sized.
      change ((x <=? length_z l) && (length_z l <=? y)) with (size_in x y (length_z l)). destruct (size_in x y (length_z l)); [|apply returns_ret]. cbn [andb].
      apply data_arr_inv in Wv. apply solid_arr in Sv as [Nl Sl]. assert (Te : type_ok e) by exact (proj2 Ta).
      destruct l as [|x1 [|x2 r]]; [congruence| |]; cbn [element_type].
      + apply returns_fresh; [auto|]. intros p'. cbn [forallb]. rewrite andb_true_r. inversion Wv; inversion Sl; subst. apply IA; auto using element_agreeing. now split.
      + apply returns_fresh; [auto|]. intros p'. apply IB; auto.  rewrite Forall_forall in *. intros z Hz. split; auto.
    - destruct v as [ |b1|z|f|s|s|s ns z|s|w|l|mm]; try (apply returns_ret). apply (instn_returns W n true (TTuple p ts b) (VArr l)). now apply type_ok_tuple_ok.
    - destruct v as [ |b1|z|f|s|s|s ns z|s|w|l|mm]; try (apply returns_ret). cbn [type_of map_bounds]. rewrite inst_map_sized.
      change ((x <=? length_z mm) && (length_z mm <=? y)) with (size_in x y (length_z mm)). destruct (size_in x y (length_z mm)); [|apply returns_ret]. cbn [andb].
      apply data_map_inv in Wv as [Wv _]. apply solid_map in Sv as [Nl Sl]. destruct Ta as [_ [Tk Tv]], Aa as [Ak Av].
      apply r_eq with (forallb (inst W kt) (map fst mm) && forallb (inst W vt) (map snd mm)).
      2:{ clear. induction mm as [|e r IH]; cbn; [reflexivity|]. rewrite <- IH. destruct (inst W kt (fst e)), (inst W vt (snd e)), (forallb _ (map fst r)); reflexivity. }
      destruct mm as [|e r]; [congruence|]. cbn [key_type value_type]. rewrite Forall_forall in *.
      apply r_andm; [|apply mono_bind; [apply mono_fresh|auto]|]; apply EL; auto; try discriminate; apply Forall_forall; intros z Hz; apply in_map_iff in Hz as (e0 & <- & He0); split; try apply (Wv e0 He0); apply (Sl e0 He0).
    - destruct v as [ |b1|z|f|s|s|s ns z|s|w|l|mm]; try (apply returns_ret). apply (instn_returns W n true (TStruct p ad es) (VMap mm)). now apply type_ok_tuple_ok.
    - apply fold_and in Aa. rewrite Forall_forall in Aa. destruct Ta as [_ Ta]. apply fold_and in Ta. rewrite Forall_forall in Ta. rewrite inst_allof.
      assert (X : returns (orm (all_m (fun t => asgn W n true t (type_of q v)) ts) (ret false)) (forallb (fun t => inst W t v) ts)).
      { apply r_eq with (forallb (fun t => inst W t v) ts || false); [|apply orb_false_r]. apply r_orm; [|apply mono_ret|apply returns_ret]. apply r_all; [auto|]. intros t Ht. apply IA; [exact (Ta t Ht)|auto|now split]. }
      destruct v; exact X.
    - rewrite (inst_allofvalue W p 0%nat). destruct Ta as [Ta _]. cbn in Ta. rewrite Forall_forall in Ta.
      assert (X : returns (all_m (fun x => bind (new_type x) (fun t => asgn W n true t (type_of q v))) vs) (forallb (fun x => inst W (type_of 0%nat x) v) vs)).
      { apply r_all; [intros; apply mono_bind; [apply mono_fresh|auto]|]. intros x Hx. apply returns_fresh; [auto|]. intros p'. apply r_eq with (inst W (type_of p' x) v); [|now rewrite !inst_type_of].
        apply IA; [now apply type_of_type_ok; auto|apply type_of_agreeing|now split]. }
      destruct v; exact X.
    - apply fold_and in Aa. rewrite Forall_forall in Aa. destruct Ta as [_ Ta]. apply fold_and in Ta. rewrite Forall_forall in Ta. rewrite inst_anyof.
      destruct ts as [|t0 r]; [destruct v; apply returns_ret|]. remember (t0 :: r) as ts.
      apply r_eq with (existsb (fun t => inst W t v) ts || false); [|apply orb_false_r]. apply r_orm; [|apply mono_ret|apply returns_ret]. apply r_any; [auto|]. intros t Ht. apply IA; [exact (Ta t Ht)|auto|now split].
    - apply fold_and in Aa. rewrite Forall_forall in Aa. destruct Ta as [_ Ta]. apply fold_and in Ta. rewrite Forall_forall in Ta. rewrite inst_oneof.
      destruct ts as [|t0 r]; [destruct v; apply returns_ret|]. remember (t0 :: r) as ts.
      apply r_eq with (exactly_one false (map (fun t => inst W t v) ts) || false); [|apply orb_false_r]. apply r_orm; [|apply mono_ret|apply returns_ret].
      apply (r_one (fun t => asgn W n true t (type_of q v)) (fun t => inst W t v)); [auto|]. intros t Ht. apply IA; [exact (Ta t Ht)|auto|now split]. }
  assert (FA : forall a v q, deep_assignable a = false -> type_ok a -> agreeing a -> value_ok v -> returns (flat_assignable_to W (asgn W n) a (type_of q v)) (inst W a v)).
  { intros a v q D Ta Aa [Wv Sv].
    destruct a as [ | | | |x y i| |x y i| | |x y|s|s|x y| | |p w|p t| |p e x y|p ts b| |p kt vt x y|p ad es|p ts|p vs|p ts|p ts|p t|[t|]]; try discriminate D;
      cbn [flat_assignable_to]; rewrite ?check_value; cbn [agreeing] in Aa;
      try (destruct v; try apply returns_ret; contradiction).
    - apply r_eq with (match type_of q v with TExact _ w' => veq w w' | _ => false end || false); [apply r_orm; [apply returns_ret|apply mono_ret|apply returns_ret]|].
      rewrite orb_false_r. destruct v; try reflexivity; [|contradiction]. destruct w; try congruence; reflexivity.
    - assert (X : returns (notm (asgn W n false t (type_of q v))) (negb (inst W t v))).
      { apply r_notm, IA; auto; [exact (proj2 Ta)|now split]. }
      destruct v; exact X. }
  (* the types of elements *)
  assert (CB : forall e vs, type_ok e -> element_ok e -> Forall value_ok vs -> returns (swapped (all_m (fun v => bind (new_type v) (asgn W n true e)) vs)) (forallb (inst W e) vs)).
  { intros e vs Te Ee Vv. apply yields_with_guard. apply r_all; [intros; apply mono_bind; [apply mono_fresh|auto]|].
    rewrite Forall_forall in Vv. intros x Hx. apply returns_fresh; [auto|]. intros p'. apply IA; auto using element_agreeing. }
  assert (MC : forall e vs, mono (swapped (all_m (fun v => bind (new_type v) (asgn W n true e)) vs))).
  { intros. apply mono_with_guard, mono_all. intros. apply mono_bind; [apply mono_fresh|auto]. }
  assert (DB : forall e vs p, deep_assignable e = true -> type_ok e -> element_ok e -> Forall value_ok vs -> vs <> [] ->
     returns (deep_assignable_to (asgn W n) (instn W n true) e (TAllOfValue p vs)) (forallb (inst W e) vs)).
  { intros e vs p0 D Te Ee Vv Nv. pose proof (CB e vs Te Ee Vv) as C.
    destruct e as [ | | | |x y i| |x y i| | |x y|s|s|x y| | |p w|p t| |p e x y|p ts b| |p kt vt x y|p ad es|p ts|p ws|p ts|p ts|p t|[t|]]; try discriminate D; try (exfalso; exact Ee);
      cbn [deep_assignable_to array_bounds map_bounds check_assignable_to]; try exact C.
    - cbn [element_ok] in Ee. apply fold_and in Ee. rewrite Forall_forall in Ee. destruct Te as [_ Te]. apply fold_and in Te. rewrite Forall_forall in Te.
      destruct ts as [|t0 r].
      + destruct vs; [congruence|]. apply returns_ret.
      + remember (t0 :: r) as ts. apply r_eq with (existsb (fun t => forallb (inst W t) vs) ts || forallb (inst W (TAnyOf p ts)) vs).
        * apply r_orm; [|apply MC|exact C]. apply r_any; [auto|]. intros t Ht. apply IB; [exact (Te t Ht)|auto|auto|auto].
        * destruct (existsb _ ts) eqn:E; [|reflexivity]. symmetry. apply existsb_exists in E as (t & Ht & E). rewrite forallb_forall in *.
          intros x Hx. rewrite inst_anyof. apply existsb_exists. eauto. }
  assert (FB : forall e vs p, deep_assignable e = false -> type_ok e -> element_ok e -> Forall value_ok vs -> vs <> [] ->
     returns (flat_assignable_to W (asgn W n) e (TAllOfValue p vs)) (forallb (inst W e) vs)).
  { intros e vs p0 D Te Ee Vv Nv. pose proof (CB e vs Te Ee Vv) as C.
    destruct e as [ | | | |x y i| |x y i| | |x y|s|s|x y| | |p w|p t| |p e x y|p ts b| |p kt vt x y|p ad es|p ts|p ws|p ts|p ts|p t|[t|]]; try discriminate D; try (exfalso; exact Ee);
      cbn [flat_assignable_to check_assignable_to]; try exact C.
    - apply r_eq with true; [apply returns_ret|]. symmetry. apply forallb_forall. reflexivity.
  }
  split.
  - intros fn a v q Ta Aa Vv. cbn [asgn]. destruct fn.
    + destruct (same_type a (type_of q v)) eqn:E; [apply same_type_eq in E as ->; apply r_eq with true; [apply returns_ret|symmetry; now apply type_of_self_inst; apply Vv]|].
      destruct (deep_assignable a) eqn:D; [apply yields_enter, DA|apply yields_with_guard, FA]; auto.
    + destruct (deep_assignable a) eqn:D; [|apply yields_with_guard, FA; auto].
      assert (X : returns (with_nil (asgn W n true a (type_of q v))) (inst W a v)) by (apply yields_with_guard, IA; auto).
      destruct a; try exact X. apply yields_with_guard, yields_enter, DA; auto.
  - intros fn e vs p Te Ee Vv Nv. cbn [asgn]. destruct fn.
    + destruct (same_type e (TAllOfValue p vs)) eqn:E; [apply same_type_eq in E as ->; contradiction Ee|].
      destruct (deep_assignable e) eqn:D; [apply yields_enter, DB|apply yields_with_guard, FB]; auto.
    + destruct (deep_assignable e) eqn:D; [|apply yields_with_guard, FB; auto].
      assert (X : returns (with_nil (asgn W n true e (TAllOfValue p vs))) (forallb (inst W e) vs)) by (apply yields_with_guard, IB; auto).
      destruct e; try exact X. apply yields_with_guard, yields_enter, DB; auto.
Qed.
End World.
