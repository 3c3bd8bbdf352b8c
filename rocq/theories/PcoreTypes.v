(* The types that the parser of the Puppet type language makes accept what the Puppet types mean. *)
From Coq Require Import Strings.Ascii Strings.String.
From Coq Require Import ZArith List Bool Lia.
From Coq Require Import Floats.SpecFloat.
From Verif Require Import Int64 Utf8 Text TextSpec HMap Data DataSpec DataProofs FloatInt Types TypesSpec InstProofs GuardProofs SemProofs SubProofs NoHitProofs
  Construct ConstructSpec ConstructProofs Print Lexer LexerSpec Syntax SyntaxSpec Pcore PcoreSpec PcoreLex PcoreProofs TypesCor.
From Verif Require Assign.
Import ListNotations.
Open Scope Z_scope.

(* ---------- which types accept nil ---------- *)

(* the types for which Assignable(nil) tells whether nil is an instance *)
Definition nil_node (t : ty) : Prop :=
  match t with TExact _ v => v <> VNil | TAllOfValue _ _ | TOneOf _ _ => False | _ => True end.
Definition nil_ok : ty -> Prop := ty_all nil_node.

Lemma set_guard_back s g : Assign.set_guard (Assign.set_guard s g) (Assign.s_guard s) = s.
Proof. now destruct s. Qed.
Lemma with_guard_quiet {A} f (m : Assign.M A) x s : m (Assign.set_guard s (f (Assign.s_guard s))) = Some (x, Assign.set_guard s (f (Assign.s_guard s))) ->
  Assign.with_guard f m s = Some (x, s).
Proof. intros H. unfold Assign.with_guard. rewrite H. now rewrite set_guard_back. Qed.
Lemma all_quiet {A} (f : A -> Assign.M bool) (g : A -> bool) l s : (forall x, In x l -> f x s = Some (g x, s)) -> Assign.all_m f l s = Some (forallb g l, s).
Proof.
  induction l as [|x l IH]; intros H; [reflexivity|]. cbn [Assign.all_m forallb]. unfold Assign.andm, Assign.bind. rewrite (H x) by now left.
  destruct (g x); [|reflexivity]. apply IH. intros y Hy. apply H. now right.
Qed.
Lemma any_quiet {A} (f : A -> Assign.M bool) (g : A -> bool) l s : (forall x, In x l -> f x s = Some (g x, s)) -> Assign.any_m f l s = Some (existsb g l, s).
Proof.
  induction l as [|x l IH]; intros H; [reflexivity|]. cbn [Assign.any_m existsb]. unfold Assign.orm, Assign.bind. rewrite (H x) by now left.
  destruct (g x); [reflexivity|]. apply IH. intros y Hy. apply H. now right.
Qed.
Lemma same_nil a : Assign.same_type a TNil = true <-> a = TNil.
Proof. unfold Assign.same_type. destruct (Assign.type_eq_dec a TNil); split; congruence. Qed.
Lemma veq_nil v : v <> VNil -> veq v VNil = false.
Proof. destruct v; [congruence| | | | | | | | | |]; reflexivity. Qed.

Lemma asgn_nil (W : world) n : forall (fn : bool) a s, nil_ok a -> (2 * type_size a <= n + (if fn then 1 else 0))%nat ->
  Assign.asgn W n fn a TNil s = Some (inst W a VNil, s).
Proof.
  induction n as [|n IH]; intros fn a s N H; [pose proof (type_size_pos a); destruct fn; lia|].
  assert (ME : forall u, member u a -> nil_ok u /\ (type_size u < type_size a)%nat).
  { intros u Hu. split; [|now apply member_size]. apply (ty_all_member nil_node u a N); auto. destruct a; auto. now destruct N. }
  assert (RE : forall fn' u s', member u a -> Assign.asgn W n fn' u TNil s' = Some (inst W u VNil, s')).
  { intros fn' u s' Hu. destruct (ME u Hu) as [Nu Su]. apply IH; auto. destruct fn', fn; lia. }
  assert (D : Assign.deep_assignable a = true -> forall s, Assign.deep_assignable_to (Assign.asgn W n) (Assign.instn W n true) a TNil s = Some (inst W a VNil, s)).
  { intros Da s1. destruct a as [ | | | |x y i| |x y i| | |x y|t|t|x y| | |p w|p t| |p e x y|p ts b| |p kt vt x y|p ad es|p ts|p vs|p ts|p ts|p t|[t|]]; try discriminate; try reflexivity.
    - cbn [Assign.deep_assignable_to Assign.check_assignable_to]. unfold inst. cbn [inst_with]. rewrite veq_nil by (destruct N; assumption). reflexivity.
    - cbn [Assign.deep_assignable_to Assign.check_assignable_to]. unfold Assign.orm, Assign.bind.
      rewrite (all_quiet _ (fun t => inst W t VNil)) by (intros; apply RE; assumption).
      unfold inst. cbn [inst_with]. now destruct (forallb _ ts).
    - destruct N as [[] _].
    - cbn [Assign.deep_assignable_to Assign.check_assignable_to]. destruct ts as [|t ts]; [reflexivity|]. unfold Assign.orm at 1, Assign.bind at 1.
      rewrite (any_quiet _ (fun t => inst W t VNil)) by (intros; apply RE; assumption).
      unfold inst. cbn [inst_with]. now destruct (existsb _ (t :: ts)).
    - destruct N as [[] _]. }
  assert (F : Assign.deep_assignable a = false -> forall s, Assign.flat_assignable_to W (Assign.asgn W n) a TNil s = Some (inst W a VNil, s)).
  { intros Da s1. destruct a as [ | | | |x y i| |x y i| | |x y|t|t|x y| | |p w|p t| |p e x y|p ts b| |p kt vt x y|p ad es|p ts|p vs|p ts|p ts|p t|[t|]]; try discriminate; try reflexivity.
    - cbn [Assign.flat_assignable_to Assign.check_assignable_to]. unfold inst. cbn [inst_with]. rewrite veq_nil by (destruct N; assumption). reflexivity.
    - cbn [Assign.flat_assignable_to]. unfold Assign.notm, Assign.bind. rewrite RE by reflexivity. reflexivity. }
  cbn [Assign.asgn]. destruct fn.
  - destruct (Assign.same_type a TNil) eqn:S. { apply same_nil in S. subst. reflexivity. }
    destruct (Assign.deep_assignable a) eqn:Da.
    + unfold Assign.enter. cbn [Assign.deep_assignable Assign.deep_instance]. now apply D.
    + apply with_guard_quiet. now apply F.
  - destruct (Assign.deep_assignable a) eqn:Da.
    + assert (X : Assign.with_nil (Assign.asgn W n true a TNil) s = Some (inst W a VNil, s)).
      { apply with_guard_quiet. apply IH; auto. lia. }
      destruct a; try exact X. apply with_guard_quiet. unfold Assign.enter. cbn [Assign.deep_assignable Assign.deep_instance]. now apply D.
    + apply with_guard_quiet. now apply F.
Qed.

Lemma takes_nil_ok W t : nil_ok t -> takes_nil W t = inst W t VNil.
Proof.
  intros N. unfold takes_nil, Assign.assignable. rewrite asgn_nil by (auto; lia). reflexivity.
Qed.

(* ---------- floats ---------- *)

Lemma leb_nan_l x y : SFleb x y = true -> x <> S754_nan.
Proof. intros H ->. discriminate. Qed.
Lemma leb_nan_r x y : SFleb x y = true -> y <> S754_nan.
Proof. intros H ->. destruct x; discriminate. Qed.
Lemma leb_trans x y z : SFleb x y = true -> SFleb y z = true -> SFleb x z = true.
Proof.
  intros H1 H2. pose proof (leb_nan_l _ _ H1). pose proof (leb_nan_l _ _ H2). pose proof (leb_nan_r _ _ H2).
  rewrite SFleb_iff in * by assumption. now destruct (kcmp_trans (fkey x) (fkey y) (fkey z) H1 H2).
Qed.
Lemma finite_nan f : finite f -> f <> S754_nan.
Proof. intros [H _]. exact (leb_nan_r _ _ H). Qed.
Lemma int_leb x y : in64 x -> in64 y -> x <= y -> SFleb (float_of_int x) (float_of_int y) = true.
Proof.
  intros Ix Iy H. destruct (float_of_int_key x Ix) as [Nx Kx], (float_of_int_key y Iy) as [Ny Ky].
  rewrite SFleb_iff by assumption. rewrite Kx, Ky. now apply ikey_mono.
Qed.
Lemma int_finite z : in64 z -> finite (float_of_int z).
Proof.
  intros I. split.
  - apply (leb_trans _ (float_of_int min_int64)); [reflexivity|]. apply int_leb; unfold in64, min_int64, max_int64 in *; lia.
  - apply (leb_trans _ (float_of_int max_int64)); [|reflexivity]. apply int_leb; unfold in64, min_int64, max_int64 in *; lia.
Qed.
Lemma eqb_leb x y : SFeqb x y = true -> SFleb x y = true /\ SFleb y x = true.
Proof.
  unfold SFeqb, SFleb. intros H. assert (Nx : x <> S754_nan) by (intros ->; discriminate).
  assert (Ny : y <> S754_nan) by (intros ->; destruct x; discriminate).
  rewrite !SFcompare_key in * by assumption. rewrite (kcmp_opp (fkey x) (fkey y)). destruct (kcmp (fkey x) (fkey y)); try discriminate. split; reflexivity.
Qed.
Lemma leb_not_ltb x y : SFleb x y = true -> SFltb y x = false.
Proof.
  intros H. pose proof (leb_nan_l _ _ H) as Nx. pose proof (leb_nan_r _ _ H) as Ny. unfold SFleb, SFltb in *.
  rewrite !SFcompare_key in * by assumption. rewrite (kcmp_opp (fkey x) (fkey y)). destruct (kcmp (fkey x) (fkey y)); try discriminate; reflexivity.
Qed.
Lemma log2_53 p : 0 < p -> p < 2 ^ 53 -> Z.log2 p + 1 <= 53.
Proof. intros P H. apply Z.log2_lt_pow2 in H; lia. Qed.
Lemma to_int_pos (s : bool) p : Zpos p <= 2 ^ 53 ->
  float_to_int (S754_finite s (Z.to_pos (snd (fl_parts (Zpos p)))) (fst (fl_parts (Zpos p)))) = (if s then - Zpos p else Zpos p).
Proof.
  intros H. destruct (Z.eq_dec (Zpos p) (2 ^ 53)) as [E|N]. { rewrite E. destruct s; vm_compute; reflexivity. }
  unfold fl_parts. pose proof (log2_53 (Zpos p) ltac:(lia) ltac:(lia)) as L. rewrite (proj2 (Z.leb_le _ _) L). cbn [fst snd]. unfold float_to_int.
  set (d := Z.log2 (Zpos p) + 1) in *. assert (P : 0 < 2 ^ (53 - d)) by (apply Z.pow_pos_nonneg; lia).
  rewrite Z2Pos.id by nia.
  assert (X : (if 0 <=? d - 53 then Zpos p * 2 ^ (53 - d) * 2 ^ (d - 53) else Zpos p * 2 ^ (53 - d) / 2 ^ (- (d - 53))) = Zpos p).
  { destruct (0 <=? d - 53) eqn:Z.
    - apply Z.leb_le in Z. replace (53 - d) with 0 by lia. replace (d - 53) with 0 by lia. rewrite Z.pow_0_r. lia.
    - replace (- (d - 53)) with (53 - d) by lia. apply Z.div_mul. lia. }
  rewrite X. destruct s.
  - assert (Y : in64b (- Zpos p) = true) by (unfold in64b, min_int64, max_int64; rewrite andb_true_iff, !Z.leb_le; lia). now rewrite Y.
  - assert (Y : in64b (Zpos p) = true) by (unfold in64b, min_int64, max_int64; rewrite andb_true_iff, !Z.leb_le; lia). now rewrite Y.
Qed.
Lemma to_int_of_int z : - 2 ^ 53 <= z <= 2 ^ 53 -> float_to_int (float_of_int z) = z.
Proof.
  intros H. destruct z as [|p|p]; [reflexivity| |]; unfold float_of_int, binary_normalize; rewrite fl_parts_ok by lia; rewrite to_int_pos by lia; reflexivity.
Qed.

(* ---------- expressions with arguments ---------- *)

Definition no_entry (v : pval) : Prop := match v with PE _ _ => False | _ => True end.
Lemma convert_plain vs : Forall no_entry vs -> convert_entries None vs = Some vs.
Proof. induction 1 as [|x l H _ IH]; [reflexivity|]. destruct x; cbn [convert_entries]; rewrite ?IH; try reflexivity. destruct H. Qed.

Section Meaning.
Variable E : env.
Variable W : world.
Local Notation ev := (ev E W).

Lemma ev_brackets n l vs f t : constant_type (lit n) = None -> type_function E W (lit n) = Some f ->
  seq (map ev l) = Some vs -> Forall no_entry vs -> f (Some vs) = TDone t -> ev (brackets n l) = Some (PT t).
Proof.
  intros C F S N D. unfold brackets. cbn [PcoreProofs.ev]. rewrite C, F. cbn [obind]. rewrite map_map.
  change (map _ l) with (map ev l). rewrite S. cbn [obind]. rewrite convert_plain by assumption. cbn [obind]. now rewrite D.
Qed.
Lemma ev_bare n f t : constant_type (lit n) = None -> type_function E W (lit n) = Some f -> f None = TDone t -> ev (bare n) = Some (PT t).
Proof. intros C F D. unfold bare. cbn [PcoreProofs.ev]. rewrite C, F. cbn [obind]. now rewrite D. Qed.

Definition text_ev s : text_ok s -> ev (text_expr s) = Some (PV (VStr (text_value s))).
Proof.
  destruct s as [q cs|l]; [reflexivity|]. cbn [text_ok text_expr PcoreProofs.ev text_value]. intros H. unfold word.
  assert (X : forall w, ~ l = lit w -> bytes_eqb l (lit w) = false).
  { intros w N. destruct (bytes_eqb l (lit w)) eqn:B; [|reflexivity]. apply bytes_eqb_eq in B. contradiction. }
  cbn [In] in H. rewrite !X by (intros ->; tauto). reflexivity.
Qed.
Definition bound_of (dflt : Z) (b : ybound) : Z := match b with YDefault => dflt | YInt _ z => z end.
Lemma bound_ev b : exists v, ev (bound_expr b) = Some (PV v) /\ (forall d, get_int d (PV v) = Some (bound_of d b)) /\
  (forall d, get_float d (PV v) = Some (fbound_value E d (as_float b))) /\
  match b with YInt _ z => v = VInt z | YDefault => v = VStr (lit "default") end.
Proof. destruct b as [|plus z]; [exists (VStr (lit "default"))|exists (VInt z)]; repeat split. Qed.
Lemma fbound_ev b : exists v, ev (fbound_expr b) = Some (PV v) /\ (forall d, get_float d (PV v) = Some (fbound_value E d b)).
Proof. destruct b as [|plus z|s]; [exists (VStr (lit "default"))|exists (VInt z)|exists (VFloat (e_float E s))]; repeat split. Qed.

(* ---------- sizes and ranges ---------- *)
Definition lo_of (dflt : Z) (r : yrange ybound) : Z := match r with RNone => dflt | RMin b | RBoth b _ => bound_of dflt b end.
Definition hi_of (dflt : Z) (r : yrange ybound) : Z := match r with RNone | RMin _ => dflt | RBoth _ c => bound_of dflt c end.

Lemma range_between r z : range_ok r -> in64 z -> (between (lo_of min_int64 r) (hi_of max_int64 r) true z <-> in_range r z).
Proof.
  unfold between, in64, range_ok, in_range. intros R Z. destruct r as [|[|p x]|[|p x] [|q y]]; cbn [lo_of hi_of bound_of at_least at_most bound_ok] in *; unfold in64 in *; lia.
Qed.
Lemma range_in64 r : range_ok r -> in64 (lo_of min_int64 r) /\ in64 (hi_of max_int64 r).
Proof.
  unfold in64, range_ok. intros R. destruct r as [|[|p x]|[|p x] [|q y]]; cbn [lo_of hi_of bound_of bound_ok] in *; unfold in64, min_int64, max_int64 in *; lia.
Qed.
Lemma sizes_between r n : sizes_ok r -> 0 <= n <= max_int64 -> (length_between (lo_of 0 r) (hi_of max_int64 r) n <-> in_range r n).
Proof.
  unfold length_between, sizes_ok, range_ok, in_range. intros R Z. destruct r as [|[|p x]|[|p x] [|q y]]; cbn [lo_of hi_of bound_of at_least at_most bound_ok] in *; unfold in64 in *; lia.
Qed.
Lemma sizes_max r : sizes_ok r -> lo_of 0 r <= max_int64 /\ hi_of max_int64 r <= max_int64.
Proof.
  unfold sizes_ok, range_ok. intros R. destruct r as [|[|p x]|[|p x] [|q y]]; cbn [lo_of hi_of bound_of bound_ok] in *; unfold in64, min_int64, max_int64 in *; lia.
Qed.

(* what is to be shown of the type that is made *)
Definition made_for (T : ytype) (t : ty) : Prop :=
  type_ok t /\ nil_ok t /\ (t = TNil -> undef_only T = true) /\ forall v, wf v -> sound v -> (has_type W t v <-> means E W T v).
Definition good (T : ytype) : Prop := proper E T -> exists t, ev (expr T) = Some (PT t) /\ made_for T t.

(* flat types *)
Lemma simple_ok t : match t with TExact _ _ | TSens _ _ | TArrSized _ _ _ _ | TTuple _ _ _ | TMapSized _ _ _ _ _ | TStruct _ _ _ | TAllOf _ _ | TAllOfValue _ _ | TAnyOf _ _ | TOneOf _ _ | TNot _ _ | TMeta _ | TFloatRange _ _ _ => False | _ => True end ->
  type_ok t /\ nil_ok t.
Proof. destruct t; intros H; try destruct H; repeat split. Qed.

Lemma good_simple T n t : expr T = bare n -> ev (bare n) = Some (PT t) -> type_ok t -> nil_ok t -> (t = TNil -> undef_only T = true) ->
  (forall v, wf v -> has_type W t v <-> means E W T v) -> good T.
Proof. intros Ex Ev O N U M P. exists t. rewrite Ex. repeat split; auto; intros; now apply M. Qed.

Lemma exact_means p x v : wf v -> (has_type W (TExact p x) v <-> veq x v = true).
Proof. reflexivity. Qed.
Lemma veq_str s v : veq (VStr s) v = true <-> v = VStr s.
Proof.
  destruct v; cbn [veq]; split; intros H; try discriminate. { apply bytes_eqb_eq in H. now subst. } injection H as <-. now apply bytes_eqb_eq.
Qed.
Lemma veq_regexp s v : veq (VRegexp s) v = true <-> v = VRegexp s.
Proof.
  destruct v; cbn [veq]; split; intros H; try discriminate. { apply bytes_eqb_eq in H. now subst. } injection H as <-. now apply bytes_eqb_eq.
Qed.
Lemma veq_bool b v : veq (VBool b) v = true <-> v = VBool b.
Proof. destruct v as [|c| | | | | | | | |]; cbn [veq]; split; intros H; try discriminate. { apply Bool.eqb_prop in H. now subst. } injection H as <-. apply Bool.eqb_reflx. Qed.

Lemma good_any : good YAny.
Proof. apply (good_simple _ "Any" TAny); try reflexivity; try discriminate; try (repeat split). Qed.
Lemma good_undef : good YUndef.
Proof. apply (good_simple _ "Undef" TNil); try reflexivity; try discriminate; try (repeat split). Qed.
Lemma good_boolean : good YBoolean.
Proof. apply (good_simple _ "Boolean" TBool); try reflexivity; try discriminate; try (repeat split). Qed.
Lemma good_true : good YTrue.
Proof.
  apply (good_simple _ "True" (TExact 0%nat (VBool true))); try reflexivity; try discriminate; try (repeat split; try constructor; discriminate).
  intros v _. apply veq_bool.
Qed.
Lemma good_false : good YFalse.
Proof.
  apply (good_simple _ "False" (TExact 0%nat (VBool false))); try reflexivity; try discriminate; try (repeat split; try constructor; discriminate).
  intros v _. apply veq_bool.
Qed.
Lemma good_timestamp : good YTimestamp.
Proof. apply (good_simple _ "Timestamp" TTime); try reflexivity; try discriminate; try (repeat split). Qed.
Lemma good_enum_any : good YEnumAny.
Proof. apply (good_simple _ "Enum" TString); try reflexivity; try discriminate; try (repeat split). Qed.
Lemma good_pattern_any : good YPatternAny.
Proof. apply (good_simple _ "Pattern" TString); try reflexivity; try discriminate; try (repeat split). Qed.
Lemma good_regexp_any : good YRegexpAny.
Proof. apply (good_simple _ "Regexp" TRegexp); try reflexivity; try discriminate; try (repeat split). Qed.
Lemma good_optional_any : good YOptionalAny.
Proof. apply (good_simple _ "Optional" TAny); try reflexivity; try discriminate; try (repeat split). Qed.
Lemma good_sensitive_any : good YSensitiveAny.
Proof.
  apply (good_simple _ "Sensitive" default_sensitive); try reflexivity; try discriminate; try (repeat split; fail).
  intros v _. unfold default_sensitive, has_type. cbn. split; [intros (x & -> & _); eauto|intros (x & ->); eauto].
Qed.
Lemma good_notundef_any : good YNotUndefAny.
Proof. apply (good_simple _ "NotUndef" (not_type 0%nat TNil)); try reflexivity; try discriminate; try (repeat split). Qed.

(* ---------- ranges ---------- *)
Definition bval (b : ybound) : pval := match b with YDefault => PV (VStr (lit "default")) | YInt _ z => PV (VInt z) end.
Definition fval (b : yfbound) : pval := match b with YFDefault => PV (VStr (lit "default")) | YFInt _ z => PV (VInt z) | YFFloat s => PV (VFloat (e_float E s)) end.
Definition range_vals {A} (f : A -> pval) (r : yrange A) : list pval := match r with RNone => [] | RMin b => [f b] | RBoth b c => [f b; f c] end.
Definition range_args {A} (f : A -> pval) (r : yrange A) : option (list pval) := match r with RNone => None | _ => Some (range_vals f r) end.

Lemma bval_ev b : ev (bound_expr b) = Some (bval b).
Proof. destruct b; reflexivity. Qed.
Lemma fval_ev b : ev (fbound_expr b) = Some (fval b).
Proof. destruct b; reflexivity. Qed.
Lemma bval_int d b : get_int d (bval b) = Some (bound_of d b).
Proof. destruct b; reflexivity. Qed.
Lemma fval_float d b : get_float d (fval b) = Some (fbound_value E d b).
Proof. destruct b; reflexivity. Qed.
Lemma bval_no_entry b : no_entry (bval b).
Proof. destruct b; exact I. Qed.
Lemma fval_no_entry b : no_entry (fval b).
Proof. destruct b; exact I. Qed.
Lemma seq_range {A} (f : A -> pexp) (g : A -> pval) r : (forall b, ev (f b) = Some (g b)) -> seq (map ev (range_exprs f r)) = Some (range_vals g r).
Proof. intros H. destruct r; cbn [range_exprs range_vals map seq obind]; rewrite ?H; reflexivity. Qed.
Lemma range_no_entry {A} (g : A -> pval) r : (forall b, no_entry (g b)) -> Forall no_entry (range_vals g r).
Proof. intros H. destruct r; repeat constructor; auto. Qed.
Lemma ev_maybe {A} n (f : A -> pexp) (g : A -> pval) r h t : constant_type (lit n) = None -> type_function E W (lit n) = Some h ->
  (forall b, ev (f b) = Some (g b)) -> (forall b, no_entry (g b)) -> h (range_args g r) = TDone t -> ev (maybe n (range_exprs f r)) = Some (PT t).
Proof.
  intros C F S N D. unfold range_args in D. pose proof (seq_range f g r S) as Q. pose proof (range_no_entry g r N) as NE.
  destruct r; cbn [range_exprs maybe] in *; [now apply (ev_bare n h)| |]; exact (ev_brackets n _ _ h t C F Q NE D).
Qed.

Lemma good_integer r : good (YInteger r).
Proof.
  intros P. cbn [proper] in P. destruct (range_in64 r P) as [I1 I2].
  destruct (integer_type 0%nat (lo_of min_int64 r) (hi_of max_int64 r) true) as [t|] eqn:T; [|apply integer_type_none in T as [_ T]; discriminate].
  exists t. split.
  { cbn [expr]. apply (ev_maybe _ _ bval _ (fun args => t_panic (integer_args args))); try reflexivity; [apply bval_ev|apply bval_no_entry|].
    destruct r as [|b|b c]; cbn [range_args range_vals integer_args]; rewrite ?bval_int; cbn [obind lo_of hi_of] in *; rewrite ?bval_int; cbn [obind]; try (rewrite T; reflexivity).
    injection T as <-. reflexivity. }
  destruct (integer_type_interval W _ _ _ _ _ I1 I2 T) as (O & S & M); [intros (_ & _ & F); discriminate|].
  split; [exact O|]. split; [|split].
  - apply integer_type_shape in T. destruct T; repeat split; discriminate.
  - intros ->. apply integer_type_shape in T. inversion T.
  - intros v Wv Sv. cbn [means]. split.
    + intros H. destruct (S v H) as [z ->]. exists z. split; [reflexivity|]. apply range_between; auto. now apply M.
    + intros (z & -> & H). apply M; auto. now apply range_between.
Qed.

Lemma good_binary r : good (YBinary r).
Proof.
  intros P. cbn [proper] in P. exists (sized_binary_type (lo_of 0 r) (hi_of max_int64 r)). split.
  { cbn [expr]. apply (ev_maybe _ _ bval _ (fun args => t_panic (binary_args args))); try reflexivity; [apply bval_ev|apply bval_no_entry|].
    destruct r as [|b|b c]; cbn [range_args range_vals binary_args]; rewrite ?bval_int; cbn [obind lo_of hi_of]; rewrite ?bval_int; reflexivity. }
  destruct (sized_binary_type_means W (lo_of 0 r) (hi_of max_int64 r)) as (O & S & M).
  split; [exact O|]. split; [|split].
  - unfold sized_binary_type. destruct (_ <? 0), (_ <? _); repeat split.
  - unfold sized_binary_type. destruct (_ <? 0), (_ <? _); discriminate.
  - intros v Wv Sv. cbn [means]. split.
    + intros H. destruct (S v H) as [s ->]. exists s. split; [reflexivity|]. apply (sizes_between r (size_of s)); auto. { cbn [sound] in Sv. unfold size_of in *. lia. } now apply M.
    + intros (s & -> & H). apply M. apply (sizes_between r (size_of s)); auto. cbn [sound] in Sv. unfold size_of in *. lia.
Qed.

Lemma good_string r : good (YString r).
Proof.
  intros [P G]. destruct (sizes_max r P) as [L1 L2]. exists (sized_string_type (lo_of 0 r) (hi_of max_int64 r)). split.
  { cbn [expr]. apply (ev_maybe _ _ bval _ (fun args => t_panic (string_args args))); try reflexivity; [apply bval_ev|apply bval_no_entry|].
    destruct r as [|b|b c]; cbn [each] in G; [reflexivity| |].
    - destruct b; [now destruct G|]. reflexivity.
    - destruct G as [G1 G2]. destruct b; [now destruct G1|]. destruct c; [now destruct G2|]. reflexivity. }
  destruct (sized_string_type_means W (lo_of 0 r) (hi_of max_int64 r) L2) as (O & S & M).
  split; [exact O|]. split; [|split].
  - unfold sized_string_type. destruct (_ <? 0), (_ <? _), (_ && _); repeat split.
  - unfold sized_string_type. destruct (_ <? 0), (_ <? _), (_ && _); discriminate.
  - intros v Wv Sv. cbn [means]. split.
    + intros H. destruct (S v H) as [s ->]. exists s. split; [reflexivity|]. cbn [sound] in Sv. unfold size_of in *. apply (sizes_between r); auto; [lia|]. now apply M.
    + intros (s & -> & H). cbn [sound] in Sv. unfold size_of in *. apply M; auto. apply (sizes_between r); auto. lia.
Qed.

Lemma nil_ok_array e min max t : nil_ok e -> new_array_type 0%nat (Some e) min max = Some t -> nil_ok t /\ t <> TNil.
Proof.
  intros N. unfold new_array_type. cbn [or_any]. destruct (if _ <? _ then _ else _) as [lo hi]. destruct (_ && is_any e); [intros [= <-]; split; [repeat split|discriminate]|].
  destruct (_ && is_exact e). { destruct (exact_value e); [|discriminate]. intros [= <-]. split; [repeat split; discriminate|discriminate]. }
  intros [= <-]. split; [split; [exact I|exact N]|discriminate].
Qed.
Lemma exact_or_nil t : is_exact t = true -> exact_value t = None -> t = TNil.
Proof. destruct t; intros H X; try discriminate; reflexivity. Qed.

(* arrays of any elements *)
Lemma good_array r : good (YArray r).
Proof.
  intros P. cbn [proper] in P. destruct (sizes_max r P) as [L1 L2].
  destruct (new_array_type 0%nat (Some TAny) (lo_of 0 r) (hi_of max_int64 r)) as [t|] eqn:T.
  2:{ unfold new_array_type in T. destruct (if _ <? _ then _ else _) as [lo hi]. cbn [or_any is_any is_exact type_ident] in T. change (30 <? 3) with false in T. rewrite andb_false_r in T.
      destruct (_ && true); discriminate. }
  exists t. split.
  { cbn [expr]. apply (ev_maybe _ _ bval _ (fun args => t_panic (array_args args))); try reflexivity; [apply bval_ev|apply bval_no_entry|].
    destruct r as [|b|b c]; cbn [range_args range_vals array_args]; rewrite ?bval_int; cbn [obind lo_of hi_of] in *; rewrite ?bval_int; cbn [obind]; try (rewrite T; reflexivity).
    vm_compute in T. injection T as <-. reflexivity. }
  destruct (new_array_type_means W _ _ _ _ _ L2 L1 (proj1 (simple_ok TAny I) : type_ok (or_any (Some TAny))) T) as (O & S & M). destruct (nil_ok_array TAny _ _ t (proj2 (simple_ok TAny I)) T) as [N1 N2].
  split; [exact O|]. split; [exact N1|]. split; [congruence|].
  intros v Wv Sv. cbn [means]. split.
  - intros H. destruct (S v H) as [l ->]. exists l. split; [reflexivity|]. cbn [sound] in Sv. unfold size_of in *. apply (sizes_between r); auto; [lia|]. now apply M.
  - intros (l & -> & H). cbn [sound] in Sv. unfold size_of in *. apply M; [lia|]. split; [apply (sizes_between r); auto; lia|apply Forall_any].
Qed.
Lemma sound_arr l : sound (VArr l) -> size_of l <= max_int64 /\ Forall sound l.
Proof. cbn. intros [H1 H2]. split; [exact H1|]. now apply fold_and in H2. Qed.
Lemma sound_map m : sound (VMap m) -> size_of m <= max_int64 /\ Forall (fun e => sound (fst e) /\ sound (snd e)) m.
Proof. cbn. intros [H1 H2]. split; [exact H1|]. now apply (fold_and (fun e => sound (fst e) /\ sound (snd e))) in H2. Qed.
Lemma wf_arr l : wf (VArr l) -> Forall wf l.
Proof. intros H. now inversion H. Qed.
Lemma wf_map m : wf (VMap m) -> Forall (fun e => wf (fst e) /\ wf (snd e)) m.
Proof. intros H. now inversion H. Qed.
Lemma all_agree {A} (P Q R : A -> Prop) l : Forall R l -> (forall x, R x -> P x <-> Q x) -> (Forall P l <-> Forall Q l).
Proof. intros H X. rewrite !Forall_forall in *. split; intros K x Hx; apply (X x (H x Hx)); auto. Qed.

Lemma good_array_of T r : good T -> good (YArrayOf T r).
Proof.
  intros G (PR & P & PU). destruct (G PR) as (e & Ee & Oe & Ne & Ue & Me). destruct (sizes_max r P) as [L1 L2].
  destruct (new_array_type 0%nat (Some e) (lo_of 0 r) (hi_of max_int64 r)) as [t|] eqn:T0.
  2:{ exfalso. unfold new_array_type in T0. cbn [or_any] in T0.
      set (lo := if lo_of 0 r <? 0 then 0 else lo_of 0 r) in T0. set (hi := if hi_of max_int64 r <? 0 then 0 else hi_of max_int64 r) in T0.
      assert (LH : lo <= hi /\ (lo = 1 -> lo_of 0 r = 1) /\ (hi = 1 -> hi_of max_int64 r = 1)).
      { unfold lo, hi. destruct P as [P1 P2]. unfold range_ok in P1. destruct (Z.ltb_spec (lo_of 0 r) 0), (Z.ltb_spec (hi_of max_int64 r) 0);
        destruct r as [|[|p x]|[|p x] [|q y]]; cbn [lo_of hi_of bound_of bound_ok] in *; unfold in64, min_int64, max_int64 in *; lia. }
      rewrite (proj2 (Z.ltb_ge hi lo)) in T0 by lia. destruct (_ && is_any e); [discriminate|].
      destruct ((lo =? 1) && (lo =? hi) && is_exact e) eqn:X; [|discriminate]. destruct (exact_value e) eqn:V; [discriminate|].
      rewrite !andb_true_iff, !Z.eqb_eq in X. destruct X as [[X1 X2] X3]. assert (E1 : lo_of 0 r = 1) by now apply LH. assert (E2 : hi_of max_int64 r = 1) by (apply LH; congruence).
      pose proof (exact_or_nil e X3 V) as ->. specialize (Ue eq_refl).
      destruct r as [|[|p x]|[|p x] [|q y]]; cbn [lo_of hi_of bound_of] in E1, E2; try discriminate. subst. unfold no_undef in PU. congruence. }
  exists t. split.
  { cbn [expr]. apply (ev_brackets _ _ (PT e :: range_vals bval r) (fun args => t_panic (array_args args))); try reflexivity.
    - cbn [map seq]. rewrite Ee, (seq_range _ bval r bval_ev). reflexivity.
    - constructor; [exact I|]. apply range_no_entry, bval_no_entry.
    - destruct r as [|b|b c]; cbn [range_vals array_args get_int arg_type obind lo_of hi_of] in *; rewrite ?bval_int; cbn [obind]; rewrite ?bval_int; cbn [obind]; rewrite T0; reflexivity. }
  destruct (new_array_type_means W _ _ _ _ _ L2 L1 (Oe : type_ok (or_any (Some e))) T0) as (O & S & M). destruct (nil_ok_array e _ _ t Ne T0) as [N1 N2].
  split; [exact O|]. split; [exact N1|]. split; [congruence|].
  intros v Wv Sv. cbn [means]. assert (EL : forall l, v = VArr l -> (Forall (has_type W e) l <-> Forall (means E W T) l)).
  { intros l ->. apply (all_agree _ _ (fun x => wf x /\ sound x)); [|intros x [H1 H2]; auto].
    apply wf_arr in Wv. apply sound_arr in Sv as [_ Sv]. rewrite Forall_forall in *. auto. }
  split.
  - intros H. destruct (S v H) as [l ->]. exists l. split; [reflexivity|]. pose proof (proj1 (sound_arr l Sv)) as LL. unfold size_of in *. apply M in H as [H1 H2]; auto.
    split; [apply (sizes_between r); auto; lia|]. now apply EL.
  - intros (l & -> & H1 & H2). pose proof (proj1 (sound_arr l Sv)) as LL. unfold size_of in *. apply M; [lia|]. split; [apply (sizes_between r); auto; lia|]. now apply EL.
Qed.

(* ---------- maps ---------- *)
Lemma nil_ok_map k x min max : nil_ok (or_any k) -> nil_ok (or_any x) -> nil_ok (new_map_type 0%nat k x min max) /\ new_map_type 0%nat k x min max <> TNil.
Proof.
  intros N1 N2. unfold new_map_type. destruct (if _ <? _ then _ else _) as [lo hi]. destruct (_ && (_ && _)); [split; [repeat split|discriminate]|].
  split; [split; [exact I|split; assumption]|discriminate].
Qed.
Lemma good_hash r : good (YHash r).
Proof.
  intros P. cbn [proper] in P. destruct (sizes_max r P) as [L1 L2]. exists (new_map_type 0%nat None None (lo_of 0 r) (hi_of max_int64 r)). split.
  { cbn [expr]. apply (ev_maybe _ _ bval _ (fun args => t_panic (hash_args args))); try reflexivity; [apply bval_ev|apply bval_no_entry|].
    destruct r as [|b|b c]; cbn [range_args range_vals hash_args]; rewrite ?bval_int; cbn [obind lo_of hi_of] in *; rewrite ?bval_int; reflexivity. }
  assert (OA : type_ok (or_any None)) by apply (simple_ok TAny I). assert (NA : nil_ok (or_any None)) by apply (simple_ok TAny I).
  destruct (new_map_type_means W 0%nat None None (lo_of 0 r) (hi_of max_int64 r) L2 L1 OA OA) as (O & S & M). destruct (nil_ok_map None None (lo_of 0 r) (hi_of max_int64 r) NA NA) as [N1 N2].
  split; [exact O|]. split; [exact N1|]. split; [congruence|].
  intros v Wv Sv. cbn [means]. split.
  - intros H. destruct (S v H) as [m ->]. exists m. split; [reflexivity|]. pose proof (proj1 (sound_map m Sv)) as LL. unfold size_of in *. apply (sizes_between r); auto; [lia|]. now apply M.
  - intros (m & -> & H). pose proof (proj1 (sound_map m Sv)) as LL. unfold size_of in *. apply M; [lia|]. split; [apply (sizes_between r); auto; lia|].
    apply Forall_forall. intros e _. split; apply has_type_any.
Qed.
Lemma good_hash_of K X r : good K -> good X -> good (YHashOf K X r).
Proof.
  intros GK GX (PK & PX & P). destruct (GK PK) as (k & Ek & Ok & Nk & _ & Mk). destruct (GX PX) as (x & Ex & Ox & Nx & _ & Mx). destruct (sizes_max r P) as [L1 L2].
  exists (new_map_type 0%nat (Some k) (Some x) (lo_of 0 r) (hi_of max_int64 r)). split.
  { cbn [expr]. apply (ev_brackets _ _ (PT k :: PT x :: range_vals bval r) (fun args => t_panic (hash_args args))); try reflexivity.
    - cbn [map seq]. rewrite Ek, Ex, (seq_range _ bval r bval_ev). reflexivity.
    - constructor; [exact I|]. constructor; [exact I|]. apply range_no_entry, bval_no_entry.
    - destruct r as [|b|b c]; cbn [range_vals hash_args get_int arg_type obind lo_of hi_of] in *; rewrite ?bval_int; cbn [obind]; rewrite ?bval_int; reflexivity. }
  destruct (new_map_type_means W 0%nat (Some k) (Some x) (lo_of 0 r) (hi_of max_int64 r) L2 L1 Ok Ox) as (O & S & M). destruct (nil_ok_map (Some k) (Some x) (lo_of 0 r) (hi_of max_int64 r) Nk Nx) as [N1 N2].
  split; [exact O|]. split; [exact N1|]. split; [congruence|]. cbn [or_any] in M.
  intros v Wv Sv. cbn [means].
  assert (EL : forall m, v = VMap m -> (Forall (fun e => has_type W k (fst e) /\ has_type W x (snd e)) m <-> Forall (fun e => means E W K (fst e) /\ means E W X (snd e)) m)).
  { intros m ->. apply (all_agree _ _ (fun e => (wf (fst e) /\ wf (snd e)) /\ (sound (fst e) /\ sound (snd e)))).
    - apply wf_map in Wv. apply sound_map in Sv as [_ Sv]. rewrite Forall_forall in *. auto.
    - intros e [[W1 W2] [S1 S2]]. now rewrite Mk, Mx. }
  split.
  - intros H. destruct (S v H) as [m ->]. exists m. split; [reflexivity|]. pose proof (proj1 (sound_map m Sv)) as LL. unfold size_of in *. apply M in H as [H1 H2]; auto.
    split; [apply (sizes_between r); auto; lia|]. now apply EL.
  - intros (m & -> & H1 & H2). pose proof (proj1 (sound_map m Sv)) as LL. unfold size_of in *. apply M; [lia|]. split; [apply (sizes_between r); auto; lia|]. now apply EL.
Qed.

(* ---------- undef ---------- *)
Lemma nil_wf : wf VNil.
Proof. constructor. Qed.
Lemma takes_nil_means T t : made_for T t -> (takes_nil W t = true <-> means E W T VNil).
Proof.
  intros (O & N & _ & M). rewrite takes_nil_ok by assumption. rewrite (inst_iff W t VNil O nil_wf). apply M; [apply nil_wf|exact I].
Qed.
Lemma has_nil v : has_type W TNil v <-> v = VNil.
Proof. reflexivity. Qed.
Definition opt (t : ty) : ty := if takes_nil W t then t else any_of_type 0%nat [TNil; t].
Lemma opt_means t v : type_ok t -> nil_ok t -> (has_type W (opt t) v <-> v = VNil \/ has_type W t v).
Proof.
  intros O N. unfold opt. rewrite takes_nil_ok by assumption. destruct (inst W t VNil) eqn:X.
  - apply (inst_iff W t VNil O nil_wf) in X. split; [auto|]. intros [->|H]; auto.
  - rewrite any_of_type_means. split.
    + intros H. inversion H as [? ? H1|? ? H1]; subst; [left; exact H1|]. inversion H1 as [? ? H2|? ? H2]; subst; [right; exact H2|inversion H2].
    + intros [->|H]; [left; reflexivity|right; left; exact H].
Qed.
Lemma opt_ok t : type_ok t -> nil_ok t -> type_ok (opt t) /\ nil_ok (opt t).
Proof.
  intros O N. unfold opt. destruct (takes_nil W t); [auto|]. cbn [any_of_type]. split; (split; [exact I|]); cbn; repeat split; assumption.
Qed.
Lemma good_optional T : good T -> good (YOptional T).
Proof.
  intros G P. destruct (G P) as (t & Et & O & N & U & M). exists (opt t). destruct (opt_ok t O N) as [O1 N1]. split.
  { cbn [expr]. apply (ev_brackets _ _ [PT t] (fun args => t_panic (optional_args W args))); try reflexivity; [cbn [map seq]; now rewrite Et|repeat constructor]. }
  split; [exact O1|]. split; [exact N1|]. split.
  - unfold opt. destruct (takes_nil W t); [exact U|discriminate].
  - intros v Wv Sv. cbn [means]. rewrite opt_means by assumption. now rewrite M.
Qed.
Lemma good_optional_text s : good (YOptionalText s).
Proof.
  intros P. assert (O : type_ok (TExact 0%nat (VStr (text_value s)))) by (split; [constructor|exact I]). assert (N : nil_ok (TExact 0%nat (VStr (text_value s)))) by (split; [discriminate|exact I]).
  exists (opt (TExact 0%nat (VStr (text_value s)))). destruct (opt_ok _ O N) as [O1 N1]. split.
  { cbn [expr]. apply (ev_brackets _ _ [PV (VStr (text_value s))] (fun args => t_panic (optional_args W args))); try reflexivity; [cbn [map seq]; now rewrite text_ev|repeat constructor]. }
  split; [exact O1|]. split; [exact N1|]. split.
  - unfold opt. destruct (takes_nil W _); discriminate.
  - intros v Wv Sv. cbn [means]. rewrite opt_means by assumption. pose proof (veq_str (text_value s) v) as X. tauto.
Qed.
Lemma good_notundef T : good T -> good (YNotUndef T).
Proof.
  intros G P. destruct (G P) as (t & Et & O & N & U & M). pose proof (takes_nil_means T t (conj O (conj N (conj U M)))) as TN.
  exists (if is_any t then not_type 0%nat TNil else if takes_nil W t then all_of_type 0%nat [not_type 0%nat TNil; t] else t). split.
  { cbn [expr]. apply (ev_brackets _ _ [PT t] (fun args => t_panic (not_undef_args W args))); try reflexivity; [cbn [map seq]; now rewrite Et|repeat constructor|].
    cbn [not_undef_args]. destruct (is_any t); [reflexivity|]. destruct (takes_nil W t); reflexivity. }
  destruct (is_any t) eqn:A.
  - apply is_any_eq in A. subst t. split; [repeat split|]. split; [repeat split|]. split; [discriminate|].
    intros v Wv Sv. cbn [means]. pose proof (proj1 (M v Wv Sv) I) as X. split; [intros H; split; [exact H|exact X]|intros [H _]; exact H].
  - destruct (takes_nil W t) eqn:K.
    + split; [split; [exact I|]; cbn; repeat split; assumption|]. split; [split; [exact I|]; cbn; repeat split; assumption|]. split; [discriminate|].
      intros v Wv Sv. rewrite all_of_type_means. cbn [means]. rewrite <- M by assumption. split.
      * intros H. inversion H as [|? ? H1 H2]; subst. inversion H2; subst. split; [exact H1|assumption].
      * intros [H1 H2]. repeat constructor; assumption.
    + split; [exact O|]. split; [exact N|]. split.
      * intros ->. rewrite takes_nil_ok in K by (repeat split). discriminate.
      * intros v Wv Sv. cbn [means]. rewrite <- M by assumption. split; [|tauto]. intros H. split; [|exact H].
        intros ->. apply M in H; [|apply nil_wf|exact I]. apply TN in H. congruence.
Qed.
Lemma good_sensitive T : good T -> good (YSensitive T).
Proof.
  intros G P. destruct (G P) as (t & Et & O & N & U & M). exists (TSens 0%nat t). split.
  { cbn [expr]. apply (ev_brackets _ _ [PT t] (fun args => t_panic (sensitive_args args))); try reflexivity; [cbn [map seq]; now rewrite Et|repeat constructor]. }
  split; [split; [exact I|exact O]|]. split; [split; [exact I|exact N]|]. split; [discriminate|].
  intros v Wv Sv. cbn [means]. unfold has_type. cbn [has_type_with]. fold (has_type W). split; intros (x & -> & H); exists x; split; auto; inversion Wv; subst; now apply M.
Qed.

(* ---------- strings ---------- *)
Lemma good_string_of s : good (YStringOf s).
Proof.
  intros P. exists (TExact 0%nat (VStr (text_value s))). split.
  { cbn [expr]. apply (ev_brackets _ _ [PV (VStr (text_value s))] (fun args => t_panic (string_args args))); try reflexivity; [cbn [map seq]; now rewrite text_ev|repeat constructor]. }
  split; [split; [constructor|exact I]|]. split; [split; [discriminate|exact I]|]. split; [discriminate|]. intros v _ _. apply veq_str.
Qed.
Lemma texts_ev l : Forall text_ok l -> seq (map ev (map text_expr l)) = Some (map (fun s => PV (VStr (text_value s))) l).
Proof. induction 1 as [|s l H _ IH]; [reflexivity|]. cbn [map seq]. rewrite text_ev by assumption. cbn [obind]. now rewrite IH. Qed.
Lemma seq_app {A} (l l' : list (option A)) x y : seq l = Some x -> seq l' = Some y -> seq (l ++ l') = Some (x ++ y).
Proof.
  revert x. induction l as [|[a|] l IH]; cbn [seq obind app]; intros x H H'; [injection H as <-; exact H'| |discriminate].
  destruct (seq l) as [z|]; [|discriminate]. injection H as <-. cbn [obind]. now rewrite (IH z).
Qed.
Lemma arg_strings_ok (l : list ytext) : arg_strings (map (fun s => PV (VStr (text_value s))) l) = Some (map text_value l).
Proof. induction l as [|s l IH]; [reflexivity|]. cbn [map arg_strings]. now rewrite IH. Qed.
Lemma ci_enum_means ss v : has_type W (ci_enum_type W 0%nat ss) v <-> exists x, In x ss /\ exists s, v = VStr s /\ w_fold W (w_lower W x) s = true.
Proof.
  assert (C : forall x, has_type W (ci_string_type W x) v <-> exists s, v = VStr s /\ w_fold W (w_lower W x) s = true) by reflexivity.
  destruct ss as [|a [|b r]]; cbn [ci_enum_type].
  - split; [|intros (x & [] & _)]. unfold has_type. cbn. tauto.
  - rewrite C. split; [intros H; exists a; split; [now left|exact H]|]. intros (x & [<-|[]] & H). exact H.
  - unfold has_type at 1. cbn [has_type_with]. fold (has_type W). rewrite Exists_map, Exists_map, Exists_exists.
    split; [intros (x & Hx & H); exists x; split; [exact Hx|now apply C]|]. intros (x & Hx & H). exists x. split; [exact Hx|now apply C].
Qed.
Lemma enum_ok ss : ss <> [] -> type_ok (enum_type 0%nat ss) /\ nil_ok (enum_type 0%nat ss) /\ enum_type 0%nat ss <> TNil.
Proof.
  intros N. destruct ss as [|a [|b r]]; [contradiction| |]; cbn [enum_type]; (split; [|split; [|discriminate]]); try (split; [first [constructor|discriminate]|exact I]).
  - split; [exact I|]. apply (fold_and (ty_all node_ok)). apply Forall_forall. intros t Ht. apply in_map_iff in Ht as (s & <- & _). split; [constructor|exact I].
  - split; [exact I|]. apply (fold_and (ty_all nil_node)). apply Forall_forall. intros t Ht. apply in_map_iff in Ht as (s & <- & _). split; [discriminate|exact I].
Qed.
Lemma ci_enum_ok ss : ss <> [] -> type_ok (ci_enum_type W 0%nat ss) /\ nil_ok (ci_enum_type W 0%nat ss) /\ ci_enum_type W 0%nat ss <> TNil.
Proof.
  intros N. destruct ss as [|a [|b r]]; [contradiction| |]; cbn [ci_enum_type]; (split; [|split; [|discriminate]]); try (repeat split; fail).
  - split; [exact I|]. apply (fold_and (ty_all node_ok)). apply Forall_forall. intros t Ht. apply in_map_iff in Ht as (s & <- & _). repeat split.
  - split; [exact I|]. apply (fold_and (ty_all nil_node)). apply Forall_forall. intros t Ht. apply in_map_iff in Ht as (s & <- & _). repeat split.
Qed.
Lemma good_enum l ci : good (YEnum l ci).
Proof.
  intros [NE P]. set (b := match ci with Some b => b | None => false end).
  assert (NS : map text_value l <> []) by (destruct l; [contradiction|discriminate]).
  exists (if b then ci_enum_type W 0%nat (map text_value l) else enum_type 0%nat (map text_value l)). split.
  { cbn [expr]. set (vs := map (fun s => PV (VStr (text_value s))) l). apply (ev_brackets _ _ (vs ++ match ci with Some b => [PV (VBool b)] | None => [] end) (fun args => t_panic (enum_args W args))); try reflexivity.
    - rewrite map_app. apply seq_app; [apply texts_ev; exact P|]. destruct ci as [[|]|]; reflexivity.
    - apply Forall_app. split; [|destruct ci; repeat constructor]. apply Forall_forall. intros x Hx. apply in_map_iff in Hx as (s & <- & _). exact I.
    - unfold b, enum_args. destruct ci as [c|].
      + rewrite rev_app_distr. cbn [rev app]. rewrite rev_involutive. unfold vs. rewrite arg_strings_ok. cbn [obind]. destruct c; reflexivity.
      + assert (AS : arg_strings vs = Some (map text_value l)) by apply arg_strings_ok. rewrite app_nil_r. destruct (rev vs) as [|x y] eqn:R.
        * exfalso. assert (X : rev (rev vs) = []) by now rewrite R. rewrite rev_involutive in X. unfold vs in X. destruct l; [contradiction|discriminate].
        * assert (X : In x vs) by (apply in_rev; rewrite R; now left). apply in_map_iff in X as (s & <- & _). rewrite AS. reflexivity. }
  destruct (enum_ok (map text_value l) NS) as (O1 & N1 & U1). destruct (ci_enum_ok (map text_value l) NS) as (O2 & N2 & U2).
  split; [destruct b; assumption|]. split; [destruct b; assumption|]. split; [destruct b; congruence|].
  intros v Wv Sv. cbn [means]. fold b. destruct b.
  - rewrite ci_enum_means. split.
    + intros (x & Hx & s & -> & H). apply in_map_iff in Hx as (y & <- & Hy). eauto.
    + intros (s & x & -> & Hx & H). exists (text_value x). split; [now apply in_map|]. eauto.
  - rewrite enum_type_means. split.
    + intros (x & Hx & ->). apply in_map_iff in Hx as (y & <- & Hy). eauto.
    + intros (s & x & -> & Hx & ->). exists (text_value x). split; [now apply in_map|reflexivity].
Qed.

Definition pval_of (p : ypat) : pval := match p with PatText s => PV (VStr (text_value s)) | PatSlash ps => PV (VRegexp (encode (flat_map pat_value ps))) end.
Lemma pat_ev p : ypat_ok E p -> ev (pat_expr p) = Some (pval_of p).
Proof.
  destruct p as [s|ps]; intros [H C]; cbn [pat_expr pval_of]; [now apply text_ev|]. cbn [PcoreProofs.ev]. cbn [pat_regexp] in C. now rewrite C.
Qed.
Lemma pats_ev l : Forall (ypat_ok E) l -> seq (map ev (map pat_expr l)) = Some (map pval_of l) /\ arg_patterns E (map pval_of l) = Some (map pat_regexp l).
Proof.
  induction 1 as [|p l H _ [IH1 IH2]]; [split; reflexivity|]. split.
  - cbn [map seq]. rewrite pat_ev by assumption. cbn [obind]. now rewrite IH1.
  - destruct H as [_ C]. cbn [map arg_patterns]. destruct p as [s|ps]; cbn [pval_of pat_regexp] in *; rewrite ?C, IH2; reflexivity.
Qed.
Lemma pval_no_entry l : Forall no_entry (map pval_of l).
Proof. apply Forall_forall. intros x Hx. apply in_map_iff in Hx as ([s|ps] & <- & _); exact I. Qed.
Lemma good_pattern l : good (YPattern l).
Proof.
  intros [NE P]. destruct (pats_ev l P) as [S A]. exists (any_of_type 0%nat (map TPattern (map pat_regexp l))). split.
  { cbn [expr]. apply (ev_brackets _ _ (map pval_of l) (fun args => t_panic (pattern_args E args))); try reflexivity; [exact S|apply pval_no_entry|].
    unfold pattern_args. destruct l as [|p l]; [contradiction|]. cbn [map]. cbn [map] in A. rewrite A. reflexivity. }
  assert (O : Forall type_ok (map TPattern (map pat_regexp l))) by (apply Forall_forall; intros t Ht; apply in_map_iff in Ht as (s & <- & _); repeat split).
  split; [now apply ternary_types_ok|]. split; [|split].
  - destruct l as [|p [|q r]]; [contradiction|repeat split|]. cbn [map any_of_type]. split; [exact I|]. apply (fold_and (ty_all nil_node)).
    apply Forall_forall. intros t Ht. change (In t (map TPattern (map pat_regexp (p :: q :: r)))) in Ht. apply in_map_iff in Ht as (s & <- & _). repeat split.
  - destruct l as [|p [|q r]]; [contradiction|discriminate|discriminate].
  - intros v Wv Sv. cbn [means]. rewrite any_of_type_means, Exists_map, Exists_map, Exists_exists. split.
    + intros (p & Hp & s & -> & H). eauto.
    + intros (s & p & -> & Hp & H). exists p. split; [exact Hp|]. exists s. auto.
Qed.
Lemma good_regexp p : good (YRegexp p).
Proof.
  intros P. destruct (pats_ev [p]) as [S A]; [now constructor|]. exists (TExact 0%nat (VRegexp (pat_regexp p))). split.
  { cbn [expr]. apply (ev_brackets _ _ (map pval_of [p]) (fun args => t_panic (regexp_args E args))); try reflexivity; [exact S|apply pval_no_entry|].
    cbn [map regexp_args]. cbn [map] in A. rewrite A. reflexivity. }
  split; [split; [constructor|exact I]|]. split; [split; [discriminate|exact I]|]. split; [discriminate|]. intros v _ _. apply veq_regexp.
Qed.

(* ---------- floats and numbers ---------- *)
Definition flo (r : yrange yfbound) : spec_float := match r with RNone => min_float | RMin b | RBoth b _ => fbound_value E min_float b end.
Definition fhi (r : yrange yfbound) : spec_float := match r with RNone | RMin _ => max_float | RBoth _ c => fbound_value E max_float c end.
Lemma min_finite : finite min_float.
Proof. split; reflexivity. Qed.
Lemma max_finite : finite max_float.
Proof. split; reflexivity. Qed.
Lemma fbound_finite d b : finite d -> fbound_ok E b -> finite (fbound_value E d b).
Proof. destruct b; cbn [fbound_ok fbound_value]; auto. intros _. apply int_finite. Qed.
Lemma frange_finite r : frange_ok E r -> finite (flo r) /\ finite (fhi r) /\ SFleb (flo r) (fhi r) = true.
Proof.
  destruct r as [|b|b c]; cbn [flo fhi frange_ok].
  - intros _. split; [apply min_finite|]. split; [apply max_finite|reflexivity].
  - intros H. pose proof (fbound_finite min_float b min_finite H) as F. split; [exact F|]. split; [apply max_finite|]. apply F.
  - intros (H1 & H2 & L). split; [now apply fbound_finite, H1; apply min_finite|]. split; [now apply fbound_finite, H2; apply max_finite|exact L].
Qed.
Lemma f_range r f : finite f -> (f_in_range E r f <-> SFleb (flo r) f = true /\ SFleb f (fhi r) = true).
Proof.
  intros [F1 F2]. assert (A : forall b, f_at_least E b f <-> SFleb (fbound_value E min_float b) f = true).
  { intros [| |]; cbn [f_at_least fbound_value]; [split; auto|reflexivity|reflexivity]. }
  assert (B : forall b, f_at_most E b f <-> SFleb f (fbound_value E max_float b) = true).
  { intros [| |]; cbn [f_at_most fbound_value]; [split; auto|reflexivity|reflexivity]. }
  destruct r as [|b|b c]; cbn [f_in_range flo fhi]; rewrite ?A, ?B; intuition.
Qed.
Lemma float_made r : frange_ok E r -> exists t, float_type 0%nat (flo r) (fhi r) true = Some t /\ type_ok t /\ nil_ok t /\ t <> TNil /\
  forall v, wf v -> sound v -> (has_type W t v <-> exists f, v = VFloat f /\ f_in_range E r f).
Proof.
  intros R. destruct (frange_finite r R) as (F1 & F2 & L).
  destruct (float_type 0%nat (flo r) (fhi r) true) as [t|] eqn:T; [|apply float_type_none in T as [_ T]; discriminate].
  exists t. split; [reflexivity|]. pose proof (float_type_shape _ _ _ _ _ T) as SH. pose proof (leb_not_ltb _ _ L) as NL.
  assert (D : t = TFloat \/ t <> TFloat) by (destruct t; ((left; reflexivity) || (right; discriminate))). destruct D as [->|NT].
  - split; [repeat split|]. split; [repeat split|]. split; [discriminate|]. intros v Wv Sv.
    assert (EQ : SFeqb (flo r) min_float = true /\ SFeqb (fhi r) max_float = true).
    { inversion SH as [|? E1 E2|N ? ?| |]; subst; [split; assumption|congruence]. }
    destruct EQ as [Q1 Q2]. apply eqb_leb in Q1 as [Q1 _]. apply eqb_leb in Q2 as [_ Q2]. split.
    + intros [f ->]. exists f. split; [reflexivity|]. apply f_range; [exact Sv|]. destruct Sv as [S1 S2]. split; [exact (leb_trans _ _ _ Q1 S1)|exact (leb_trans _ _ _ S2 Q2)].
    + intros (f & -> & _). exists f. reflexivity.
  - destruct (float_type_means W _ _ _ _ _ (finite_nan _ F1) (finite_nan _ F2) T NT) as (O & S & M). split; [exact O|]. split; [|split].
    + inversion SH; subst; try (repeat split; discriminate); contradiction.
    + intros ->. inversion SH.
    + intros v Wv Sv.
      assert (X : forall f, finite f -> (has_type W t (VFloat f) <-> f_in_range E r f)).
      { intros f Ff. rewrite M by now apply finite_nan. rewrite f_range by assumption. unfold float_between. split; [intros [H|(H & _)]; [exact H|congruence]|auto]. }
      split.
      * intros H. destruct (S v H) as (f & -> & _). exists f. split; [reflexivity|]. apply X; assumption.
      * intros (f & -> & H). apply X; assumption.
Qed.
Lemma float_args_range r : float_args (range_args fval r) = float_type 0%nat (flo r) (fhi r) true.
Proof. destruct r as [|b|b c]; cbn [range_args range_vals float_args flo fhi]; rewrite ?fval_float; cbn [obind]; rewrite ?fval_float; reflexivity. Qed.
Lemma good_float r : good (YFloat r).
Proof.
  intros P. destruct (float_made r P) as (t & T & O & N & U & M). exists t. split.
  { cbn [expr]. apply (ev_maybe _ _ fval _ (fun args => t_panic (float_args args))); try reflexivity; [apply fval_ev|apply fval_no_entry|].
    rewrite float_args_range, T. reflexivity. }
  split; [exact O|]. split; [exact N|]. split; [congruence|]. exact M.
Qed.

Lemma small_in64 b : bound_ok b -> fbound_ok E (as_float b).
Proof. destruct b; auto. Qed.
Lemma number_range r : range_ok r -> each small r -> frange_ok E (range_map as_float r).
Proof.
  intros R S. destruct r as [|b|b c]; cbn [range_map frange_ok]; [exact I|now apply small_in64|]. destruct R as (R1 & R2 & L).
  split; [now apply small_in64|]. split; [now apply small_in64|].
  destruct b as [|p x], c as [|q y]; cbn [as_float fbound_value bound_ok] in *; [reflexivity|apply int_finite; assumption|apply int_finite; assumption|now apply int_leb].
Qed.
Lemma min_to_int : float_to_int min_float = min_int64.
Proof. vm_compute. reflexivity. Qed.
Lemma lo_to_int r : each small r -> float_to_int (flo (range_map as_float r)) = lo_of min_int64 r.
Proof.
  destruct r as [|b|b c]; cbn [range_map flo lo_of each]; [intros _; apply min_to_int| |];
    [intros S|intros [S _]]; (destruct b as [|p x]; cbn [as_float fbound_value bound_of small] in *; [apply min_to_int|now apply to_int_of_int]).
Qed.
Lemma int_not_max z : in64 z -> SFeqb (float_of_int z) max_float = false.
Proof.
  intros I. destruct (SFeqb (float_of_int z) max_float) eqn:Q; [|reflexivity]. apply eqb_leb in Q as [_ Q].
  assert (X : SFleb max_float (float_of_int max_int64) = true) by (apply (leb_trans _ _ _ Q); apply int_leb; unfold in64, min_int64, max_int64 in *; lia).
  vm_compute in X. discriminate.
Qed.
Lemma hi_to_int r : range_ok r -> each small r ->
  (if SFeqb (fhi (range_map as_float r)) max_float then max_int64 else float_to_int (fhi (range_map as_float r))) = hi_of max_int64 r.
Proof.
  destruct r as [|b|b c]; cbn [range_map fhi hi_of each range_ok]; try reflexivity. intros (_ & R & _) [_ S].
  destruct c as [|p x]; cbn [as_float fbound_value bound_of small bound_ok] in *; [reflexivity|]. rewrite int_not_max by assumption. now apply to_int_of_int.
Qed.
Lemma range_args_map r : range_args bval r = range_args fval (range_map as_float r).
Proof. destruct r as [|b|b c]; [reflexivity| |]; repeat match goal with b : ybound |- _ => destruct b end; reflexivity. Qed.
(* the bounds can be read from the float type, up to a sign of zero *)
Lemma shape_bounds t lo hi : float_type 0%nat lo hi true = Some t -> SFltb hi lo = false -> lo <> S754_nan -> hi <> S754_nan ->
  SFeqb (float_min t) lo = true /\ SFeqb (float_max t) hi = true.
Proof.
  intros T L N1 N2. assert (R : forall x, x <> S754_nan -> SFeqb x x = true). { intros x Nx. unfold SFeqb. now rewrite SFcompare_refl. }
  assert (C : forall x y, SFeqb x y = true -> SFeqb y x = true).
  { intros x y H. assert (Nx : x <> S754_nan) by (intros ->; discriminate). assert (Ny : y <> S754_nan) by (intros ->; destruct x; discriminate).
    apply SFeqb_iff in H; auto. apply SFeqb_iff; auto. }
  apply float_type_shape in T. inversion T; subst; cbn [float_min float_max]; try congruence; auto.
Qed.
Lemma eqb_to_int x y : SFeqb x y = true -> float_to_int x = float_to_int y.
Proof.
  intros H. assert (Nx : x <> S754_nan) by (intros ->; discriminate). assert (Ny : y <> S754_nan) by (intros ->; destruct x; discriminate).
  apply fkey_hash; auto. now apply SFeqb_key.
Qed.
Lemma eqb_max x y : SFeqb x y = true -> SFeqb x max_float = SFeqb y max_float.
Proof.
  intros H. assert (Nx : x <> S754_nan) by (intros ->; discriminate). assert (Ny : y <> S754_nan) by (intros ->; destruct x; discriminate).
  apply SFeqb_key in H; auto. unfold SFeqb. rewrite !SFcompare_key by (auto; discriminate). now rewrite H.
Qed.
Lemma good_number r : good (YNumber r).
Proof.
  intros [P S]. pose proof (number_range r P S) as FR. destruct (float_made _ FR) as (f & TF & Of & Nf & Uf & Mf). destruct (frange_finite _ FR) as (F1 & F2 & FL).
  destruct (shape_bounds f _ _ TF (leb_not_ltb _ _ FL) (finite_nan _ F1) (finite_nan _ F2)) as [B1 B2]. destruct (range_in64 r P) as [I1 I2].
  destruct (integer_type 0%nat (lo_of min_int64 r) (hi_of max_int64 r) true) as [i|] eqn:TI; [|apply integer_type_none in TI as [_ TI]; discriminate].
  exists (any_of_type 0%nat [i; f]). split.
  { cbn [expr]. apply (ev_maybe _ _ bval _ (fun args => t_panic (number_args args))); try reflexivity; [apply bval_ev|apply bval_no_entry|].
    unfold number_args. rewrite range_args_map, float_args_range, TF. cbn [obind]. rewrite (eqb_max _ _ B2), (eqb_to_int _ _ B1), (eqb_to_int _ _ B2), lo_to_int, hi_to_int by assumption.
    rewrite TI. reflexivity. }
  destruct (integer_type_interval W _ _ _ _ _ I1 I2 TI) as (Oi & Si & Mi); [intros (_ & _ & F); discriminate|].
  assert (Ni : nil_ok i) by (apply integer_type_shape in TI; destruct TI; repeat split; discriminate).
  split; [split; [exact I|]; cbn; auto|]. split; [split; [exact I|]; cbn; auto|]. split; [discriminate|].
  intros v Wv Sv. rewrite any_of_type_means. cbn [means]. rewrite <- (Mf v Wv Sv). split.
  - intros H. inversion H as [? ? H1|? ? H1]; subst.
    + left. destruct (Si v H1) as [z ->]. exists z. split; [reflexivity|]. apply range_between; auto. now apply Mi.
    + right. inversion H1 as [? ? H2|? ? H2]; subst; [exact H2|inversion H2].
  - intros [(z & -> & H)|H]; [|right; left; exact H]. left. apply Mi; auto. now apply range_between.
Qed.

(* ---------- lists of types ---------- *)
Lemma types_ev l : Forall good l -> Forall (proper E) l -> exists ts, seq (map ev (map expr l)) = Some (map PT ts) /\ Forall2 made_for l ts.
Proof.
  intros G P. induction G as [|T l H _ IH]; [exists []; split; constructor|]. inversion P as [|? ? P1 P2]; subst.
  destruct (H P1) as (t & Et & M). destruct (IH P2) as (ts & S & F). exists (t :: ts). split; [|now constructor].
  cbn [map seq]. rewrite Et. cbn [obind]. now rewrite S.
Qed.
Lemma arg_types_ok ts : arg_types (map PT ts) = Some ts.
Proof. induction ts as [|t ts IH]; [reflexivity|]. cbn [map arg_types]. now rewrite IH. Qed.
Lemma types_no_entry ts : Forall no_entry (map PT ts).
Proof. apply Forall_forall. intros x Hx. apply in_map_iff in Hx as (t & <- & _). exact I. Qed.
Lemma made_ok l ts : Forall2 made_for l ts -> Forall type_ok ts /\ Forall nil_ok ts.
Proof. induction 1 as [|T t l ts (O & N & _) _ [IH1 IH2]]; auto. Qed.
Lemma made_exists l ts v : Forall2 made_for l ts -> wf v -> sound v -> (Exists (fun t => has_type W t v) ts <-> Exists (fun P : value -> Prop => P v) (map (means E W) l)).
Proof.
  intros F Wv Sv. induction F as [|T t l ts (_ & _ & _ & M) _ IH]; cbn [map]; [split; intros H; inversion H|].
  split; intros H; inversion H as [? ? H1|? ? H1]; subst; [left; now apply M|right; now apply IH|left; now apply M|right; now apply IH].
Qed.
Lemma good_variant l : Forall good l -> good (YVariant l).
Proof.
  intros G P. cbn [proper] in P. apply fold_and in P. destruct (types_ev l G P) as (ts & S & F). destruct (made_ok l ts F) as [O N].
  exists (any_of_type 0%nat ts). split.
  { cbn [expr]. apply (ev_brackets _ _ (map PT ts) (fun args => t_panic (variant_args args))); try reflexivity; [exact S|apply types_no_entry|].
    unfold variant_args. rewrite arg_types_ok. reflexivity. }
  split; [now apply ternary_types_ok|]. split; [|split].
  - destruct ts as [|t [|u r]]; [repeat split|now inversion N|]. cbn [any_of_type]. split; [exact I|]. now apply (fold_and (ty_all nil_node)).
  - destruct ts as [|t [|u r]]; cbn [any_of_type]; [discriminate| |discriminate]. intros ->. inversion F as [|T ? l' ? M F']; subst. inversion F'; subst. cbn [undef_only]. now apply M.
  - intros v Wv Sv. rewrite any_of_type_means. cbn [means]. now apply made_exists.
Qed.

(* ---------- tuples ---------- *)
Lemma made_Forall2 l ts vs : Forall2 made_for l ts -> Forall wf vs -> Forall sound vs ->
  (Forall2 (has_type W) ts vs <-> Forall2 (fun (P : value -> Prop) x => P x) (map (means E W) l) vs).
Proof.
  intros F. revert vs. induction F as [|T t l ts (_ & _ & _ & M) _ IH]; intros vs Wv Sv; cbn [map].
  - split; intros H; inversion H; subst; constructor.
  - split; intros H; inversion H as [|? x ? r H1 H2]; subst; inversion Wv; inversion Sv; subst; (constructor; [now apply M|now apply IH]).
Qed.
Lemma exact_all ts : forallb is_exact ts = true -> ~ In TNil ts -> exists vs, exact_values ts = Some vs.
Proof.
  induction ts as [|t ts IH]; intros H N; [exists []; reflexivity|]. cbn [forallb] in H. apply andb_true_iff in H as [H1 H2]. cbn [exact_values].
  destruct (exact_value t) as [v|] eqn:X. 2:{ exfalso. apply N. left. now apply exact_or_nil. }
  destruct (IH H2) as [vs ->]; [intros K; apply N; now right|]. now exists (v :: vs).
Qed.
Lemma tuple_made ts variadic t : Forall nil_ok ts -> new_tuple_type 0%nat ts variadic = Some t -> nil_ok t /\ t <> TNil.
Proof.
  intros N. unfold new_tuple_type. destruct ts as [|a r]. { intros [= <-]. split; [repeat split|discriminate]. }
  destruct (_ && _ && _); [intros [= <-]; split; [repeat split|discriminate]|].
  destruct (_ && _). { destruct (exact_values _); [|discriminate]. intros [= <-]. split; [repeat split; discriminate|discriminate]. }
  intros [= <-]. split; [|discriminate]. split; [exact I|]. now apply (fold_and (ty_all nil_node)).
Qed.
Lemma rev_types ts : rev (map PT ts) = map PT (rev ts).
Proof. now rewrite map_rev. Qed.
Lemma tuple_bounds_types ts : ts <> [] -> tuple_bounds (map PT ts) = Some (map PT ts, Z.of_nat (length ts), Z.of_nat (length ts)).
Proof.
  intros N. unfold tuple_bounds. rewrite rev_types. destruct (rev ts) as [|t r] eqn:R.
  - exfalso. apply N. rewrite <- (rev_involutive ts), R. reflexivity.
  - cbn [map get_int]. now rewrite map_length.
Qed.
Lemma good_tuple l : Forall good l -> good (YTuple l).
Proof.
  intros G [NE P]. apply (fold_and (fun t => no_undef t /\ proper E t)) in P.
  assert (P1 : Forall (proper E) l) by (rewrite Forall_forall in *; intros x Hx; now apply P). destruct (types_ev l G P1) as (ts & S & F). destruct (made_ok l ts F) as [O N].
  assert (NT : ~ In TNil ts).
  { intros H. destruct (Forall2_in_r _ _ _ _ F H) as (T & HT & M). rewrite Forall_forall in P. destruct (P T HT) as [X _]. unfold no_undef in X.
    destruct M as (_ & _ & U & _). rewrite (U eq_refl) in X. discriminate. }
  assert (NT0 : ts <> []) by (intros ->; inversion F; subst; contradiction).
  destruct (tuple_type 0%nat ts) as [t|] eqn:T.
  2:{ exfalso. unfold tuple_type, new_tuple_type in T. destruct ts as [|a r]; [discriminate|]. cbn [andb negb] in T.
      destruct (forallb is_exact (a :: r)) eqn:X; [|discriminate]. destruct (exact_all _ X NT) as [vs Q]. rewrite Q in T. discriminate. }
  exists t. split.
  { cbn [expr]. apply (ev_brackets _ _ (map PT ts) (fun args => t_panic (tuple_args args))); try reflexivity; [exact S|apply types_no_entry|].
    unfold tuple_args, tuple_from_args. rewrite tuple_bounds_types by assumption. cbn [obind]. rewrite arg_types_ok. cbn [obind]. rewrite !Z.eqb_refl. cbn [andb]. rewrite T. reflexivity. }
  destruct (tuple_type_means W 0%nat ts t O T) as (Ot & St & Mt). destruct (tuple_made ts false t N T) as [N1 N2].
  split; [exact Ot|]. split; [exact N1|]. split; [congruence|]. intros v Wv Sv. cbn [means].
  assert (X : forall vs, v = VArr vs -> (Forall2 (has_type W) ts vs <-> Forall2 (fun (P : value -> Prop) x => P x) (map (means E W) l) vs)).
  { intros vs ->. apply made_Forall2; auto; [now apply wf_arr|]. now apply sound_arr in Sv. }
  split.
  - intros H. destruct (St v H) as [vs ->]. exists vs. split; [reflexivity|]. apply X; auto. now apply Mt.
  - intros (vs & -> & H). apply Mt. now apply X.
Qed.
Lemma good_tuple_any : good YTupleAny.
Proof.
  apply (good_simple _ "Tuple" default_tuple); try reflexivity; try discriminate.
  - split; [discriminate|]. cbn. auto.
  - repeat split.
  - intros v _. cbn [means]. unfold default_tuple, has_type. cbn [has_type_with]. split; [intros (l & -> & _); eauto|]. intros (l & ->). exists l. split; [reflexivity|].
    exists [], (fun _ => True), [], l. repeat split; auto. apply Forall_forall. auto.
Qed.
Lemma Forall2_snoc {A B} (R : A -> B -> Prop) l a l' : Forall2 R (l ++ [a]) l' -> exists r b, l' = r ++ [b] /\ Forall2 R l r /\ R a b.
Proof.
  intros H. apply Forall2_app_inv_l in H as (r & s & H1 & H2 & ->). inversion H2 as [|? b ? s' H3 H4]; subst. inversion H4; subst. eauto.
Qed.
Lemma good_tuple_from l plus n : Forall good l -> good (YTupleFrom l plus n).
Proof.
  intros G (NE & Hn & P). apply fold_and in P. destruct (types_ev l G P) as (ts & S & F). destruct (made_ok l ts F) as [O N].
  destruct (exists_last NE) as (l0 & T0 & El). rewrite El in F. destruct (Forall2_snoc _ _ _ _ F) as (qs & q & Ets & Fq & Mq).
  assert (LL : length ts = length l). { rewrite <- El in F. clear -F. induction F; cbn; congruence. }
  assert (LP : (0 < length l)%nat) by (destruct l; [contradiction|cbn; lia]). unfold size_of in Hn.
  destruct (variadic_tuple_type 0%nat ts) as [t|] eqn:T.
  2:{ exfalso. unfold variadic_tuple_type, new_tuple_type in T. destruct ts as [|a r]; [cbn in LL; lia|]. cbn [andb negb] in T. destruct (_ && _); discriminate. }
  exists t. split.
  { cbn [expr]. apply (ev_brackets _ _ (map PT ts ++ [PV (VInt n)]) (fun args => t_panic (tuple_args args))); try reflexivity.
    - rewrite map_app. now apply seq_app.
    - apply Forall_app. split; [apply types_no_entry|repeat constructor].
    - unfold tuple_args, tuple_from_args, tuple_bounds. rewrite rev_app_distr. cbn [rev app get_int]. rewrite rev_types.
      assert (RT : length (rev ts) = length l) by now rewrite rev_length. destruct (rev ts) as [|u r] eqn:R; [cbn in RT; lia|]. cbn [map get_int].
      rewrite <- map_cons, <- R, <- rev_types, rev_involutive. cbn [obind]. rewrite arg_types_ok. cbn [obind]. rewrite LL.
      rewrite (proj2 (Z.eqb_neq n (-1))) by lia. rewrite (proj2 (Z.eqb_neq n (Z.of_nat (length l)))) by lia. cbn [andb]. rewrite T. reflexivity. }
  rewrite Ets in T, O. destruct (variadic_tuple_type_means W 0%nat qs q t O T) as (Ot & St & Mt).
  destruct (tuple_made (qs ++ [q]) true t) as [N1 N2]. { now rewrite <- Ets. } { unfold variadic_tuple_type in T. destruct (qs ++ [q]); [discriminate|exact T]. }
  split; [exact Ot|]. split; [exact N1|]. split; [congruence|]. intros v Wv Sv. cbn [means].
  assert (EL : forall vs, Forall wf vs -> Forall sound vs -> (Forall (has_type W q) vs <-> Forall (means E W T0) vs)).
  { intros vs Wvs Svs. apply (all_agree _ _ (fun x => wf x /\ sound x)); [rewrite Forall_forall in *; auto|]. intros x [X1 X2]. now apply Mq. }
  split.
  - intros H. destruct (St v H) as [vs ->]. exists vs. split; [reflexivity|]. apply Mt in H as (l1 & l2 & -> & H1 & H2).
    apply wf_arr in Wv. apply sound_arr in Sv as [_ Sv]. apply Forall_app in Wv as [Wv1 Wv2]. apply Forall_app in Sv as [Sv1 Sv2].
    assert (L1 : length l1 = length qs) by (clear -H1; induction H1; cbn; congruence). split.
    + unfold size_of. rewrite app_length. rewrite Ets, app_length in LL. cbn [length] in LL. lia.
    + exists (map (means E W) l0), (means E W T0), l1, l2. split; [rewrite El, map_app; reflexivity|]. split; [reflexivity|]. split; [now apply (made_Forall2 l0 qs)|now apply EL].
  - intros (vs & -> & _ & Ps & Q & l1 & l2 & Em & -> & H1 & H2). apply Mt. exists l1, l2. split; [reflexivity|].
    apply wf_arr in Wv. apply sound_arr in Sv as [_ Sv]. apply Forall_app in Wv as [Wv1 Wv2]. apply Forall_app in Sv as [Sv1 Sv2].
    rewrite El, map_app in Em. cbn [map] in Em. apply app_inj_tail in Em as [<- <-]. split; [now apply (made_Forall2 l0 qs)|now apply EL].
Qed.

(* ---------- structs ---------- *)
Definition pair_expr (e : bool * ytext * ytype) : pexp * pexp := (key_expr (fst (fst e)) (snd (fst e)), expr (snd e)).
Definition pair_ev (i : pexp * pexp) : option (pval * pval) := obind (ev (fst i)) (fun k => obind (ev (snd i)) (fun v => Some (k, v))).
Definition entry_made (e : bool * ytext * ytype) (x : value * ty * bool) : Prop :=
  fst (fst x) = VStr (text_value (snd (fst e))) /\ made_for (snd e) (snd (fst x)) /\ snd x = negb (fst (fst e)).

Lemma opt_text s : opt (TExact 0%nat (VStr s)) = TAnyOf 0%nat [TNil; TExact 0%nat (VStr s)].
Proof. unfold opt. rewrite takes_nil_ok by (repeat split; discriminate). reflexivity. Qed.
Lemma key_ev optional s : text_ok s -> exists k, ev (key_expr optional s) = Some k /\ exists kt, pc_type k = Some kt /\
  optional_key kt = (TExact 0%nat (VStr (text_value s)), optional).
Proof.
  intros H. destruct optional; cbn [key_expr].
  - exists (PT (opt (TExact 0%nat (VStr (text_value s))))). split.
    + apply (ev_brackets _ _ [PV (VStr (text_value s))] (fun args => t_panic (optional_args W args))); try reflexivity; [cbn [map seq]; now rewrite text_ev|repeat constructor].
    + exists (opt (TExact 0%nat (VStr (text_value s)))). split; [reflexivity|]. now rewrite opt_text.
  - exists (PV (VStr (text_value s))). split; [now apply text_ev|]. exists (TExact 0%nat (VStr (text_value s))). split; reflexivity.
Qed.
Lemma struct_ev l : Forall (fun e => good (snd e)) l -> Forall (fun e => text_ok (snd (fst e)) /\ no_undef (snd e) /\ proper E (snd e)) l ->
  exists m es, seq (map pair_ev (map pair_expr l)) = Some m /\ struct_entries m = Some (map (given 0%nat) es) /\ Forall2 entry_made l es /\
  (m = [] \/ plain_entries m = None).
Proof.
  induction 1 as [|e l G _ IH]; intros P; [exists [], []; repeat split; auto|]. inversion P as [|? ? (P1 & _ & P3) P4]; subst.
  destruct (IH P4) as (m & es & S & X & F & _). destruct (G P3) as (t & Et & M). destruct (key_ev (fst (fst e)) (snd (fst e)) P1) as (k & Ek & kt & Kt & Ko).
  exists ((k, PT t) :: m), ((VStr (text_value (snd (fst e))), t, negb (fst (fst e))) :: es). split; [|split; [|split]].
  - assert (X1 : pair_ev (pair_expr e) = Some (k, PT t)) by (unfold pair_ev, pair_expr; cbn [fst snd]; rewrite Ek; cbn [obind]; now rewrite Et).
    cbn [map seq]. rewrite X1. cbn [obind]. rewrite S. reflexivity.
  - cbn [struct_entries]. rewrite Kt. cbn [obind pc_type]. rewrite X. cbn [obind]. rewrite Ko. reflexivity.
  - constructor; [|exact F]. split; [reflexivity|split; [exact M|reflexivity]].
  - right. cbn [plain_entries]. destruct k; reflexivity.
Qed.
Lemma exact_map_some es m : Forall (fun e : value * ty * bool => exact_value (type_of 0%nat (fst (fst e))) <> None) es ->
  Forall (fun e : value * ty * bool => exact_value (snd (fst e)) <> None) es -> exists m', exact_map (map (given 0%nat) es) m = Some m'.
Proof.
  intros H1. revert m. induction H1 as [|[[k t] r] es X _ IH]; intros m H2; [exists m; reflexivity|]. inversion H2 as [|? ? Y H3]; subst. cbn [fst snd] in X, Y.
  cbn [map exact_map given fst snd]. destruct (exact_value (type_of 0%nat k)); [|contradiction]. destruct (exact_value t); [|contradiction]. now apply IH.
Qed.
Lemma entry_keys l es : Forall2 entry_made l es -> map (fun x => fst (fst x)) es = map (fun e => VStr (text_value (snd (fst e)))) l.
Proof. induction 1 as [|e x l es (K & _) _ IH]; [reflexivity|]. cbn [map]. now rewrite K, IH. Qed.
Lemma struct_some es : Forall (fun e : value * ty * bool => exists s, fst (fst e) = VStr s) es -> Forall (fun e : value * ty * bool => snd (fst e) <> TNil) es ->
  exists t, struct_map_type 0%nat false (map (given 0%nat) es) = Some t.
Proof.
  intros K N. unfold struct_map_type. cbn [negb andb]. destruct (forallb _ (map (given 0%nat) es)) eqn:X.
  - assert (Y : Forall (fun e : value * ty * bool => exact_value (snd (fst e)) <> None) es).
    { rewrite forallb_forall in X. rewrite Forall_forall in *. intros e He V. specialize (X (given 0%nat e) (in_map _ _ _ He)). rewrite !andb_true_iff in X. destruct X as [_ X].
      apply (N e He). apply exact_or_nil; auto. }
    assert (Y2 : Forall (fun e : value * ty * bool => exact_value (type_of 0%nat (fst (fst e))) <> None) es).
    { rewrite Forall_forall in *. intros e He. destruct (K e He) as [s ->]. discriminate. }
    destruct (exact_map_some es [] Y2 Y) as [m ->]. eauto.
  - assert (Y : forallb (fun e : ty * ty * bool => is_exact (fst (fst e))) (map (given 0%nat) es) = true).
    { rewrite forallb_forall. intros e He. apply in_map_iff in He as (x & <- & Hx). rewrite Forall_forall in K. destruct (K x Hx) as [s Hs]. unfold given. cbn [fst snd]. rewrite Hs. reflexivity. }
    rewrite Y. rewrite map_map. destruct (exact_all (map (fun x => fst (fst (given 0%nat x))) es)) as [vs V].
    + rewrite forallb_forall. intros t Ht. apply in_map_iff in Ht as (x & <- & Hx). rewrite Forall_forall in K. destruct (K x Hx) as [s Hs]. unfold given. cbn [fst snd]. rewrite Hs. reflexivity.
    + intros H. apply in_map_iff in H as (x & H & Hx). rewrite Forall_forall in K. destruct (K x Hx) as [s Hs]. unfold given in H. cbn [fst snd] in H. rewrite Hs in H. discriminate.
    + rewrite V. eauto.
Qed.
Lemma combine_snd {A B} (l : list A) (l' : list B) x : In x (combine l l') -> In (snd x) l'.
Proof. destruct x. apply in_combine_r. Qed.
Lemma struct_nil_ok es t : Forall (fun e : value * ty * bool => nil_ok (snd (fst e))) es -> struct_map_type 0%nat false (map (given 0%nat) es) = Some t -> nil_ok t /\ t <> TNil.
Proof.
  intros N. unfold struct_map_type. destruct (_ && _). { destruct (exact_map _ _); [|discriminate]. intros [= <-]. split; [repeat split; discriminate|discriminate]. }
  destruct (forallb _ _); [|discriminate]. destruct (exact_values _) as [ks|]; [|discriminate]. intros [= <-]. split; [|discriminate]. split; [exact I|].
  apply (fold_and (fun e : value * ty * bool => ty_all nil_node (snd (fst e)))). apply Forall_forall. intros [[k u] b] H. apply in_combine_l in H. apply in_combine_r in H. cbn [fst snd].
  rewrite map_map in H. apply in_map_iff in H as (x & <- & Hx). rewrite Forall_forall in N. exact (N x Hx).
Qed.
Lemma entry_ordpairs l es : Forall2 entry_made l es -> NoDup (map (fun e : bool * ytext * ytype => text_value (snd (fst e))) l) ->
  ForallOrdPairs (fun e e' : value * ty * bool => veq (fst (fst e)) (fst (fst e')) = false) es.
Proof.
  intros F. induction F as [|e x l es (K & _) F IH]; intros D; [constructor|]. cbn [map] in D. inversion D as [|? ? D1 D2]; subst. constructor; [|now apply IH].
  apply Forall_forall. intros y Hy. destruct (Forall2_in_r _ _ _ _ F Hy) as (e' & He' & (K' & _)). rewrite K, K'. cbn [veq]. destruct (bytes_eqb _ _) eqn:B; [|reflexivity].
  exfalso. apply bytes_eqb_eq in B. apply D1. rewrite B. apply in_map_iff. eauto.
Qed.
Lemma good_struct l : Forall (fun e => good (snd e)) l -> good (YStruct l).
Proof.
  intros G [P D]. apply (fold_and (fun e => text_ok (snd (fst e)) /\ no_undef (snd e) /\ proper E (snd e))) in P.
  destruct (struct_ev l G P) as (m & es & S & X & F & PL).
  assert (K : Forall (fun e : value * ty * bool => exists s, fst (fst e) = VStr s) es).
  { apply Forall_forall. intros x Hx. destruct (Forall2_in_r _ _ _ _ F Hx) as (e & _ & (K & _)). eauto. }
  assert (NT : Forall (fun e : value * ty * bool => snd (fst e) <> TNil) es).
  { apply Forall_forall. intros x Hx Y. destruct (Forall2_in_r _ _ _ _ F Hx) as (e & He & (_ & (_ & _ & U & _) & _)). rewrite Forall_forall in P. destruct (P e He) as (_ & Q & _). unfold no_undef in Q. rewrite (U Y) in Q. discriminate. }
  assert (O : Forall (fun e : value * ty * bool => wf (fst (fst e)) /\ type_ok (snd (fst e))) es).
  { apply Forall_forall. intros x Hx. destruct (Forall2_in_r _ _ _ _ F Hx) as (e & He & (Kx & (Ox & _) & _)). rewrite Kx. split; [constructor|exact Ox]. }
  assert (N : Forall (fun e : value * ty * bool => nil_ok (snd (fst e))) es).
  { apply Forall_forall. intros x Hx. destruct (Forall2_in_r _ _ _ _ F Hx) as (e & He & (_ & (_ & Nx & _) & _)). exact Nx. }
  destruct (struct_some es K NT) as [t T]. exists t. split.
  { cbn [expr]. apply (ev_brackets _ _ [p_map m] (struct_args)); try reflexivity.
    - cbn [map seq PcoreProofs.ev]. change (map (fun e : bool * ytext * ytype => (key_expr (fst (fst e)) (snd (fst e)), expr (snd e))) l) with (map pair_expr l).
      change (map (fun i : pexp * pexp => obind (ev (fst i)) (fun k : pval => obind (ev (snd i)) (fun v : pval => Some (k, v)))) (map pair_expr l)) with (map pair_ev (map pair_expr l)).
      rewrite S. reflexivity.
    - unfold p_map. destruct (plain_entries m); repeat constructor.
    - unfold struct_args, p_map. destruct PL as [->|PL].
      + cbn [plain_entries map]. rewrite X, T. reflexivity.
      + rewrite PL, X, T. reflexivity. }
  destruct (struct_map_type_means W 0%nat 0%nat false es t O (entry_ordpairs l es F D) T) as (Ot & St & Mt). destruct (struct_nil_ok es t N T) as [N1 N2].
  split; [exact Ot|]. split; [exact N1|]. split; [congruence|]. intros v Wv Sv. cbn [means].
  assert (EL : forall m', v = VMap m' -> (Forall (fun e : value * ty * bool => match assoc veq m' (fst (fst e)) with Some x => has_type W (snd (fst e)) x | None => snd e = false end) es <->
    Forall (fun e : bool * ytext * (value -> Prop) => match assoc veq m' (VStr (text_value (snd (fst e)))) with Some x => snd e x | None => fst (fst e) = true end) (map (fun e => (fst e, means E W (snd e))) l))).
  { intros m' ->. apply wf_map in Wv. apply sound_map in Sv as [_ Sv]. clear -F Wv Sv. induction F as [|e x l es (K & (_ & _ & _ & M) & R) F IH]; [split; constructor|].
    cbn [map]. rewrite !Forall_cons_iff, IH, K, R. cbn [fst snd]. destruct (assoc veq m' (VStr (text_value (snd (fst e))))) as [y|] eqn:A.
    - apply assoc_some in A as (k & Hk & _). rewrite Forall_forall in Wv, Sv. destruct (Wv _ Hk) as [_ W1]. destruct (Sv _ Hk) as [_ S1]. cbn [snd] in W1, S1. now rewrite M.
    - destruct (fst (fst e)); cbn [negb]; intuition. }
  assert (KE : forall k : value, (exists e, In e es /\ veq (fst (fst e)) k = true) <-> (exists e, In e l /\ k = VStr (text_value (snd (fst e))))).
  { intros k. split.
    - intros (x & Hx & V). destruct (Forall2_in_r _ _ _ _ F Hx) as (e & He & (Kx & _)). exists e. split; [exact He|]. rewrite Kx in V. now apply veq_str.
    - intros (e & He & ->). destruct (Forall2_in_l _ _ _ _ F He) as (x & Hx & (Kx & _)). exists x. split; [exact Hx|]. rewrite Kx. now apply veq_str. }
  split.
  - intros H. destruct (St v H) as [m' ->]. exists m'. split; [reflexivity|]. apply Mt in H as [H1 H2]; [|exact Wv]. split; [now apply EL|]. intros k x Hk. apply KE.
    destruct H2 as [H2|H2]; [discriminate|]. exact (H2 k x Hk).
  - intros (m' & -> & H1 & H2). apply Mt; [exact Wv|]. split; [now apply EL|]. right. intros k x Hk. apply KE. exact (H2 k x Hk).
Qed.
Lemma good_struct_any : good YStructAny.
Proof.
  apply (good_simple _ "Struct" (TStruct 0%nat true [])); try reflexivity; try discriminate.
  - repeat split; constructor.
  - repeat split.
  - intros v _. cbn [means]. unfold has_type. cbn [has_type_with map]. split; [intros (m & -> & _); eauto|]. intros (m & ->). exists m. repeat split; auto.
Qed.

(* ---------- all types ---------- *)
Fixpoint ytype_good (T : ytype) : good T :=
  let types := fix types (l : list ytype) : Forall good l := match l with [] => Forall_nil _ | t :: r => Forall_cons t (ytype_good t) (types r) end in
  match T with
  | YAny => good_any | YUndef => good_undef | YBoolean => good_boolean | YTrue => good_true | YFalse => good_false | YTimestamp => good_timestamp
  | YInteger r => good_integer r | YFloat r => good_float r | YNumber r => good_number r
  | YString r => good_string r | YStringOf s => good_string_of s | YEnum l ci => good_enum l ci | YEnumAny => good_enum_any
  | YPattern l => good_pattern l | YPatternAny => good_pattern_any | YRegexp p => good_regexp p | YRegexpAny => good_regexp_any | YBinary r => good_binary r
  | YArray r => good_array r | YArrayOf t r => good_array_of t r (ytype_good t)
  | YHash r => good_hash r | YHashOf k v r => good_hash_of k v r (ytype_good k) (ytype_good v)
  | YStruct l => good_struct l ((fix entries (l : list (bool * ytext * ytype)) : Forall (fun e => good (snd e)) l :=
      match l with [] => Forall_nil _ | e :: r => Forall_cons e (ytype_good (snd e)) (entries r) end) l)
  | YStructAny => good_struct_any
  | YTuple l => good_tuple l (types l) | YTupleFrom l plus n => good_tuple_from l plus n (types l) | YTupleAny => good_tuple_any
  | YOptional t => good_optional t (ytype_good t) | YOptionalText s => good_optional_text s | YOptionalAny => good_optional_any
  | YNotUndef t => good_notundef t (ytype_good t) | YNotUndefAny => good_notundef_any
  | YVariant l => good_variant l (types l) | YSensitive t => good_sensitive t (ytype_good t) | YSensitiveAny => good_sensitive_any
  end.

Theorem type_means T cs : proper E T -> layout (lexemes (expr T)) cs ->
  exists t, pc_parse E W (encode cs) = POk (PT t) LEnd /\ type_ok t /\ forall v, wf v -> sound v -> (has_type W t v <-> means E W T v).
Proof.
  intros P L. destruct (ytype_good T P) as (t & Et & O & _ & _ & M). exists t. split; [now apply parse_expression with (e := expr T)|auto].
Qed.
Theorem type_accepts T cs : proper E T -> layout (lexemes (expr T)) cs ->
  exists t, pc_parse E W (encode cs) = POk (PT t) LEnd /\
  forall v, wf v -> sound v -> exists N, forall n p, (N <= n)%nat -> exists r, Assign.instance W n p t v = Some r /\ (r = true <-> means E W T v).
Proof.
  intros P L. destruct (type_means T cs P L) as (t & Et & O & M). exists t. split; [exact Et|]. intros v Wv Sv.
  destruct (instance_has_type W t v O Wv) as [N H]. exists N. intros n p Hn. destruct (H n p Hn) as (r & R & I). exists r. split; [exact R|]. now rewrite I, M.
Qed.
End Meaning.
