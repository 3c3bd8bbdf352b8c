(* What the types made by the constructors mean. *)
From Coq Require Import ZArith List Bool Lia.
From Coq Require Import Floats.SpecFloat.
From Verif Require Import Int64 HMap Data DataSpec DataProofs Types TypesSpec InstProofs SemProofs SubProofs TypesCor Construct ConstructSpec Assign.
Import ListNotations.
Open Scope Z_scope.

(* ---------- integers ---------- *)

Lemma integer_type_none p min max incl : integer_type p min max incl = None <-> min = max /\ incl = false.
Proof.
  unfold integer_type. destruct (Z.eqb_spec min max) as [->|N].
  - destruct incl; split; intros H; try discriminate; try (destruct H; discriminate); auto.
  - split; [|intros [E _]; contradiction]. destruct (max <? min); destruct (_ && _); discriminate.
Qed.

Inductive int_shape (p : ptr) (min max : Z) (incl : bool) : ty -> Prop :=
| is_exact_int : min = max -> incl = true -> int_shape p min max incl (TExact p (VInt min))
| is_int : Z.min min max = min_int64 -> Z.max min max = max_int64 -> int_shape p min max incl TInt
| is_range : min <> max -> ~ (Z.min min max = min_int64 /\ Z.max min max = max_int64) ->
    int_shape p min max incl (TIntRange (Z.min min max) (Z.max min max) incl).

Lemma integer_type_shape p min max incl t : integer_type p min max incl = Some t -> int_shape p min max incl t.
Proof.
  unfold integer_type. destruct (Z.eqb_spec min max) as [->|N].
  - destruct incl; [|discriminate]. intros [= <-]. now constructor.
  - destruct (Z.ltb_spec max min) as [L|L].
    + destruct ((max =? min_int64) && (min =? max_int64)) eqn:E; intros [= <-].
      * apply andb_true_iff in E as [E1 E2]. apply Z.eqb_eq in E1, E2. constructor; lia.
      * assert (Q : TIntRange max min incl = TIntRange (Z.min min max) (Z.max min max) incl) by (f_equal; lia).
        rewrite Q. constructor; [assumption|].
        intros [E1 E2]. rewrite Z.min_r in E1 by lia. rewrite Z.max_l in E2 by lia. subst.
        rewrite !Z.eqb_refl in E. discriminate.
    + destruct ((min =? min_int64) && (max =? max_int64)) eqn:E; intros [= <-].
      * apply andb_true_iff in E as [E1 E2]. apply Z.eqb_eq in E1, E2. constructor; lia.
      * assert (Q : TIntRange min max incl = TIntRange (Z.min min max) (Z.max min max) incl) by (f_equal; lia).
        rewrite Q. constructor; [assumption|].
        intros [E1 E2]. rewrite Z.min_l in E1 by lia. rewrite Z.max_r in E2 by lia. subst.
        rewrite !Z.eqb_refl in E. discriminate.
Qed.

Theorem integer_type_interval W p min max incl t : in64 min -> in64 max ->
  integer_type p min max incl = Some t -> ~ full_exclusive min max incl ->
  type_ok t /\
  (forall v, has_type W t v -> exists z, v = VInt z) /\
  forall z, in64 z -> (has_type W t (VInt z) <-> between min max incl z).
Proof.
  intros I1 I2 E NF. apply integer_type_shape in E. destruct E as [-> ->|E1 E2|N F].
  - split; [repeat constructor|]. split.
    + unfold has_type. cbn. intros v H. destruct v; try discriminate. eauto.
    + intros z Iz. unfold has_type, between. cbn. rewrite Z.eqb_eq. lia.
  - split; [repeat constructor|]. split; [intros v H; exact H|].
    intros z Iz. unfold has_type, between. cbn. rewrite E1, E2.
    destruct incl; [|destruct NF; unfold full_exclusive; auto]. unfold in64 in Iz. split; [lia|eauto].
  - split; [repeat constructor|]. split.
    + intros v H. destruct H as (z & -> & _). eauto.
    + intros z Iz. unfold has_type, between. cbn. split.
      * intros (z' & [= <-] & H1 & H2). auto.
      * intros [H1 H2]. eauto.
Qed.

(* ---------- integer types and Assignable ---------- *)

Section IntAssign.
Variables (W : world) (n : nat) (p : ptr).

Inductive int_type : ty -> Prop :=
| it_exact q z : in64 z -> int_type (TExact q (VInt z))
| it_int : int_type TInt
| it_range min max incl : min_int64 <= min -> min < max -> max <= max_int64 -> ~ (min = min_int64 /\ max = max_int64) ->
    int_type (TIntRange min max incl).

Lemma made_int_type a : made a -> int_type a.
Proof.
  intros (q & min & max & incl & I1 & I2 & E). apply integer_type_shape in E. unfold in64 in *.
  destruct E as [-> ->|E1 E2|N F]; constructor; auto; lia.
Qed.

Definition int_assignable (a b : ty) : bool :=
  match a, b with
  | TExact _ (VInt z), TExact _ (VInt z') => z =? z'
  | TInt, _ => true
  | TIntRange min max incl, TExact _ (VInt z) => int_in min max incl z
  | TIntRange min max incl, TIntRange omin omax oincl =>
      (min <=? omin) && ((if oincl then omax else omax - 1) <=? (if incl then max else max - 1))
  | _, _ => false
  end.

Lemma w64_pred max : min_int64 < max -> max <= max_int64 -> w64 (max - 1) = max - 1.
Proof. intros. apply w64_id. unfold in64. lia. Qed.

Lemma int_assignable_ok a b : int_type a -> int_type b -> assignable W (S n) p a b = Some (int_assignable a b).
Proof.
  intros Ha Hb. destruct Ha as [q z Iz| |min max incl L1 L2 L3 L4], Hb as [q' z' Iz'| |min' max' incl' L1' L2' L3' L4']; try reflexivity.
  - unfold assignable, asgn. cbn. destruct (z =? z'); reflexivity.
  - unfold assignable. cbn [asgn]. cbn. unfold outcome, with_nil, with_guard. cbn.
    rewrite !w64_pred by lia.
    destruct (Z.ltb_spec min' min) as [L|L].
    + cbn. destruct (Z.leb_spec min min'); [lia|]. reflexivity.
    + cbn. destruct (Z.leb_spec min min'); [|lia]. destruct incl, incl'; reflexivity.
Qed.
End IntAssign.

Definition accepts_int (W : world) (t : ty) (z : Z) : Prop := has_type W t (VInt z).

Theorem int_assignable_contained W n p a b : made a -> made b ->
  exists r, assignable W (S n) p a b = Some r /\
  (r = true -> forall z, in64 z -> has_type W b (VInt z) -> has_type W a (VInt z)).
Proof.
  intros Ha Hb. apply made_int_type in Ha, Hb. exists (int_assignable a b). split; [now apply int_assignable_ok|].
  destruct Ha as [q z Iz| |min max incl L1 L2 L3 L4], Hb as [q' z' Iz'| |min' max' incl' L1' L2' L3' L4']; cbn [int_assignable];
    intros E x Ix; try discriminate E; unfold has_type; cbn.
  - apply Z.eqb_eq in E. subst. auto.
  - eauto.
  - eauto.
  - eauto.
  - rewrite Z.eqb_eq. intros ->. unfold int_in in E. apply andb_true_iff in E as [E1 E2]. apply Z.leb_le in E1.
    exists x. repeat split; auto. destruct incl; [now apply Z.leb_le|now apply Z.ltb_lt].
  - apply andb_true_iff in E as [E1 E2]. apply Z.leb_le in E1, E2. intros (y & [= <-] & H1 & H2).
    exists x. repeat split; [lia|]. destruct incl, incl'; lia.
Qed.

Theorem int_contained_assignable W n p a b : made a -> made b -> (forall q z, a <> TExact q (VInt z)) ->
  (exists z, in64 z /\ has_type W b (VInt z)) ->
  (forall z, in64 z -> has_type W b (VInt z) -> has_type W a (VInt z)) ->
  assignable W (S n) p a b = Some true.
Proof.
  intros Ha Hb NE [w [Iw Hw]] C. apply made_int_type in Ha, Hb. rewrite int_assignable_ok by assumption. f_equal.
  revert NE Hw C. unfold in64, has_type in *.
  destruct Ha as [q z Iz| |min max incl L1 L2 L3 L4], Hb as [q' z' Iz'| |min' max' incl' L1' L2' L3' L4']; cbn;
    intros NE Hw C; try reflexivity; try (exfalso; eapply NE; reflexivity).
  - destruct (C z') as (x & [= <-] & H1 & H2); [exact Iz'|apply Z.eqb_refl|].
    unfold int_in. apply andb_true_iff. split; [now apply Z.leb_le|]. destruct incl; [now apply Z.leb_le|now apply Z.ltb_lt].
  - exfalso. unfold min_int64, max_int64 in *.
    destruct (C min_int64) as (x & [= <-] & H1 & H2); [unfold min_int64, max_int64; lia|eauto|].
    destruct (C max_int64) as (x & [= <-] & H1' & H2'); [unfold min_int64, max_int64; lia|eauto|].
    unfold min_int64, max_int64 in *. destruct incl; lia.
  - unfold min_int64, max_int64 in *. destruct Hw as (x & [= <-] & H1 & H2).
    destruct (C min') as (x & [= <-] & H1' & H2'); [lia|exists min'; repeat split; destruct incl'; lia|].
    destruct (C (if incl' then max' else max' - 1)) as (x & Ex & H3 & H4);
      [destruct incl'; lia|eexists; repeat split; destruct incl'; lia|].
    injection Ex as Ex. apply andb_true_iff. rewrite !Z.leb_le. destruct incl, incl'; lia.
Qed.

(* ---------- floats ---------- *)

Inductive float_shape (p : ptr) (min max : spec_float) (incl : bool) : ty -> Prop :=
| fs_exact : SFeqb min max = true -> incl = true -> float_shape p min max incl (TExact p (VFloat min))
| fs_float : SFltb max min = false -> SFeqb min min_float = true -> SFeqb max max_float = true -> float_shape p min max incl TFloat
| fs_float_swap : SFltb max min = true -> SFeqb max min_float = true -> SFeqb min max_float = true -> float_shape p min max incl TFloat
| fs_range : SFeqb min max = false -> SFltb max min = false -> float_shape p min max incl (TFloatRange min max incl)
| fs_range_swap : SFltb max min = true -> float_shape p min max incl (TFloatRange max min incl).

Lemma float_type_shape p min max incl t : float_type p min max incl = Some t -> float_shape p min max incl t.
Proof.
  unfold float_type. destruct (SFeqb min max) eqn:E.
  - destruct incl; [|discriminate]. intros [= <-]. now constructor.
  - destruct (SFltb max min) eqn:L.
    + destruct (_ && _) eqn:F; intros [= <-].
      * apply andb_true_iff in F as [F1 F2]. now constructor.
      * now constructor.
    + destruct (_ && _) eqn:F; intros [= <-].
      * apply andb_true_iff in F as [F1 F2]. now constructor.
      * now constructor.
Qed.

(* ---------- strings and binaries ---------- *)

Lemma sized_bounds min max :
  exists lo hi, (let m := if min <? 0 then 0 else min in if max <? m then (max, m) else (m, max)) = (lo, hi) /\
  forall l, 0 <= l -> (lo <= l <= hi <-> length_between min max l).
Proof.
  unfold length_between. destruct (Z.ltb_spec min 0); cbn.
  - destruct (Z.ltb_spec max 0); eexists _, _; split; try reflexivity; lia.
  - destruct (Z.ltb_spec max min); eexists _, _; split; try reflexivity; lia.
Qed.

Theorem sized_string_type_means W min max : max <= max_int64 ->
  type_ok (sized_string_type min max) /\
  (forall v, has_type W (sized_string_type min max) v -> exists s, v = VStr s) /\
  forall s, Z.of_nat (length s) <= max_int64 ->
  (has_type W (sized_string_type min max) (VStr s) <-> length_between min max (Z.of_nat (length s))).
Proof.
  intros Hm. destruct (sized_bounds min max) as (lo & hi & E & B). unfold sized_string_type. cbn zeta in E. rewrite E.
  destruct ((lo =? 0) && (hi =? max_int64)) eqn:F.
  - split; [repeat constructor|]. split; [intros v H; exact H|]. intros s Hs. rewrite <- B by lia.
    apply andb_true_iff in F as [F1 F2]. apply Z.eqb_eq in F1, F2. unfold has_type. cbn. split; [lia|eauto].
  - split; [repeat constructor|]. split; [intros v (s & -> & _); eauto|]. intros s Hs. rewrite <- B by lia.
    unfold has_type. cbn. split; [intros (x & [= <-] & H); exact H|eauto].
Qed.

Theorem sized_binary_type_means W min max :
  type_ok (sized_binary_type min max) /\
  (forall v, has_type W (sized_binary_type min max) v -> exists s, v = VBin s) /\
  forall s, has_type W (sized_binary_type min max) (VBin s) <-> length_between min max (Z.of_nat (length s)).
Proof.
  destruct (sized_bounds min max) as (lo & hi & E & B). unfold sized_binary_type. cbn zeta in E. rewrite E.
  split; [repeat constructor|]. split; [intros v (s & -> & _); eauto|]. intros s. rewrite <- B by lia.
  unfold has_type. cbn. split; [intros (x & [= <-] & H); exact H|eauto].
Qed.

(* what another string type must be for a sized string type to accept it *)
Theorem sized_string_assignable W n p min max b : min <= max ->
  In (match b with TExact _ (VStr _) | TString | TStrSized _ _ | TPattern _ => true | _ => false end) [true] ->
  exists r, assignable W (S n) p (TStrSized min max) b = Some r /\
  (r = true -> forall v, has_type W b v -> has_type W (TStrSized min max) v).
Proof.
  intros Hm Hb. destruct b; cbn in Hb; try (intuition discriminate).
  - exists false. split; [reflexivity|discriminate].
  - exists ((min <=? min0) && (max0 <=? max)). split; [reflexivity|].
    rewrite andb_true_iff, !Z.leb_le. intros [H1 H2] v (s & -> & H). exists s. split; [reflexivity|lia].
  - exists false. split; [reflexivity|discriminate].
  - destruct v; try (intuition discriminate). exists (size_in min max (length_z s)). split; [reflexivity|].
    rewrite size_in_iff. intros H v Hv. unfold has_type in *. cbn in *. destruct v as [ | | | |s'| | | | | | ]; try discriminate.
    apply bytes_eqb_eq in Hv. subst. exists s'. split; [reflexivity|exact H].
Qed.

(* ---------- arrays, tuples, maps, structs ---------- *)

Lemma clamped_bounds min max :
  exists lo hi, (let m := if min <? 0 then 0 else min in let x := if max <? 0 then 0 else max in
                 if x <? m then (x, m) else (m, x)) = (lo, hi) /\ 0 <= lo /\
  forall l, 0 <= l -> (lo <= l <= hi <-> length_between min max l).
Proof.
  unfold length_between. destruct (Z.ltb_spec min 0), (Z.ltb_spec max 0); cbn zeta;
    (match goal with |- context [?a <? ?b] => destruct (Z.ltb_spec a b) end); eexists _, _; (split; [reflexivity|]); split; try lia; intros; lia.
Qed.

Lemma is_any_eq t : is_any t = true <-> t = TAny.
Proof. destruct t; cbn; split; congruence. Qed.

Lemma exact_value_some t v : exact_value t = Some v -> exists p, t = TExact p v.
Proof. destruct t; cbn; try discriminate. intros [= <-]. eauto. Qed.

Lemma exact_values_some ts l : exact_values ts = Some l -> Forall2 (fun t v => exists p, t = TExact p v) ts l.
Proof.
  revert l. induction ts as [|t r IH]; cbn; intros l.
  - intros [= <-]. constructor.
  - destruct (exact_value t) as [v|] eqn:E; [|discriminate]. destruct (exact_values r) as [l'|]; [|discriminate].
    intros [= <-]. constructor; [now apply exact_value_some|auto].
Qed.

Lemma has_type_any W v : has_type W TAny v.
Proof. exact I. Qed.

Lemma Forall_any W l : Forall (has_type W TAny) l.
Proof. induction l; constructor; auto using has_type_any. Qed.

Theorem new_array_type_means W p elem min max t : max <= max_int64 -> min <= max_int64 -> type_ok (or_any elem) ->
  new_array_type p elem min max = Some t ->
  type_ok t /\
  (forall v, has_type W t v -> exists l, v = VArr l) /\
  forall l, Z.of_nat (length l) <= max_int64 ->
  (has_type W t (VArr l) <-> length_between min max (Z.of_nat (length l)) /\ Forall (has_type W (or_any elem)) l).
Proof.
  intros Hm1 Hm2 Te. unfold new_array_type. destruct (clamped_bounds min max) as (lo & hi & E & L0 & B). cbn zeta in E. rewrite E.
  set (e := or_any elem) in *. destruct ((lo =? 0) && (hi =? max_int64) && is_any e) eqn:F.
  - intros [= <-]. split; [repeat constructor|]. split; [intros v H; exact H|]. intros l Hl. rewrite <- B by lia.
    rewrite !andb_true_iff, !Z.eqb_eq, is_any_eq in F. destruct F as [[-> ->] Ee]. rewrite Ee.
    split; [intros _; split; [lia|apply Forall_any]|intros _; unfold has_type; cbn; eauto].
  - destruct ((lo =? 1) && (lo =? hi) && is_exact e) eqn:X.
    + destruct (exact_value e) as [v|] eqn:Ev; [|discriminate]. intros [= <-].
      apply exact_value_some in Ev as [q Ev]. rewrite !andb_true_iff, !Z.eqb_eq in X. destruct X as [[-> <-] _].
      split; [|split].
      * repeat constructor. unfold type_ok in Te. rewrite Ev in Te. exact (proj1 Te).
      * unfold has_type. cbn. intros w H. destruct w; try discriminate. eauto.
      * intros l Hl. rewrite <- B by lia. rewrite Ev. unfold has_type. cbn. destruct l as [|x [|y r]]; cbn [length].
        -- split; [discriminate|lia].
        -- rewrite andb_true_r. split; [intros H; split; [lia|constructor; [exact H|constructor]]|intros [_ H]; now inversion H].
        -- split; [rewrite andb_false_r; discriminate|lia].
    + intros [= <-]. split; [split; [exact I|exact Te]|]. split; [intros v (l & -> & _); eauto|]. intros l Hl. rewrite <- B by lia.
      unfold has_type. cbn. split; [intros (x & [= <-] & H); exact H|eauto].
Qed.

Lemma Forall2_map_l {A B C} (f : A -> B) (R : B -> C -> Prop) l l' : Forall2 R (map f l) l' <-> Forall2 (fun x y => R (f x) y) l l'.
Proof.
  revert l'. induction l as [|x l IH]; intros l'; cbn; split; intros H; inversion H; subst; constructor; auto; apply IH; auto.
Qed.

Lemma veq_arr_Forall2 l l' : veq (VArr l) (VArr l') = true <-> Forall2 (fun x y => veq x y = true) l l'.
Proof.
  revert l'. induction l as [|x l IH]; intros [|y l']; cbn.
  - split; constructor.
  - split; [discriminate|intros H; inversion H].
  - split; [discriminate|intros H; inversion H].
  - rewrite andb_true_iff. cbn in IH. rewrite IH. split; [intros [H1 H2]; now constructor|intros H; inversion H; auto].
Qed.

Lemma exact_tuple_means W ts vs l : Forall2 (fun t v => exists p, t = TExact p v) ts vs ->
  (Forall2 (fun x y => veq x y = true) vs l <-> Forall2 (has_type W) ts l).
Proof.
  intros H. revert l. induction H as [|t v ts vs [q ->] H IH]; intros l; split; intros G; inversion G; subst; constructor; auto; apply IH; auto.
Qed.

Theorem tuple_type_means W p ts t : Forall type_ok ts -> tuple_type p ts = Some t ->
  type_ok t /\
  (forall v, has_type W t v -> exists l, v = VArr l) /\
  forall l, has_type W t (VArr l) <-> Forall2 (has_type W) ts l.
Proof.
  intros Ht. unfold tuple_type, new_tuple_type. destruct ts as [|t0 r].
  - intros [= <-]. split; [split; [discriminate|constructor]|]. split; [intros v (l & -> & _); eauto|].
    intros l. unfold has_type. cbn. split; [intros (x & [= <-] & H); inversion H; constructor|].
    intros H. inversion H; subst. exists []. split; constructor.
  - cbn [andb negb]. destruct (forallb is_exact (t0 :: r)) eqn:X.
    + destruct (exact_values (t0 :: r)) as [vs|] eqn:Ev; [|discriminate]. intros [= <-]. apply exact_values_some in Ev.
      split; [|split].
      * repeat constructor. clear X. induction Ev as [|t v ts vs [q ->] H IH]; constructor; inversion Ht; subst; auto.
        match goal with H : type_ok (TExact _ _) |- _ => exact (proj1 H) end.
      * unfold has_type. cbn [has_type_with]. intros w H. destruct w; try discriminate. eauto.
      * intros l. rewrite <- (exact_tuple_means W _ _ l Ev). unfold has_type. cbn [has_type_with]. apply veq_arr_Forall2.
    + intros [= <-]. split; [|split].
      * split; [discriminate|]. apply (fold_and (ty_all node_ok)). exact Ht.
      * intros v (l & -> & _). eauto.
      * intros l. unfold has_type. cbn [has_type_with]. split.
        -- intros (x & [= <-] & H). now apply Forall2_map_l in H.
        -- intros H. exists l. split; [reflexivity|]. now apply Forall2_map_l.
Qed.

Theorem variadic_tuple_type_means W p qs q t : Forall type_ok (qs ++ [q]) ->
  variadic_tuple_type p (qs ++ [q]) = Some t ->
  type_ok t /\
  (forall v, has_type W t v -> exists l, v = VArr l) /\
  forall l, has_type W t (VArr l) <->
    exists l1 l2, l = l1 ++ l2 /\ Forall2 (has_type W) qs l1 /\ Forall (has_type W q) l2.
Proof.
  intros Ht. unfold variadic_tuple_type.
  assert (G : forall r, type_ok (TTuple r (qs ++ [q]) true) /\
              (forall v, has_type W (TTuple r (qs ++ [q]) true) v -> exists l, v = VArr l) /\
              forall l, has_type W (TTuple r (qs ++ [q]) true) (VArr l) <->
              exists l1 l2, l = l1 ++ l2 /\ Forall2 (has_type W) qs l1 /\ Forall (has_type W q) l2).
  { intros r. split; [|split].
    - split; [intros _; now destruct qs|]. now apply (fold_and (ty_all node_ok)).
    - intros v (l & -> & _). eauto.
    - intros l. unfold has_type. cbn [has_type_with]. rewrite map_app. cbn [map]. split.
      + intros (x & [= <-] & Qs & P & l1 & l2 & E & -> & H1 & H2). apply app_inj_tail in E as [<- <-].
        exists l1, l2. split; [reflexivity|]. split; [now apply Forall2_map_l in H1|exact H2].
      + intros (l1 & l2 & -> & H1 & H2). exists (l1 ++ l2). split; [reflexivity|].
        eexists _, _, l1, l2. split; [reflexivity|]. split; [reflexivity|]. split; [now apply Forall2_map_l|exact H2]. }
  unfold new_tuple_type. destruct (qs ++ [q]) as [|t0 r] eqn:E; [now destruct qs|]. rewrite <- E in *.
  cbn [andb negb]. destruct (Nat.eqb_spec (length (qs ++ [q])) 1) as [L|L].
  - destruct qs as [|q1 qs1]; [|rewrite app_length in L; cbn in L; lia]. cbn in *. destruct (is_any q) eqn:A; cbn.
    + intros [= <-]. apply is_any_eq in A. subst q. unfold default_tuple. exact (G 1%nat).
    + intros [= <-]. exact (G p).
  - cbn. intros [= <-]. exact (G p).
Qed.

Theorem new_map_type_means W p kt vt min max : max <= max_int64 -> min <= max_int64 ->
  type_ok (or_any kt) -> type_ok (or_any vt) ->
  let t := new_map_type p kt vt min max in
  type_ok t /\
  (forall v, has_type W t v -> exists m, v = VMap m) /\
  forall m, Z.of_nat (length m) <= max_int64 ->
  (has_type W t (VMap m) <-> length_between min max (Z.of_nat (length m)) /\
     Forall (fun e => has_type W (or_any kt) (fst e) /\ has_type W (or_any vt) (snd e)) m).
Proof.
  intros Hm1 Hm2 Tk Tv. unfold new_map_type. destruct (clamped_bounds min max) as (lo & hi & E & L0 & B). cbn zeta in E. rewrite E.
  cbn zeta. set (k := or_any kt) in *. set (v := or_any vt) in *.
  destruct ((lo =? 0) && (hi =? max_int64) && (is_any k && is_any v)) eqn:F.
  - split; [repeat constructor|]. split; [intros w H; exact H|]. intros m Hl. rewrite <- B by lia.
    rewrite !andb_true_iff, !Z.eqb_eq, !is_any_eq in F. destruct F as [[-> ->] [Ek Ev]]. rewrite Ek, Ev.
    split; [intros _; split; [lia|]|intros _; unfold has_type; cbn; eauto].
    clear. induction m; constructor; auto using has_type_any.
  - split; [split; [exact I|split; assumption]|]. split; [intros w (l & -> & _); eauto|]. intros m Hl. rewrite <- B by lia.
    unfold has_type. cbn. split; [intros (x & [= <-] & H); exact H|eauto].
Qed.

(* ---------- struct types ---------- *)


Lemma type_of_exact q k v : exact_value (type_of q k) = Some v -> v = k.
Proof. destruct k; cbn; congruence. Qed.

Lemma put_entry_new m k v : (forall k' v', In (k', v') m -> veq k k' = false) -> put_entry m k v = m ++ [(k, v)].
Proof.
  induction m as [|[k' v'] r IH]; intros H; cbn; [reflexivity|].
  rewrite (H k' v') by (left; reflexivity). rewrite IH; [reflexivity|]. intros k1 v1 Hin. apply (H k1 v1). now right.
Qed.

Lemma exact_map_pairs q : forall es m m', Forall (fun e : value * ty * bool => wf (fst (fst e))) es ->
  ForallOrdPairs (fun e e' : value * ty * bool => veq (fst (fst e)) (fst (fst e')) = false) es ->
  Forall (fun e : value * ty * bool => forall k' v', In (k', v') m -> veq (fst (fst e)) k' = false) es ->
  exact_map (map (given q) es) m = Some m' ->
  exists m0, m' = m ++ m0 /\ Forall2 (fun (e : value * ty * bool) x => fst (fst e) = fst x /\ exists r, snd (fst e) = TExact r (snd x)) es m0.
Proof.
  induction es as [|[[k t] b] es IH]; intros m m' Hw Hd Hm; cbn.
  - intros [= <-]. exists []. rewrite app_nil_r. split; constructor.
  - destruct (exact_value (type_of q k)) as [k0|] eqn:Ek; [|discriminate]. apply type_of_exact in Ek. subst k0.
    destruct (exact_value t) as [v|] eqn:Ev; [|discriminate]. apply exact_value_some in Ev as [r ->].
    inversion Hw as [|? ? Wk Hw']; inversion Hd as [|? ? Hk Hd']; inversion Hm as [|? ? Hmk Hm']; subst. cbn in *.
    rewrite put_entry_new by assumption. intros E. apply IH in E; auto.
    + destruct E as (m0 & -> & E). exists ((k, v) :: m0). split; [now rewrite <- app_assoc|]. constructor; [split; [reflexivity|exists r; reflexivity]|exact E].
    + rewrite Forall_forall in *. intros e He k' v' Hin. apply in_app_iff in Hin as [Hin|[[= <- <-]|[]]].
      * now apply (Hm' e He k' v').
      * destruct (veq (fst (fst e)) k) eqn:X; [|reflexivity]. rewrite <- (Hk e He). symmetry. apply veq_sym; auto.
Qed.

Theorem struct_map_type_means W p q additional es t :
  Forall (fun e : value * ty * bool => wf (fst (fst e)) /\ type_ok (snd (fst e))) es ->
  ForallOrdPairs (fun e e' : value * ty * bool => veq (fst (fst e)) (fst (fst e')) = false) es ->
  struct_map_type p additional (map (given q) es) = Some t ->
  type_ok t /\
  (forall v, has_type W t v -> exists m, v = VMap m) /\
  forall m, wf (VMap m) ->
  (has_type W t (VMap m) <->
   Forall (fun e : value * ty * bool => match assoc veq m (fst (fst e)) with
                                        | Some x => has_type W (snd (fst e)) x
                                        | None => snd e = false
                                        end) es /\
   (additional = true \/ forall k x, In (k, x) m -> exists e, In e es /\ veq (fst (fst e)) k = true)).
Proof.
  intros Hes Hd. unfold struct_map_type.
  assert (Hw : Forall (fun e : value * ty * bool => wf (fst (fst e))) es).
  { revert Hes. apply Forall_impl. tauto. }
  destruct (negb additional && _) eqn:X.
  - destruct (exact_map (map (given q) es) []) as [m0|] eqn:Em; [|discriminate]. intros [= <-].
    apply (exact_map_pairs q) in Em; auto; [|apply Forall_forall; intros ? _ ? ? []].
    destruct Em as (m1 & E1 & E). cbn in E1. subst m0.
    apply andb_true_iff in X as [X1 X2]. apply negb_true_iff in X1. subst additional.
    assert (Hr : Forall (fun e : value * ty * bool => snd e = true) es).
    { apply Forall_forall. intros e He. rewrite forallb_forall in X2. specialize (X2 (given q e) (in_map _ _ _ He)).
      apply andb_true_iff in X2 as [X2 _]. apply andb_true_iff in X2 as [X2 _]. exact X2. }
    assert (W1 : wf (VMap m1)).
    { constructor.
      - clear - E Hes. induction E as [|e x es m0 [E1 (r & E2)] E IH]; constructor; inversion Hes as [|? ? [H1 H2] H3]; subst; auto.
        rewrite E2 in H2. rewrite <- E1. split; [assumption|exact (proj1 H2)].
      - clear - E Hd. induction E as [|e x es m0 [E1 (r & E2)] E IH]; inversion Hd as [|? ? H1 H2]; subst; constructor; auto.
        clear - E E1 H1. induction E as [|e' y es m0 [E1' _] E IH]; inversion H1; subst; constructor; auto.
        unfold keys_differ. rewrite <- E1, <- E1'. assumption. }
    assert (M1 : forall e, In e es -> exists v r, In (fst (fst e), v) m1 /\ snd (fst e) = TExact r v).
    { clear - E. induction E as [|e x es m0 [E1 (r & E2)] E IH]; intros e0 []; subst.
      - exists (snd x), r. split; [left; rewrite E1; now destruct x|assumption].
      - destruct (IH e0 H) as (v & r0 & H1 & H2). exists v, r0. split; [now right|assumption]. }
    assert (M2 : forall k v, In (k, v) m1 -> exists e r, In e es /\ fst (fst e) = k /\ snd (fst e) = TExact r v).
    { clear - E. induction E as [|e x es m0 [E1 (r & E2)] E IH]; intros k v []; subst.
      - exists e, r. split; [now left|]. auto.
      - destruct (IH k v H) as (e0 & r0 & H1 & H2 & H3). exists e0, r0. split; [now right|auto]. }
    rewrite Forall_forall in Hes, Hw, Hr.
    split; [split; [exact W1|exact I]|]. split.
    + unfold has_type. cbn [has_type_with]. intros v H. destruct v; try discriminate. eauto.
    + intros m Wm. unfold has_type at 1. cbn [has_type_with]. rewrite map_equal_iff by assumption. split.
      * intros H. split.
        -- apply Forall_forall. intros e He. specialize (H _ (Hw e He)). destruct (M1 e He) as (v & r & Hin & Et).
           rewrite (assoc_unique m1 (fst (fst e)) (fst (fst e)) v) in H; auto; [|now apply veq_refl, Hw].
           destruct (assoc veq m (fst (fst e))) as [x|]; [|destruct H]. rewrite Et. exact H.
        -- right. intros k x Hin. assert (Wk : wf k) by (apply (wf_map_entry m k x); auto). specialize (H k Wk).
           rewrite (assoc_unique m k k x) in H; auto; [|now apply veq_refl].
           destruct (assoc veq m1 k) as [v|] eqn:A; [|destruct H]. apply assoc_some in A as (k' & Hin' & Hk').
           destruct (M2 k' v Hin') as (e & r & He & <- & _). exists e. split; [assumption|].
           apply veq_sym; auto.
      * intros [H1 [H2|H2]]; [discriminate|]. rewrite Forall_forall in H1. intros k Wk.
        destruct (assoc veq m1 k) as [v|] eqn:A.
        -- apply assoc_some in A as (k' & Hin' & Hk'). destruct (M2 k' v Hin') as (e & r & He & <- & Et).
           specialize (H1 e He). destruct (assoc veq m (fst (fst e))) as [x|] eqn:B.
           ++ apply assoc_some in B as (k2 & Hin2 & Hk2).
              assert (W2 : wf k2) by (apply (wf_map_entry m k2 x); auto).
              rewrite (assoc_unique m k k2 x); auto; [|apply (veq_trans k (fst (fst e)) k2); auto].
              rewrite Et in H1. exact H1.
           ++ rewrite (Hr e He) in H1. discriminate.
        -- destruct (assoc veq m k) as [x|] eqn:B; [|exact I]. exfalso.
           apply assoc_some in B as (k2 & Hin2 & Hk2). destruct (H2 k2 x Hin2) as (e & He & Ek).
           assert (W2 : wf k2) by (apply (wf_map_entry m k2 x); auto).
           destruct (M1 e He) as (v & r & Hin & _). pose proof (assoc_none _ _ A _ _ Hin) as N.
           assert (Y : veq k (fst (fst e)) = true).
           { apply (veq_trans k k2 (fst (fst e))); auto. apply veq_sym; auto. }
           congruence.
  - match goal with |- (if ?c then _ else _) = _ -> _ => destruct c end; [|discriminate].
    match goal with |- (match ?c with _ => _ end) = _ -> _ => destruct c as [ks|] eqn:Ek end; [|discriminate]. intros [= <-].
    assert (K : ks = map (fun e : value * ty * bool => fst (fst e)) es).
    { clear - Ek. rewrite map_map in Ek. cbn in Ek. revert ks Ek. induction es as [|e es IH]; cbn; intros ks.
      - now intros [= <-].
      - destruct (exact_value _) as [k|] eqn:E1; [|discriminate]. destruct (exact_values _) as [l|]; [|discriminate].
        intros [= <-]. apply type_of_exact in E1. rewrite E1. f_equal. now apply IH. }
    assert (Q : combine (combine ks (map (fun e : ty * ty * bool => snd (fst e)) (map (given q) es))) (map snd (map (given q) es)) = es).
    { rewrite K, !map_map. cbn. clear. induction es as [|[[k t] b] es IH]; cbn; [reflexivity|]. now rewrite IH. }
    rewrite Q. split; [|split].
    + split; [split; assumption|]. apply (fold_and (fun e : value * ty * bool => ty_all node_ok (snd (fst e)))).
      revert Hes. apply Forall_impl. unfold type_ok. tauto.
    + intros v (m & -> & _). eauto.
    + intros m Wm. unfold has_type. cbn [has_type_with]. split.
      * intros (x & [= <-] & H1 & H2). rewrite Forall_map in H1. auto.
      * intros [H1 H2]. exists m. rewrite Forall_map. auto.
Qed.

(* ---------- ternary types ---------- *)

Lemma Forall_map_has W v ts : Forall (fun P : value -> Prop => P v) (map (has_type W) ts) <-> Forall (fun t => has_type W t v) ts.
Proof. now rewrite Forall_map. Qed.

Theorem all_of_type_means W p ts v : has_type W (all_of_type p ts) v <-> Forall (fun t => has_type W t v) ts.
Proof.
  destruct ts as [|t [|t' r]]; cbn [all_of_type].
  - split; [constructor|intros _; exact I].
  - split; [repeat constructor; assumption|intros H; now inversion H].
  - unfold has_type at 1. cbn [has_type_with]. now rewrite Forall_map.
Qed.

Theorem any_of_type_means W p ts v : has_type W (any_of_type p ts) v <-> Exists (fun t => has_type W t v) ts.
Proof.
  destruct ts as [|t [|t' r]]; cbn [any_of_type].
  - split; [|intros H; inversion H]. unfold has_type, not_any. cbn. tauto.
  - split; [now constructor|]. intros H. inversion H as [|? ? H1]; subst; [assumption|inversion H1].
  - unfold has_type at 1. cbn [has_type_with]. now rewrite Exists_map.
Qed.

Theorem one_of_type_means W p ts v : has_type W (one_of_type p ts) v <->
  exists ts1 t ts2, ts = ts1 ++ t :: ts2 /\ has_type W t v /\ Forall (fun s => ~ has_type W s v) (ts1 ++ ts2).
Proof.
  destruct ts as [|t [|t' r]]; cbn [one_of_type].
  - split; [unfold has_type, not_any; cbn; tauto|]. intros (ts1 & t & ts2 & E & _). destruct ts1; discriminate.
  - split.
    + intros H. exists [], t, []. repeat split; auto. constructor.
    + intros (ts1 & s & ts2 & E & H & _). destruct ts1 as [|x ts1]; [injection E as -> _; assumption|].
      injection E as _ E. destruct ts1; discriminate.
  - unfold has_type at 1. cbn [has_type_with]. fold (has_type W). split.
    + intros (l1 & P & l2 & E & H & F).
      assert (G : exists ts1 s ts2, t :: t' :: r = ts1 ++ s :: ts2 /\ map (has_type W) ts1 = l1 /\ has_type W s = P /\ map (has_type W) ts2 = l2).
      { clear - E. revert l1 E. generalize (t :: t' :: r). intros ts. induction ts as [|s ts IH]; intros l1 E.
        - destruct l1; discriminate.
        - destruct l1 as [|Q l1]; cbn in E.
          + injection E as <- <-. exists [], s, ts. auto.
          + injection E as <- E. destruct (IH l1 E) as (ts1 & s' & ts2 & -> & <- & <- & <-). exists (s :: ts1), s', ts2. auto. }
      destruct G as (ts1 & s & ts2 & E' & <- & <- & <-). exists ts1, s, ts2. split; [assumption|]. split; [assumption|].
      rewrite <- map_app, Forall_map in F. exact F.
    + intros (ts1 & s & ts2 & -> & H & F). exists (map (has_type W) ts1), (has_type W s), (map (has_type W) ts2).
      split; [now rewrite map_app|]. split; [assumption|]. now rewrite <- map_app, Forall_map.
Qed.

Theorem not_type_means W p t v : type_ok t -> wf v -> (has_type W (not_type p t) v <-> ~ has_type W t v).
Proof.
  intros Ht Wv. assert (G : forall q, has_type W (TNot q t) v <-> ~ has_type W t v) by (intros; reflexivity).
  destruct t; cbn [not_type]; try apply G. unfold has_type at 2. cbn [has_type_with]. fold (has_type W).
  destruct Ht as [_ Ht]. pose proof (inst_iff W t v Ht Wv) as D. destruct (inst W t v).
  - split; [intros H N; auto|intros _; now apply D].
  - split; [intros H; exfalso|intros H; exfalso; apply H]; intuition discriminate.
Qed.

Theorem ternary_types_ok p ts : Forall type_ok ts ->
  type_ok (all_of_type p ts) /\ type_ok (any_of_type p ts) /\ type_ok (one_of_type p ts).
Proof.
  intros H. assert (N : type_ok not_any) by (repeat constructor). assert (A : type_ok TAny) by (repeat constructor).
  destruct ts as [|t [|t' r]]; cbn [all_of_type any_of_type one_of_type].
  - auto.
  - inversion H; auto.
  - assert (F : fold_right and True (map (ty_all node_ok) (t :: t' :: r))) by now apply fold_and.
    split; [exact (conj I F)|]. split; exact (conj I F).
Qed.

(* ---------- enumerations ---------- *)

Theorem int_enum_type_means W p l v : has_type W (int_enum_type p l) v <-> exists z, In z l /\ v = VInt z.
Proof.
  assert (E : forall z, has_type W (TExact p (VInt z)) v <-> v = VInt z).
  { intros z. unfold has_type. cbn [has_type_with]. destruct v; cbn [veq]; split; try discriminate.
    - intros H. apply Z.eqb_eq in H. now subst.
    - intros [= <-]. apply Z.eqb_refl. }
  destruct l as [|x [|y r]]; cbn [int_enum_type].
  - split; [unfold has_type; cbn; tauto|intros (z & [] & _)].
  - rewrite E. split; [intros ->; exists x; split; [now left|reflexivity]|intros (z & [->|[]] & H); assumption].
  - unfold has_type. cbn [has_type_with]. rewrite Exists_map, Exists_exists. split.
    + intros (t & Ht & H). apply in_map_iff in Ht as (z & <- & Hz). apply E in H. eauto.
    + intros (z & Hz & H). exists (TExact p (VInt z)). split; [apply in_map_iff; eauto|]. now apply E.
Qed.

Theorem enum_type_means W p l v : has_type W (enum_type p l) v <-> exists s, In s l /\ v = VStr s.
Proof.
  assert (E : forall z, has_type W (TExact p (VStr z)) v <-> v = VStr z).
  { intros z. unfold has_type. cbn [has_type_with]. destruct v; cbn [veq]; split; try discriminate.
    - intros H. apply bytes_eqb_eq in H. now subst.
    - intros [= <-]. now apply bytes_eqb_eq. }
  destruct l as [|x [|y r]]; cbn [enum_type].
  - split; [unfold has_type; cbn; tauto|intros (z & [] & _)].
  - rewrite E. split; [intros ->; exists x; split; [now left|reflexivity]|intros (z & [->|[]] & H); assumption].
  - unfold has_type. cbn [has_type_with]. rewrite Exists_map, Exists_exists. split.
    + intros (t & Ht & H). apply in_map_iff in Ht as (z & <- & Hz). apply E in H. eauto.
    + intros (z & Hz & H). exists (TExact p (VStr z)). split; [apply in_map_iff; eauto|]. now apply E.
Qed.

(* ---------- float ranges ---------- *)

Lemma SFeqb_iff x y : x <> S754_nan -> y <> S754_nan -> (SFeqb x y = true <-> fkey x = fkey y).
Proof.
  intros Hx Hy. unfold SFeqb. rewrite SFcompare_some by assumption. rewrite <- kcmp_eq.
  destruct (kcmp _ _); split; congruence.
Qed.

Theorem float_type_means W p min max incl t : min <> S754_nan -> max <> S754_nan ->
  float_type p min max incl = Some t -> t <> TFloat ->
  type_ok t /\
  (forall v, has_type W t v -> exists f, v = VFloat f /\ f <> S754_nan) /\
  forall f, f <> S754_nan -> (has_type W t (VFloat f) <-> float_between min max incl f).
Proof.
  intros N1 N2 E NT. apply float_type_shape in E. unfold float_between.
  assert (LN : forall x, SFleb x S754_nan = true -> False) by (intros []; discriminate).
  assert (HN : forall lo hi, (forall v, has_type W (TFloatRange lo hi incl) v -> exists f, v = VFloat f /\ f <> S754_nan)).
  { intros lo hi v (f & -> & H & _). exists f. split; [reflexivity|]. intros ->. eauto. }
  destruct E as [E ->|L E1 E2|L E1 E2|E L|L].
  - split; [split; [constructor; assumption|exact I]|]. split.
    + unfold has_type. cbn [has_type_with]. intros v H. destruct v; try discriminate. cbn in H. exists f. split; [reflexivity|].
      intros ->. destruct min; discriminate.
    + intros f Nf. unfold has_type. cbn [has_type_with veq].
      rewrite !SFeqb_iff in * by assumption. rewrite !SFleb_iff, SFltb_iff by assumption. rewrite <- E.
      assert (R : kcmp (fkey min) (fkey min) = Eq) by now apply kcmp_eq. rewrite R.
      rewrite (kcmp_opp (fkey min) (fkey f)). rewrite <- kcmp_eq. destruct (kcmp (fkey min) (fkey f)); cbn; intuition congruence.
  - contradiction.
  - contradiction.
  - split; [split; [split; assumption|exact I]|]. split; [apply HN|]. intros f Nf. unfold has_type. cbn [has_type_with].
    rewrite L. split; [intros (x & [= <-] & H); auto|]. intros [H|[H _]]; [eauto|discriminate].
  - split; [split; [split; assumption|exact I]|]. split; [apply HN|]. intros f Nf. unfold has_type. cbn [has_type_with].
    split; [intros (x & [= <-] & H); auto|]. intros [[H1 H2]|[_ H]]; [exfalso|eauto].
    rewrite SFltb_iff in L by assumption. rewrite SFleb_iff in H1 by assumption.
    pose proof (kcmp_lt_le _ _ _ L H1) as H3.
    destruct incl.
    + apply SFleb_iff in H2; auto. rewrite (kcmp_opp (fkey max)), H3 in H2. now apply H2.
    + apply SFltb_iff in H2; auto. rewrite (kcmp_opp (fkey max)), H3 in H2. discriminate.
Qed.

Theorem float_type_none p min max incl : float_type p min max incl = None <-> SFeqb min max = true /\ incl = false.
Proof.
  unfold float_type. destruct (SFeqb min max).
  - destruct incl; split; intros H; try discriminate; try (destruct H; discriminate); auto.
  - split; [|intros [E _]; discriminate]. destruct (SFltb max min); destruct (_ && _); discriminate.
Qed.

(* ---------- what Instance returns for these types ---------- *)

Lemma accepts_means W t P : type_ok t -> (forall v, wf v -> machine v -> (has_type W t v <-> P v)) -> accepts W t P.
Proof.
  intros Ht H v Wv Mv. destruct (instance_has_type W t v Ht Wv) as [N HN]. exists N. intros n p L.
  destruct (HN n p L) as (r & E & R). exists r. split; [exact E|]. rewrite R. auto.
Qed.

Theorem integer_type_accepts W p min max incl t : in64 min -> in64 max ->
  integer_type p min max incl = Some t -> ~ full_exclusive min max incl ->
  accepts W t (fun v => exists z, v = VInt z /\ between min max incl z).
Proof.
  intros H1 H2 E F. destruct (integer_type_interval W p min max incl t H1 H2 E F) as (K & O & M).
  apply accepts_means; [exact K|]. intros v Wv Mv. split.
  - intros H. destruct (O v H) as [z ->]. exists z. split; [reflexivity|]. now apply M.
  - intros (z & -> & H). now apply M.
Qed.

Theorem float_type_accepts W p min max incl t : min <> S754_nan -> max <> S754_nan ->
  float_type p min max incl = Some t -> t <> TFloat ->
  accepts W t (fun v => exists f, v = VFloat f /\ float_between min max incl f).
Proof.
  intros H1 H2 E F. destruct (float_type_means W p min max incl t H1 H2 E F) as (K & O & M).
  apply accepts_means; [exact K|]. intros v Wv Mv. split.
  - intros H. destruct (O v H) as (f & -> & Nf). exists f. split; [reflexivity|]. now apply M.
  - intros (f & -> & H). apply M; [|exact H]. now inversion Wv.
Qed.

Theorem sized_string_type_accepts W min max : max <= max_int64 ->
  accepts W (sized_string_type min max) (fun v => exists s, v = VStr s /\ length_between min max (Z.of_nat (length s))).
Proof.
  intros L. destruct (sized_string_type_means W min max L) as (K & O & M).
  apply accepts_means; [exact K|]. intros v Wv Mv. split.
  - intros H. destruct (O v H) as [s ->]. exists s. split; [reflexivity|]. now apply M.
  - intros (s & -> & H). now apply M.
Qed.

Theorem sized_binary_type_accepts W min max :
  accepts W (sized_binary_type min max) (fun v => exists s, v = VBin s /\ length_between min max (Z.of_nat (length s))).
Proof.
  destruct (sized_binary_type_means W min max) as (K & O & M).
  apply accepts_means; [exact K|]. intros v Wv Mv. split.
  - intros H. destruct (O v H) as [s ->]. exists s. split; [reflexivity|]. now apply M.
  - intros (s & -> & H). now apply M.
Qed.

Theorem new_array_type_accepts W p elem min max t : max <= max_int64 -> min <= max_int64 -> type_ok (or_any elem) ->
  new_array_type p elem min max = Some t ->
  accepts W t (fun v => exists l, v = VArr l /\ length_between min max (Z.of_nat (length l)) /\
                                  Forall (has_type W (or_any elem)) l).
Proof.
  intros L1 L2 Te E. destruct (new_array_type_means W p elem min max t L1 L2 Te E) as (K & O & M).
  apply accepts_means; [exact K|]. intros v Wv Mv. split.
  - intros H. destruct (O v H) as [s ->]. exists s. split; [reflexivity|]. now apply M.
  - intros (s & -> & H). now apply M.
Qed.

Theorem new_map_type_accepts W p kt vt min max : max <= max_int64 -> min <= max_int64 ->
  type_ok (or_any kt) -> type_ok (or_any vt) ->
  accepts W (new_map_type p kt vt min max)
    (fun v => exists m, v = VMap m /\ length_between min max (Z.of_nat (length m)) /\
              Forall (fun e => has_type W (or_any kt) (fst e) /\ has_type W (or_any vt) (snd e)) m).
Proof.
  intros L1 L2 Tk Tv. destruct (new_map_type_means W p kt vt min max L1 L2 Tk Tv) as (K & O & M).
  apply accepts_means; [exact K|]. intros v Wv Mv. split.
  - intros H. destruct (O v H) as [s ->]. exists s. split; [reflexivity|]. now apply M.
  - intros (s & -> & H). now apply M.
Qed.

Theorem tuple_type_accepts W p ts t : Forall type_ok ts -> tuple_type p ts = Some t ->
  accepts W t (fun v => exists l, v = VArr l /\ Forall2 (has_type W) ts l).
Proof.
  intros Ts E. destruct (tuple_type_means W p ts t Ts E) as (K & O & M).
  apply accepts_means; [exact K|]. intros v Wv Mv. split.
  - intros H. destruct (O v H) as [s ->]. exists s. split; [reflexivity|]. now apply M.
  - intros (s & -> & H). now apply M.
Qed.

Theorem variadic_tuple_type_accepts W p qs q t : Forall type_ok (qs ++ [q]) ->
  variadic_tuple_type p (qs ++ [q]) = Some t ->
  accepts W t (fun v => exists l1 l2, v = VArr (l1 ++ l2) /\ Forall2 (has_type W) qs l1 /\ Forall (has_type W q) l2).
Proof.
  intros Ts E. destruct (variadic_tuple_type_means W p qs q t Ts E) as (K & O & M).
  apply accepts_means; [exact K|]. intros v Wv Mv. split.
  - intros H. destruct (O v H) as [s ->]. apply M in H as (l1 & l2 & -> & H). eauto.
  - intros (l1 & l2 & -> & H). apply M. eauto.
Qed.

Theorem struct_map_type_accepts W p q additional es t :
  Forall (fun e : value * ty * bool => wf (fst (fst e)) /\ type_ok (snd (fst e))) es ->
  ForallOrdPairs (fun e e' : value * ty * bool => veq (fst (fst e)) (fst (fst e')) = false) es ->
  struct_map_type p additional (map (given q) es) = Some t ->
  accepts W t (fun v => exists m, v = VMap m /\
   Forall (fun e : value * ty * bool => match assoc veq m (fst (fst e)) with
                                        | Some x => has_type W (snd (fst e)) x
                                        | None => snd e = false
                                        end) es /\
   (additional = true \/ forall k x, In (k, x) m -> exists e, In e es /\ veq (fst (fst e)) k = true)).
Proof.
  intros H1 H2 E. destruct (struct_map_type_means W p q additional es t H1 H2 E) as (K & O & M).
  apply accepts_means; [exact K|]. intros v Wv Mv. split.
  - intros H. destruct (O v H) as [s ->]. exists s. split; [reflexivity|]. now apply M.
  - intros (s & -> & H). now apply M.
Qed.

Theorem ternary_types_accept W p ts : Forall type_ok ts ->
  accepts W (all_of_type p ts) (fun v => Forall (fun t => has_type W t v) ts) /\
  accepts W (any_of_type p ts) (fun v => Exists (fun t => has_type W t v) ts) /\
  accepts W (one_of_type p ts) (fun v => exists ts1 t ts2, ts = ts1 ++ t :: ts2 /\ has_type W t v /\
                                         Forall (fun s => ~ has_type W s v) (ts1 ++ ts2)).
Proof.
  intros H. destruct (ternary_types_ok p ts H) as (K1 & K2 & K3).
  split; [|split]; apply accepts_means; auto; intros v _ _.
  - apply all_of_type_means.
  - apply any_of_type_means.
  - apply one_of_type_means.
Qed.

Theorem not_type_accepts W p t : type_ok t -> accepts W (not_type p t) (fun v => ~ has_type W t v).
Proof.
  intros H. apply accepts_means.
  - destruct t; try (split; [exact I|exact H]). exact (proj2 H).
  - intros v Wv _. now apply not_type_means.
Qed.

Theorem enum_types_accept W p zs ss :
  accepts W (int_enum_type p zs) (fun v => exists z, In z zs /\ v = VInt z) /\
  accepts W (enum_type p ss) (fun v => exists s, In s ss /\ v = VStr s).
Proof.
  split; apply accepts_means; try (intros v _ _; first [apply int_enum_type_means|apply enum_type_means]).
  - destruct zs as [|z [|z' r]]; [repeat constructor|repeat constructor|].
    cbn [int_enum_type]. split; [exact I|]. apply (fold_and (ty_all node_ok)). apply Forall_map_iff. apply Forall_forall. intros; repeat constructor.
  - destruct ss as [|z [|z' r]]; [repeat constructor|repeat constructor|].
    cbn [enum_type]. split; [exact I|]. apply (fold_and (ty_all node_ok)). apply Forall_map_iff. apply Forall_forall. intros; repeat constructor.
Qed.
