(* Assignable is transitive on types with tuples and struct types. *)
From Coq Require Import ZArith List Bool Lia.
From Coq Require Import Floats.SpecFloat.
From Verif Require Import Int64 HMap Data DataSpec DataProofs Arr Types TypesSpec InstProofs GuardProofs SemProofs EqProofs SubProofs Construct ConstructProofs Generic GenericSpec GenericProofs TypeEqProofs AgreeSpec Assign TransProofs.
Import ListNotations.
Open Scope Z_scope.

Section World.
Variable W : world.

(* Assignable, without guard *)
Fixpoint wide (a b : ty) {struct a} : bool :=
  match a, b with
  | TArray, TTuple _ _ _ => true
  | TSens _ t, TSens _ o => wide t o
  | TArrSized _ e min max, TArrSized _ e' min' max' => (min <=? min') && (max' <=? max) && wide e e'
  | TMapSized _ k v min max, TMapSized _ k' v' min' max' => (min <=? min') && (max' <=? max) && (wide k k' && wide v v')
  | TMapSized _ k v min max, TMap => (min <=? 0) && (max_int64 <=? max) && (wide k TAny && wide v TAny)
  | TTuple _ ts v, TTuple _ os _ =>
      (negb v || (length_z os <=? max_int64)) &&
      (fix go (ts os : list ty) : bool :=
         match ts with
         | [] => match os with [] => true | _ => false end
         | t :: r =>
             if v && match r with [] => true | _ => false end then forallb (wide t) os
             else match os with o :: os' => wide t o && go r os' | [] => false end
         end) ts os
  | TStruct _ ad es, TStruct _ oad os =>
      (fix go (es : list (value * ty * bool)) (oc : Z) : bool :=
         match es with
         | [] => ad || (oc =? length_z os)
         | (k, t, rq) :: r =>
             match struct_find k os with
             | Some (o, orq) => if rq && negb orq then false else wide t o && go r (oc + 1)
             | None => if rq || oad then false else go r oc
             end
         end) es 0
  | _, _ => below W a b
  end.

Fixpoint wide_members (v : bool) (ts os : list ty) : bool :=
  match ts with
  | [] => match os with [] => true | _ => false end
  | t :: r =>
      if v && match r with [] => true | _ => false end then forallb (wide t) os
      else match os with o :: os' => wide t o && wide_members v r os' | [] => false end
  end.
Fixpoint wide_entries (ad oad : bool) (os es : list (value * ty * bool)) (oc : Z) : bool :=
  match es with
  | [] => ad || (oc =? length_z os)
  | (k, t, rq) :: r =>
      match struct_find k os with
      | Some (o, orq) => if rq && negb orq then false else wide t o && wide_entries ad oad os r (oc + 1)
      | None => if rq || oad then false else wide_entries ad oad os r oc
      end
  end.
Lemma wide_tuple p ts v q os w : wide (TTuple p ts v) (TTuple q os w) = (negb v || (length_z os <=? max_int64)) && wide_members v ts os.
Proof.
  cbn [wide]. f_equal. revert os. induction ts as [|t r IH]; intros os; [reflexivity|]. cbn [wide_members].
  destruct (v && _); [reflexivity|]. destruct os; [reflexivity|]. now rewrite IH.
Qed.
Lemma wide_struct p ad es q oad os : wide (TStruct p ad es) (TStruct q oad os) = wide_entries ad oad os es 0.
Proof.
  cbn [wide]. generalize 0. induction es as [|[[k t] rq] r IH]; intros oc; [reflexivity|]. cbn [wide_entries].
  destruct (struct_find k os) as [[o orq]|]; now rewrite IH.
Qed.

Lemma wide_entries_iff ad oad os es : forall oc, wide_entries ad oad os es oc = true <->
  (forall e, In e es -> match struct_find (fst (fst e)) os with
                        | Some (o, orq) => (snd e = true -> orq = true) /\ wide (snd (fst e)) o = true
                        | None => snd e = false /\ oad = false
                        end) /\ (ad = true \/ oc + Z.of_nat (common_keys es os) = length_z os).
Proof.
  induction es as [|[[k t] rq] r IH]; intros oc; cbn [wide_entries].
  - rewrite orb_true_iff, Z.eqb_eq. unfold common_keys. cbn. rewrite Z.add_0_r. split; [intros H; split; [intros e []|tauto]|tauto].
  - assert (S : common_keys ((k, t, rq) :: r) os = ((match struct_find k os with Some _ => 1 | None => 0 end) + common_keys r os)%nat).
    { unfold common_keys. cbn [filter fst]. destruct (struct_find k os); reflexivity. }
    rewrite S. clear S. destruct (struct_find k os) as [[o orq]|] eqn:F.
    + destruct (rq && negb orq) eqn:R.
      * split; [discriminate|]. intros [H _]. specialize (H _ (or_introl eq_refl)). cbn [fst snd] in H. rewrite F in H. destruct H as [H _].
        apply andb_true_iff in R as [-> R]. rewrite H in R by reflexivity. discriminate.
      * rewrite andb_true_iff, IH. split.
        -- intros (A & B & C). split; [|destruct C as [C|C]; [now left|right; lia]]. intros e [<-|He]; [|exact (B e He)]. cbn [fst snd]. rewrite F. split; [|exact A].
           intros ->. destruct orq; [reflexivity|discriminate R].
        -- intros [A C]. split; [|split; [intros e He; apply A; now right|destruct C as [C|C]; [now left|right; lia]]].
           specialize (A _ (or_introl eq_refl)). cbn [fst snd] in A. rewrite F in A. apply A.
    + destruct (rq || oad) eqn:R.
      * split; [discriminate|]. intros [H _]. specialize (H _ (or_introl eq_refl)). cbn [fst snd] in H. rewrite F in H. destruct H as [-> ->]. discriminate.
      * apply orb_false_iff in R as [-> ->]. rewrite IH, Nat.add_0_l. split; intros [A C]; (split; [|exact C]).
        -- intros e [<-|He]; [|exact (A e He)]. cbn [fst snd]. now rewrite F.
        -- intros e He. apply A. now right.
Qed.

(* ---------- Assignable is wide ---------- *)

Variables tup str : bool.

Lemma member_size (t : ty) (ts : list ty) : In t ts -> (type_size t <= list_sum (map type_size ts))%nat.
Proof. induction ts as [|x r IH]; cbn; [tauto|]. intros [->|H]; [lia|]. specialize (IH H). unfold list_sum in *. lia. Qed.
Lemma entry_size (e : value * ty * bool) es : In e es ->
  (type_size (snd (fst e)) <= list_sum (map (fun e => value_size (fst (fst e)) + type_size (snd (fst e))) es))%nat.
Proof. induction es as [|x r IH]; cbn; [tauto|]. intros [->|H]; [lia|]. specialize (IH H). unfold list_sum in *. lia. Qed.

Lemma tuple_size p ts v t : In t ts -> (type_size t < type_size (TTuple p ts v))%nat.
Proof. intros H. apply member_size in H. change (type_size (TTuple p ts v)) with (S (S (list_sum (map type_size ts)))). lia. Qed.
Lemma struct_size p ad es e : In e es -> (type_size (snd (fst e)) < type_size (TStruct p ad es))%nat.
Proof.
  intros H. apply entry_size in H. change (type_size (TStruct p ad es)) with (S (S (list_sum (map (fun e => value_size (fst (fst e)) + type_size (snd (fst e))) es)))%nat). lia.
Qed.

(* the loop of tuples, for another type that is not variadic *)
Lemma tuple_loop_wide R (v : bool) ts os s1 : (v = true -> ts <> []) ->
  (forall t o, In t ts -> In o os -> R t o s1 = Some (wide t o, s1)) ->
  (v = false -> length ts = length os) -> (v = true -> (length ts <= S (length os))%nat) ->
  tuple_loop R (Nat.max (length (tuple_head ts v)) (length os)) (tuple_head ts v) os (tuple_rest ts v) None s1 = Some (wide_members v ts os, s1).
Proof.
  destruct v.
  - intros NE H _ L. specialize (NE eq_refl). specialize (L eq_refl). unfold tuple_head, tuple_rest.
    destruct (exists_last NE) as (hd & t & ->). rewrite app_length in *. cbn [length] in *. rewrite Nat.add_1_r in *. cbn [Nat.pred].
    rewrite firstn_app, firstn_all, Nat.sub_diag, app_nil_r. rewrite nth_error_app2, Nat.sub_diag by lia. cbn [nth_error].
    replace (Nat.max (length hd) (length os)) with (length os) by lia. clear NE.
    revert os H L. induction hd as [|x hd IH]; intros os H L.
    + clear L. induction os as [|o os IHo]; cbn; [reflexivity|]. unfold andm, bind. rewrite H by (cbn; auto).
      destruct (wide t o); [|reflexivity]. cbn [andb]. cbn in IHo. apply IHo. intros. apply H; cbn in *; auto.
    + destruct os as [|o os]; [cbn in L; lia|]. cbn [length tuple_loop tl app wide_members]. unfold andm, bind. rewrite H by (cbn; auto).
      replace (true && match hd ++ [t] with [] => true | _ => false end) with false by (destruct hd; reflexivity).
      destruct (wide x o); [|reflexivity]. cbn [andb]. apply IH; [intros; apply H; cbn; auto|cbn in L; lia].
  - intros _ H L _. specialize (L eq_refl). unfold tuple_head, tuple_rest. rewrite L, Nat.max_id. revert os H L.
    induction ts as [|t r IH]; intros [|o os] H L; try discriminate L; [reflexivity|]. cbn [length tuple_loop tl wide_members andb]. unfold andm, bind.
    rewrite H by (cbn; auto). destruct (wide t o); [|reflexivity]. cbn [andb]. apply IH; [intros; apply H; cbn; auto|cbn in L; lia].
Qed.

Lemma wide_members_length (v : bool) ts os : (v = true -> ts <> []) -> wide_members v ts os = true ->
  (v = false -> length ts = length os) /\ (v = true -> (length ts <= S (length os))%nat).
Proof.
  revert os. induction ts as [|t r IH]; intros os NE H; cbn [wide_members] in H.
  - destruct v; [now destruct NE|]. destruct os; [|discriminate]. split; [reflexivity|discriminate].
  - destruct v; cbn [andb] in H.
    + split; [discriminate|]. intros _. destruct r as [|t2 r]; [cbn; lia|]. destruct os as [|o os]; [discriminate|]. apply andb_true_iff in H as [_ H].
      destruct (IH os) as [_ L]; [discriminate|exact H|]. cbn in *. specialize (L eq_refl). lia.
    + split; [|discriminate]. intros _. destruct os as [|o os]; [discriminate|]. apply andb_true_iff in H as [_ H].
      destruct (IH os) as [L _]; [discriminate|exact H|]. cbn. now rewrite L.
Qed.

Lemma tuple_wide R p ts (v : bool) q os s1 : (v = true -> ts <> []) ->
  (forall t o, In t ts -> In o os -> R t o s1 = Some (wide t o, s1)) ->
  tuple_assignable_tuple R ts v os false s1 = Some (wide (TTuple p ts v) (TTuple q os false), s1).
Proof.
  intros NE H. rewrite wide_tuple. unfold tuple_assignable_tuple. cbn [tuple_head tuple_rest].
  destruct ((length_z os <? (if v then length_z ts - 1 else length_z ts)) || ((if v then max_int64 else length_z ts) <? length_z os)) eqn:B.
  - unfold ret. f_equal. f_equal. symmetry. apply not_true_iff_false. intros E. apply andb_true_iff in E as [E1 E2].
    apply wide_members_length in E2 as [L1 L2]; [|exact NE]. unfold length_z in *. destruct v.
    + specialize (L2 eq_refl). cbn [negb orb] in E1. apply Z.leb_le in E1. apply orb_true_iff in B as [B|B]; apply Z.ltb_lt in B; lia.
    + specialize (L1 eq_refl). apply orb_true_iff in B as [B|B]; apply Z.ltb_lt in B; lia.
  - apply orb_false_iff in B as [B1 B2]. apply Z.ltb_ge in B1, B2. unfold length_z in *. rewrite tuple_loop_wide; auto.
    + f_equal. f_equal. destruct v; [|reflexivity]. cbn [negb orb]. now replace (Z.of_nat (length os) <=? max_int64) with true by (symmetry; now apply Z.leb_le).
    + intros ->. lia.
    + intros ->. lia.
Qed.

Lemma struct_wide R ad oad os es s1 :
  (forall e o, In e es -> In o os -> R (snd (fst e)) (snd (fst o)) s1 = Some (wide (snd (fst e)) (snd (fst o)), s1)) ->
  forall oc, struct_assignable R ad es oad os oc s1 = Some (wide_entries ad oad os es oc, s1).
Proof.
  induction es as [|[[k t] rq] r IH]; intros H oc; cbn [struct_assignable wide_entries]; [reflexivity|].
  destruct (struct_find k os) as [[o orq]|] eqn:F.
  - destruct (rq && negb orq); [reflexivity|]. apply struct_find_some in F as (e & He & _ & -> & ->). unfold bind.
    pose proof (H (k, t, rq) e (or_introl eq_refl) He) as E. cbn [fst snd] in E. rewrite E. destruct (wide t (snd (fst e))); [|reflexivity]. cbn [andb]. apply IH. intros. apply H; cbn; auto.
  - destruct (rq || oad); [reflexivity|]. apply IH. intros. apply H; cbn; auto.
Qed.

Lemma struct_find_self es e : ForallOrdPairs (fun e e' : value * ty * bool => veq (fst (fst e)) (fst (fst e')) = false) es ->
  Forall (fun e => wf (fst (fst e))) es -> In e es -> forall k, wf k -> veq k (fst (fst e)) = true -> struct_find k es = Some (snd (fst e), snd e).
Proof.
  induction 1 as [|[[k' t'] r'] es H Hs IH]; intros Wf Hin k Wk Ek; [destruct Hin|]. inversion Wf as [|? ? W1 W2]; subst. cbn [struct_find fst] in *.
  destruct Hin as [<-|Hin]; [cbn [fst snd] in *; now rewrite Ek|]. rewrite Forall_forall in H, W2. specialize (H e Hin). cbn [fst] in H.
  destruct (veq k k') eqn:E; [|apply IH; auto; now apply Forall_forall]. rewrite (veq_trans k' k (fst (fst e))) in H; auto; [discriminate|].
  apply veq_sym; auto.
Qed.

Lemma common_all es os : type_ok (TStruct 0 false es) -> type_ok (TStruct 0 false os) ->
  (Z.of_nat (common_keys es os) = length_z os <-> forall o, In o os -> exists e, In e es /\ veq (fst (fst e)) (fst (fst o)) = true).
Proof.
  intros [[We He] _] [[Wo Ho] _]. rewrite common_keys_found.
  assert (L : length_z os = length_z (key_map os)) by (unfold length_z, key_map; now rewrite map_length).
  rewrite L. change (Z.of_nat ?n) with (Z.of_nat n). fold (length_z (flat_map (found_in (key_map os)) es)).
  rewrite (found_all (key_map os) es); auto; [|now apply key_map_wf]. split.
  - intros H o Hin. apply (H (fst (fst o)) VNil). unfold key_map. apply in_map_iff. eauto.
  - intros H k x Hin. unfold key_map in Hin. apply in_map_iff in Hin as (o & [= <- <-] & Hin). auto.
Qed.

Lemma wide_refl oa a : structural tup str false oa a -> type_ok a -> wide a a = true.
Proof.
  unfold type_ok. induction a as [ | | | |x y i| |x y i| | |x y|s|s|x y| | |p v|p t IHt| |p e x y IHe|p ts b IHts| |p k v x y IHk IHv|p a es IHes|p ts IHts|p vs|p ts IHts|p ts IHts|p t IHt| |t IHt] using ty_ind';
    intros S T; try (now apply below_refl); try contradiction S.
  - cbn [wide]. apply IHt; [exact S|apply T].
  - cbn [wide]. rewrite !Z.leb_refl. apply IHe; [apply S|apply T].
  - rewrite wide_tuple. destruct S as (_ & V & S), T as [_ T]. destruct b; [discriminate (V eq_refl)|]. cbn [negb orb andb].
    rewrite fold_and in S, T. clear V. induction IHts as [|t r IH _ IHr]; [reflexivity|]. inversion S; inversion T; subst. cbn [wide_members andb].
    rewrite IH by assumption. apply IHr; assumption.
  - cbn [wide]. rewrite !Z.leb_refl. destruct S as (_ & S1 & S2 & _), T as [_ [T1 T2]]. rewrite IHk, IHv by assumption. reflexivity.
  - rewrite wide_struct. apply wide_entries_iff. destruct S as (_ & V & S). pose proof T as [[T1 T2] T3]. rewrite fold_and in S, T3. rewrite Forall_forall in S, T3, IHes. split.
    + intros e He. pose proof T1 as T1'. rewrite Forall_forall in T1'. specialize (T1' e He). rewrite (struct_find_self es e) by auto using veq_refl.
      split; [auto|]. apply IHes; auto.
    + right. rewrite Z.add_0_l. apply common_all; [exact T|exact T|]. intros o Ho. exists o. split; [exact Ho|]. apply veq_refl. rewrite Forall_forall in T1. now apply T1.
Qed.

Lemma flat_wide va oa ob a b n s : structural tup str va oa a -> structural tup str false ob b -> deep_assignable a = false ->
  flat_assignable_to W (asgn W n) a b s = Some (wide a b, s).
Proof.
  intros Sa Sb D.
  destruct a as [ | | | |x y i| |x y i| | |x y|r|r|x y| | |p w|p t| |p e x y|p ts b0| |p kt vt x y|p a es|p ts|p vs|p ts|p ts|p t|[t|]]; try contradiction Sa; try discriminate D.
  all: destruct b as [ | | | |x' y' i'| |x' y' i'| | |x' y'|s'|s'|x' y'| | |p' w'|p' t'| |p' e' x' y'|p' ts' b'| |p' kt' vt' x' y'|p' a' es'|p' ts'|p' vs'|p' ts'|p' ts'|p' t'|[t'|]]; try contradiction Sb; try reflexivity.
  all: try (now apply flat_below).
  all: destruct w; try contradiction Sa; reflexivity.
Qed.

Theorem asgn_wide n : forall (fn : bool) va oa ob a b s, structural tup str va oa a -> type_ok a -> structural tup str false ob b -> (2 * type_size a + (if fn then 0 else 1) <= n)%nat ->
  (fn = true -> larger_seen a b s) -> asgn W n fn a b s = Some (wide a b, s).
Proof.
  induction n as [|n IH]; intros fn va oa ob a b s Ha Ta Hb Hn L. { pose proof (type_size_pos a). destruct fn; lia. }
  assert (NIL : forall (m : M bool) r, m {| s_guard := None; s_next := s_next s; s_hit := s_hit s |} = Some (r, {| s_guard := None; s_next := s_next s; s_hit := s_hit s |}) -> with_nil m s = Some (r, s)).
  { intros m r E. unfold with_nil, with_guard, set_guard. rewrite E. cbn. now destruct s. }
  destruct fn.
  - specialize (L eq_refl). cbn [asgn]. destruct (same_type a b) eqn:E.
    { apply same_type_eq in E as <-. now rewrite (wide_refl ob a). }
    destruct (deep_assignable a) eqn:D; [|apply NIL; eapply flat_wide; eassumption].
    assert (REC : forall a' b' s1, structural tup str va oa a' -> type_ok a' -> structural tup str false ob b' -> (type_size a' < type_size a)%nat -> (type_size b' < type_size b)%nat ->
       (forall a' c', (type_size a' < type_size a)%nat -> (type_size c' < type_size b)%nat -> larger_seen a' c' s1) -> asgn W n true a' b' s1 = Some (wide a' b', s1)).
    { intros a' b' s1 G T' G' A B X. eapply IH; eauto; try lia. }
    destruct a as [ | | | |x y i| |x y i| | |x y|r|r|x y| | |p w|p t| |p e x y|p ts b0| |p kt vt x y|p a es|p ts|p vs|p ts|p ts|p t|[t|]]; try contradiction Ha; try discriminate D;
      [destruct w; try contradiction; discriminate D| | | | |].
    all: apply enter_calm; [exact L| |].
    all: destruct b as [ | | | |x' y' i'| |x' y' i'| | |x' y'|s'|s'|x' y'| | |p' w'|p' t'| |p' e' x' y'|p' ts' b'| |p' kt' vt' x' y'|p' a' es'|p' ts'|p' vs'|p' ts'|p' ts'|p' t'|[t'|]]; try contradiction Hb; intros D'; try discriminate D'.
    all: try (intros s1 X); try reflexivity; try (destruct w'; try contradiction Hb; reflexivity).
    all: try (destruct Ha as [Ha1 _], Hb as [Hb1 _]; congruence).
    + cbn [deep_assignable_to wide]. apply REC; auto; try exact (proj2 Ta); cbn; lia.
    + cbn [deep_assignable_to wide array_bounds element_type]. destruct ((x <=? x') && (y' <=? y)); [|reflexivity]. cbn [andb]. unfold bind, ret.
      cbn [type_size] in Hn. destruct Ha as [_ Ha], Hb as [_ Hb]. apply (IH false va oa ob e e'); auto; try exact (proj2 Ta); try discriminate; lia.
    + destruct Ha as (_ & _ & Ha), Hb as (_ & Vb & Hb), Ta as [Tn Ta]. rewrite fold_and, Forall_forall in Ha, Hb, Ta.
      destruct b'; [discriminate (Vb eq_refl)|]. cbn [deep_assignable_to]. apply tuple_wide; [exact Tn|].
      intros t o Ht Ho. apply REC; auto using tuple_size. exact (Ta t Ht).
    + cbn [deep_assignable_to wide map_bounds key_type value_type]. destruct ((x <=? x') && (y' <=? y)); [|reflexivity]. cbn [andb]. unfold andm, bind, ret.
      destruct Ta as [_ [Tk Tv]], Ha as (_ & Sk & Sv & _), Hb as (_ & Sk' & Sv' & _).
      rewrite (REC kt kt'); auto; try (cbn; lia). destruct (wide kt kt'); [|reflexivity]. cbn [andb]. apply REC; auto; cbn; lia.
    + cbn [deep_assignable_to wide map_bounds key_type value_type]. destruct ((x <=? 0) && (max_int64 <=? y)); [|reflexivity]. cbn [andb]. unfold andm, bind, ret.
      destruct Ta as [_ [Tk Tv]], Ha as (_ & Sk & Sv & _). cbn [type_size] in Hn.
      assert (LK : larger_seen kt TAny s) by (eapply smaller_seen; [| |exact L]; cbn; lia).
      assert (LV : larger_seen vt TAny s) by (eapply smaller_seen; [| |exact L]; cbn; lia).
      assert (SA : structural tup str false ob TAny) by exact Logic.I.
      rewrite (IH true va oa ob kt TAny); auto; try lia. destruct (wide kt TAny); [|reflexivity]. cbn [andb]. apply (IH true va oa ob vt TAny); auto; lia.
    + destruct Ha as (_ & _ & Ha), Hb as (_ & Vb & Hb), Ta as [Tn Ta]. rewrite fold_and, Forall_forall in Ha, Hb, Ta.
      cbn [deep_assignable_to]. rewrite wide_struct. apply struct_wide.
      intros e o He Ho. apply REC; auto using struct_size. exact (Ta e He).
  - cbn [asgn]. destruct (deep_assignable a) eqn:D; [|apply NIL; eapply flat_wide; eassumption].
    assert (R : with_nil (asgn W n true a b) s = Some (wide a b, s)).
    { apply NIL. eapply IH; eauto; [lia|]. intros _. exact Logic.I. }
    destruct a as [ | | | |x y i| |x y i| | |x y|r|r|x y| | |p w|p t| |p e x y|p ts b0| |p kt vt x y|p a es|p ts|p vs|p ts|p ts|p t|[t|]]; try exact R. destruct w; try contradiction; discriminate D.
Qed.

(* ---------- transitivity ---------- *)

Lemma wide_any a : wide a TAny = true -> a = TAny.
Proof. destruct a as [ | | | |x y i| |x y i| | |x y|r|r|x y| | |p w|p t| |p e x y|p ts b0| |p kt vt x y|p a es|p ts|p vs|p ts|p ts|p t|[t|]]; try discriminate; auto; destruct w; discriminate. Qed.

Lemma wide_members_trans (v : bool) (P Q : ty -> Prop) ts :
  Forall (fun a => forall b c, P b -> Q c -> wide a b = true -> wide b c = true -> wide a c = true) ts ->
  forall os us, Forall P os -> Forall Q us -> wide_members v ts os = true -> wide_members false os us = true -> wide_members v ts us = true.
Proof.
  induction 1 as [|t r Ht _ IH]; intros os us Po Pu H K.
  - cbn [wide_members] in *. destruct os; [|discriminate]. exact K.
  - cbn [wide_members] in *. destruct (v && _).
    + clear IH. revert us Pu K. induction os as [|o os IHo]; intros us Pu K; cbn [wide_members andb] in K; [destruct us; [reflexivity|discriminate]|].
      destruct us as [|u us]; [discriminate|]. cbn [forallb] in *. apply andb_true_iff in H as [H1 H2]. apply andb_true_iff in K as [K1 K2].
      inversion Po; inversion Pu; subst. rewrite (Ht o u) by assumption. apply IHo; assumption.
    + destruct os as [|o os]; [discriminate|]. cbn [wide_members andb] in K. destruct us as [|u us]; [discriminate|].
      apply andb_true_iff in H as [H1 H2]. apply andb_true_iff in K as [K1 K2]. inversion Po; inversion Pu; subst. rewrite (Ht o u) by assumption. apply (IH os us); assumption.
Qed.

Lemma wide_members_same ts us : wide_members false ts us = true -> length ts = length us.
Proof. intros H. apply wide_members_length in H; [|discriminate]. now apply H. Qed.

Lemma entries_trans (P Q : ty -> Prop) ea eb ec es os us :
  (ec = true -> eb = true) -> (eb = true -> ea = true) ->
  type_ok (TStruct 0 false es) -> type_ok (TStruct 0 false os) -> type_ok (TStruct 0 false us) ->
  Forall (fun e : value * ty * bool => P (snd (fst e))) os -> Forall (fun e : value * ty * bool => Q (snd (fst e))) us ->
  Forall (fun e : value * ty * bool => forall b c, P b -> Q c -> wide (snd (fst e)) b = true -> wide b c = true -> wide (snd (fst e)) c = true) es ->
  wide_entries ea eb os es 0 = true -> wide_entries eb ec us os 0 = true -> wide_entries ea ec us es 0 = true.
Proof.
  intros Oc Ob Te To Tu Po Pu F H K. apply wide_entries_iff in H as [H1 H2]. apply wide_entries_iff in K as [K1 K2]. apply wide_entries_iff.
  rewrite Z.add_0_l in *. rewrite common_all in H2 by assumption. rewrite common_all in K2 by assumption. rewrite common_all by assumption.
  pose proof Te as [[We Ue] _]. pose proof To as [[Wo Uo] _]. pose proof Tu as [[Wu Uu] _]. rewrite Forall_forall in We, Wo, Wu, Po, Pu, F. split.
  - intros e He. specialize (H1 e He). destruct (struct_find (fst (fst e)) us) as [[u ur]|] eqn:Fu.
    + apply struct_find_some in Fu as (x & Hx & Ex & -> & ->).
      assert (B : exists o, In o os /\ veq (fst (fst e)) (fst (fst o)) = true).
      { destruct (struct_find (fst (fst e)) os) as [[o or]|] eqn:Fo.
        - apply struct_find_some in Fo as (o' & Ho & Eo & _). eauto.
        - destruct H1 as [_ ->]. destruct K2 as [K2|K2]; [discriminate|]. destruct (K2 x Hx) as (o & Ho & Eo). exists o. split; [exact Ho|].
          apply (veq_trans _ (fst (fst x))); auto. apply veq_sym; auto. }
      destruct B as (o & Ho & Eo). rewrite (struct_find_self os o) in H1; auto; [|now apply Forall_forall]. destruct H1 as [R1 I1].
      specialize (K1 o Ho). rewrite (struct_find_self us x) in K1; auto; [| now apply Forall_forall|].
      * destruct K1 as [R2 I2]. split; [auto|]. apply (F e He (snd (fst o))); auto.
      * apply (veq_trans _ (fst (fst e))); auto. apply veq_sym; auto.
    + destruct (struct_find (fst (fst e)) os) as [[o or]|] eqn:Fo.
      * apply struct_find_some in Fo as (o' & Ho & Eo & -> & ->). destruct H1 as [R1 _]. specialize (K1 o' Ho).
        destruct (struct_find (fst (fst o')) us) as [[u ur]|] eqn:Fu'.
        -- apply struct_find_some in Fu' as (x & Hx & Ex & _). pose proof (struct_find_none _ _ Fu x Hx) as N.
           rewrite (veq_trans _ (fst (fst o'))) in N; auto. discriminate.
        -- destruct K1 as [R2 ->]. split; [|reflexivity]. destruct (snd e); [rewrite R2 in R1; discriminate (R1 eq_refl)|reflexivity].
      * destruct H1 as [-> ->]. split; [reflexivity|]. destruct ec; [discriminate (Oc eq_refl)|reflexivity].
  - destruct H2 as [H2|H2]; [now left|]. destruct K2 as [K2|K2]; [left; auto|]. right. intros u Hu. destruct (K2 u Hu) as (o & Ho & Eo).
    destruct (H2 o Ho) as (e & He & Ee). exists e. split; [exact He|]. apply (veq_trans _ (fst (fst o))); auto.
Qed.

Lemma type_ok_struct p ad es : type_ok (TStruct p ad es) -> type_ok (TStruct 0 false es).
Proof. auto. Qed.

Theorem wide_trans va oa ob oc : (oc = true -> ob = true) -> (ob = true -> oa = true) ->
  forall a b c, structural tup str va oa a -> structural tup str false ob b -> structural tup str false oc c -> type_ok a -> type_ok b -> type_ok c ->
  wide a b = true -> wide b c = true -> wide a c = true.
Proof.
  intros Oc Ob. unfold type_ok.
  induction a as [ | | | |x y i| |x y i| | |x y|s|s|x y| | |p v|p t IHt| |p e x y IHe|p ts b0 IHts| |p k v x y IHk IHv|p a es IHes|p ts IHts|p vs|p ts IHts|p ts IHts|p t IHt| |t IHt] using ty_ind';
    intros b c Sa Sb Sc Ta Tb Tc H K; try contradiction Sa; try reflexivity.
  all: destruct b as [ | | | |x' y' i'| |x' y' i'| | |x' y'|s'|s'|x' y'| | |p' w'|p' t'| |p' e' x' y'|p' ts' b'| |p' kt' vt' x' y'|p' a' es'|p' ts'|p' vs'|p' ts'|p' ts'|p' t'|[t'|]]; try contradiction Sb; try discriminate H;
    try (destruct v; try contradiction Sa; discriminate H).
  all: destruct c as [ | | | |x2 y2 i2| |x2 y2 i2| | |x2 y2|s2|s2|x2 y2| | |p2 w2|p2 t2| |p2 e2 x2 y2|p2 ts2 b2| |p2 kt2 vt2 x2 y2|p2 a2 es2|p2 ts2|p2 vs2|p2 ts2|p2 ts2|p2 t2|[t2|]]; try contradiction Sc; try discriminate K; try reflexivity;
    try (destruct w'; try contradiction Sb; discriminate K).
  all: try (match goal with |- wide ?a ?c = true => match type of K with wide ?b _ = true => apply (below_trans W a b c) end end; assumption).
  all: try exact H; try exact K.
  - cbn [wide] in *. apply (IHt t' t2); auto; first [apply Ta|apply Tb|apply Tc].
  - cbn [wide] in *. destruct Ta as [_ Ta], Tb as [_ Tb], Tc as [_ Tc], Sa as [_ Sa], Sb as [_ Sb], Sc as [_ Sc]. rewrite !andb_true_iff, !Z.leb_le in *.
    split; [lia|]. destruct H as [_ H], K as [_ K]. apply (IHe e' e2); auto.
  - rewrite wide_tuple in *. destruct Ta as [_ Ta], Tb as [_ Tb], Tc as [_ Tc], Sa as (_ & _ & Sa), Sb as (_ & Vb & Sb), Sc as (_ & _ & Sc).
    destruct b'; [discriminate (Vb eq_refl)|]. cbn [negb orb andb] in K. apply andb_true_iff in H as [H1 H2]. pose proof (wide_members_same _ _ K) as L.
    apply andb_true_iff. split; [unfold length_z in *; now rewrite <- L|]. rewrite fold_and in *.
    refine (wide_members_trans b0 (fun t => structural tup str false ob t /\ ty_all node_ok t) (fun t => structural tup str false oc t /\ ty_all node_ok t) ts _ ts' ts2 _ _ H2 K);
      rewrite Forall_forall in *; [|now auto..]. intros t Ht b c [B1 B2] [C1 C2] I1 I2. apply (IHts t Ht b c); auto.
  - cbn [wide] in *. apply andb_true_iff in H as [H Hk]. apply andb_true_iff in Hk as [Hk Hv]. apply wide_any in Hk as ->. apply wide_any in Hv as ->.
    change (wide TAny kt2) with true. change (wide TAny vt2) with true. destruct Sc as (_ & _ & _ & ?). rewrite !andb_true_iff, !Z.leb_le in *. lia.
  - cbn [wide] in *. apply andb_true_iff in K as [K Kk]. apply andb_true_iff in Kk as [Kk Kv]. apply wide_any in Kk as ->. apply wide_any in Kv as ->.
    rewrite !andb_true_iff, !Z.leb_le in *. destruct H as [H [Hk Hv]]. split; [lia|auto].
  - cbn [wide] in *. destruct Ta as [_ [Tk Tv]], Tb as [_ [Tk' Tv']], Tc as [_ [Tk2 Tv2]], Sa as (_ & ? & ? & ?), Sb as (_ & ? & ? & ?), Sc as (_ & ? & ? & ?).
    rewrite !andb_true_iff, !Z.leb_le in *. destruct H as [H [Hk Hv]], K as [K [Kk Kv]].
    split; [lia|]. split; [apply (IHk kt' kt2)|apply (IHv vt' vt2)]; auto.
  - rewrite wide_struct in *. pose proof Ta as [_ Ta']. pose proof Tb as [_ Tb']. pose proof Tc as [_ Tc']. destruct Sa as (_ & -> & Sa), Sb as (_ & -> & Sb), Sc as (_ & -> & Sc).
    rewrite fold_and in *.
    refine (entries_trans (fun t => structural tup str false ob t /\ ty_all node_ok t) (fun t => structural tup str false oc t /\ ty_all node_ok t) oa ob oc es es' es2 Oc Ob Ta Tb Tc _ _ _ H K);
      rewrite Forall_forall in *; [now auto..|]. intros e He b c [B1 B2] [C1 C2] I1 I2. apply (IHes e He b c); auto.
Qed.

Theorem structural_transitive va oa ob oc a b c : (oc = true -> ob = true) -> (ob = true -> oa = true) ->
  structural tup str va oa a -> structural tup str false ob b -> structural tup str false oc c -> type_ok a -> type_ok b -> type_ok c ->
  exists N, forall n m k p q r, (N <= n)%nat -> (N <= m)%nat -> (N <= k)%nat ->
    assignable W n p a b = Some true -> assignable W m q b c = Some true -> assignable W k r a c = Some true.
Proof.
  intros Oc Ob Sa Sb Sc Ta Tb Tc. exists (2 * (type_size a + type_size b) + 1)%nat. intros n m k p q r Hn Hm Hk. unfold assignable.
  rewrite (asgn_wide n false va oa ob a b), (asgn_wide m false false ob oc b c), (asgn_wide k false va oa oc a c) by (auto; try discriminate; lia).
  cbn. intros [= H] [= K]. f_equal. now apply (wide_trans va oa ob oc Oc Ob a b c).
Qed.

(* the answer needs no more fuel than the size of the types *)
Theorem structural_returns va oa ob a b : structural tup str va oa a -> structural tup str false ob b -> type_ok a ->
  exists N r, forall n p, (N <= n)%nat -> assignable W n p a b = Some r.
Proof.
  intros Sa Sb Ta. exists (2 * type_size a + 1)%nat, (wide a b). intros n p Hn. unfold assignable.
  now rewrite (asgn_wide n false va oa ob a b) by (auto; discriminate).
Qed.
End World.
