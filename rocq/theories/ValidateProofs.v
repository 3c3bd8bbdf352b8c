(* Validate reports exactly the mistakes, and ValidateVerbose returns the same verdict. *)
From Coq Require Import ZArith List Bool Lia.
From Verif Require Import Int64 HMap Data DataSpec DataProofs Arr Types TypesSpec Assign InstProofs GuardProofs SemProofs EqProofs TypesCor Construct Validate ValidateSpec.
Import ListNotations.
Open Scope Z_scope.

Section World.
Variable W : world.

Lemma reports_app p m l errs l' errs' : reports p m l errs -> reports p m l' errs' -> reports p m (l ++ l') (errs ++ errs').
Proof. induction 1; intros R; cbn [app]; [exact R|constructor 2|constructor 3|constructor 4|constructor 5|constructor 6]; auto. Qed.
Lemma verbose_entries_same n p m es : forall ok,
  match check_entries W n p es m, verbose_entries W n p es m ok with
  | Done errs, Done (b, lines) => (b = ok && match errs with [] => true | _ => false end) /\ reports p m lines errs /\ told lines = map (fun e => snd (fst e)) es
  | Panics, Panics | Bound, Bound => True
  | _, _ => False
  end.
Proof.
  induction es as [|[[kt vt] req] r IH]; intros ok; cbn [check_entries verbose_entries]; [rewrite andb_true_r; repeat split; constructor|].
  destruct (exact_value kt) as [ek|]; [|exact Logic.I]. rewrite get_with_assoc.
  destruct (assoc veq m ek) as [x|] eqn:A.
  - destruct (instance W n p vt x) as [[|]|]; [| |exact Logic.I].
    + specialize (IH ok). destruct (check_entries W n p r m), (verbose_entries W n p r m ok) as [[b l]| |]; cbn [vmap fst snd]; try contradiction; auto.
      destruct IH as (-> & R & T). split; [reflexivity|]. split; [now apply (reports_ok p m ek vt)|]. cbn. now rewrite <- T.
    + specialize (IH false). destruct (check_entries W n p r m), (verbose_entries W n p r m false) as [[b l]| |]; cbn [vmap fst snd]; try contradiction; auto.
      destruct IH as (-> & R & T). rewrite andb_false_r. split; [reflexivity|]. split; [now apply (reports_type p m ek vt x)|]. cbn. now rewrite <- T.
  - destruct req.
    + specialize (IH false). destruct (check_entries W n p r m), (verbose_entries W n p r m false) as [[b l]| |]; cbn [vmap fst snd]; try contradiction; auto.
      destruct IH as (-> & R & T). rewrite andb_false_r. split; [reflexivity|]. split; [now apply (reports_missing p m ek vt)|]. cbn. now rewrite <- T.
    + specialize (IH ok). destruct (check_entries W n p r m), (verbose_entries W n p r m ok) as [[b l]| |]; cbn [vmap fst snd]; try contradiction; auto.
      destruct IH as (-> & R & T). split; [reflexivity|]. split; [now apply (reports_absent p m ek vt)|]. cbn. now rewrite <- T.
Qed.

Lemma verbose_keys_same p t m0 m : forall ok,
  fst (verbose_keys p t m ok) = (ok && match check_keys p t m with [] => true | _ => false end) /\
  reports p m0 (snd (verbose_keys p t m ok)) (check_keys p t m) /\ told (snd (verbose_keys p t m ok)) = [].
Proof.
  induction m as [|[k x] r IH]; intros ok; cbn [check_keys verbose_keys]; [rewrite andb_true_r; repeat split; constructor|].
  destruct (has_entry p t k); [apply IH|]. specialize (IH false). destruct (verbose_keys p t r false) as [b l]. cbn [fst snd] in *.
  destruct IH as (-> & R & T). rewrite andb_false_r. split; [reflexivity|]. split; [now constructor|exact T].
Qed.

(* both panic, both exceed the bound, or both return *)
Theorem verbose_same n p t v :
  match validate W n p t v, validate_verbose W n p t v with
  | Done errs, Done (b, lines) => (b = true <-> errs = []) /\ report_of p t v lines errs
  | Panics, Panics | Bound, Bound => True
  | _, _ => False
  end.
Proof.
  destruct v as [ |b|z|f|s|s|s ns z|s|x|l|m]; try (cbn; split; [split; discriminate|split; reflexivity]). cbn [validate validate_verbose report_of].
  destruct (each p t) as [es|]; [|exact Logic.I]. pose proof (verbose_entries_same n p m es true) as E.
  destruct (check_entries W n p es m) as [errs| |], (verbose_entries W n p es m true) as [[b l]| |]; cbn [vmap fst snd]; try contradiction; auto.
  destruct E as (-> & E & T). cbn [andb]. pose proof (verbose_keys_same p t m m (match errs with [] => true | _ => false end)) as K.
  destruct (verbose_keys p t m _) as [b' l']. cbn [fst snd] in K. destruct K as (-> & K & T'). split; [|split].
  - destruct errs; cbn.
    + destruct (check_keys p t m); split; auto; discriminate.
    + split; discriminate.
  - now apply reports_app.
  - cbn [option_map]. unfold told in *. now rewrite flat_map_app, T, T', app_nil_r.
Qed.

Definition depth (es : list (value * ty * bool)) : nat := list_sum (map (fun e => (2 * type_size (snd (fst e)))%nat) es).

Lemma exact_key p k : key_ok k -> exact_value (type_of p k) = Some k.
Proof. destruct k; cbn; try contradiction; reflexivity. Qed.

Lemma check_entries_mistakes n p m es : wf (VMap m) -> Forall (fun e => wf (fst (fst e)) /\ key_ok (fst (fst e)) /\ type_ok (snd (fst e))) es -> (depth es <= n)%nat ->
  exists errs, check_entries W n p (map (fun e => (type_of p (fst (fst e)), snd (fst e), snd e)) es) m = Done errs /\
    forall e, In e errs <-> (match e with EUnknown _ => False | _ => True end) /\ mistake W es m e.
Proof.
  intros Wm. induction es as [|[[k t] req] r IH]; intros F Hn; cbn [map check_entries fst snd].
  { exists []. split; [reflexivity|]. intros e. split; [contradiction|]. intros [N H]. destruct e; cbn in *; firstorder. }
  inversion F as [|? ? (Wk & Kk & Tt) Fr]; subst. cbn [fst snd] in *. unfold depth in Hn. cbn [map list_sum fold_right fst snd] in Hn. fold (list_sum (map (fun e : value * ty * bool => (2 * type_size (snd (fst e)))%nat) r)) in Hn.
  destruct IH as (errs & E & H); auto. { unfold depth. lia. }
  rewrite (exact_key p k Kk), get_with_assoc.
  destruct (assoc veq m k) as [x|] eqn:A.
  - assert (Wx : data veq x). { apply assoc_some in A as (k' & Hin & _). eapply (wf_map_entry m); eauto. }
    rewrite (instance_inst W n p t x) by (auto using type_ok_tuple_ok; lia).
    pose proof (inst_iff W t x Tt Wx) as I. destruct (inst W t x).
    + exists errs. split; [exact E|]. intros e. rewrite H. destruct e as [ |k' t'|k'|k']; cbn [mistake In]; try tauto.
      * split; intros [_ (r' & x' & X)]; split; auto; exists r', x'; [tauto|]. destruct X as ([X|X] & Y & Z); [|tauto].
        injection X as <- <- <-. rewrite A in Y. injection Y as <-. tauto.
      * split; intros [_ (t' & X)]; split; auto; exists t'; [tauto|]. destruct X as ([X|X] & Y); [|tauto]. injection X as <- <- ->. congruence.
    + exists (EInstance k t :: errs). rewrite E. split; [reflexivity|]. intros e. cbn [In]. rewrite H. destruct e as [ |k' t'|k'|k']; cbn [mistake In]; try (split; [intros [?|?]; [discriminate|tauto]|tauto]).
      * split.
        -- intros [X|X]; [injection X as <- <-|]; split; auto; [exists req, x|destruct X as (_ & r' & x' & X); exists r', x'; tauto].
           split; [auto|]. split; [exact A|]. intros N. apply I in N. discriminate.
        -- intros (_ & r' & x' & ([X|X] & Y & Z)); [left; congruence|right]. split; auto. exists r', x'. auto.
      * split.
        -- intros [X|X]; [discriminate|]. destruct X as (_ & t' & X). split; auto. exists t'. tauto.
        -- intros (_ & t' & ([X|X] & Y)); [injection X as <- <- ->; congruence|]. right. split; auto. exists t'. auto.
  - destruct req.
    + exists (EMissing k :: errs). rewrite E. split; [reflexivity|]. intros e. cbn [In]. rewrite H. destruct e as [ |k' t'|k'|k']; cbn [mistake In]; try (split; [intros [?|?]; [discriminate|tauto]|tauto]).
      * split.
        -- intros [X|X]; [discriminate|]. destruct X as (_ & r' & x' & X). split; auto. exists r', x'. tauto.
        -- intros (_ & r' & x' & ([X|X] & Y & Z)); [injection X as <- <- <-; congruence|right]. split; auto. exists r', x'. auto.
      * split.
        -- intros [X|X]; [injection X as <-; split; auto; exists t; auto|]. destruct X as (_ & t' & X). split; auto. exists t'. tauto.
        -- intros (_ & t' & ([X|X] & Y)); [left; congruence|]. right. split; auto. exists t'. auto.
    + exists errs. split; [exact E|]. intros e. rewrite H. destruct e as [ |k' t'|k'|k']; cbn [mistake In]; try tauto.
      * split; intros [_ (r' & x' & X)]; split; auto; exists r', x'; [tauto|]. destruct X as ([X|X] & Y & Z); [|tauto]. injection X as <- <- <-. congruence.
      * split; intros [_ (t' & X)]; split; auto; exists t'; [tauto|]. destruct X as ([X|X] & Y); [|tauto]. discriminate.
Qed.

Lemma check_keys_unknown p t m e : In e (check_keys p t m) <-> exists k x, e = EUnknown k /\ In (k, x) m /\ has_entry p t k = false.
Proof.
  induction m as [|[k x] r IH]; cbn [check_keys In]; [firstorder|].
  destruct (has_entry p t k) eqn:E.
  - rewrite IH. split; intros (k' & x' & A & B & C); exists k', x'; [tauto|]. destruct B as [B|B]; [congruence|tauto].
  - cbn [In]. rewrite IH. split.
    + intros [<-|(k' & x' & A & B & C)]; [exists k, x; auto|exists k', x'; tauto].
    + intros (k' & x' & A & [B|B] & C); [left; congruence|right; exists k', x'; auto].
Qed.

Lemma type_of_key p k k' : key_ok k' -> type_eq (type_of p k) (type_of p k') = veq k k'.
Proof. unfold type_eq. destruct k'; cbn [key_ok]; try contradiction; intros _; destruct k; reflexivity. Qed.

(* the entries of a struct map type *)
Definition entries_of (p : ptr) (t : ty) : list (value * ty * bool) :=
  match t with
  | TStruct _ _ es => es
  | TExact _ (VMap m) => map (fun e => (fst e, type_of p (snd e), true)) m
  | _ => []
  end.

Lemma each_entries p t : (exists q ad es, t = TStruct q ad es) \/ (exists q m, t = TExact q (VMap m)) ->
  each p t = Some (map (fun e => (type_of p (fst (fst e)), snd (fst e), snd e)) (entries_of p t)).
Proof. intros [(q & ad & es & ->)|(q & m & ->)]; cbn; [reflexivity|]. now rewrite map_map. Qed.

Lemma validate_mistakes p t m : (exists q ad es, t = TStruct q ad es) \/ (exists q m, t = TExact q (VMap m)) ->
  type_ok t -> Forall (fun e => key_ok (fst (fst e))) (entries_of p t) -> wf (VMap m) ->
  exists N, forall n, (N <= n)%nat -> exists errs, validate W n p t (VMap m) = Done errs /\ forall e, In e errs <-> mistake W (entries_of p t) m e.
Proof.
  intros St Ot Kt Wm. exists (depth (entries_of p t)). intros n Hn. cbn [validate]. rewrite (each_entries p t St).
  assert (F : Forall (fun e => wf (fst (fst e)) /\ key_ok (fst (fst e)) /\ type_ok (snd (fst e))) (entries_of p t)).
  { rewrite Forall_forall in *. intros e He. specialize (Kt e He). destruct St as [(q & ad & es & ->)|(q & m' & ->)]; cbn [entries_of] in *.
    - destruct Ot as [[On _] O]. apply (fold_and (fun e => ty_all node_ok (snd (fst e)))) in O. rewrite Forall_forall in On, O. split; [|split]; auto. now apply O.
    - apply in_map_iff in He as ([k x] & <- & Hin). destruct Ot as [On _]. cbn [fst snd] in *. destruct (wf_map_entry _ _ _ On Hin). split; [|split]; auto. now apply type_of_type_ok. }
  destruct (check_entries_mistakes n p m (entries_of p t) Wm F Hn) as (errs & -> & H). cbn [vmap]. eexists. split; [reflexivity|].
  assert (G : forall k x, In (k, x) m -> (has_entry p t k = false <-> forall e, In e (entries_of p t) -> veq (fst (fst e)) k = false)).
  { intros k x Hin. destruct (wf_map_entry _ _ _ Wm Hin) as [Wk _]. rewrite Forall_forall in F.
    assert (SY : forall e, In e (entries_of p t) -> veq k (fst (fst e)) = false <-> veq (fst (fst e)) k = false).
    { intros e He. destruct (F e He) as (We & _ & _). rewrite <- !not_true_iff_false. split; intros N M; apply N; apply veq_sym; auto. }
    destruct St as [(q & ad & es & ->)|(q & m' & ->)]; cbn [entries_of has_entry] in *.
    - rewrite <- not_true_iff_false, existsb_exists. split.
      + intros N e He. apply SY; auto. apply not_true_iff_false. intros M. apply N. exists e. split; [exact He|]. rewrite type_of_key; auto. now apply F.
      + intros N (e & He & M). rewrite type_of_key in M by now apply F. specialize (N e He). apply SY in N; auto. congruence.
    - rewrite get_with_assoc. split.
      + intros N e He. apply SY; auto. apply in_map_iff in He as ([k' x'] & <- & Hin'). cbn [fst]. destruct (assoc veq m' k) eqn:A; [discriminate|].
        eapply assoc_none; eauto.
      + intros N. destruct (assoc veq m' k) as [x'|] eqn:A; [|reflexivity]. apply assoc_some in A as (k' & Hin' & M).
        specialize (SY (k', type_of p x', true)). specialize (N (k', type_of p x', true)). cbn [fst] in *.
        assert (X : In (k', type_of p x', true) (map (fun e => (fst e, type_of p (snd e), true)) m')) by (apply in_map_iff; exists (k', x'); auto).
        specialize (N X). apply SY in N; auto. congruence. }
  intros e. rewrite in_app_iff, H, check_keys_unknown. split.
  - intros [[_ X]|(k & x & -> & Hin & N)]; [exact X|]. cbn [mistake]. split; [eauto|]. eapply G; eauto.
  - intros X. destruct e as [ |k t'|k|k]; [left; auto|left; auto|left; auto|right]. destruct X as [[x Hin] X]. exists k, x. split; [reflexivity|]. split; [exact Hin|]. eapply G; eauto.
Qed.

Lemma no_mistakes es m : wf (VMap m) -> Forall (fun e => wf (fst (fst e)) /\ type_ok (snd (fst e))) es ->
  (forall e, ~ mistake W es m e) <-> (Forall (entry_ok W m) es /\ forall k x, In (k, x) m -> exists e, In e es /\ veq (fst (fst e)) k = true).
Proof.
  intros Wm F. rewrite Forall_forall in F. split.
  - intros H. split.
    + apply Forall_forall. intros [[k t] r] He. unfold entry_ok. cbn [fst snd]. destruct (F _ He) as [Wk Ot]. cbn [fst snd] in *.
      destruct (assoc veq m k) as [x|] eqn:A.
      * assert (Wx : data veq x). { apply assoc_some in A as (k' & Hin & _). eapply (wf_map_entry m); eauto. }
        apply (inst_iff W t x Ot Wx). apply not_false_iff_true. intros N. apply (H (EInstance k t)). exists r, x. split; [exact He|]. split; [exact A|].
        intros T. apply (inst_iff W t x Ot Wx) in T. congruence.
      * destruct r; [|reflexivity]. exfalso. apply (H (EMissing k)). exists t. auto.
    + intros k x Hin. destruct (existsb (fun e => veq (fst (fst e)) k) es) eqn:E; [apply existsb_exists in E; exact E|].
      exfalso. apply (H (EUnknown k)). split; [eauto|]. intros e He. apply not_true_iff_false. intros N.
      assert (X : existsb (fun e : value * ty * bool => veq (fst (fst e)) k) es = true) by (apply existsb_exists; eauto). congruence.
  - intros [A B] [ |k t|k|k]; cbn [mistake]; [auto| | |]; rewrite Forall_forall in A.
    + intros (r & x & He & E & N). specialize (A _ He). unfold entry_ok in A. cbn [fst snd] in A. rewrite E in A. auto.
    + intros (t & He & E). specialize (A _ He). unfold entry_ok in A. cbn [fst snd] in A. rewrite E in A. discriminate.
    + intros [[x Hin] N]. destruct (B k x Hin) as (e & He & E). rewrite (N e He) in E. discriminate.
Qed.

Lemma closed_struct q es m : has_type W (TStruct q false es) (VMap m) <-> Forall (entry_ok W m) es /\ forall k x, In (k, x) m -> exists e, In e es /\ veq (fst (fst e)) k = true.
Proof.
  unfold has_type. cbn [has_type_with]. fold (has_type W). split.
  - intros (m' & E & A & [B|B]); [discriminate|]. injection E as <-. split; [|exact B]. rewrite Forall_map_iff in A. exact A.
  - intros [A B]. exists m. split; [reflexivity|]. split; [|now right]. rewrite Forall_map_iff. exact A.
Qed.

Lemma exact_map q p m' m : wf (VMap m') -> wf (VMap m) -> Forall (fun e => match snd e with VSens _ => False | _ => True end) m' ->
  (has_type W (TExact q (VMap m')) (VMap m) <->
   Forall (entry_ok W m) (map (fun e => (fst e, type_of p (snd e), true)) m') /\ forall k x, In (k, x) m -> exists e, In e (map (fun e => (fst e, type_of p (snd e), true)) m') /\ veq (fst (fst e)) k = true).
Proof.
  intros Wm' Wm Sn. rewrite Forall_map_iff.
  assert (V : forall x' x, (match x' with VSens _ => False | _ => True end) -> (has_type W (type_of p x') x <-> veq x' x = true)).
  { intros x' x N. destruct x'; try contradiction N; try reflexivity. cbn. destruct x; cbn; split; intros; try discriminate; reflexivity. }
  rewrite Forall_forall in *. change (has_type W (TExact q (VMap m')) (VMap m)) with (veq (VMap m') (VMap m) = true). rewrite map_equal_iff by assumption. split.
  - intros H. split.
    + intros [k x'] Hin. unfold entry_ok. cbn [fst snd]. destruct (wf_map_entry _ _ _ Wm' Hin) as [Wk Wx]. specialize (H k Wk).
      rewrite (assoc_unique m' k k x') in H; auto; [|now apply veq_refl]. destruct (assoc veq m k) as [x|]; [|contradiction H]. cbn [same_assoc] in H. apply V; [|exact H]. exact (Sn _ Hin).
    + intros k x Hin. destruct (wf_map_entry _ _ _ Wm Hin) as [Wk Wx]. specialize (H k Wk). rewrite (assoc_unique m k k x) in H; auto; [|now apply veq_refl].
      destruct (assoc veq m' k) as [x'|] eqn:A; [|contradiction H]. apply assoc_some in A as (k' & Hin' & A). exists (k', type_of p x', true). split; [apply in_map_iff; exists (k', x'); auto|].
      cbn [fst]. destruct (wf_map_entry _ _ _ Wm' Hin'). now apply veq_sym.
  - intros [H K] k Wk. destruct (assoc veq m' k) as [x'|] eqn:A.
    + apply assoc_some in A as (k' & Hin & A). specialize (H _ Hin). unfold entry_ok in H. cbn [fst snd] in H. destruct (wf_map_entry _ _ _ Wm' Hin) as [Wk' Wx'].
      rewrite <- !get_with_assoc in *. rewrite (get_with_congr m k k'); auto. destruct (get_with (veq k') m) as [x|]; [|discriminate H]. cbn. apply V in H; [exact H|]. exact (Sn _ Hin).
    + destruct (assoc veq m k) as [x|] eqn:A'; [|exact Logic.I]. exfalso. apply assoc_some in A' as (k' & Hin & A'). destruct (K _ _ Hin) as (e & He & E). apply in_map_iff in He as ([k2 x2] & <- & Hin2). cbn [fst] in E.
      destruct (wf_map_entry _ _ _ Wm Hin), (wf_map_entry _ _ _ Wm' Hin2). pose proof (assoc_none _ _ A _ _ Hin2) as X. rewrite (veq_trans k k' k2) in X; auto; [discriminate|]. now apply veq_sym.
Qed.

(* all errors are mistakes and all mistakes are reported *)
Theorem struct_errors p q ad es m : type_ok (TStruct q ad es) -> Forall (fun e => key_ok (fst (fst e))) es -> data veq (VMap m) ->
  exists N, forall n, (N <= n)%nat -> exists errs, validate W n p (TStruct q ad es) (VMap m) = Done errs /\ forall e, In e errs <-> mistake W es m e.
Proof. intros O K Wm. apply (validate_mistakes p (TStruct q ad es) m); auto. left. eauto. Qed.

Lemma nil_iff {A} (l : list A) (P : A -> Prop) : (forall e, In e l <-> P e) -> (l = [] <-> forall e, ~ P e).
Proof. intros H. destruct l as [|x r]; split; intros E; auto; [|discriminate|]; [intros e X; apply H in X; exact X|]. exfalso. apply (E x). apply H. now left. Qed.

Theorem closed_struct_agrees p q es v : type_ok (TStruct q false es) -> Forall (fun e => key_ok (fst (fst e))) es -> data veq v ->
  exists N, forall n, (N <= n)%nat -> exists errs, validate W n p (TStruct q false es) v = Done errs /\ (errs = [] <-> has_type W (TStruct q false es) v).
Proof.
  intros O K Wv.
  destruct v as [ |b|z|f|s|s|s ns z|s|x|l|m]; try (exists 0%nat; intros n _; exists [ENotMap]; split; [reflexivity|split; [discriminate|intros (m & E & _); discriminate]]).
  destruct (struct_errors p q false es m O K Wv) as (N & H). exists N. intros n Hn. destruct (H n Hn) as (errs & E & X). exists errs. split; [exact E|].
  rewrite (nil_iff _ _ X), no_mistakes, closed_struct; auto; [reflexivity|]. destruct O as [[On _] O]. apply (fold_and (fun e => ty_all node_ok (snd (fst e)))) in O. rewrite Forall_forall in *. intros e He. split; [now apply On|now apply O].
Qed.

Theorem exact_map_agrees p q m' v : data veq (VMap m') -> Forall (fun e => key_ok (fst e) /\ match snd e with VSens _ => False | _ => True end) m' -> data veq v ->
  exists N, forall n, (N <= n)%nat -> exists errs, validate W n p (TExact q (VMap m')) v = Done errs /\ (errs = [] <-> has_type W (TExact q (VMap m')) v).
Proof.
  intros Wm' K Wv.
  destruct v as [ |b|z|f|s|s|s ns z|s|x|l|m]; try (exists 0%nat; intros n _; exists [ENotMap]; split; [reflexivity|split; discriminate]).
  destruct (validate_mistakes p (TExact q (VMap m')) m) as (N & H); [right; eauto|split; [exact Wm'|exact Logic.I]| |exact Wv|].
  { cbn [entries_of]. rewrite Forall_map_iff. rewrite Forall_forall in *. intros e He. now apply K. }
  exists N. intros n Hn. destruct (H n Hn) as (errs & E & X). exists errs. split; [exact E|].
  rewrite (nil_iff _ _ X), no_mistakes, (exact_map q p); auto; [reflexivity| |].
  - rewrite Forall_forall in *. intros e He. now apply K.
  - cbn [entries_of]. rewrite Forall_map_iff. apply Forall_forall. intros [k x] He. destruct (wf_map_entry _ _ _ Wm' He). split; [assumption|]. now apply type_of_type_ok.
Qed.
End World.
