(* Proofs about Named.v. *)
From Coq Require Import ZArith List Bool Lia.
From Verif Require Import Int64 Data DataSpec DataProofs Types Named NamedSpec.
Import ListNotations.
Open Scope Z_scope.

Section NtyInd.
Variable P : nty -> Prop.
Hypothesis H1 : forall d, P (NNamed d).
Hypothesis H2 : forall p t ps, P t -> P (NParam p t ps).
Hypothesis H3 : forall p t x, P t -> P (NExact p t x).
Hypothesis H4 : forall p ts, Forall P ts -> P (NAnyOf p ts).
Hypothesis H5 : forall p ts, Forall P ts -> P (NOneOf p ts).
Hypothesis H6 : forall p ts, Forall P ts -> P (NAllOf p ts).
Hypothesis H7 : forall t, P (NOther t).
Fixpoint nty_ind' (t : nty) : P t :=
  let all := fix all ts : Forall P ts := match ts with [] => Forall_nil P | t :: r => Forall_cons t (nty_ind' t) (all r) end in
  match t with
  | NNamed d => H1 d
  | NParam p t ps => H2 p t ps (nty_ind' t)
  | NExact p t x => H3 p t x (nty_ind' t)
  | NAnyOf p ts => H4 p ts (all ts)
  | NOneOf p ts => H5 p ts (all ts)
  | NAllOf p ts => H6 p ts (all ts)
  | NOther t => H7 t
  end.
End NtyInd.

Section World.
Variable W : nworld.

Lemma fold_or {A} (f : A -> Prop) l : fold_right or False (map f l) <-> exists a, In a l /\ f a.
Proof.
  induction l as [|b l IH]; cbn; [split; [tauto|intros (a & [] & _)]|]. rewrite IH. split.
  - intros [H|(a & I & H)]; eauto.
  - intros (a & [<-|I] & H); eauto.
Qed.
Lemma fold_and_n {A} (f : A -> Prop) l : fold_right and True (map f l) <-> forall a, In a l -> f a.
Proof.
  induction l as [|b l IH]; cbn; [split; [intros _ a []|auto]|]. rewrite IH. split.
  - intros [H1 H2] a [<-|I]; auto.
  - intros H. split; auto.
Qed.
Lemma one_exists {A} (f : A -> Prop) l : exactly_one (map f l) -> exists a, In a l /\ f a.
Proof. induction l as [|b l IH]; cbn; [tauto|]. intros [[H _]|[_ H]]; [eauto|]. destruct (IH H) as (a & I & Ha). eauto. Qed.

Lemma accepts_all_true f ts : accepts_all f ts = Some true <-> forall t, In t ts -> f t = Some true.
Proof.
  induction ts as [|t r IH]; cbn; [split; [intros _ t []|auto]|]. destruct (f t) as [[]|] eqn:E.
  - rewrite IH. split; [intros H u [<-|I]; auto|auto].
  - split; [discriminate|]. intros H. rewrite (H t) in E; auto.
  - split; [discriminate|]. intros H. rewrite (H t) in E; auto.
Qed.
Lemma oor_true a b : oor a b = Some true <-> a = Some true \/ a = Some false /\ b = Some true.
Proof. destruct a as [[]|]; cbn; intuition congruence. Qed.

Lemma variable_type_iff d h : assignable_type d = Some h <-> variable_type d h.
Proof. unfold assignable_type, variable_type. destruct (nd_ifd d); intuition congruence. Qed.
Lemma defined_def t d : defined W t d -> def_of W t = Some d.
Proof. destruct t as [a|p [] ps| | | | |]; cbn; (tauto || auto). Qed.
Lemma defined_accepts t d o : defined W t d -> accepts_at W t o = checked W d t o.
Proof. destruct t as [a|p [] ps| | | | |]; cbn; try tauto; intros ->; reflexivity. Qed.
Lemma defined_unique t d d' : defined W t d -> defined W t d' -> d = d'.
Proof. intros H H'. apply defined_def in H, H'. congruence. Qed.
Lemma defined_kind t d : defined W t d -> (exists a, t = NNamed a) \/ (exists p t' ps, t = NParam p t' ps).
Proof. destruct t; cbn; try tauto; [left|right]; eauto. Qed.

(* ---------- Instance ---------- *)

Theorem instance_go t d h x : (forall o, x = Object o -> honest W o) -> defined W t d -> nd_check d = None -> variable_type d h ->
  exists b, instance_n W t x = Some b /\ (b = true <-> exists o, x = Object o /\ w_go W (o_go o) h = true).
Proof.
  intros Ho D C V. apply variable_type_iff in V.
  assert (E : forall o, accepts_at W t o = default_checker W d o) by (intros o; rewrite (defined_accepts t d o D); unfold checked; now rewrite C).
  assert (I : instance_n W t x = assignable_n W t (ntype_of W x)) by (destruct (defined_kind t d D) as [(a & ->)|(p & t' & ps & ->)]; reflexivity).
  rewrite I. clear I. destruct x as [v|o].
  - exists false. split; [|split; [discriminate|intros (o & E' & _); discriminate E']]. cbn. rewrite E. reflexivity.
  - destruct (Ho o eq_refl) as (p & u & e & T & U & G). cbn [ntype_of]. rewrite T. cbn [assignable_n]. rewrite E. unfold default_checker. cbn [is_named].
    unfold reflect_n. cbn [def_of]. rewrite (defined_def u e U), G, V. exists (w_go W (o_go o) h). split.
    + cbn. destruct (w_go W (o_go o) h); reflexivity.
    + split; [intros H; eauto|intros (o' & [= <-] & H); exact H].
Qed.
(* with a checker *)
Theorem instance_checked t d f x : (forall o, x = Object o -> honest W o) -> defined W t d -> nd_check d = Some f ->
  instance_n W t x = f t (ntype_of W x).
Proof.
  intros Ho D C.
  assert (I : instance_n W t x = assignable_n W t (ntype_of W x)) by (destruct (defined_kind t d D) as [(a & ->)|(p & t' & ps & ->)]; reflexivity).
  rewrite I. assert (E : forall o, accepts_at W t o = f t o) by (intros o; rewrite (defined_accepts t d o D); unfold checked; now rewrite C).
  destruct x as [v|o]; cbn [ntype_of].
  - cbn [assignable_n]. rewrite E. destruct (f t _) as [[]|]; reflexivity.
  - destruct (Ho o eq_refl) as (p & u & e & T & _). rewrite T. cbn [assignable_n]. rewrite E. destruct (f t _) as [[]|]; reflexivity.
Qed.
(* Instance says whether the value belongs to the type *)
Theorem instance_has_n t x : (forall o, x = Object o -> honest W o) -> (match t with NNamed _ | NParam _ _ _ => exists d, defined W t d /\ (nd_check d = None -> exists h, variable_type d h) | NExact _ _ _ => True | _ => False end) ->
  (instance_n W t x = Some true <-> has_n W t x).
Proof.
  intros Ho K.
  assert (G : forall d, defined W t d -> (nd_check d = None -> exists h, variable_type d h) -> (instance_n W t x = Some true <->
     exists d, defined W t d /\ match nd_check d with Some f => f t (ntype_of W x) = Some true | None => exists o h, x = Object o /\ variable_type d h /\ w_go W (o_go o) h = true end)).
  { intros d D H. destruct (nd_check d) as [f|] eqn:C.
    - rewrite (instance_checked t d f x Ho D C). split; [intros E; exists d; rewrite C; auto|]. intros (d' & D' & E). rewrite <- (defined_unique _ _ _ D D'), C in E. exact E.
    - destruct (H eq_refl) as [h V]. destruct (instance_go t d h x Ho D C V) as (b & -> & B). split.
      + intros [= ->]. destruct (proj1 B eq_refl) as (o & -> & G). exists d. rewrite C. split; auto. exists o, h. auto.
      + intros (d' & D' & E). rewrite <- (defined_unique _ _ _ D D'), C in E. destruct E as (o & h' & -> & V' & G). f_equal. apply B. exists o. split; auto.
        apply variable_type_iff in V, V'. congruence. }
  destruct t as [a|p t ps|p t y| | | |]; try contradiction K.
  - destruct K as (d & D & H). exact (G d D H).
  - destruct K as (d & D & H). exact (G d D H).
  - cbn. split; [intros [= H]; exact H|intros ->; reflexivity].
Qed.

(* ---------- Assignable ---------- *)

(* what Assignable accepts *)
Lemma assignable_n_true t o : assignable_n W t o = Some true ->
  accepts_at W t o = Some true \/
  match o with
  | NAnyOf _ ts | NOneOf _ ts => ts <> [] /\ forall u, In u ts -> same_object t u = true \/ assignable_n W t u = Some true
  | NAllOf _ ts => forall u, In u ts -> same_object t u = true \/ assignable_n W t u = Some true
  | _ => False
  end.
Proof.
  assert (A : forall ts, accepts_all (fun o => if same_object t o then Some true else assignable_n W t o) ts = Some true -> forall u, In u ts -> same_object t u = true \/ assignable_n W t u = Some true).
  { intros ts H u I. rewrite accepts_all_true in H. specialize (H u I). cbv beta in H. destruct (same_object t u); auto. }
  destruct o; cbn [assignable_n]; intros H; apply oor_true in H as [H|[_ H]]; auto; try discriminate H; right.
  - destruct (accepts_all _ ts) as [[]|] eqn:E; try discriminate H. split; [destruct ts; congruence|exact (A ts E)].
  - destruct (accepts_all _ ts) as [[]|] eqn:E; try discriminate H. split; [destruct ts; congruence|exact (A ts E)].
  - exact (A ts H).
Qed.

Lemma same_object_has t u x d : defined W t d -> one_object t u -> same_object t u = true -> has_n W u x -> has_n W t x.
Proof.
  intros D Same E H. destruct t as [a|p t ps| | | | |]; cbn in D; try contradiction D; destruct u; cbn in E; try discriminate E.
  - apply Nat.eqb_eq in E as ->. exact H.
  - apply Nat.eqb_eq in E as ->. destruct Same as [Same _]. rewrite (Same eq_refl). exact H.
Qed.
(* the alternatives *)
Lemma alternatives_sound t d x ts (Q : nty -> Prop) : defined W t d ->
  Forall (fun u => Q u -> one_object t u -> assignable_n W t u = Some true -> has_n W u x -> has_n W t x) ts ->
  (forall u, In u ts -> Q u) -> (forall u, In u ts -> one_object t u) ->
  (forall u, In u ts -> same_object t u = true \/ assignable_n W t u = Some true) -> forall u, In u ts -> has_n W u x -> has_n W t x.
Proof.
  intros D IH S O A u I H. destruct (A u I) as [E|E]; [apply (same_object_has t u x d); auto|]. rewrite Forall_forall in IH. apply (IH u); auto.
Qed.

Theorem assignable_unchecked_sound t : go_types W -> equality W -> unchecked W t ->
  forall o, source_n W o -> one_object t o -> assignable_n W t o = Some true -> forall x, has_n W o x -> has_n W t x.
Proof.
  intros GT EQ (d & h & D & C & V).
  assert (E : forall o, accepts_at W t o = default_checker W d o) by (intros o; rewrite (defined_accepts t d o D); unfold checked; now rewrite C).
  assert (TAKE : forall ob, w_go W (o_go ob) h = true -> has_n W t (Object ob)).
  { intros ob G. destruct (defined_kind t d D) as [(a & ->)|(p & t' & ps & ->)]; cbn [has_n]; exists d; rewrite C; (split; [exact D|]); exists ob, h; auto. }
  pose proof (proj2 (variable_type_iff d h) V) as V'.
  assert (NAMED : forall o x, (match o with NNamed _ | NParam _ _ _ => True | _ => False end) -> source_n W o -> assignable_n W t o = Some true -> has_n W o x -> has_n W t x).
  { intros o x K S A H. apply assignable_n_true in A as [A|A]; [|destruct o; contradiction]. rewrite E in A. unfold default_checker in A.
    assert (SN : exists e, defined W o e /\ nd_ifd e = None /\ nd_check e = None /\ nd_impl e <> None) by (destruct o; try contradiction K; exact (proj1 S)).
    destruct SN as (e & De & If & Ce & Im). assert (Nm : is_named o = true) by (destruct o; (reflexivity || contradiction K)). rewrite Nm in A.
    unfold reflect_n in A. rewrite (defined_def o e De), V' in A. destruct (nd_impl e) as [g|] eqn:Ie; [|congruence]. injection A as A.
    assert (HO : exists e, defined W o e /\ match nd_check e with Some f => f o (ntype_of W x) = Some true | None => exists o h, x = Object o /\ variable_type e h /\ w_go W (o_go o) h = true end) by (destruct o; try contradiction K; exact H).
    destruct HO as (e' & De' & HO). rewrite <- (defined_unique _ _ _ De De'), Ce in HO. destruct HO as (ob & h' & -> & Vh & G).
    apply variable_type_iff in Vh. unfold assignable_type in Vh. rewrite If, Ie in Vh. injection Vh as <-. apply TAKE. now apply (go_trans W GT _ g). }
  intros o S O A x H. revert S O A H. induction o as [a|p u ps IH|p u y IH|p ts IH|p ts IH|p ts IH|u] using nty_ind'; intros S O A H.
  - apply (NAMED (NNamed a)); auto.
  - apply (NAMED (NParam p u ps)); auto.
  - apply assignable_n_true in A as [A|A]; [|contradiction A]. rewrite E in A. destruct S as [(e & ob & De & -> & Ie) _]. unfold default_checker, reflect_n in A. cbn [is_named def_of] in A.
    rewrite (defined_def u e De), Ie, V' in A. injection A as A. cbn [has_n nveq] in H. destruct x as [v|ob']; [rewrite (eq_plain_obj W EQ) in H; discriminate H|].
    apply TAKE. now rewrite <- (eq_go_obj W EQ ob ob' H).
  - apply assignable_n_true in A as [A|[_ A]]; [rewrite E in A; discriminate A|]. destruct S as [_ S], O as [_ O]. cbn [has_n] in H. apply fold_or in H as (u & I & H). rewrite fold_and_n in S, O.
    apply (alternatives_sound t d x ts (source_n W)) with (u := u); auto.
  - apply assignable_n_true in A as [A|[_ A]]; [rewrite E in A; discriminate A|]. destruct S as [_ S], O as [_ O]. cbn [has_n] in H. apply one_exists in H as (u & I & H). rewrite fold_and_n in S, O.
    apply (alternatives_sound t d x ts (source_n W)) with (u := u); auto.
  - apply assignable_n_true in A as [A|A]; [rewrite E in A; discriminate A|]. destruct S as [N S], O as [_ O]. cbn [has_n] in H. rewrite fold_and_n in S, O, H. destruct ts as [|u ts]; [now elim N|].
    apply (alternatives_sound t d x (u :: ts) (source_n W)) with (u := u); auto; [now left|apply H; now left].
  - apply assignable_n_true in A as [A|A]; [rewrite E in A; discriminate A|contradiction A].
Qed.
Theorem assignable_checked_sound t d f : defined W t d -> nd_check d = Some f -> sound_checker W t ->
  forall o, some_operands o -> one_object t o -> assignable_n W t o = Some true -> forall x, has_n W o x -> has_n W t x.
Proof.
  intros D C SC.
  assert (E : forall o, accepts_at W t o = f t o) by (intros o; rewrite (defined_accepts t d o D); unfold checked; now rewrite C).
  assert (TAKE : forall o x, f t o = Some true -> has_n W o x -> has_n W t x).
  { intros o x F H. specialize (SC d f o x D C F H). destruct (defined_kind t d D) as [(a & ->)|(p & t' & ps & ->)]; cbn [has_n]; exists d; rewrite C; auto. }
  intros o S O A x H. revert S O A H. induction o as [a|p u ps IH|p u y IH|p ts IH|p ts IH|p ts IH|u] using nty_ind'; intros S O A H;
    apply assignable_n_true in A as [A|A]; try (rewrite E in A; now apply (TAKE _ x A)); try contradiction A.
  - destruct A as [_ A], O as [_ O]. cbn [has_n] in H. apply fold_or in H as (u & I & H). cbn [some_operands] in S. rewrite fold_and_n in S, O.
    apply (alternatives_sound t d x ts some_operands) with (u := u); auto.
  - destruct A as [_ A], O as [_ O]. cbn [has_n] in H. apply one_exists in H as (u & I & H). cbn [some_operands] in S. rewrite fold_and_n in S, O.
    apply (alternatives_sound t d x ts some_operands) with (u := u); auto.
  - destruct S as [N S], O as [_ O]. cbn [has_n] in H. rewrite fold_and_n in S, O, H. destruct ts as [|u ts]; [now elim N|].
    apply (alternatives_sound t d x (u :: ts) some_operands) with (u := u); auto; [now left|apply H; now left].
Qed.
(* an exact type accepts the exact types of equal values *)
Lemma nveq_refl x : equality W -> nval_ok x -> nveq W x x = true.
Proof. intros EQ K. destruct x; cbn; [now apply veq_refl|apply (eq_refl_obj W EQ)]. Qed.
Lemma nveq_sym x y : equality W -> nval_ok x -> nval_ok y -> nveq W x y = true -> nveq W y x = true.
Proof.
  intros EQ Kx Ky. destruct x as [x|x], y as [y|y]; cbn in *; try congruence; try (rewrite (eq_plain_obj W EQ); congruence).
  - now apply veq_sym.
  - apply (eq_sym_obj W EQ).
Qed.
Lemma nveq_trans x y z : equality W -> nval_ok x -> nval_ok y -> nval_ok z -> nveq W x y = true -> nveq W y z = true -> nveq W x z = true.
Proof.
  intros EQ Kx Ky Kz H H'. destruct x as [x|x], y as [y|y], z as [z|z]; cbn in *; try discriminate; try (rewrite (eq_plain_obj W EQ) in H; discriminate H); try (rewrite (eq_plain_obj W EQ) in H'; discriminate H').
  - now apply (veq_trans x y z).
  - now apply (eq_trans_obj W EQ x y z).
Qed.
Lemma nveq_hash x y : equality W -> nval_ok x -> nval_ok y -> nveq W x y = true -> nvhash W x = nvhash W y.
Proof.
  intros EQ Kx Ky. destruct x as [x|x], y as [y|y]; cbn in *; try congruence; try (rewrite (eq_plain_obj W EQ); congruence).
  - now apply veq_hash.
  - apply (eq_hash_obj W EQ).
Qed.
Theorem assignable_exact_sound p u y : equality W -> nval_ok y -> forall o, values_ok o -> some_operands o -> one_object (NExact p u y) o ->
  assignable_n W (NExact p u y) o = Some true -> forall x, nval_ok x -> has_n W o x -> has_n W (NExact p u y) x.
Proof.
  intros EQ K o Vo S O A x Kx H. revert Vo S O A H. remember (NExact p u y) as t eqn:Et.
  assert (SAME : forall w, one_object t w -> same_object t w = true -> has_n W w x -> has_n W t x).
  { intros w Ow E. rewrite Et in E, Ow. destruct w; cbn in E; try discriminate E. destruct Ow as [Ow _]. apply Nat.eqb_eq in E as ->. rewrite <- (Ow eq_refl), Et. auto. }
  induction o as [a|q u' ps IH|q u' z IH|q ts IH|q ts IH|q ts IH|u'] using nty_ind'; intros Vo S O A H;
    apply assignable_n_true in A as [A|A]; try contradiction A; try (rewrite Et in A; discriminate A).
  - rewrite Et in A |- *. cbn in A, H, Vo |- *. injection A as A. now apply (nveq_trans y z x).
  - destruct A as [_ A], O as [_ O]. cbn [has_n] in H. apply fold_or in H as (w & I & H). cbn [some_operands values_ok] in S, Vo. rewrite fold_and_n in S, O, Vo.
    rewrite Forall_forall in IH. destruct (A w I) as [E|E]; [apply (SAME w)|apply (IH w)]; auto.
  - destruct A as [_ A], O as [_ O]. cbn [has_n] in H. apply one_exists in H as (w & I & H). cbn [some_operands values_ok] in S, Vo. rewrite fold_and_n in S, O, Vo.
    rewrite Forall_forall in IH. destruct (A w I) as [E|E]; [apply (SAME w)|apply (IH w)]; auto.
  - destruct O as [_ O], S as [N S]. cbn [has_n values_ok] in H, Vo. rewrite fold_and_n in S, O, Vo, H. destruct ts as [|w ts]; [now elim N|].
    rewrite Forall_forall in IH. assert (I : In w (w :: ts)) by now left. destruct (A w I) as [E|E]; [apply (SAME w)|apply (IH w)]; auto.
Qed.

(* ---------- reflexive and transitive ---------- *)

Theorem assignable_n_refl t d g h : go_types W -> defined W t d -> nd_check d = None -> nd_impl d = Some g -> variable_type d h ->
  (assignable_n W t t = Some true <-> w_go W g h = true).
Proof.
  intros GT D C I V. apply variable_type_iff in V.
  assert (E : assignable_n W t t = Some (w_go W g h)).
  { assert (A : accepts_at W t t = Some (w_go W g h)).
    { rewrite (defined_accepts t d t D). unfold checked. rewrite C. unfold default_checker, reflect_n. rewrite (defined_def t d D), I, V. destruct (defined_kind t d D) as [(a & ->)|(p & t' & ps & ->)]; reflexivity. }
    destruct (defined_kind t d D) as [(a & ->)|(p & t' & ps & ->)]; cbn [assignable_n]; rewrite A; destruct (w_go W g h); reflexivity. }
  rewrite E. split; congruence.
Qed.
Lemma accepts_all_ext (f : nty -> option bool) ts : (forall t, In t ts -> f t = Some true) -> accepts_all f ts = Some true.
Proof. apply accepts_all_true. Qed.
Theorem assignable_n_trans t u : go_types W -> unchecked W t -> source_n W u -> (exists d, defined W u d) ->
  assignable_n W t u = Some true ->
  forall o, one_object u o -> assignable_n W u o = Some true -> assignable_n W t o = Some true.
Proof.
  intros GT (d & h & D & C & V) Su (e & De) Tu. apply variable_type_iff in V.
  assert (SN : nd_ifd e = None /\ nd_check e = None /\ nd_impl e <> None).
  { assert (X : exists e, defined W u e /\ nd_ifd e = None /\ nd_check e = None /\ nd_impl e <> None) by (destruct u as [a|p u ps| | | | |]; try contradiction De; exact (proj1 Su)).
    destruct X as (e' & De' & X). now rewrite (defined_unique _ _ _ De De'). }
  destruct SN as (If & Ce & Im). destruct (nd_impl e) as [g|] eqn:Ie; [|congruence].
  assert (E : forall o, accepts_at W t o = default_checker W d o) by (intros o; rewrite (defined_accepts t d o D); unfold checked; now rewrite C).
  assert (Eu : forall o, accepts_at W u o = default_checker W e o) by (intros o; rewrite (defined_accepts u e o De); unfold checked; now rewrite Ce).
  assert (Gt : w_go W g h = true).
  { apply assignable_n_true in Tu as [Tu|Tu]; [|destruct (defined_kind u e De) as [(a & ->)|(p & t' & ps & ->)]; contradiction Tu].
    rewrite E in Tu. unfold default_checker, reflect_n in Tu. rewrite (defined_def u e De), Ie, V in Tu. destruct (is_named u); congruence. }
  assert (STEP : forall o, accepts_at W u o = Some true -> assignable_n W t o = Some true).
  { intros o A. assert (B : accepts_at W t o = Some true).
    { rewrite Eu in A. rewrite E. unfold default_checker, assignable_type in *. destruct (is_named o); [|discriminate A]. destruct (reflect_n W o) as [k|]; [|discriminate A].
      rewrite If, Ie in A. rewrite V. injection A as A. f_equal. now apply (go_trans W GT k g h). }
    destruct o; cbn [assignable_n]; rewrite B; reflexivity. }
  assert (SAME : forall w, one_object u w -> same_object u w = true -> assignable_n W t w = Some true).
  { intros w Ow Ew. destruct (defined_kind u e De) as [(a & ->)|(p & t' & ps & ->)]; destruct w; cbn in Ew; try discriminate Ew; apply Nat.eqb_eq in Ew as ->; [exact Tu|]. destruct Ow as [Ow _]. rewrite <- (Ow eq_refl). exact Tu. }
  assert (ALT : forall ts, Forall (fun o => one_object u o -> assignable_n W u o = Some true -> assignable_n W t o = Some true) ts -> (forall w, In w ts -> one_object u w) ->
     (forall w, In w ts -> same_object u w = true \/ assignable_n W u w = Some true) -> accepts_all (fun o => if same_object t o then Some true else assignable_n W t o) ts = Some true).
  { intros ts IH O A. apply accepts_all_true. intros w I. destruct (same_object t w); [reflexivity|]. rewrite Forall_forall in IH. destruct (A w I); auto. }
  induction o as [a|q u' ps IH|q u' z IH|q ts IH|q ts IH|q ts IH|u'] using nty_ind'; intros O A; apply assignable_n_true in A as [A|A]; try contradiction A; try (now apply STEP).
  - destruct A as [N A], O as [_ O]. rewrite fold_and_n in O. cbn [assignable_n]. rewrite E. cbn [default_checker is_named oor]. rewrite (ALT ts IH O A). destruct ts; [now elim N|reflexivity].
  - destruct A as [N A], O as [_ O]. rewrite fold_and_n in O. cbn [assignable_n]. rewrite E. cbn [default_checker is_named oor]. rewrite (ALT ts IH O A). destruct ts; [now elim N|reflexivity].
  - destruct O as [_ O]. rewrite fold_and_n in O. cbn [assignable_n]. rewrite E. cbn [default_checker is_named oor]. exact (ALT ts IH O A).
Qed.

(* ---------- Equals and HashCode ---------- *)

Theorem neq_refl t : equality W -> named_ok W t -> neq W t t = Some true.
Proof.
  intros EQ. induction t as [a|p t ps IH|p t x IH|p ts _|p ts _|p ts _|t] using nty_ind'; cbn; intros K; try contradiction K.
  - destruct K as [d ->]. f_equal. now apply bytes_eqb_eq.
  - destruct K as [K Kp]. rewrite (IH K). f_equal. now apply (veq_refl (VArr ps)).
  - destruct K as [K Kx]. f_equal. now apply nveq_refl.
Qed.
Theorem neq_total t u : equality W -> named_ok W t -> named_ok W u -> exists b, neq W t u = Some b.
Proof.
  intros EQ. revert u. induction t as [a|p t ps IH|p t x IH|p ts _|p ts _|p ts _|t] using nty_ind'; intros u Kt Ku; cbn in Kt; try contradiction Kt; destruct u; cbn in Ku |- *; try contradiction Ku; eauto.
  - destruct Kt as [e1 ->], Ku as [e2 ->]. eauto.
  - destruct (IH u (proj1 Kt) (proj1 Ku)) as [[] ->]; eauto.
Qed.
Theorem neq_sym t u : equality W -> named_ok W t -> named_ok W u -> neq W t u = Some true -> neq W u t = Some true.
Proof.
  intros EQ. revert u. induction t as [a|p t ps IH|p t x IH|p ts _|p ts _|p ts _|t] using nty_ind'; intros u Kt Ku; cbn in Kt; try contradiction Kt; destruct u; cbn in Ku; try contradiction Ku; cbn [neq]; try discriminate.
  - destruct Kt as [d' ->], Ku as [e ->]. intros [= H]. apply bytes_eqb_eq in H. rewrite H. f_equal. now apply bytes_eqb_eq.
  - destruct Kt as [Kt Kp], Ku as [Ku Kq]. destruct (neq W t u) as [[]|] eqn:E; try discriminate. rewrite (IH u Kt Ku E). intros [= H]. f_equal. now apply (veq_sym (VArr ps) (VArr ps0)).
  - intros [= H]. f_equal. apply nveq_sym; tauto.
Qed.
Theorem neq_trans t u v : equality W -> named_ok W t -> named_ok W u -> named_ok W v -> neq W t u = Some true -> neq W u v = Some true -> neq W t v = Some true.
Proof.
  intros EQ. revert u v. induction t as [a|p t ps IH|p t x IH|p ts _|p ts _|p ts _|t] using nty_ind'; intros u v Kt Ku Kv; cbn in Kt; try contradiction Kt;
    destruct u; cbn in Ku; try contradiction Ku; cbn [neq]; try discriminate; destruct v; cbn in Kv; try contradiction Kv; try discriminate.
  - destruct Kt as [d' ->], Ku as [e ->], Kv as [e' ->]. intros [= H] [= H']. apply bytes_eqb_eq in H, H'. rewrite H, H'. f_equal. now apply bytes_eqb_eq.
  - destruct Kt as [Kt Kp], Ku as [Ku Kq], Kv as [Kv Kr]. destruct (neq W t u) as [[]|] eqn:E; try discriminate. destruct (neq W u v) as [[]|] eqn:E'; try discriminate.
    rewrite (IH u v Kt Ku Kv E E'). intros [= H] [= H']. f_equal. now apply (veq_trans (VArr ps) (VArr ps0) (VArr ps1)).
  - intros [= H] [= H']. f_equal. apply (nveq_trans x x0 x1); tauto.
Qed.
Theorem neq_hash t u : equality W -> named_ok W t -> named_ok W u -> neq W t u = Some true -> exists h, nhash W t = Some h /\ nhash W u = Some h.
Proof.
  intros EQ. revert u. induction t as [a|p t ps IH|p t x IH|p ts _|p ts _|p ts _|t] using nty_ind'; intros u Kt Ku; cbn in Kt; try contradiction Kt; destruct u; cbn in Ku; try contradiction Ku; cbn [neq nhash]; try discriminate.
  - destruct Kt as [d' ->], Ku as [e ->]. intros [= H]. apply bytes_eqb_eq in H. rewrite H. eauto.
  - destruct Kt as [Kt Kp], Ku as [Ku Kq]. destruct (neq W t u) as [[]|] eqn:E; try discriminate. intros [= H]. destruct (IH u Kt Ku E) as (k & -> & ->).
    rewrite (veq_hash (VArr ps) (VArr ps0) Kp Kq H). eauto.
  - intros [= H]. rewrite (nveq_hash x x0) by tauto. eauto.
Qed.

(* ---------- New and Generic ---------- *)

(* what New returns was made by the constructor; a checker has accepted its type *)
Theorem new_checked t d f arg v : defined W t d -> nd_check d = Some f -> new_n W t arg = Some v ->
  (exists c, nd_ctor d = Some c /\ c arg = Some v) /\ instance_n W t v = Some true /\ has_n W t v.
Proof.
  intros D C N. destruct t as [a|p [a| | | | | |] ps| | | | |]; cbn in D; try contradiction D; unfold new_n in N; cbn [generic_n] in N; rewrite D in N;
    (destruct (nd_ctor d) as [c|]; [|discriminate N]); (destruct (c arg) as [v'|] eqn:Ec; [|discriminate N]); rewrite C in N;
    match type of N with match ?F with _ => _ end = _ => destruct F as [[]|] eqn:F'; try discriminate N end; injection N as ->;
    (split; [eauto|]); (split; [|cbn [has_n]; exists d; rewrite C; split; [exact D|exact F']]); cbn [instance_n];
    (assert (A : forall t o, accepts_at W t o = Some true -> assignable_n W t o = Some true) by (intros ? []; cbn [assignable_n]; intros ->; reflexivity));
    apply A; cbn [accepts_at]; rewrite D; unfold checked; rewrite C; exact F'.
Qed.
(* without a checker: if the constructor makes objects of the Go type of the definition *)
Theorem new_unchecked t d g h arg v : (forall o, v = Object o -> honest W o) -> defined W t d -> nd_check d = None -> nd_impl d = Some g -> variable_type d h -> w_go W g h = true ->
  (forall c x y, nd_ctor d = Some c -> c x = Some y -> exists o, y = Object o /\ o_go o = g) ->
  new_n W t arg = Some v -> instance_n W t v = Some true.
Proof.
  intros Ho D C I V G M N. assert (X : exists c, nd_ctor d = Some c /\ c arg = Some v).
  { destruct t as [a|p [a| | | | | |] ps| | | | |]; cbn in D; try contradiction D; unfold new_n in N; cbn [generic_n] in N; rewrite D in N;
    (destruct (nd_ctor d) as [c|]; [|discriminate N]); (destruct (c arg) as [v'|] eqn:Ec; [|discriminate N]); rewrite C in N; injection N as ->; eauto. }
  destruct X as (c & Hc & Ec). destruct (M c arg v Hc Ec) as (o & -> & Go). destruct (instance_go t d h (Object o) Ho D C V) as (b & -> & B). f_equal. apply B. exists o. rewrite Go. auto.
Qed.
(* the parameters have no effect without a checker; an object belongs to the type of which its type is made *)
Theorem generic_param p a ps d x : w_defs W a = Some d -> nd_check d = None -> has_n W (NParam p (NNamed a) ps) x <-> has_n W (generic_n (NParam p (NNamed a) ps)) x.
Proof.
  intros D C. cbn [generic_n has_n defined]. split; intros (e & De & H); exists e; (split; [exact De|]); rewrite D in De; injection De as <-; rewrite C in *; exact H.
Qed.
Theorem generic_object o : equality W -> go_types W -> honest W o ->
  forall d h, defined W (generic_n (w_obj_type W o)) d -> nd_check d = None -> variable_type d h -> w_go W (o_go o) h = true ->
  forall x, has_n W (w_obj_type W o) x -> has_n W (generic_n (w_obj_type W o)) x.
Proof.
  intros EQ GT (p & t & d & T & D & I) d' h D' C V G x H. rewrite T in *. cbn [generic_n] in *. cbn [has_n nveq] in H. destruct x as [v|o']; [rewrite (eq_plain_obj W EQ) in H; discriminate H|].
  rewrite (eq_go_obj W EQ o o' H) in G. destruct (defined_kind t d' D') as [(a & ->)|(q & t' & ps & ->)]; cbn [has_n]; exists d'; rewrite C; (split; [exact D'|]); exists o', h; auto.
Qed.
End World.
