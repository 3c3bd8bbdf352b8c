(* The JSON consumer writes well formed JSON, and what it writes is read back. *)
From Coq Require Import ZArith List Bool Lia Floats.SpecFloat.
From Verif Require Import Int64 Utf8 Utf8Proofs TextSpec TextProofs Data DataProofs Convert ConvertProofs Graph GraphSpec Stream StreamSpec StreamProofs Json JsonSpec.
Import ListNotations.
Open Scope Z_scope.

(* ---------- trees of calls whose maps have strings as keys ---------- *)

Inductive tidy : ev -> Prop :=
  | tidy_add v : tidy (EAdd v)
  | tidy_ref i : tidy (ERef i)
  | tidy_arr l : Forall tidy l -> tidy (EArr l)
  | tidy_map l : tidy_entries l -> tidy (EMap l)
with tidy_entries : list ev -> Prop :=
  | tidy_none : tidy_entries []
  | tidy_entry k e r : tidy e -> tidy_entries r -> tidy_entries (EAdd (VStr k) :: e :: r).

Section Tidy.
Variable W : codec.
Variable D : dialect.
Variable C : consumer.
Variable op : options.
Variable g : objects.
Hypothesis no_complex : c_complex C = false.
Hypothesis named : o_aliases op = true -> forall t, ~ In (SType t None) g.

Lemma process_prop (P : ev -> Prop) lv k doer s e s' : (forall i, P (ERef i)) -> (forall s e s', doer s = Done (e, s') -> P e) ->
  process lv k doer s = Done (e, s') -> P e.
Proof.
  intros Pr Pd H. apply process_cases in H as [(i & _ & _ & -> & _)|(sn & _ & _ & H)]; eauto.
Qed.
Lemma string_tidy lv t s e s' : emit_string C lv t s = Done (e, s') -> tidy e.
Proof.
  unfold emit_string. destruct (_ <=? _); intros H.
  - apply process_prop with (P := tidy) in H; [assumption|constructor|]. intros s1 e1 s2 H1. injection H1 as <- _. constructor.
  - injection H as <- _. constructor.
Qed.
Lemma string_key t s e s' : emit_string C NoDedup t s = Done (e, s') -> e = EAdd (VStr t).
Proof. unfold emit_string. destruct (_ <=? _); cbn; intros H; now injection H as <- _. Qed.
Lemma list_tidy f l : (forall x s e s', f x s = Done (e, s') -> tidy e) -> forall s es s', emit_list f l s = Done (es, s') -> Forall tidy es.
Proof.
  intros F. induction l as [|x l IH]; intros s es s' H; cbn in H; [injection H as <- _; constructor|]. undo H. undo H. injection H as <- _.
  constructor; eauto.
Qed.
Lemma entries_tidy fk fv m : (forall x s e s', fk x s = Done (e, s') -> tidy e) -> (forall x s e s', fv x s = Done (e, s') -> tidy e) ->
  forall s es s', emit_entries fk fv m s = Done (es, s') -> Forall tidy es.
Proof.
  intros Fk Fv. induction m as [|[k x] l IH]; intros s es s' H; cbn in H; [injection H as <- _; constructor|]. undo H. undo H. undo H. injection H as <- _.
  constructor; eauto.
Qed.
Lemma entries_tidy_keys fk fv m : string_keys m = true -> (forall t s e s', fk (SVal (VStr t)) s = Done (e, s') -> e = EAdd (VStr t)) -> (forall x s e s', fv x s = Done (e, s') -> tidy e) ->
  forall s es s', emit_entries fk fv m s = Done (es, s') -> tidy_entries es.
Proof.
  intros St Fk Fv. induction m as [|[k x] l IH]; intros s es s' H; cbn in H; [injection H as <- _; constructor|]. undo H. undo H. undo H. injection H as <- _.
  cbn in St. apply andb_true_iff in St as [St1 St2]. destruct k as [[| | | |t| | | | | |]|]; try discriminate.
  rewrite (Fk _ _ _ _ E). constructor; eauto.
Qed.
Lemma wrapped_tidy nm f : (forall s e s', f s = Done (e, s') -> tidy e) -> forall s e s', wrapped D nm f s = Done (e, s') -> tidy e.
Proof. intros F s e s' H. unfold wrapped in H. cbn in H. undo H. injection H as <- _. constructor. repeat constructor. eauto. Qed.

Lemma emit_tidy : forall n lv x s e s', lv <> MaxDedup -> emit W D C op g n lv x s = Done (e, s') -> tidy e.
Proof.
  induction n as [|n IH]; intros lv x s e s' Nm H; [discriminate|]. cbn [emit] in H. destruct x as [v|p].
  - destruct v; try discriminate; try (injection H as <- _; constructor). now apply string_tidy in H.
  - destruct (nth_error g p) as [x|] eqn:Ep; [|discriminate]. destruct x as [l|m|x|b|a b z|t al]; cbn [emit_node] in H.
    + apply process_prop with (P := tidy) in H; [assumption|constructor|]. intros s1 e1 s2 H1. undo H1. injection H1 as <- _. constructor.
      eapply list_tidy; [|exact E]. intros x s3 e3 s4. now apply IH.
    + rewrite no_complex in H. cbn [orb] in H. destruct (string_keys m) eqn:St.
      * destruct (ref_of D m); [injection H as <- _; constructor|].
        apply process_prop with (P := tidy) in H; [assumption|constructor|]. intros s1 e1 s2 H1. undo H1. injection H1 as <- _. constructor.
        eapply entries_tidy_keys; [exact St| | |exact E].
        -- intros t s3 e3 s4 H3. destruct n as [|n']; [discriminate|]. cbn [emit] in H3. replace (key_level lv) with NoDedup in H3 by (now destruct lv). now apply string_key in H3.
        -- intros x s3 e3 s4. now apply IH.
      * destruct (o_rich op); [|discriminate]. apply process_prop with (P := tidy) in H; [assumption|constructor|].
        apply wrapped_tidy. intros s1 e1 s2 H1. undo H1. injection H1 as <- _. constructor.
        eapply entries_tidy; [| |exact E]; intros x s3 e3 s4; now apply IH.
    + apply process_prop with (P := tidy) in H; [assumption|constructor|]. destruct (o_rich op); [|discriminate]. apply wrapped_tidy. intros s1 e1 s2. now apply IH.
    + apply process_prop with (P := tidy) in H; [assumption|constructor|]. intros s1 e1 s2 H1. destruct (c_binary C); [injection H1 as <- _; constructor|].
      destruct (o_rich op); [|discriminate]. apply wrapped_tidy in H1; [assumption|]. intros s3 e3 s4. apply string_tidy.
    + apply process_prop with (P := tidy) in H; [assumption|constructor|]. intros s1 e1 s2 H1. destruct (c_time C); [injection H1 as <- _; constructor|].
      destruct (o_rich op); [|discriminate]. apply wrapped_tidy in H1; [assumption|]. intros s3 e3 s4. apply string_tidy.
    + apply process_prop with (P := tidy) in H; [assumption|constructor|]. intros s1 e1 s2 H1. cbn in H1. destruct (o_aliases op) eqn:Al.
      * destruct al as [al|]; [|exfalso; exact (named eq_refl t (nth_error_In _ _ Ep))].
        undo H1. undo H1. injection H1 as <- _. apply string_tidy in E, E0. repeat constructor; assumption.
      * injection H1 as <- _. repeat constructor.
Qed.
End Tidy.

(* ---------- the text is well formed ---------- *)

Section Write.
Variable whole : spec_float -> option Z.
Notation write := (write whole).
Notation write_all := (write_all whole).

Lemma write_arr l st : write (EArr l) st = delimit st (do (ts, _) <- write_all l FirstInArray; Done (JOpenArray :: ts ++ [JCloseArray], AfterElement)).
Proof. reflexivity. Qed.
Lemma write_map l st : write (EMap l) st = delimit st (do (ts, _) <- write_all l FirstInObject; Done (JOpenObject :: ts ++ [JCloseObject], AfterElement)).
Proof. reflexivity. Qed.

(* the tokens with the delimiter before them, and the state after them *)
Definition placed (st : state) (ts : list token) : list token * state :=
  match st with
  | FirstInArray => (ts, AfterElement)
  | FirstInObject => (ts, AfterKey)
  | AfterKey => (JColon :: ts, AfterValue)
  | AfterValue => (JComma :: ts, AfterKey)
  | AfterElement => (JComma :: ts, AfterElement)
  end.
Lemma delimit_placed st ts st' r : (st = AfterElement -> st' = AfterElement) -> delimit st (Done (ts, st')) = Done r -> r = placed st ts.
Proof. intros H. unfold delimit. cbn. intros [= <-]. destruct st; cbn; auto. now rewrite H. Qed.

Lemma write_scalar_value v t : write_scalar whole v = Done t -> json_value [t].
Proof.
  destruct v as [|b|z|f|s|s|a b c|s|v|l|m]; cbn; try (intros [= <-]; constructor).
  destruct f; try discriminate; intros [= <-]; destruct (whole _); constructor.
Qed.

Scheme tidy_sch := Minimality for tidy Sort Prop with tidy_entries_sch := Minimality for tidy_entries Sort Prop.
Lemma tidy_ind' (P : ev -> Prop) (Q : list ev -> Prop) :
  (forall v, P (EAdd v)) -> (forall i, P (ERef i)) -> (forall l, Forall tidy l -> Forall P l -> P (EArr l)) -> (forall l, tidy_entries l -> Q l -> P (EMap l)) ->
  Q [] -> (forall k e r, tidy e -> P e -> tidy_entries r -> Q r -> Q (EAdd (VStr k) :: e :: r)) ->
  forall e, tidy e -> P e.
Proof.
  intros H1 H2 H3 H4 H5 H6. fix IH 2. intros e T. destruct T as [v|i|l F|l T].
  - apply H1.
  - apply H2.
  - apply H3; [exact F|]. induction F as [|x l Tx F IHF]; constructor; [exact (IH _ Tx)|exact IHF].
  - apply H4; [exact T|]. revert l T. fix IHe 2. intros l T. destruct T as [|k e r Te Tr]; [exact H5|].
    apply H6; [exact Te|exact (IH _ Te)|exact Tr|exact (IHe _ Tr)].
Qed.

Definition good_value (e : ev) : Prop := forall st r, write e st = Done r -> exists ts, r = placed st ts /\ json_value ts.
Definition good_entries (l : list ev) : Prop :=
  (forall ts st, write_all l AfterValue = Done (ts, st) -> (l = [] /\ ts = []) \/ exists r, ts = JComma :: r /\ json_members r) /\
  (forall ts st, write_all l FirstInObject = Done (ts, st) -> (l = [] /\ ts = []) \/ json_members ts).

Lemma good_all l : Forall good_value l ->
  (forall ts st, write_all l AfterElement = Done (ts, st) -> (l = [] /\ ts = []) \/ exists r, ts = JComma :: r /\ json_elements r) /\
  (forall ts st, write_all l FirstInArray = Done (ts, st) -> (l = [] /\ ts = []) \/ json_elements ts).
Proof.
  induction 1 as [|e l G F [IH _]].
  - split; cbn; intros ts st [= <- _]; auto.
  - assert (step : forall st0 ts st, snd (placed st0 []) = AfterElement -> write_all (e :: l) st0 = Done (ts, st) -> exists body, ts = fst (placed st0 body) /\ json_elements body).
    { intros st0 ts st S0 H. cbn in H. undo H. undo H. injection H as <- _.
      destruct (G _ _ E) as (b & Eb & J). assert (s = AfterElement) as -> by (destruct st0; cbn in *; congruence).
      destruct (IH _ _ E0) as [[-> ->]|(r & -> & Jr)].
      - exists b. rewrite app_nil_r. split; [now rewrite <- Eb|now constructor].
      - exists (b ++ JComma :: r). split; [|now constructor]. destruct st0; cbn in *; try discriminate; now injection Eb as ->. }
    split; intros ts st H; right.
    + destruct (step AfterElement ts st eq_refl H) as (b & -> & J). exists b. auto.
    + destruct (step FirstInArray ts st eq_refl H) as (b & -> & J). exact J.
Qed.

Lemma entry_members k e r : good_value e -> good_entries r -> forall st0 ts st, snd (placed st0 []) = AfterKey ->
  write_all (EAdd (VStr k) :: e :: r) st0 = Done (ts, st) -> exists body, ts = fst (placed st0 body) /\ json_members body.
Proof.
  intros G [R _] st0 ts st S0 H. cbn [Json.write_all] in H. undo H. undo H. injection H as <- _. undo E0. undo E0. injection E0 as <- <-.
  assert (E' : (l, s) = placed st0 [JString (json_string k)]).
  { cbn in E. destruct st0; cbn in E, S0 |- *; try discriminate; now injection E as <- <-. }
  assert (s = AfterKey) as -> by (destruct st0; cbn in *; congruence).
  destruct (G _ _ E1) as (b & Eb & J). cbn in Eb. injection Eb as -> ->.
  destruct (R _ _ E2) as [[-> ->]|(r' & -> & Jr)].
  - exists (JString (json_string k) :: JColon :: b). rewrite app_nil_r. split; [|now constructor].
    destruct st0; cbn in *; try discriminate; now injection E' as ->.
  - exists (JString (json_string k) :: JColon :: b ++ JComma :: r'). split; [|now constructor].
    destruct st0; cbn in *; try discriminate; now injection E' as ->.
Qed.

Theorem write_well_formed e : tidy e -> good_value e.
Proof.
  apply (tidy_ind' good_value good_entries).
  - intros v st r H. cbn [Json.write] in H. unfold delimit in H. destruct (write_scalar whole v) as [t| | |] eqn:E; try discriminate. cbn [bind] in H.
    exists [t]. split; [|now apply (write_scalar_value v)]. injection H as <-. now destruct st.
  - intros i st r H. cbn [Json.write] in H. eexists. split; [eapply delimit_placed; [|exact H]; auto|].
    apply (jv_object [JString _; JColon; JInt i]). constructor. constructor.
  - intros l _ F st r H. rewrite write_arr in H. destruct (write_all l FirstInArray) as [[ts st']| | |] eqn:E; try discriminate. cbn [bind] in H.
    eexists. split; [eapply delimit_placed; [|exact H]; auto|]. destruct (proj2 (good_all l F) _ _ E) as [[-> ->]|J]; [apply jv_empty_array|now apply jv_array].
  - intros l _ [_ G] st r H. rewrite write_map in H. destruct (write_all l FirstInObject) as [[ts st']| | |] eqn:E; try discriminate. cbn [bind] in H.
    eexists. split; [eapply delimit_placed; [|exact H]; auto|]. destruct (G _ _ eq_refl) as [[-> ->]|J]; [apply jv_empty_object|now apply jv_object].
  - split; cbn; intros ts st [= <- _]; auto.
  - intros k e0 r _ Ge _ Gr. split; intros ts st H; right.
    + destruct (entry_members k e0 r Ge Gr AfterValue ts st eq_refl H) as (b & -> & J). exists b. auto.
    + destruct (entry_members k e0 r Ge Gr FirstInObject ts st eq_refl H) as (b & -> & J). exact J.
Qed.

(* ---------- and it is read back ---------- *)

Variable to_float : Z -> spec_float.

Notation json_scalar := (json_scalar whole).

Lemma scalar_rune c : scalar c -> exists b t, encode_rune c = b :: t.
Proof. intros H. destruct (encode_rune_head c H) as (b & t & E & _). eauto. Qed.
Lemma to_utf8_encode cs : Forall scalar cs -> forall fuel, (length cs <= fuel)%nat -> to_utf8 fuel (encode cs) = encode cs.
Proof.
  intros F. induction F as [|c cs Hc F IH]; intros fuel H; [now destruct fuel|]. cbn [length] in H. destruct fuel as [|fuel]; [lia|].
  rewrite encode_cons. cbn [to_utf8]. destruct (scalar_rune c Hc) as (b & t & Eq). pose proof (decode_encode c (encode cs) Hc) as Dc. rewrite Eq in *. cbn [app] in *. rewrite Dc.
  rewrite Eq. cbn [app]. do 2 f_equal. replace (skipn (length (b :: t)) (b :: t ++ encode cs)) with (encode cs). { apply IH. lia. } change (b :: t ++ encode cs) with ((b :: t) ++ encode cs). now rewrite skipn_app_len.
Qed.
Lemma json_string_utf8 s : utf8 s -> json_string s = s.
Proof.
  intros (cs & F & ->). apply to_utf8_encode; auto.
  clear - F. induction F as [|c cs Hc F IH]; [cbn; lia|]. rewrite encode_cons, app_length. destruct (scalar_rune c Hc) as (b & t & ->). cbn [length]. lia.
Qed.
Lemma in64b_in64 z : in64b z = true <-> in64 z.
Proof. unfold in64b, in64. rewrite andb_true_iff, !Z.leb_le. tauto. Qed.

Lemma scalar_back v : json_scalar v -> exists t, write_scalar whole v = Done t /\ significant t = true /\ closes t = false /\ t <> JOpenArray /\ t <> JOpenObject /\ scalar_of to_float t = v.
Proof.
  destruct v as [|b|z|f|s|s|a b c|s|v|l|m]; cbn; try easy; intros H.
  - exists JNull. easy.
  - exists (JBool b). easy.
  - exists (JInt z). repeat split; try easy. cbn. apply in64b_in64 in H. now rewrite H.
  - destruct H as [Fi Wh]. cbn in Fi. exists (JFloat f). rewrite Wh. destruct f; try discriminate; easy.
  - exists (JString s). rewrite (json_string_utf8 s H). easy.
Qed.

Section Back.
Variable ref_key : list Z.
Hypothesis dgo_ref : ref_key = d_ref dgo_dialect.

(* what a reader does not take for something else *)
Inductive readable : ev -> Prop :=
  | rd_add v : json_scalar v -> readable (EAdd v)
  | rd_ref i : in64 i -> readable (ERef i)
  | rd_arr l : Forall readable l -> readable (EArr l)
  | rd_map l : Forall readable l -> (forall k r, l = EAdd (VStr k) :: r -> k <> ref_key) -> (forall e r, l = e :: r -> exists k, e = EAdd (VStr k)) -> readable (EMap l).
Lemma readable_ind' (P : ev -> Prop) : (forall v, json_scalar v -> P (EAdd v)) -> (forall i, in64 i -> P (ERef i)) -> (forall l, Forall P l -> P (EArr l)) ->
  (forall l, Forall P l -> Forall readable l -> (forall k r, l = EAdd (VStr k) :: r -> k <> ref_key) -> (forall e r, l = e :: r -> exists k, e = EAdd (VStr k)) -> P (EMap l)) -> forall e, readable e -> P e.
Proof.
  intros H1 H2 H3 H4. fix IH 2. intros e R. destruct R as [v J|i J|l F|l F K1 K2].
  - exact (H1 v J).
  - exact (H2 i J).
  - apply H3. induction F as [|x l Rx F IHF]; constructor; [exact (IH _ Rx)|exact IHF].
  - apply H4; [|exact F|exact K1|exact K2]. clear K1 K2. induction F as [|x l Rx F IHF]; constructor; [exact (IH _ Rx)|exact IHF].
Qed.

Notation sig := (filter significant).
Definition reads_back (e : ev) : Prop := forall st, exists ts st', write e st = Done (ts, st') /\ exists t r0, sig ts = t :: r0 /\ closes t = false /\
  forall n r, (length (sig ts) <= n)%nat -> read_elem to_float ref_key (read_all to_float ref_key n) t (r0 ++ r) = Done (e, r).

Lemma read_all_back l : Forall reads_back l -> forall st, exists ts st', write_all l st = Done (ts, st') /\
  forall close n r, (close = JCloseArray \/ close = JCloseObject) -> (length (sig ts) < n)%nat -> read_all to_float ref_key n close (sig ts ++ close :: r) = Done (l, r).
Proof.
  induction 1 as [|e l B F IH]; intros st; cbn [Json.write_all].
  - eexists; eexists. split; [reflexivity|]. intros close [|n] r Cl L; [cbn in L; lia|]. cbn. destruct Cl as [-> | ->]; reflexivity.
  - destruct (B st) as (t1 & st1 & W1 & t & r0 & S1 & Ct & R1). rewrite W1. cbn [bind].
    destruct (IH st1) as (t2 & st2 & W2 & R2). rewrite W2. cbn [bind].
    eexists; eexists. split; [reflexivity|]. intros close n r Cl L. rewrite filter_app, app_length in *. rewrite S1 in *. cbn [length] in *.
    destruct n as [|n]; [lia|]. cbn [app read_all]. rewrite Ct. rewrite <- app_assoc. rewrite R1 by lia. cbn [bind]. rewrite R2 by (auto; lia). reflexivity.
Qed.

Lemma delimit_done st ts st' : exists d st2, delimit st (Done (ts, st')) = Done (d ++ ts, st2) /\ sig d = [].
Proof. destruct st; [exists [] | exists [] | exists [JComma] | exists [JComma] | exists [JColon]]; eexists; split; reflexivity. Qed.

Theorem write_reads_back e : readable e -> reads_back e.
Proof.
  apply readable_ind'.
  - intros v J st. cbn [Json.write]. destruct (scalar_back v J) as (t & Wt & Sg & Ct & N1 & N2 & Sc). rewrite Wt. cbn [bind].
    destruct (delimit_done st [t] st) as (d & st2 & -> & Sd). eexists; eexists. split; [reflexivity|]. rewrite filter_app, Sd. cbn [app filter]. rewrite Sg.
    exists t, []. repeat split; auto. intros n r _. cbn [app]. destruct t; cbn [read_elem]; try (now rewrite Sc); congruence.
  - intros i J st. cbn [Json.write]. match goal with |- context [delimit st (Done (?a, ?b))] => destruct (delimit_done st a b) as (d & st2 & -> & Sd) end.
    eexists; eexists. split; [reflexivity|]. rewrite filter_app, Sd. cbn [app filter significant]. eexists; eexists. split; [reflexivity|]. split; [reflexivity|].
    intros n r _. cbn [app read_elem]. rewrite dgo_ref. apply in64b_in64 in J. rewrite J. assert (bytes_eqb (d_ref dgo_dialect) (d_ref dgo_dialect) = true) as -> by now apply bytes_eqb_eq. reflexivity.
  - intros l F st. rewrite write_arr. destruct (read_all_back l F FirstInArray) as (ts & st1 & -> & R). cbn [bind].
    match goal with |- context [delimit st (Done (?a, ?b))] => destruct (delimit_done st a b) as (d & st2 & -> & Sd) end.
    eexists; eexists. split; [reflexivity|]. rewrite filter_app, Sd. cbn [app filter significant]. rewrite filter_app. cbn [filter significant]. eexists; eexists. split; [reflexivity|]. split; [reflexivity|].
    intros n r L. cbn [read_elem]. rewrite <- app_assoc. cbn [app]. rewrite R; auto. cbn [length] in L. rewrite app_length in L. cbn in L. lia.
  - intros l F Rd K1 K2 st. rewrite write_map. destruct (read_all_back l F FirstInObject) as (ts & st1 & Wl & R). rewrite Wl. cbn [bind].
    match goal with |- context [delimit st (Done (?a, ?b))] => destruct (delimit_done st a b) as (d & st2 & -> & Sd) end.
    eexists; eexists. split; [reflexivity|]. rewrite filter_app, Sd. cbn [app filter significant]. rewrite filter_app. cbn [filter significant]. eexists; eexists. split; [reflexivity|]. split; [reflexivity|].
    intros n r L. rewrite <- app_assoc. cbn [app]. cbn [length] in L. rewrite app_length in L. cbn in L.
    assert (Rn : read_all to_float ref_key n JCloseObject (sig ts ++ JCloseObject :: r) = Done (l, r)) by (apply R; auto; lia).
    destruct l as [|e1 l].
    + cbn in Wl. injection Wl as <- _. cbn [filter app] in *. cbn [read_elem]. now rewrite Rn.
    + destruct (K2 e1 l eq_refl) as (k & ->).
      assert (exists r1, sig ts = JString (json_string k) :: r1) as (r1 & Er).
      { cbn [Json.write_all] in Wl. undo Wl. undo Wl. injection Wl as <- _. cbn in E. injection E as <- _. cbn. eauto. }
      assert (Jk : utf8 k) by (pose proof (Forall_inv Rd) as Rk; now inversion Rk).
      rewrite (json_string_utf8 k Jk) in Er. rewrite Er in *. cbn [app read_elem] in *.
      destruct (bytes_eqb k ref_key) eqn:Ek; [|now rewrite Rn]. apply bytes_eqb_eq in Ek. exfalso. exact (K1 k l eq_refl Ek).
Qed.

Theorem read_write e : readable e -> exists ts st, write e FirstInArray = Done (ts, st) /\
  forall n, (length ts <= n)%nat -> read to_float ref_key n (sig ts) = Done e.
Proof.
  intros R. destruct (write_reads_back e R FirstInArray) as (ts & st & Wt & t & r0 & St & Ct & Rd). exists ts, st. split; [assumption|].
  intros n L. unfold read. rewrite St, Ct. specialize (Rd n []). rewrite app_nil_r in Rd. rewrite Rd; [reflexivity|].
  clear - L. apply Nat.le_trans with (length ts); [|assumption]. clear. induction ts as [|x l IH]; cbn; [lia|]. destruct (significant x); cbn; lia.
Qed.
End Back.
End Write.

(* ---------- what the streamer sends can be read back ---------- *)

Lemma ascii_utf8 s : Forall (fun c => 0 <= c < 128) s -> utf8 s.
Proof.
  intros F. exists s. split.
  - eapply Forall_impl; [|exact F]. cbn. unfold scalar. intros c H. lia.
  - induction F as [|c s H F IH]; [reflexivity|]. rewrite encode_cons, <- IH. unfold encode_rune. destruct (Z.ltb_spec c 128); [reflexivity|lia].
Qed.
Lemma binary_utf8 b : Forall byte b -> utf8 (encode_binary b).
Proof.
  intros H. apply ascii_utf8. unfold encode_binary, byte in *.
  assert (D : forall n, 0 <= n < 64 -> 0 <= digit false n < 128).
  { intros n Hn. unfold digit. destruct (Z.ltb_spec n 26); [lia|]. destruct (Z.ltb_spec n 52); [lia|]. destruct (Z.ltb_spec n 62); [lia|]. destruct (n =? 62); lia. }
  induction b as [|x|x y|x y z r IH] using list_ind3.
  - constructor.
  - inversion H; subst. cbn. repeat (constructor; [first [lia | apply D; Z.to_euclidean_division_equations; lia]|]). constructor.
  - inversion H as [|? ? Hx H']; inversion H'; subst. cbn. repeat (constructor; [first [lia | apply D; Z.to_euclidean_division_equations; lia]|]). constructor.
  - inversion H as [|? ? Hx H']; inversion H' as [|? ? Hy H'']; inversion H'' as [|? ? Hz Hr]; subst. cbn [b64_encode].
    repeat (constructor; [apply D; Z.to_euclidean_division_equations; lia|]). now apply IH.
Qed.

Section Sent.
Variable W : codec.
Variable D : dialect.
Variable C : consumer.
Variable op : options.
Variable g : objects.
Variable whole : spec_float -> option Z.
Hypothesis C_json : c_complex C = false /\ c_binary C = false /\ c_time C = false.
Hypothesis D_json : json_dialect D.
Hypothesis g_json : Forall (json_object W D whole) g.

Definition known (s : stream) : Prop := forall k i, lookup k (seen s) = Some i -> (i <= next s)%nat.
Definition fine (s : stream) (e : ev) (s' : stream) : Prop :=
  known s -> known s' /\ next s' = (next s + calls e)%nat /\ (Z.of_nat (next s') <= max_int64 -> readable whole (d_ref D) e).
Definition all_fine (s : stream) (es : list ev) (s' : stream) : Prop :=
  known s -> known s' /\ next s' = (next s + fold_right Nat.add O (map calls es))%nat /\ (Z.of_nat (next s') <= max_int64 -> Forall (readable whole (d_ref D)) es).

Lemma add_fine v s : json_scalar whole v -> fine s (EAdd v) (bump s).
Proof.
  intros J K. split; [|split].
  - intros k i E. specialize (K k i E). cbn. lia.
  - cbn. lia.
  - intros _. now constructor.
Qed.
Lemma process_fine lv k doer s e s' : (forall s e s', doer s = Done (e, s') -> fine s e s') -> process lv k doer s = Done (e, s') -> fine s e s'.
Proof.
  intros F H K. apply process_cases in H as [(i & _ & L & -> & ->)|(sn & Sn & _ & H)].
  - split; [exact K|]. split; [cbn; lia|]. intros B. constructor. specialize (K _ _ L). unfold in64. unfold min_int64 in *. lia.
  - apply (F _ _ _ H). intros k' i E. cbn [seen next] in *. destruct Sn as [->|[-> Ln]]; [exact (K _ _ E)|]. rewrite lookup_cons in E. destruct (key_eqb k' k); [|exact (K _ _ E)]. injection E as <-. lia.
Qed.
Lemma string_fine lv t s e s' : utf8 t -> emit_string C lv t s = Done (e, s') -> fine s e s'.
Proof.
  intros U. unfold emit_string. destruct (_ <=? _); intros H.
  - eapply process_fine; [|exact H]. intros s1 e1 s2 H1. injection H1 as <- <-. now apply add_fine.
  - injection H as <- <-. now apply add_fine.
Qed.
Lemma list_fine f l : (forall x, In x l -> forall s e s', f x s = Done (e, s') -> fine s e s') -> forall s es s', emit_list f l s = Done (es, s') -> all_fine s es s'.
Proof.
  induction l as [|x l IH]; intros F s es s' H K; cbn in H.
  - injection H as <- <-. split; [exact K|]. split; [cbn; lia|constructor].
  - undo H. undo H. injection H as <- <-. destruct (F x (or_introl eq_refl) _ _ _ E K) as (K1 & N1 & R1).
    destruct (IH (fun a Ia => F a (or_intror Ia)) _ _ _ E0 K1) as (K2 & N2 & R2). split; [exact K2|]. split; [cbn; lia|].
    intros B. constructor; [apply R1; lia|now apply R2].
Qed.
Lemma entries_fine fk fv m : (forall x, In x m -> forall s e s', fk (fst x) s = Done (e, s') -> fine s e s') -> (forall x, In x m -> forall s e s', fv (snd x) s = Done (e, s') -> fine s e s') ->
  forall s es s', emit_entries fk fv m s = Done (es, s') -> all_fine s es s'.
Proof.
  induction m as [|[k x] l IH]; intros Fk Fv s es s' H K; cbn in H.
  - injection H as <- <-. split; [exact K|]. split; [cbn; lia|constructor].
  - undo H. undo H. undo H. injection H as <- <-. destruct (Fk _ (or_introl eq_refl) _ _ _ E K) as (K1 & N1 & R1). destruct (Fv _ (or_introl eq_refl) _ _ _ E0 K1) as (K2 & N2 & R2).
    destruct (IH (fun a Ia => Fk a (or_intror Ia)) (fun a Ia => Fv a (or_intror Ia)) _ _ _ E1 K2) as (K3 & N3 & R3). split; [exact K3|]. split; [cbn; lia|].
    intros B. constructor; [apply R1; lia|]. constructor; [apply R2; lia|now apply R3].
Qed.
Lemma bump_known s : known s -> known (bump s).
Proof. intros K k i E. specialize (K k i E). cbn. lia. Qed.
Lemma wrapped_fine nm f : utf8 nm -> (forall s e s', f s = Done (e, s') -> fine s e s') -> forall s e s', wrapped D nm f s = Done (e, s') -> fine s e s'.
Proof.
  intros U F s e s' H K. unfold wrapped in H. cbn in H. undo H. injection H as <- <-.
  destruct (F _ _ _ E) as (K1 & N1 & R1); [do 4 apply bump_known; exact K|]. cbn in N1. split; [exact K1|]. split; [cbn; lia|].
  intros B. destruct D_json as (U1 & U2 & _ & _ & _ & _ & _ & Ne). apply rd_map.
  - repeat constructor; auto.
  - intros k r [= <- _]. assumption.
  - intros e1 r [= <- _]. eauto.
Qed.

Lemma emit_fine : forall n lv x s e s', lv <> MaxDedup -> json_leaf whole x -> emit W D C op g n lv x s = Done (e, s') -> fine s e s'.
Proof.
  destruct C_json as (Cc & Cb & Ct). pose proof D_json as (U1 & U2 & U3 & U4 & U5 & U6 & U7 & Ne).
  induction n as [|n IH]; intros lv x s e s' Nm J H; [discriminate|]. cbn [emit] in H. destruct x as [v|p].
  - cbn in J. destruct v; try easy; try (injection H as <- <-; now apply add_fine). now apply string_fine in H.
  - destruct (nth_error g p) as [x|] eqn:Ep; [|discriminate].
    pose proof g_json as Gj. rewrite Forall_forall in Gj. specialize (Gj _ (nth_error_In _ _ Ep)). destruct x as [l|m|x|b|a b z|t al]; cbn [emit_node json_object] in *.
    + rewrite Forall_forall in Gj. eapply process_fine; [|exact H]. intros s1 e1 s2 H1 K. undo H1. injection H1 as <- <-.
      destruct (list_fine (emit W D C op g n lv) l) with (s := bump s1) (es := l0) (s' := s0) as (K1 & N1 & R1); auto using bump_known.
      { intros x Ix s3 e3 s4. apply IH; auto. }
      split; [exact K1|]. split; [cbn in *; lia|]. intros B. constructor. now apply R1.
    + destruct Gj as [Gj Gr]. rewrite Forall_forall in Gj. rewrite Cc in H. cbn [orb] in H. destruct (string_keys m) eqn:St.
      * assert (ref_of D m = None) as Rn by (apply no_ref; intros i ->; now elim (Gr _ _ _ eq_refl)). rewrite Rn in H.
        eapply process_fine; [|exact H]. intros s1 e1 s2 H1 K. undo H1. injection H1 as <- <-.
        destruct (entries_fine (emit W D C op g n (key_level lv)) (emit W D C op g n lv) m) with (s := bump s1) (es := l) (s' := s0) as (K1 & N1 & R1); auto using bump_known.
        { intros x Ix s3 e3 s4. apply IH; [now destruct lv|now apply Gj]. }
        { intros x Ix s3 e3 s4. apply IH; [assumption|now apply Gj]. }
        split; [exact K1|]. split; [cbn in *; lia|]. intros B.
        assert (First : forall e0 r, l = e0 :: r -> exists k v r', m = (SVal (VStr k), v) :: r' /\ e0 = EAdd (VStr k)).
        { intros e0 r ->. destruct m as [|[k v] m]; cbn in E; [discriminate|]. cbn in St. apply andb_true_iff in St as [St _].
          destruct k as [[| | | |t| | | | | |]|]; try discriminate. undo E. undo E. undo E. injection E as <- _. exists t, v, m. split; [reflexivity|].
          destruct n as [|n']; [discriminate|]. cbn [emit] in E0. replace (key_level lv) with NoDedup in E0 by (now destruct lv). now apply string_key in E0. }
        apply rd_map; [now apply R1| |].
        -- intros k r Er. destruct (First _ _ Er) as (k' & v & r' & Em & [= ->]). exact (Gr _ _ _ Em).
        -- intros e0 r Er. destruct (First _ _ Er) as (k' & v & r' & Em & ->). eauto.
      * destruct (o_rich op); [|discriminate]. eapply process_fine; [|exact H]. apply wrapped_fine; auto.
        intros s1 e1 s2 H1 K. undo H1. injection H1 as <- <-.
        destruct (entries_fine (emit W D C op g n NoDedup) (emit W D C op g n lv) m) with (s := bump s1) (es := l) (s' := s0) as (K1 & N1 & R1); auto using bump_known.
        { intros x Ix s3 e3 s4. apply IH; [discriminate|now apply Gj]. }
        { intros x Ix s3 e3 s4. apply IH; [assumption|now apply Gj]. }
        split; [exact K1|]. split; [cbn in *; lia|]. intros B. constructor. now apply R1.
    + eapply process_fine; [|exact H]. destruct (o_rich op); [|discriminate]. apply wrapped_fine; auto. intros s1 e1 s2. now apply IH.
    + eapply process_fine; [|exact H]. intros s1 e1 s2 H1. rewrite Cb in H1. destruct (o_rich op); [|discriminate].
      eapply wrapped_fine; [| |exact H1]; auto. intros s3 e3 s4. apply string_fine. now apply binary_utf8.
    + eapply process_fine; [|exact H]. intros s1 e1 s2 H1. rewrite Ct in H1. destruct (o_rich op); [|discriminate].
      eapply wrapped_fine; [| |exact H1]; auto. intros s3 e3 s4. now apply string_fine.
    + easy.
Qed.

Theorem emits_readable n lv x e : json_leaf whole x -> emits W D C op g n lv x = Done e -> Z.of_nat (calls e) <= max_int64 -> readable whole (d_ref D) e.
Proof.
  intros J H B. unfold emits in H. undo H. injection H as ->. destruct C_json as (Cc & _ & _).
  assert (start_level C lv <> MaxDedup) as Nm by (destruct lv; cbn; try discriminate; now rewrite Cc).
  destruct (emit_fine n _ x _ _ _ Nm J E) as (_ & Nx & R); [intros k i Z; discriminate|]. apply R. rewrite Nx. exact B.
Qed.
End Sent.
