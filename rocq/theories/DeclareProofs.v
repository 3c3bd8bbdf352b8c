(* What is read from correct expressions, and what it is after names are replaced. *)
From Coq Require Import Strings.Ascii Strings.String.
From Coq Require Import ZArith List Bool Lia.
From Coq Require Import Floats.SpecFloat.
From Verif Require Import Int64 Utf8 Text TextSpec HMap Data DataProofs Types InstProofs Construct Print Lexer LexerSpec LexerProofs Syntax SyntaxSpec TokenProofs WriteProofs ParserProofs ReadProofs SyntaxProofs.
From Verif Require Import Graph RecTypes RecTypesSpec Resolve ResolveSpec ResolveProofs Declare DeclareSpec DeclareRead DeclareParse.
Import ListNotations.
Open Scope Z_scope.

Lemma written_plain e pl : enclosed e pl = false -> written pl e = written Anywhere e.
Proof. intros H. destruct e; cbn [written]; rewrite H; reflexivity. Qed.
Lemma written_enclosed e pl : enclosed e pl = true -> written pl e = parens (written Anywhere e).
Proof. intros H. destruct e; cbn [written]; rewrite H; reflexivity. Qed.

(* ---------- the first two tokens ---------- *)

Definition good_start (ts : list token) : Prop := starts ts /\ no_key ts.
Lemma start_more ts t r : good_start ts -> is_tok 58 t = false -> is_tok 63 t = false -> good_start (ts ++ t :: r).
Proof. intros [A B] C D. destruct ts as [|a [|b ts]]; [destruct A|split; [exact A|split; assumption]|split; [exact A|exact B]]. Qed.
Lemma sep_start c tss : is_tok 58 (punct c) = false -> is_tok 63 (punct c) = false -> tss <> [] -> Forall good_start tss -> good_start (sep_by c tss).
Proof.
  intros A B N H. destruct H as [|ts tss H HR]; [congruence|]. destruct tss as [|ts2 tss]; [exact H|]. cbn [sep_by]. now apply start_more.
Qed.
(* the first token is not one of these *)
Definition first_ok (ts : list token) : Prop := match ts with t :: _ => is_tok t_dotdotdot t = false /\ is_tok 125 t = false /\ is_tok 58 t = false /\ is_tok 63 t = false | [] => False end.
Lemma sep_first c tss : tss <> [] -> Forall first_ok tss -> first_ok (sep_by c tss).
Proof. intros N H. destruct H as [|ts tss H HR]; [congruence|]. destruct tss as [|ts2 tss]; [exact H|]. cbn [sep_by]. destruct ts; [destruct H|exact H]. Qed.
Lemma first_written : forall e, correct e -> forall pl, first_ok (written pl e).
Proof.
  assert (P : forall ts, first_ok (parens ts)) by (intros ts; repeat split).
  assert (A : forall e, first_ok (written Anywhere e) -> forall pl, first_ok (written pl e)).
  { intros e H pl. destruct (enclosed e pl) eqn:X; [rewrite written_enclosed by exact X; apply P|rewrite written_plain by exact X; exact H]. }
  induction e using ex_induct; intros C; apply A; cbn [written enclosed]; try (repeat split; fail).
  - cbn [correct] in C. destruct C as [L C]. apply all_forall in C. apply sep_first; [destruct es; cbn in *; [lia|discriminate]|]. apply Forall_map. rewrite Forall_forall in *. auto.
  - cbn [correct] in C. destruct C as [L C]. apply all_forall in C. apply sep_first; [destruct es; cbn in *; [lia|discriminate]|]. apply Forall_map. rewrite Forall_forall in *. auto.
  - cbn [correct] in C. destruct C as [L C]. apply all_forall in C. apply sep_first; [destruct es; cbn in *; [lia|discriminate]|]. apply Forall_map. rewrite Forall_forall in *. auto.
Qed.
Lemma first_start a t r : is_tok t_dotdotdot a = false -> is_tok 125 a = false -> is_tok 58 t = false -> is_tok 63 t = false -> good_start (a :: t :: r).
Proof. intros. split; [split; assumption|split; assumption]. Qed.
Lemma start_first a ts : is_tok t_dotdotdot a = false -> is_tok 125 a = false -> first_ok ts -> forall r, good_start (a :: ts ++ r).
Proof. intros A B H r. destruct ts as [|t ts]; [destruct H|]. destruct H as (_ & _ & C & D). now apply first_start. Qed.
Lemma start_written : forall e, correct e -> forall pl, good_start (written pl e).
Proof.
  assert (A : forall e, correct e -> good_start (written Anywhere e) -> forall pl, good_start (written pl e)).
  { intros e C H pl. destruct (enclosed e pl) eqn:X; [rewrite written_enclosed by exact X; apply start_first; [reflexivity|reflexivity|now apply first_written]|rewrite written_plain by exact X; exact H]. }
  induction e using ex_induct; intros C; (apply A; [exact C|]); cbn [written enclosed]; cbn [correct] in C; try (split; [split; reflexivity|exact I]); try (now apply first_start).
  - destruct incl; now apply first_start.
  - destruct sz as [|z [|z2 sz]]; now apply first_start.
  - destruct C as [N C]. apply all_forall in C. apply start_first; [reflexivity|reflexivity|]. apply sep_first; [destruct es; cbn in *; [congruence|discriminate]|]. apply Forall_map. rewrite Forall_forall in *. intros e He. apply first_written. auto.
  - destruct fs as [|[[n r] e] fs]; [destruct a; now apply first_start|]. cbn [map app]. apply start_first; [reflexivity|reflexivity|]. match goal with |- first_ok (sep_by 44 (?x :: ?y)) => destruct y; cbn [sep_by]; repeat split end.
  - destruct C as [L C]. apply all_forall in C. apply sep_start; [reflexivity|reflexivity|destruct es; cbn in *; [lia|discriminate]|]. apply Forall_map. rewrite Forall_forall in *. auto.
  - destruct C as [L C]. apply all_forall in C. apply sep_start; [reflexivity|reflexivity|destruct es; cbn in *; [lia|discriminate]|]. apply Forall_map. rewrite Forall_forall in *. auto.
  - destruct C as [L C]. apply all_forall in C. apply sep_start; [reflexivity|reflexivity|destruct es; cbn in *; [lia|discriminate]|]. apply Forall_map. rewrite Forall_forall in *. auto.
  - destruct C as [C _]. pose proof (start_first (punct 33) (written Prefixed e) eq_refl eq_refl (first_written e C Prefixed) []) as X. now rewrite app_nil_r in X.
Qed.

Section Reads.
Variable E : env.
Variable any : nat.
Variable backing : list Z -> option nat.
Variable named : list Z -> bool.
Variable K : list Z -> Prop.
Notation pa := (pa E any backing named).
Notation pu := (pu E any backing named).
Notation pt := (pt E any backing named).
Notation yields := (yields E any backing named).
Notation elem := (elem E any backing named).
Notation frame := (frame K).
Notation state_ok := (state_ok any backing).
Notation vb := (vb backing).
Notation ext := (ext backing).

Definition usable (n : list Z) : Prop := named n = false /\ K n.
Definition declarable (n : list Z) : Prop := named n = false /\ backing n = None /\ K n.
Definition pre (e : ex) (s : pstate) : Prop := correct e /\ Forall usable (used e) /\ Forall declarable (declared e) /\ state_ok s /\ fresh (declared e) s.
Definition reads (e : ex) (s : pstate) : Prop := exists x s', frame (declared e) s s' /\ state_ok s' /\ vb s' e x /\
  pa (written Anywhere e) s x s' /\ pu (written Operand e) s x s' /\ pt (written Prefixed e) s x s'.

Lemma reads_t e s : (forall pl, enclosed e pl = false) -> (exists x s', frame (declared e) s s' /\ state_ok s' /\ vb s' e x /\ pt (written Anywhere e) s x s') -> reads e s.
Proof.
  intros H (x & s' & F & S & V & P). exists x, s'. rewrite (written_plain e Operand), (written_plain e Prefixed) by apply H. split; [exact F|]. split; [exact S|]. split; [exact V|].
  split; [now apply pu_pa, pt_pu|]. split; [now apply pt_pu|exact P].
Qed.
Lemma reads_a e s : (forall pl, pl <> Anywhere -> enclosed e pl = true) -> (exists x s', frame (declared e) s s' /\ state_ok s' /\ vb s' e x /\ pa (written Anywhere e) s x s') -> reads e s.
Proof.
  intros H (x & s' & F & S & V & P). exists x, s'. rewrite (written_enclosed e Operand), (written_enclosed e Prefixed) by (apply H; discriminate). split; [exact F|]. split; [exact S|]. split; [exact V|].
  split; [exact P|]. split; [now apply pt_pu, paren|now apply paren].
Qed.
Lemma frame_right D s1 s2 s3 : frame D s1 s2 -> frame [] s2 s3 -> fresh D s1 -> frame D s1 s3.
Proof. intros A B C. rewrite <- (app_nil_r D). eapply frame_trans; eauto. now rewrite app_nil_r. Qed.
Lemma frame_later D s s' : frame D s s' -> fresh D s -> Forall declarable D -> ext s s'.
Proof. intros F Fr H. eapply frame_ext; eauto. eapply Forall_impl; [|exact H]. intros n X. apply X. Qed.

(* a token of a word that is not declared here *)
Lemma ident_type w l s (x : aval) s' : fol F l -> (exists N, forall n, (N <= n)%nat -> a_identifier any backing named (a_run E any backing named n) (word w) l s = AOk x l s') -> yields (BType (word w)) l s x l s'.
Proof.
  intros Fl [N H]. apply (y_intro _ _ _ _ _ _ _ _ _ _ N). intros n L. destruct (fol_nxt F l 61 Fl eq_refl) as (t & Pk & Nt). cbn [a_call]. unfold a_type_expression. cbn -[a_identifier a_run]. 
  unfold a_bind. rewrite (peek_at t) by exact Pk. rewrite Nt. now apply H.
Qed.
Lemma leaf_reads w t s : state_ok s -> In (w, t) words -> nice t -> (forall l n, fol F l -> a_identifier any backing named (a_run E any backing named n) (word w) l s = (ado p <- a_new (HNode (NLeaf t)); a_ret (AT p)) l s) -> reads (XWord w) s.
Proof.
  intros S W N H. apply reads_t; [intros []; reflexivity|].
  destruct (gets_new any backing K s (HNode (NLeaf t)) (fun p s' => built (stands backing s') (ps_heap s') (XWord w) p) S I) as (p & s' & R & F1 & S' & X & Ok & B).
  - constructor.
  - intros t' [= <-]. exact N.
  - intros r [=].
  - intros s' X Q. cbn [built]. exists t. split; [exact W|exact Q].
  - exists (AT p), s'. split; [exact F1|]. split; [exact S'|]. split; [split; assumption|]. eexists _, _. split; [reflexivity|]. intros l Fl. cbn [fd]. apply ident_type; [exact Fl|].
    exists 0%nat. intros n _. rewrite H by exact Fl. unfold a_bind. rewrite R. reflexivity.
Qed.
Lemma word_reads w s : state_ok s -> In w (map fst words) -> reads (XWord w) s.
Proof.
  intros S W. unfold words in W. cbn [map fst In] in W.
  assert (B : forall b w, In (w, TExact 0 (VBool b)) words -> identifier_value w = Some (PV (VBool b)) -> reads (XWord w) s).
  { intros b v I H. apply reads_t; [intros []; reflexivity|]. exists (AV (VBool b)), s. split; [apply frame_refl|]. split; [exact S|]. split.
    - split; [apply exact_nice|]. intros T h p Q. cbn [built]. exists (TExact 0 (VBool b)). split; [exact I|exact Q].
    - eexists _, _. split; [reflexivity|]. intros l Fl. cbn [fd]. apply ident_type; [exact Fl|]. exists 0%nat. intros n _. unfold a_identifier. change (t_value (word v)) with v. now rewrite H. }
  destruct W as [<-|[<-|[<-|[<-|[<-|[<-|[<-|[<-|[<-|[]]]]]]]]]].
  1-6: eapply leaf_reads; [exact S|unfold words; cbn [In]; repeat (first [left; reflexivity|right])|apply plain_nice; reflexivity|intros l n Fl; reflexivity].
  - eapply leaf_reads; [exact S|unfold words; cbn [In]; repeat (first [left; reflexivity|right])|apply plain_nice; reflexivity|]. intros l n Fl. destruct (fol_nxt F l 91 Fl eq_refl) as (t & Pk & Nt).
    change (a_identifier any backing named (a_run E any backing named n) (word (lit "string")) l s) with (a_string (a_run E any backing named n) l s). unfold a_string. unfold a_bind at 1. rewrite (peek_at t) by exact Pk. rewrite Nt. reflexivity.
  - apply (B true); [unfold words; cbn [In]; repeat (first [left; reflexivity|right])|reflexivity].
  - apply (B false); [unfold words; cbn [In]; repeat (first [left; reflexivity|right])|reflexivity].
Qed.

(* aliasReference *)
Lemma reference_reads n s : state_ok s -> usable n -> exists x s', frame [] s s' /\ state_ok s' /\ (forall e, (forall T h p, built T h e p = T n p) -> vb s' e x) /\
  forall l, a_reference backing named (word n) l s = AOk x l s'.
Proof.
  intros S [N Kn]. unfold a_reference. change (is_tok t_identifier (word n)) with true. cbn iota. change (t_value (word n)) with n. rewrite N.
  destruct (get_type backing (ps_names s) n) as [p|] eqn:T.
  - exists (AT p), s. split; [apply frame_refl|]. split; [exact S|]. split; [|reflexivity]. intros e H. split; [exact (s_names _ _ _ S n p T)|]. rewrite H. now left.
  - destruct (new_frame any backing K s (HAlias n) Kn S) as (F1 & S1 & X).
    + constructor.
    + intros r [=].
    + eexists _, _. split; [exact F1|]. split; [exact S1|]. split; [|reflexivity]. intros e H. split; [apply new_ok; intros t [=]|]. rewrite H. right. apply new_at.
Qed.
Lemma name_reads n s : state_ok s -> ~ In n keywords -> usable n -> reads (XName n) s.
Proof.
  intros S NK U. destruct (reference_reads n s S U) as (x & s' & F1 & S' & V & R). apply reads_t; [intros []; reflexivity|]. exists x, s'. split; [exact F1|]. split; [exact S'|]. split; [now apply V|].
  eexists _, _. split; [reflexivity|]. intros l Fl. cbn [fd]. apply ident_type; [exact Fl|]. exists 0%nat. intros m _. unfold a_identifier, identifier_value. change (t_value (word n)) with n.
  repeat (rewrite (not_keyword_in n (lit _)); [|exact NK|unfold keywords, words; cbn [map fst app In]; tauto]). apply R.
Qed.
Lemma ref_reads n s : state_ok s -> usable n -> reads (XRef n) s.
Proof.
  intros S U. destruct (reference_reads n s S U) as (x & s' & F1 & S' & V & R). apply reads_t; [intros []; reflexivity|]. exists x, s'. split; [exact F1|]. split; [exact S'|]. split; [now apply V|].
  eexists _, _. split; [reflexivity|]. intros l Fl. cbn [fd]. apply (y_intro _ _ _ _ _ _ _ _ _ _ 0). intros m _. cbn -[a_reference]. unfold a_bind, a_next, a_lift. cbn [p_next]. rewrite R. reflexivity.
Qed.

Lemma decl_reads n e s : (forall s, pre e s -> reads e s) -> pre (XDecl n e) s -> reads (XDecl n e) s.
Proof.
  intros IH (C & U & D & S & [ND Fr]). cbn [correct used declared] in *. destruct C as (NK & So & C). inversion D as [|? ? (Nn & Bn & Kn) D']; subst. inversion ND as [|? ? Nin ND']; subst.
  assert (Gn : get_name (ps_names s) n = None) by (apply Fr; now left).
  destruct (new_frame any backing K s (HAlias n) Kn S) as (F1 & S1 & X1); [constructor|intros r [=]|].
  set (a := length (ps_heap s)) in *. set (h1 := ps_heap s ++ [HAlias n]) in *. set (s1 := {| ps_heap := h1; ps_names := put_name (ps_names s) n a |}).
  assert (G1 : forall m, m <> n -> get_name (ps_names s1) m = get_name (ps_names s) m).
  { intros m M. cbn [s1 ps_names]. rewrite get_put. destruct (bytes_eqb m n) eqn:Q; [apply bytes_eqb_eq in Q; contradiction|reflexivity]. }
  assert (Ga : get_name (ps_names s1) n = Some a) by (cbn [s1 ps_names]; now rewrite get_put, bytes_same).
  assert (Aa : nth_error h1 a = Some (HAlias n)) by apply new_at.
  assert (S1' : state_ok s1).
  { split; [exact (s_heap _ _ _ S1)|exact (s_any _ _ _ S1)| |intros p r Q; exact (s_not _ _ _ S1 p r Q)]. intros m p T. unfold get_type in T. destruct (list_eq_dec Z.eq_dec m n) as [->|M].
    - rewrite Ga in T. injection T as <-. apply (new_ok s (HAlias n)). intros t [=].
    - rewrite G1 in T by exact M. exact (s_names _ _ _ S1 m p T). }
  destruct (IH s1) as (x & s2 & F2 & S2 & V & P & _).
  { split; [exact C|]. split; [exact U|]. split; [exact D'|]. split; [exact S1'|]. split; [exact ND'|]. intros m M. rewrite G1; [apply Fr; now right|]. intros ->. contradiction. }
  destruct (type_gets any backing K s2 e x S2 V) as (p & s3 & R3 & F3 & S3 & X3 & O3 & B3).
  set (s4 := {| ps_heap := ps_heap s3; ps_names := put_name (ps_names s3) n p |}).
  assert (G3 : get_name (ps_names s3) n = Some a). { rewrite (f_old _ _ _ _ F3) by (intros []). rewrite (f_old _ _ _ _ F2) by exact Nin. exact Ga. }
  assert (A3 : nth_error (ps_heap s3) a = Some (HAlias n)).
  { destruct (f_heap _ _ _ _ F2) as (n2 & Q2 & _), (f_heap _ _ _ _ F3) as (n3 & Q3 & _). rewrite Q3, Q2. apply nth_more, nth_more. exact Aa. }
  assert (G4 : forall m, m <> n -> get_name (ps_names s4) m = get_name (ps_names s3) m).
  { intros m M. cbn [s4 ps_names]. rewrite get_put. destruct (bytes_eqb m n) eqn:Q; [apply bytes_eqb_eq in Q; contradiction|reflexivity]. }
  assert (G4n : get_name (ps_names s4) n = Some p) by (cbn [s4 ps_names]; now rewrite get_put, bytes_same).
  assert (X4 : ext s3 s4).
  { split; [exists []; now rewrite app_nil_r|]. intros m q T. unfold get_type in *. destruct (list_eq_dec Z.eq_dec m n) as [->|M]; [rewrite G3 in T; injection T as <-; right; exact A3|left; now rewrite G4]. }
  assert (FF : frame (n :: declared e) s s4).
  { split.
    - destruct (f_heap _ _ _ _ F2) as (n2 & Q2 & M2), (f_heap _ _ _ _ F3) as (n3 & Q3 & M3). exists ([HAlias n] ++ n2 ++ n3). split; [cbn [s4 ps_heap]; rewrite Q3, Q2; cbn [s1 ps_heap]; unfold h1; now rewrite <- !app_assoc|].
      apply Forall_app. split; [now repeat constructor|now apply Forall_app].
    - intros m M. cbn [In] in M. rewrite G4 by (intros ->; tauto). rewrite (f_old _ _ _ _ F3) by (intros []). rewrite (f_old _ _ _ _ F2) by tauto. apply G1. intros ->; tauto.
    - intros m [<-|M].
      + destruct (solid_node _ _ _ C So p B3) as (nd & Q & A). exists p, nd. auto.
      + assert (m <> n) by (intros ->; contradiction). destruct (f_new _ _ _ _ F2 m M) as (q & nd & Q1 & Q2 & A). exists q, nd. rewrite G4 by assumption. rewrite (f_old _ _ _ _ F3) by (intros []). split; [exact Q1|]. split; [|exact A].
        cbn [s4 ps_heap]. destruct (f_heap _ _ _ _ F3) as (n3 & Q3 & _). rewrite Q3. now apply nth_more.
    - cbn [s4 ps_names]. rewrite (put_old_names _ _ _ _ G3). rewrite (f_order _ _ _ _ F3), (f_order _ _ _ _ F2). cbn [s1 ps_names]. rewrite put_new_names by exact Gn. rewrite map_app, app_nil_r, <- app_assoc. reflexivity. }
  assert (S4 : state_ok s4).
  { split; [exact (s_heap _ _ _ S3)|exact (s_any _ _ _ S3)| |intros q r Q; exact (s_not _ _ _ S3 q r Q)]. intros m q T. unfold get_type in T. destruct (list_eq_dec Z.eq_dec m n) as [->|M].
    - rewrite G4n in T. injection T as <-. exact O3.
    - rewrite G4 in T by exact M. exact (s_names _ _ _ S3 m q T). }
  apply reads_a; [intros [] H; [congruence|reflexivity|reflexivity]|]. exists (AT p), s4. split; [exact FF|]. split; [exact S4|]. split.
  - destruct (makes_ext _ s3 s4 e p X4 (conj O3 B3)) as [O4 B4]. split; [exact O4|]. cbn [built]. split; [|exact B4]. left. unfold get_type. now rewrite G4n.
  - cbn [written enclosed]. destruct P as (t & r & -> & H). eexists _, _. split; [reflexivity|]. intros l Fl. apply up_any; [apply unary_type|exact Fl]. cbn [fd]. destruct (H l Fl) as [N H1].
    apply (y_intro _ _ _ _ _ _ _ _ _ _ N). intros k L. change (a_declaration backing named (a_run E any backing named k) (word n) (LTok (punct 61) (LTok t (fd r l))) s = AOk (AT p) l s4).
    unfold a_declaration. change (t_value (word n)) with n. apply reserved_keywords in NK. rewrite NK, Nn. unfold get_type at 1. rewrite Gn, Bn. cbn [orb].
    change (match a_run E any backing named k (BAny t) (fd r l) s1 with AOk v l' s' => (ado p <- a_type v; ado u <- a_add n p; a_ret (AT p)) l' s' | APanic => APanic | AStuck => AStuck | ASkip => ASkip end = AOk (AT p) l s4).
    rewrite H1 by lia. unfold a_bind. rewrite R3. reflexivity.
Qed.

Lemma str_reads cs s : state_ok s -> reads (XStr cs) s.
Proof.
  intros S. apply reads_t; [intros []; reflexivity|]. exists (AV (VStr (encode cs))), s. split; [apply frame_refl|]. split; [exact S|]. split; [split; [apply exact_nice|]; intros T h p Q; exact Q|].
  eexists _, _. split; [reflexivity|]. intros l Fl. apply (y_intro _ _ _ _ _ _ _ _ _ _ 0). intros n _. reflexivity.
Qed.

(* types are made of what was read *)
Lemma vals_then D s s1 e f : frame D s s1 -> fresh D s -> val any backing K f s1 e -> exists x s', frame D s s' /\ state_ok s' /\ vb s' e x /\ forall l, f l s1 = AOk x l s'.
Proof. intros F1 Fr (x & s' & R & F2 & S' & _ & V). exists x, s'. split; [eapply frame_right; eauto|]. auto. Qed.
Lemma gets_then D s s1 e m : frame D s s1 -> fresh D s -> gets any backing K m s1 (fun p s' => built (stands backing s') (ps_heap s') e p) ->
  exists p s', frame D s s' /\ state_ok s' /\ vb s' e (AT p) /\ forall l, m l s1 = AOk p l s'.
Proof. intros F1 Fr (p & s' & R & F2 & S' & _ & Ok & B). exists p, s'. split; [eapply frame_right; eauto|]. split; [exact S'|]. split; [split; assumption|exact R]. Qed.

Lemma int_reads z s : state_ok s -> in64 z -> reads (XInt z) s.
Proof.
  intros S Z1. apply reads_t; [intros []; reflexivity|]. exists (AV (VInt z)), s. split; [apply frame_refl|]. split; [exact S|]. split; [split; [apply exact_nice|]; intros T h p Q; exact Q|].
  eexists _, _. split; [reflexivity|]. intros l Fl. now apply number_type.
Qed.
Lemma range_reads lo hi incl s : state_ok s -> min_int64 <= lo /\ lo < hi /\ hi <= max_int64 -> reads (XRange lo hi incl) s.
Proof.
  intros S (Z1 & Z2 & Z3). apply reads_t; [intros []; reflexivity|]. set (t := if (lo =? min_int64) && (hi =? max_int64) then TInt else TIntRange lo hi incl).
  assert (Nt : nice t) by (unfold t; destruct ((lo =? min_int64) && (hi =? max_int64)); apply plain_nice; reflexivity).
  destruct (new_frame any backing K s (HNode (NLeaf t)) I S) as (F1 & S1 & X1); [constructor|intros r [=]|].
  eexists (AT (length (ps_heap s))), _. split; [exact F1|]. split; [exact S1|]. split.
  - split; [apply new_ok; intros t' [= <-]; exact Nt|]. cbn [built]. apply new_at.
  - eexists _, _. split; [reflexivity|]. intros l Fl. apply range_type; unfold in64, min_int64 in *; auto; lia.
Qed.
Lemma string_reads sz s : state_ok s -> size_ok sz -> reads (XString sz) s.
Proof.
  intros S Z1. apply reads_t; [intros []; reflexivity|]. pose proof (sized_pair sz Z1) as Zp. destruct (size_read sz Z1) as [I64 A]. 
  set (t := let (lo, hi) := size_of sz in if (lo =? 0) && (hi =? max_int64) then TString else TStrSized lo hi).
  assert (Nt : nice t) by (unfold t; destruct (size_of sz) as [lo hi]; destruct ((lo =? 0) && (hi =? max_int64)); apply plain_nice; reflexivity).
  destruct (new_frame any backing K s (HNode (NLeaf t)) I S) as (F1 & S1 & X1); [constructor|intros r [=]|].
  eexists (AT (length (ps_heap s))), _. split; [exact F1|]. split; [exact S1|]. split.
  - split; [apply new_ok; intros t' [= <-]; exact Nt|]. cbn [built]. destruct (size_of sz) as [lo hi] eqn:Q. apply new_at.
  - eexists _, _. split; [reflexivity|]. intros l Fl. destruct (params_read E any backing named sz l s I64 []) as [N H]. apply (y_intro _ _ _ _ _ _ _ _ _ _ N). intros n L. cbn [fd app] in *.
    assert (Q : (match map (fun z => AV (VInt z)) sz with [] => TString | _ => sized_string_type (fst (size_of sz)) (snd (size_of sz)) end) = t).
    { unfold t. destruct sz as [|a sz]; [reflexivity|]. cbn [map]. destruct (size_of (a :: sz)) as [lo hi]. destruct Zp as [[Z2 Z3] Z4]. cbn [fst snd]. unfold sized_string_type. rewrite bound_kept by exact Z2. destruct (Z.ltb_spec hi lo); [lia|reflexivity]. }
    change ((ado args <- a_run E any backing named n (BParams []); match args with
      | [AV (VStr s)] => ado p <- a_new (HNode (NLeaf (TExact 0%nat (VStr s)))); a_ret (AT p)
      | _ => ado b <- a_option (size_of_args args); ado p <- a_new (HNode (NLeaf (match args with [] => TString | _ => sized_string_type (fst b) (snd b) end))); a_ret (AT p) end)
      (fd (sep_by 44 (map (fun z => [number z]) sz) ++ [punct 93]) l) s = AOk (AT (length (ps_heap s))) l {| ps_heap := ps_heap s ++ [HNode (NLeaf t)]; ps_names := ps_names s |}).
    unfold a_bind at 1. rewrite H by exact L. rewrite <- Q. destruct sz as [|a [|b [|c sz]]]; cbn [map app] in *; rewrite ?A; try reflexivity.
Qed.
Lemma arr_reads sz e s : (forall s, pre e s -> reads e s) -> pre (XArr sz e) s -> reads (XArr sz e) s.
Proof.
  intros IH ((Z1 & C0) & U & D & S & Fr0). assert (C : pre e s) by (split; [exact C0|]; auto). assert (Fr : fresh (declared e) s) by apply C. destruct (IH s C) as (x & s1 & F1 & S1 & V & _ & _ & P). destruct (type_gets any backing K s1 e x S1 V) as (q & s2 & R2 & F2 & S2 & X2 & O2 & B2).
  pose proof (frame_right _ _ _ _ F1 F2 Fr) as F12. destruct (gets_then _ _ _ _ _ F12 Fr (array_gets any backing K s2 sz e q S2 Z1 (conj O2 B2))) as (p & s3 & F3 & S3 & V3 & R3). destruct (size_read sz Z1) as [I64 A].
  apply reads_t; [intros []; reflexivity|]. exists (AT p), s3. split; [exact F3|]. split; [exact S3|]. split; [exact V3|]. cbn [written enclosed]. destruct P as (t & r & -> & H). eexists _, _. split; [reflexivity|]. intros l Fl.
  destruct (H l Fl) as [N H1]. destruct (params_read E any backing named sz (LTok t (fd r l)) s I64 []) as [N2 H2]. cbn [app] in H2.
  replace (fd (sep_by 44 (map (fun z => [number z]) sz) ++ punct 93 :: t :: r) l) with (fd (sep_by 44 (map (fun z => [number z]) sz) ++ [punct 93]) (LTok t (fd r l))) by (rewrite !fd_app; reflexivity).
  apply (y_intro _ _ _ _ _ _ _ _ _ _ (N + N2)). intros n L.
  change ((ado args <- a_run E any backing named n (BParams []); ado t <- a_next; ado v <- a_run E any backing named n (BType t); ado e <- a_type v; ado b <- a_option (size_of_args args); ado p <- a_array e (fst b) (snd b); a_ret (AT p))
    (fd (sep_by 44 (map (fun z => [number z]) sz) ++ [punct 93]) (LTok t (fd r l))) s = AOk (AT p) l s3).
  unfold a_bind at 1. rewrite H2 by lia. unfold a_bind at 1. unfold a_next, a_lift. cbn [p_next]. unfold a_bind at 1. rewrite H1 by lia. unfold a_bind. rewrite R2. rewrite A. cbn [a_option]. unfold a_ret at 1. rewrite R3. reflexivity.
Qed.
Lemma fresh_left D D' s : fresh (D ++ D') s -> fresh D s.
Proof.
  intros [N Fr]. split; [|intros n I; apply Fr, in_app_iff; now left]. clear Fr. induction D as [|d D IH]; [constructor|]. cbn [app] in N. inversion N as [|? ? A B]; subst. constructor; [|auto]. intros X. apply A, in_app_iff. now left.
Qed.
Lemma map_reads sz k v s : (forall s, pre k s -> reads k s) -> (forall s, pre v s -> reads v s) -> pre (XMap sz k v) s -> reads (XMap sz k v) s.
Proof.
  intros IHk IHv (C & U & D & S & Fr). cbn [correct used declared] in *. destruct C as (Z1 & Ck & Cv). apply Forall_app in U as [Uk Uv], D as [Dk Dv]. pose proof (fresh_left _ _ _ Fr) as Frk.
  destruct (IHk s) as (x & s1 & F1 & S1 & V1 & P1 & _); [unfold pre; auto 10|]. destruct (type_gets any backing K s1 k x S1 V1) as (q & s2 & R2 & F2 & S2 & X2 & O2 & B2).
  pose proof (frame_right _ _ _ _ F1 F2 Frk) as F12. assert (Frv : fresh (declared v) s2) by (eapply fresh_app; eauto).
  destruct (IHv s2) as (y & s3 & F3 & S3 & V3 & _ & _ & P3); [unfold pre; auto 10|]. destruct (type_gets any backing K s3 v y S3 V3) as (w & s4 & R4 & F4 & S4 & X4 & O4 & B4).
  pose proof (frame_right _ _ _ _ F3 F4 Frv) as F34. pose proof (frame_trans K _ _ _ _ _ F12 F34 Fr) as F14.
  assert (Mk : makes backing s4 k q). { apply (makes_ext backing s2); [eapply frame_later; eauto|now split]. }
  destruct (gets_then _ _ _ _ _ F14 Fr (map_gets any backing K s4 sz k v q w S4 Z1 Mk (conj O4 B4))) as (p & s5 & F5 & S5 & V5 & R5). destruct (size_read sz Z1) as [I64 A].
  apply reads_t; [intros []; reflexivity|]. exists (AT p), s5. split; [exact F5|]. split; [exact S5|]. split; [exact V5|]. cbn [written enclosed].
  destruct P1 as (t1 & r1 & -> & H1), P3 as (t3 & r3 & -> & H3). eexists _, _. split; [reflexivity|]. intros l Fl. destruct (H3 l Fl) as [N3 H3'].
  set (rest := LTok t3 (fd r3 l)) in *.
  destruct (params_read E any backing named sz rest s2 I64 []) as [N2 H2]. cbn [app] in H2.
  set (more := match sz with [] => LTok (punct 93) rest | _ => LTok (punct 44) (fd (sep_by 44 (map (fun z => [number z]) sz) ++ [punct 93]) rest) end).
  assert (Q : fd (punct 91 :: sep_by 44 ((t1 :: r1) :: map (fun z => [number z]) sz) ++ punct 93 :: t3 :: r3) l = LTok (punct 91) (LTok t1 (fd r1 more))).
  { unfold more, rest. destruct sz as [|z sz]; [cbn [map sep_by fd app]; now rewrite fd_app|]. 
    change (sep_by 44 ((t1 :: r1) :: map (fun z => [number z]) (z :: sz))) with ((t1 :: r1) ++ punct 44 :: sep_by 44 (map (fun z => [number z]) (z :: sz))). rewrite <- app_assoc. cbn [app fd]. rewrite !fd_app. cbn [fd]. rewrite !fd_app. reflexivity. }
  rewrite Q. assert (Fm : fol F0 more) by (unfold more; destruct sz; reflexivity). destruct (H1 more Fm) as [N1 H1']. apply (y_intro _ _ _ _ _ _ _ _ _ _ (N1 + N2 + N3)). intros n L.
  change (match a_run E any backing named n (BAny t1) (fd r1 more) s with
    | AOk k l' s' => (ado k <- a_type k; ado n1 <- a_next; ado args <- (if is_tok 44 n1 then a_run E any backing named n (BParams []) else if is_tok 93 n1 then a_ret [] else a_panic);
       ado t <- a_next; ado v <- a_run E any backing named n (BType t); ado v <- a_type v; ado b <- a_option (size_of_args args); ado p <- a_map k v (fst b) (snd b); a_ret (AT p)) l' s'
    | APanic => APanic | AStuck => AStuck | ASkip => ASkip end = AOk (AT p) l s5).
  rewrite H1' by lia. unfold a_bind at 1. rewrite R2.
  assert (G : forall f : list aval -> AM aval, (ado n1 <- a_next; ado args <- (if is_tok 44 n1 then a_run E any backing named n (BParams []) else if is_tok 93 n1 then a_ret [] else a_panic); f args) more s2 = f (map (fun z => AV (VInt z)) sz) rest s2).
  { intros f. unfold more. unfold a_bind at 1. unfold a_next, a_lift. destruct sz as [|z sz]; cbn [p_next]; [reflexivity|]. change (is_tok 44 (punct 44)) with true. cbn iota. unfold a_bind. rewrite H2 by lia. reflexivity. }
  rewrite G. unfold rest. unfold a_bind at 1. unfold a_next, a_lift. cbn [p_next]. unfold a_bind at 1. rewrite H3' by lia. unfold a_bind. rewrite R4. rewrite A. cbn [a_option]. unfold a_ret at 1. rewrite R5. reflexivity.
Qed.

Lemma not_reads e s : (forall s, pre e s -> reads e s) -> pre (XNot e) s -> reads (XNot e) s.
Proof.
  intros IH (C & U & D & Sk & Fr). cbn [correct used declared] in *. destruct C as [C _].
  destruct (IH s) as (x & s1 & F1 & S1 & V & _ & _ & P); [unfold pre; auto 10|]. destruct (type_gets any backing K s1 e x S1 V) as (q & s2 & R2 & F2 & S2 & X2 & O2 & B2).
  pose proof (frame_right _ _ _ _ F1 F2 Fr) as F12. destruct (gets_then _ _ _ _ _ F12 Fr (not_gets any backing K s2 e q S2 (conj O2 B2))) as (p & s3 & F3 & S3 & V3 & R3).
  assert (Pu : pu (written Anywhere (XNot e)) s (AT p) s3).
  { cbn [written enclosed]. destruct P as (t & r & -> & H). eexists _, _. split; [reflexivity|]. intros l Fl. destruct (H l Fl) as [N H1]. cbn [fd]. apply (y_intro _ _ _ _ _ _ _ _ _ _ (S N)). intros n L.
    assert (Q : is_tok 126 t = false). { unfold is_tok. destruct (Z.eqb_spec (t_type t) 126) as [Q|]; [|reflexivity]. specialize (H1 (S N) ltac:(lia)). rewrite type_bad in H1 by (now rewrite Q). discriminate. }
    change ((if is_tok 126 t then a_skip else (ado v <- a_run E any backing named n (BType t); ado p <- a_type v; ado q <- a_not p; a_ret (AT q))) (fd r l) s = AOk (AT p) l s3).
    rewrite Q. unfold a_bind. rewrite H1 by lia. rewrite R2, R3. reflexivity. }
  exists (AT p), s3. rewrite (written_plain (XNot e) Operand), (written_enclosed (XNot e) Prefixed) by reflexivity. split; [exact F3|]. split; [exact S3|]. split; [exact V3|]. split; [now apply pu_pa|]. split; [exact Pu|]. now apply paren, pu_pa.
Qed.

(* ---------- lists ---------- *)

Lemma list_reads es : Forall (fun e => forall s, pre e s -> reads e s) es -> Forall correct es -> forall s, Forall usable (flat_map used es) -> Forall declarable (flat_map declared es) -> state_ok s -> fresh (flat_map declared es) s ->
  exists xs s', frame (flat_map declared es) s s' /\ state_ok s' /\ Forall2 (vb s') es xs /\ chain pu (map (written Operand) es) s xs s' /\ chain (elem 0) (map (written Anywhere) es) s xs s'.
Proof.
  induction 1 as [|e es H HR IH]; intros C s U D S Fr; cbn [flat_map map] in *.
  - exists [], s. split; [apply frame_refl|]. split; [exact S|]. repeat split; constructor.
  - inversion C as [|? ? C1 C2]; subst. apply Forall_app in U as [U1 U2], D as [D1 D2]. pose proof (fresh_left _ _ _ Fr) as Fr1.
    destruct (H s) as (x & s1 & F1 & S1 & V1 & P1 & P2 & _); [unfold pre; auto 10|]. assert (Fr2 : fresh (flat_map declared es) s1) by (eapply fresh_app; eauto).
    destruct (IH C2 s1 U2 D2 S1 Fr2) as (xs & s2 & F2 & S2 & V2 & Q1 & Q2). exists (x :: xs), s2. split; [eapply frame_trans; eauto|]. split; [exact S2|]. split.
    + constructor; [|exact V2]. apply (vb_ext backing s1); [eapply frame_later; eauto|exact V1].
    + split; (econstructor; [|eassumption]); [exact P2|]. apply elem_plain; [exact P1| |]; apply start_written; exact C1.
Qed.
Definition field_text (f : list Z * bool * ex) : list token := let '(n, required, e) := f in word n :: (if required : bool then [] else [punct 63]) ++ punct 58 :: written Anywhere e.
Lemma fields_read fs : Forall (fun f => forall s, pre (snd f) s -> reads (snd f) s) fs -> Forall (fun f : list Z * bool * ex => correct (snd f)) fs ->
  forall s, Forall usable (flat_map (fun f => used (snd f)) fs) -> Forall declarable (flat_map (fun f => declared (snd f)) fs) -> state_ok s -> fresh (flat_map (fun f => declared (snd f)) fs) s ->
  exists xs s', frame (flat_map (fun f => declared (snd f)) fs) s s' /\ state_ok s' /\ Forall2 (fun f => vb s' (snd f)) fs xs /\
    chain (elem 2) (map field_text fs) s (map (fun x => entry_of (fst x) (snd x)) (combine fs xs)) s'.
Proof.
  induction 1 as [|[[n rq] e] fs H HR IH]; intros C s U D S Fr; cbn [flat_map map snd] in *.
  - exists [], s. split; [apply frame_refl|]. split; [exact S|]. repeat split; constructor.
  - inversion C as [|? ? C1 C2]; subst. apply Forall_app in U as [U1 U2], D as [D1 D2]. pose proof (fresh_left _ _ _ Fr) as Fr1.
    destruct (H s) as (x & s1 & F1 & S1 & V1 & P1 & _); [unfold pre; auto 10|]. assert (Fr2 : fresh (flat_map (fun f => declared (snd f)) fs) s1) by (eapply fresh_app; eauto).
    destruct (IH C2 s1 U2 D2 S1 Fr2) as (xs & s2 & F2 & S2 & V2 & Q1). exists (x :: xs), s2. split; [eapply frame_trans; eauto|]. split; [exact S2|]. split.
    + constructor; [|exact V2]. apply (vb_ext backing s1); [eapply frame_later; eauto|exact V1].
    + cbn [combine map]. econstructor; [|exact Q1]. now apply elem_entry.
Qed.

Lemma ops_read es s (X : list ex -> ex) c make : Forall (fun e => forall s, pre e s -> reads e s) es -> pre (X es) s ->
  (make = NAny /\ X = XOr /\ c = 124 \/ make = NOne /\ X = XXor /\ c = 94 \/ make = NAll /\ X = XAnd /\ c = 38) -> reads (X es) s.
Proof.
  intros IH (C & U & D & S & Fr) Cs. assert (Q : declared (X es) = flat_map declared es /\ used (X es) = flat_map used es /\ (correct (X es) -> (2 <= length es)%nat /\ Forall correct es) /\ written Anywhere (X es) = sep_by c (map (written Operand) es)).
  { destruct Cs as [(-> & -> & ->)|[(-> & -> & ->)|(-> & -> & ->)]]; (split; [reflexivity|]; split; [reflexivity|]; split; [|reflexivity]); cbn [correct]; intros [A B]; (split; [exact A|]); now apply all_forall in B. }
  destruct Q as (QD & QU & QC & QW). destruct (QC C) as [L C']. rewrite QD in *. rewrite QU in *. destruct (list_reads es IH C' s U D S Fr) as (xs & s1 & F1 & S1 & V & Ch & _). pose proof (F2_length _ _ _ V) as Lx.
  destruct (vals_then _ _ _ (X es) (a_operands make xs) F1 Fr) as (y & s2 & F2 & S2 & V2 & R2). { apply operands_val; [exact S1|lia|exact V|]. intuition. }
  apply reads_a; [destruct Cs as [(_ & -> & _)|[(_ & -> & _)|(_ & -> & _)]]; intros [] H; try reflexivity; congruence|]. exists y, s2. rewrite QD, QW. split; [exact F2|]. split; [exact S2|]. split; [exact V2|].
  destruct Cs as [(-> & _ & ->)|[(-> & _ & ->)|(-> & _ & ->)]]; [eapply or_any|eapply xor_any|eapply and_any]; eauto; lia.
Qed.

Theorem all_read e : forall s, pre e s -> reads e s.
Proof.
  induction e using ex_induct; intros s P; pose proof P as (C & U & D & S & Fr); cbn [correct used declared] in *.
  - now apply word_reads.
  - now apply str_reads.
  - now apply int_reads.
  - now apply range_reads.
  - now apply string_reads.
  - inversion U; subst. now apply name_reads.
  - inversion U; subst. now apply ref_reads.
  - now apply decl_reads.
  - now apply arr_reads.
  - now apply map_reads.
  - destruct C as [N C]. apply all_forall in C. destruct (list_reads es H C s U D S Fr) as (xs & s1 & F1 & S1 & V & _ & Ch). pose proof (F2_length _ _ _ V) as Lx. assert (Nx : xs <> []) by (destruct es, xs; cbn in *; congruence).
    destruct (vals_then _ _ _ (XTuple es) (a_make_tuple any xs false) F1 Fr) as (y & s2 & F2 & S2 & V2 & R2). { now apply tuple_val. }
    apply reads_t; [intros []; reflexivity|]. exists y, s2. split; [exact F2|]. split; [exact S2|]. split; [exact V2|]. cbn [written enclosed]. apply brace. eapply list_items; [exact Ch|destruct es; [congruence|discriminate]|].
    intros l. unfold a_finish_list. destruct xs; [congruence|]. apply R2.
  - destruct C as [N C]. apply (all_forall (fun f : list Z * bool * ex => correct (snd f))) in C. destruct (fields_read fs H C s U D S Fr) as (xs & s1 & F1 & S1 & V & Ch).
    destruct (vals_then _ _ _ (XStruct a fs) _ F1 Fr (struct_val any backing K s1 a fs xs S1 N V)) as (y & s2 & F2 & S2 & V2 & R2).
    apply reads_t; [intros []; reflexivity|]. exists y, s2. split; [exact F2|]. split; [exact S2|]. split; [exact V2|].
    change (written Anywhere (XStruct a fs)) with (punct 123 :: sep_by 44 (map field_text fs ++ (if a then [[ellipsis]] else [])) ++ [punct 125]).
    destruct a; [apply brace; eapply list_open; eauto|]. rewrite app_nil_r. destruct fs as [|f fs].
    + inversion Ch; subst. apply empty_braces. exact R2.
    + apply brace. eapply list_items; [exact Ch|discriminate|]. intros l. unfold a_finish_list. change (2 =? 2) with true. cbn iota. inversion V; subst. cbn [combine map]. apply R2.
  - apply (ops_read es s XOr 124 NAny H P). auto.
  - apply (ops_read es s XXor 94 NOne H P). auto.
  - apply (ops_read es s XAnd 38 NAll H P). auto 10.
  - now apply not_reads.
Qed.
End Reads.
