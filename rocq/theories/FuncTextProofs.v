(* The text of a function type is read back. *)
From Coq Require Import Strings.Ascii Strings.String.
From Coq Require Import ZArith List Bool Lia.
From Coq Require Import Floats.SpecFloat.
From Verif Require Import Int64 Utf8 Utf8Proofs Text TextSpec HMap Data DataProofs Types InstProofs Construct Print Lexer LexerSpec LexerProofs Syntax SyntaxSpec TokenProofs WriteProofs ParserProofs ReadProofs SyntaxProofs CoreProofs RenewProofs LexBlank.
From Verif Require Import DataSpec TypesSpec Accessors Func FuncText FuncTextSpec.
Import ListNotations.
Open Scope Z_scope.

Section Func.
Variable E : env.
Notation P := (e_print E).
Notation toks := (WriteProofs.toks E).
Notation core := (SyntaxProofs.core E).
Notation pv := SyntaxProofs.pv.
Notation yields := (ReadProofs.yields E).

(* ---------- tokens ---------- *)

Definition list_toks (variadic : bool) (ts : list ty) : list pt :=
  (if variadic then tvariadic (map (toks 0) ts) else tjoin 44 (map (toks 0) ts)).
Lemma list_text variadic ts : Forall (readable E) ts -> args_text variadic (map (type_text E 0) ts) = enc E (PCh 40 :: list_toks variadic ts ++ [PCh 41]).
Proof.
  intros R. unfold args_text, list_toks. rewrite enc_cons, enc_app, enc_cons, enc_nil, !enc_ch by lia. change (lit "(") with [40]. change (lit ")") with [41]. change (lit ",") with [44]. rewrite Forall_forall in R.
  destruct variadic; [rewrite (enc_tvariadic E _ (toks 0))|rewrite (enc_tjoin E 44 _ (toks 0))]; auto; try lia; intros x Hx; apply type_text_toks; auto.
Qed.
Lemma joins_list variadic ts : Forall (readable E) ts -> joins E (list_toks variadic ts).
Proof.
  intros R. rewrite Forall_forall in R. unfold list_toks. destruct variadic; [apply joins_tvariadic|apply joins_tjoin; [reflexivity|]]; intros x Hx r L S; apply joins_toks; auto.
Qed.

(* ---------- a list in parentheses ---------- *)

Definition item_p (ts : list pt) (v : pval) : Prop := forall l, fol [44; 41] l -> exists p ps, ts = p :: ps /\
  is_tok t_dotdotdot (tok p) = false /\ is_tok 41 (tok p) = false /\ yields (CElem (tok p) 0) (feed ps l) (Some v, 0) l.

Lemma item_p_type t : readable E t -> starts_open t = false -> item_p (toks 0 t) (pv t).
Proof.
  intros R So l Fl. pose proof (core_all E t R) as C. destruct (item_type E t R C So LEnd I) as (p & ps & Et & D & _).
  destruct (core_a E t 0 l C) as (p' & ps' & Et' & H); [eapply fol_weaken; [exact Fl|reflexivity]|]. rewrite Et in Et'. injection Et' as <- <-. exists p, ps. split; [exact Et|]. split; [exact D|].
  destruct (tfirst E t R 0) as (p' & r' & Eq & St). rewrite Et in Eq. injection Eq as <- <-. split; [now apply startp_not|].
  apply elem_plain; auto; [|eapply fol_nxt; [exact Fl|reflexivity]|eapply fol_nxt; [exact Fl|reflexivity]|lia].
  apply unnamed_toks; [rewrite <- Et; now apply (tsecond E)|]. destruct (fol_nxt _ l 58 Fl eq_refl) as (t1 & Pk & N1), (fol_nxt _ l 63 Fl eq_refl) as (t2 & Pk' & N2). rewrite Pk in Pk'. injection Pk' as <-. exists t1. split; [exact Pk|]. rewrite N1, N2. now rewrite andb_false_r.
Qed.
Lemma items_p ts : Forall (readable E) ts -> forallb (fun t => negb (starts_open t)) ts = true -> Forall2 item_p (map (toks 0) ts) (map pv ts).
Proof. induction 1 as [|t ts R HR IH]; intros S; cbn [map]; constructor; cbn [forallb] in S; apply andb_true_iff in S as [S1 S2]; [|now apply IH]. apply item_p_type; auto. now apply negb_true_iff in S1. Qed.

Lemma more_p tss vs : Forall2 item_p tss vs -> forall done el l r l', yields (CList 41 (done ++ vs) el 0) l r l' ->
  yields (CList 41 done el 0) (feed (flat_map (fun ts => ts ++ [PCh 44]) tss) l) r l'.
Proof.
  induction 1 as [|ts v tss vs H HR IH]; intros done el l r l' Y; cbn [flat_map feed].
  - now rewrite app_nil_r in Y.
  - rewrite <- app_assoc, feed_app. change (done ++ v :: vs) with (done ++ [v] ++ vs) in Y. rewrite app_assoc in Y. specialize (IH (done ++ [v]) el l r l' Y).
    destruct (H (feed ([PCh 44] ++ flat_map (fun ts => ts ++ [PCh 44]) tss) l)) as (p & ps & -> & D & St & [N1 H1]); [reflexivity|]. destruct IH as [N2 IH].
    apply (y_intro _ _ _ _ _ (N1 + N2)). intros n L. cbn [p_call feed]. unfold p_list. cbn [p_next pbind]. rewrite D. unfold p_list_from. rewrite St. rewrite H1 by lia. cbn [pbind fst snd app feed p_next tok].
    change (is_tok 41 (mk_token [] 44)) with false. change (is_tok 44 (mk_token [] 44)) with true. cbn iota. apply IH. lia.
Qed.
Lemma last_p ts v : item_p ts v -> forall done el l r, finish_list (done ++ [v]) el 0 l = POk r l -> yields (CList 41 done el 0) (feed (ts ++ [PCh 41]) l) r l.
Proof.
  intros H done el l r Y. rewrite feed_app. destruct (H (feed [PCh 41] l)) as (p & ps & -> & D & St & [N1 H2]); [reflexivity|].
  apply (y_intro _ _ _ _ _ N1). intros n L. cbn [p_call feed]. unfold p_list. cbn [p_next pbind]. rewrite D. unfold p_list_from. rewrite St. rewrite H2 by lia. cbn [pbind fst snd app feed p_next tok].
  change (is_tok 41 (mk_token [] 41)) with true. cbn iota. exact Y.
Qed.

Lemma exact_list ts : Forall (readable E) ts -> forallb is_exact ts = true -> ~ In TNil ts ->
  exists l, exact_values (map renewed ts) = Some l /\ map (type_of 0%nat) l = map renewed ts.
Proof.
  induction 1 as [|t ts R HR IH]; intros X N; [exists []; split; reflexivity|]. cbn [forallb] in X. apply andb_true_iff in X as [X1 X2]. destruct IH as (l & E1 & E2); [exact X2|intros H; apply N; now right|].
  assert (T : exists v, renewed t = TExact 0%nat v /\ type_of 0%nat v = TExact 0%nat v).
  { destruct t as [ | | | |x y i| |x y i| | |x y|s|s|x y| | |p w|p t| |p e x y|p us b| |p kt vt x y|p a es|p us|p vs|p us|p us|p t|[t|]]; cbn in X1; try discriminate X1.
    - destruct N. now left.
    - exists w. split; [reflexivity|]. cbn [readable] in R. destruct w; try contradiction R; reflexivity. }
  destruct T as (v & T1 & T2). exists (v :: l). cbn [map exact_values]. rewrite T1. cbn [exact_value]. rewrite E1, T2, E2. split; reflexivity.
Qed.

Theorem list_read ts b l : readable_list E ts b ->
  exists T, yields (CList 41 [] false 0) (feed (list_toks b ts ++ [PCh 41]) l) (PT T) l /\ tuple_parts 0%nat T = Some (map renewed ts, b).
Proof.
  intros (R & N & S & X). unfold list_toks. destruct b.
  - specialize (N eq_refl). destruct (@exists_last _ ts N) as (init & t & Et). assert (Eq : removelast ts = init) by (rewrite Et; apply removelast_last). rewrite Eq in S. rewrite Et in R. apply Forall_app in R as [Ri Rt]. apply Forall_inv in Rt. subst ts.
    exists (if Nat.eqb (length (init ++ [t])) 1 && forallb is_any (init ++ [t]) then default_tuple else TTuple 0%nat (map renewed (init ++ [t])) true). split.
    + rewrite map_app. cbn [map]. rewrite tvariadic_snoc, <- app_assoc, feed_app. eapply more_p; [now apply items_p|]. cbn [app].
      destruct (core_a E t 0 (LTok (mk_token [] 41) l) (core_all E t Rt)) as (q & qs & Eq' & [M H]); [reflexivity|]. apply (y_intro _ _ _ _ _ M). intros n Ln. cbn [p_call feed]. rewrite Eq'. cbn [app feed]. rewrite feed_app. cbn [feed tok]. unfold p_list. cbn [p_next pbind].
      change (is_tok t_dotdotdot (mk_token [46; 46; 46] t_dotdotdot)) with true. cbn iota. cbn [p_next pbind]. change (negb (0 =? 0)) with false. rewrite andb_false_r. change (0 =? 2) with false. cbn iota. rewrite H by exact Ln. unfold p_type_of. cbn [pbind]. rewrite (as_type_pv E) by exact Rt. cbn [skip_none pbind p_next].
      assert (A : exists a, array_of (renewed t) [PV (VInt 0); PV (VInt max_int64)] = Some a /\ last_element_type a = Some (Some (renewed t))).
      { unfold array_of, arg_int, new_array_type. cbn [or_any]. change (max_int64 <? 0) with false. change (0 <? 0) with false. cbn iota. change (0 =? 1) with false. change (0 =? 0) with true. change (max_int64 =? max_int64) with true. cbn [andb]. destruct (is_any (renewed t)) eqn:Ia; eexists; (split; [reflexivity|]); [|reflexivity]. destruct (renewed t); try discriminate. reflexivity. }
      destruct A as (a & -> & A). cbn [panic_none pbind]. unfold p_list_from. change (is_tok 41 (mk_token [] 41)) with true. cbn iota. unfold finish_list. destruct (map pv init ++ [PT a]) as [|v0 vs0] eqn:Ev; [destruct (map pv init); discriminate|]. rewrite <- Ev. change (0 =? 2) with false. cbn iota. unfold make_tuple.
      rewrite as_types_app, (as_types_pv E) by exact Ri. cbn [as_types Syntax.as_type skip_none pbind]. rewrite last_last, removelast_last, A. cbn [skip_none panic_none pbind].
      replace (map renewed init ++ [renewed t]) with (map renewed (init ++ [t])) by now rewrite map_app. unfold variadic_tuple_type, new_tuple_type. destruct (map renewed (init ++ [t])) as [|r0 rs0] eqn:Er; [destruct init; discriminate|]. rewrite <- Er. rewrite map_length, any_renewed_all. cbn [andb negb].
      destruct (Nat.eqb _ _ && forallb is_any _); reflexivity.
    + destruct (Nat.eqb _ _ && forallb is_any _) eqn:O; [|reflexivity]. apply one_any in O. rewrite O. reflexivity.
  - destruct ts as [|t0 ts0].
    + exists empty_tuple. split; [|reflexivity]. apply (y_intro _ _ _ _ _ 0). intros; reflexivity.
    + set (ts := t0 :: ts0) in *. assert (Nn : ts <> []) by discriminate. clearbody ts.
      assert (Y : exists T, finish_list (map pv ts) false 0 l = POk (PT T) l /\ tuple_parts 0%nat T = Some (map renewed ts, false)).
      { unfold finish_list. destruct (map pv ts) as [|v0 vs0] eqn:Ev; [destruct ts; [congruence|discriminate]|]. rewrite <- Ev. change (0 =? 2) with false. cbn iota. unfold make_tuple. rewrite (as_types_pv E) by exact R. cbn [skip_none pbind].
        unfold tuple_type, new_tuple_type. destruct (map renewed ts) as [|r0 rs0] eqn:Er; [destruct ts; [congruence|discriminate]|]. rewrite <- Er. cbn [andb negb]. rewrite exact_renewed. destruct (forallb is_exact ts) eqn:Xe.
        - destruct (exact_list ts R Xe (X eq_refl eq_refl)) as (vl & E1 & E2). rewrite E1. cbn [panic_none pbind]. eexists. split; [reflexivity|]. cbn [tuple_parts]. now rewrite E2.
        - cbn [panic_none pbind]. eexists. split; [reflexivity|]. reflexivity. }
      destruct Y as (T & Y & Tp). exists T. split; [|exact Tp]. destruct (@exists_last _ ts Nn) as (init & t & ->). rewrite map_app in *. cbn [map] in *. rewrite tjoin_snoc, <- app_assoc, feed_app. apply Forall_app in R as [Ri Rt]. rewrite forallb_app in S. apply andb_true_iff in S as [Si St]. cbn [forallb] in St. rewrite andb_true_r in St. apply negb_true_iff in St.
      eapply more_p; [now apply items_p|]. cbn [app]. apply (last_p _ (pv t)); [apply item_p_type; [now apply Forall_inv in Rt|exact St]|exact Y].
Qed.

(* ---------- fuel ---------- *)

Lemma run_pleq n m c l : (n <= m)%nat -> pleq (run E n c l) (run E m c l).
Proof. intros L. destruct (run E n c l) eqn:R; [right|right|now left|right]; rewrite (run_mono E n m) by (auto; rewrite R; discriminate); auto. Qed.
Ltac mo L := repeat first
  [ apply pleq_refl | match goal with |- pleq (run E _ ?c ?l) _ => exact (run_pleq _ _ c l L) end | apply pleq_bind; [|intros]
  | match goal with |- pleq (if ?b then _ else _) _ => destruct b end ].
Lemma func_mono n m l : (n <= m)%nat -> pleq (parse_func_tokens E n l) (parse_func_tokens E m l).
Proof. intros L. unfold parse_func_tokens, p_func, pop_tuple, p_type_of. mo L. Qed.

Lemma good_pop k m : good k m -> good k (pop_tuple m).
Proof. intros G. unfold pop_tuple. eapply good_bind; [apply good_type_of; exact G|]. intros t l L C. destruct (tuple_parts 0%nat t); [now split|exact I]. Qed.
(* the parser ends on every function type *)
Theorem func_ends s : parse_func E s <> PStuck.
Proof.
  assert (G : good (2 + length s) (parse_func E s)).
  { unfold parse_func, parse_func_tokens. pose proof (tokens_complete s) as C. pose proof (size_lex_all (2 + length s) (new_reader s)) as Sz. fold (tokens s) in Sz. set (k := (2 + length s)%nat) in *.
    assert (Run : forall c l, stops c -> (12 * cwt c + rank c <= 22)%nat -> complete l -> (size l <= k)%nat -> good k (run E (parse_fuel s) c l)).
    { intros c l S Q Cl Hl. eapply good_le; [apply run_enough; auto|exact Hl]. unfold weight, parse_fuel. lia. }
    assert (Wt : forall t, (wt t <= 1)%nat) by (intros t; unfold wt; destruct (is_tok t_end t); lia).
    apply good_next; auto. intros t l L Cl. destruct (_ && _); [|exact I]. apply good_peek; auto. intros t1 _. destruct (is_tok 61 t1); [exact I|]. eapply good_bind with (j := k).
    - unfold p_func. eapply good_bind with (j := k); [apply good_expect; auto; lia|]. intros u l1 L1 C1.
      eapply good_bind with (j := k); [apply good_pop, (Run (CList 41 [] false 0)); auto; [discriminate|cbn; lia]|]. intros args l2 L2 C2.
      apply good_peek; auto. intros t2 _. eapply good_bind with (j := k).
      + destruct (is_tok 40 t2); [|destruct (is_expression_end _)].
        * apply good_next; auto. intros t3 l3 L3 C3. apply good_pop, (Run (CList 41 [] false 0)); auto; [discriminate|cbn; lia|lia].
        * now apply good_ok.
        * apply good_next; auto. intros t3 l3 L3 C3. eapply good_bind with (j := k); [apply good_type_of, (Run (CAny t3)); auto; [exact I|cbn [cwt rank]; specialize (Wt t3); lia|lia]|]. intros t4 l4 L4 C4. apply good_panic. intros T. destruct (tuple_parts 0%nat T); [now split|exact I].
      + intros rets l3 L3 C3. destruct (new_function _ _ _ _); [now split|exact I].
    - intros f l1 L1 C1. apply good_next; auto. intros t2 l2 L2 C2. destruct (is_tok t_end t2); [apply good_ok; auto; lia|]. destruct (_ || _); exact I. }
  intros X. rewrite X in G. exact G.
Qed.
Lemma func_with s n f : parse_func_tokens E n (tokens s) = POk f LEnd -> parse_func E s = POk f LEnd.
Proof.
  intros H. pose proof (func_ends s) as X. unfold parse_func in *. destruct (Nat.le_ge_cases n (parse_fuel s)) as [L|L].
  - destruct (func_mono _ _ (tokens s) L) as [Y|Y]; congruence.
  - destruct (func_mono _ _ (tokens s) L) as [Y|Y]; congruence.
Qed.

(* ---------- the whole ---------- *)

Definition func_toks (f : fty) : list pt := PId (lit "func") :: PCh 40 :: list_toks (f_variadic f) (f_args f).
Definition ret_toks (f : fty) : option (list pt) :=
  match f_rets f with
  | [] => None
  | [t] => Some (if f_rets_variadic f then PCh 40 :: list_toks true [t] ++ [PCh 41] else toks 0 t)
  | ts => Some (PCh 40 :: list_toks (f_rets_variadic f) ts ++ [PCh 41])
  end.
Lemma lexb_func f : Forall (readable E) (f_args f) -> lexable P (func_toks f ++ [PCh 41]).
Proof.
  intros R. unfold func_toks. cbn [app lexable]. split; [split; reflexivity|]. split; [reflexivity|]. split; [reflexivity|]. split; [exact I|]. apply joins_list; auto; [|reflexivity]. cbn [lexable tok_ok tok_fits]. repeat split; auto.
Qed.
Lemma lexb_list variadic ts : Forall (readable E) ts -> lexable P (PCh 40 :: list_toks variadic ts ++ [PCh 41]).
Proof.
  intros R. apply lexb_ch; [reflexivity|]. apply joins_list; auto; [|reflexivity]. cbn [lexable tok_ok tok_fits]. repeat split; auto.
Qed.

Lemma func_tokens f : readable_func E f -> tokens (func_string E f) = feed (func_toks f ++ [PCh 41]) (feed (match ret_toks f with Some l => l | None => [] end) LEnd).
Proof.
  intros ((Ra & _ & _ & _) & Rr). unfold func_string, func_text. rewrite list_text by exact Ra. change (lit "func") with (encode (chars P (PId (lit "func")))). rewrite app_assoc, <- enc_cons.
  change (PId (lit "func") :: PCh 40 :: list_toks (f_variadic f) (f_args f) ++ [PCh 41]) with (func_toks f ++ [PCh 41]). pose proof (lexb_func f Ra) as Kf.
  assert (Blank : forall b, lexable P b -> tokens (enc E (func_toks f ++ [PCh 41]) ++ lit " " ++ enc E b) = feed (func_toks f ++ [PCh 41]) (feed b LEnd)).
  { intros b Kb. rewrite <- (tokens_blank P (func_toks f) b Kf Kb). f_equal. rewrite !encode_app. unfold enc. rewrite all_chars_app, encode_app. rewrite <- app_assoc. f_equal. }
  unfold ret_toks. destruct (f_rets f) as [|t [|t2 ts]].
  - rewrite app_nil_r. unfold enc. rewrite tokens_feed by exact Kf. reflexivity.
  - destruct (f_rets_variadic f).
    + subst t. change [type_text E 0 TAny] with (map (type_text E 0) [TAny]). rewrite list_text by (repeat constructor). apply Blank, lexb_list. repeat constructor.
    + destruct Rr as [R _]. rewrite (type_text_toks E t) by exact R. apply Blank. rewrite <- (app_nil_r (toks 0 t)). apply joins_toks; auto; exact I.
  - destruct Rr as (-> & Rl & _). rewrite list_text by exact Rl. now apply Blank, lexb_list.
Qed.

(* the results: what is read after the arguments *)
Definition p_rets (n : nat) (l : lexed) : pres (list ty * bool) :=
  pdo t, l <- p_peek l;
  if is_tok 40 t then pdo t, l <- p_next l; pop_tuple (run E n (CList 41 [] false 0) l)
  else if is_expression_end (t_type t) then POk ([], false) l
  else
    pdo t, l <- p_next l;
    pdo t, l <- p_type_of (run E n (CAny t) l);
    pdo tt, l <- panic_none (tuple_type 0%nat [t]) l;
    panic_none (tuple_parts 0%nat tt) l.

Lemma rets_list ts b : readable_list E ts b -> exists N, forall n, (N <= n)%nat -> p_rets n (feed (PCh 40 :: list_toks b ts ++ [PCh 41]) LEnd) = POk (map renewed ts, b) LEnd.
Proof.
  intros R. destruct (list_read ts b LEnd R) as (T & [N H] & Tp). exists N. intros n Hn. unfold p_rets. cbn [feed p_peek pbind tok]. change (is_tok 40 (mk_token [] 40)) with true. cbn iota. cbn [p_next pbind]. unfold pop_tuple, p_type_of. rewrite H by exact Hn. cbn [pbind Syntax.as_type skip_none]. now rewrite Tp.
Qed.
Lemma first_tok t : readable E t -> starts_paren t = false -> exists p ps, toks 0 t = p :: ps /\ is_tok 40 (tok p) = false /\ is_expression_end (t_type (tok p)) = false.
Proof.
  intros R So. destruct (tfirst E t R 0) as (p & ps & Et & St). exists p, ps. split; [exact Et|]. split.
  - assert (NP : forall u prio q qs, readable E u -> operator u = false -> toks prio u = q :: qs -> is_tok 40 (tok q) = false).
    { intros u prio q qs Ru Ou Eu. destruct u as [ | | | |x y i| |x y i| | |x y|s|s|x y| | |pp w|pp u| |pp e x y|pp ts b| |pp kt vt x y|pp a es|pp ts|pp vs|pp ts|pp ts|pp u|[u|]]; cbn [readable WriteProofs.toks operator] in Ru, Eu, Ou; try contradiction; try discriminate; try (injection Eu as <- _; reflexivity).
      - destruct (x =? min_int64); [destruct i|]; injection Eu as <- _; reflexivity.
      - destruct (SFeqb x min_float); [destruct i|]; injection Eu as <- _; reflexivity.
      - destruct w; cbn in Ru; try contradiction; cbn in Eu; injection Eu as <- _; reflexivity. }
    destruct (operator t) eqn:Ot; [|now apply (NP t 0 p ps)].
    destruct t as [ | | | |x y i| |x y i| | |x y|s|s|x y| | |pp w|pp u| |pp e x y|pp ts b| |pp kt vt x y|pp a es|pp ts|pp vs|pp ts|pp ts|pp u|[u|]]; try discriminate; cbn [readable] in R; destruct R as [R L]; (destruct ts as [|x ts]; [cbn in L; lia|]);
      cbn [map fold_right] in R; destruct R as [Rx _]; cbn [starts_paren] in So; cbn [WriteProofs.toks map] in Et; unfold ternary_toks in Et; cbn [Z.leb Z.compare] in Et; rewrite tjoin_cons in Et.
    + destruct (tfirst E x Rx 3) as (q & qs & Ex & _). rewrite Ex in Et. injection Et as <- _. now apply (NP x 3 q qs).
    + destruct (tfirst E x Rx 1) as (q & qs & Ex & _). rewrite Ex in Et. injection Et as <- _. now apply (NP x 1 q qs).
    + destruct (tfirst E x Rx 2) as (q & qs & Ex & _). rewrite Ex in Et. injection Et as <- _. now apply (NP x 2 q qs).
  - clear - St. destruct p; try reflexivity. cbn [startp existsb] in St. cbn [tok t_type]. unfold is_expression_end. cbn [existsb]. lia.
Qed.
Lemma rets_one t : readable E t -> t <> TNil -> starts_paren t = false -> exists N, forall n, (N <= n)%nat -> p_rets n (feed (toks 0 t) LEnd) = POk ([renewed t], false) LEnd.
Proof.
  intros R Nn So. destruct (first_tok t R So) as (p & ps & Et & N1 & N2). destruct (core_a E t 0 LEnd (core_all E t R) I) as (p' & ps' & Et' & [N H]). rewrite Et in Et'. injection Et' as <- <-.
  exists N. intros n Hn. rewrite Et. unfold p_rets. cbn [feed p_peek pbind]. rewrite N1, N2. cbn [p_next pbind]. rewrite H by exact Hn. unfold p_type_of. cbn [pbind]. rewrite (as_type_pv E) by exact R. cbn [skip_none pbind].
  unfold tuple_type, new_tuple_type. cbn [andb negb forallb]. rewrite renewed_exact, andb_true_r. destruct (is_exact t) eqn:X; [|reflexivity].
  destruct (exact_list [t]) as (l & E1 & E2); [now repeat constructor|cbn [forallb]; now rewrite X|intros [->|[]]; congruence|]. cbn [map] in E1, E2. rewrite E1. cbn [panic_none pbind tuple_parts]. now rewrite E2.
Qed.

Theorem func_read f : readable_func E f -> parse_func E (func_string E f) = POk (renewed_func f) LEnd.
Proof.
  intros R. pose proof (func_tokens f R) as Tk. destruct R as (Ra & Rr). set (rt := match ret_toks f with Some l => l | None => [] end) in *.
  assert (Rets : exists N, forall n, (N <= n)%nat -> p_rets n (feed rt LEnd) = POk (map renewed (f_rets f), f_rets_variadic f) LEnd).
  { unfold rt, ret_toks. destruct (f_rets f) as [|t [|t2 ts]].
    - exists O. intros n _. rewrite Rr. reflexivity.
    - destruct (f_rets_variadic f).
      + subst t. apply rets_list. repeat split; try discriminate. repeat constructor.
      + destruct Rr as (R1 & R2 & R3). now apply rets_one.
    - destruct Rr as (-> & R1). apply rets_list, R1. }
  destruct Rets as [N2 Rets]. destruct (list_read (f_args f) (f_variadic f) (feed rt LEnd) Ra) as (T & [N1 H] & Tp).
  apply (func_with _ (N1 + N2)). rewrite Tk. unfold func_toks. cbn [app feed]. unfold parse_func_tokens. cbn [p_next pbind tok]. change (is_tok t_identifier (mk_token (lit "func") t_identifier) && bytes_eqb (t_value (mk_token (lit "func") t_identifier)) (lit "func")) with true. cbn iota.
  cbn [p_peek pbind]. change (is_tok 61 (mk_token [] 40)) with false. cbn iota. unfold p_func, p_expect. cbn [p_next pbind]. change (is_tok 40 (mk_token [] 40)) with true. cbn iota. cbn [pbind].
  unfold pop_tuple at 1, p_type_of at 1. rewrite H by lia. cbn [pbind Syntax.as_type skip_none]. rewrite Tp. cbn [panic_none pbind]. specialize (Rets (N1 + N2)%nat ltac:(lia)).
  assert (X : forall (g : list ty * bool -> lexed -> pres fty) l, pbind (p_peek l) (fun t l0 => pbind (if is_tok 40 t then pbind (p_next l0) (fun _ l1 => pop_tuple (run E (N1 + N2) (CList 41 [] false 0) l1)) else if is_expression_end (t_type t) then POk ([], false) l0 else pbind (p_next l0) (fun t l1 => pbind (p_type_of (run E (N1 + N2) (CAny t) l1)) (fun t l2 => pbind (panic_none (tuple_type 0%nat [t]) l2) (fun tt l3 => panic_none (tuple_parts 0%nat tt) l3)))) g) = pbind (p_rets (N1 + N2) l) g).
  { intros g l. unfold p_rets. destruct (p_peek l); reflexivity. }
  rewrite X, Rets. cbn [pbind fst snd]. unfold new_function.
  assert (Y : f_rets_variadic f && negb match map renewed (f_rets f) with [TAny] => true | _ => false end = false).
  { destruct (f_rets_variadic f); [|reflexivity]. destruct (f_rets f) as [|t [|t2 ts]]; [discriminate|subst; reflexivity|destruct Rr; discriminate]. }
  rewrite Y. reflexivity.
Qed.

(* ---------- the same type, with the same text ---------- *)

Lemma renewed_types ts : Forall type_ok ts -> Forall2 (fun a b => type_eq a b = true) ts (map renewed ts).
Proof. induction 1; cbn [map]; constructor; auto. now apply renewed_equal. Qed.
Lemma texts_renewed ts prio : map (type_text E prio) (map renewed ts) = map (type_text E prio) ts.
Proof. rewrite map_map. apply map_ext. intros. apply text_renewed. Qed.
Theorem func_round f : readable_func E f -> Forall type_ok (f_args f) -> Forall type_ok (f_rets f) ->
  exists g, parse_func E (func_string E f) = POk g LEnd /\ same_func f g /\ func_string E g = func_string E f.
Proof.
  intros R Ka Kr. exists (renewed_func f). split; [now apply func_read|]. split; [repeat split; now apply renewed_types|].
  unfold func_string, func_text, renewed_func. cbn [f_args f_variadic f_rets f_rets_variadic]. rewrite texts_renewed. do 2 f_equal. destruct (f_rets f) as [|t [|t2 ts]]; cbn [map]; rewrite ?text_renewed; [reflexivity|reflexivity|]. rewrite texts_renewed. reflexivity.
Qed.
Theorem func_injective f g : readable_func E f -> readable_func E g -> func_string E f = func_string E g -> renewed_func f = renewed_func g.
Proof. intros Rf Rg Eq. pose proof (func_read f Rf) as Pf. pose proof (func_read g Rg) as Pg. rewrite Eq, Pg in Pf. assert (I : forall (a b : fty) l, POk a l = POk b l -> b = a) by (intros; congruence). exact (I _ _ _ Pf). Qed.
End Func.

Lemma operands_text E p l : any_of_text E (map XTy l) = type_text E 0 (TAnyOf p l) /\ all_of_text E (map XTy l) = type_text E 0 (TAllOf p l).
Proof. unfold any_of_text, all_of_text. rewrite !map_map. repeat split; reflexivity. Qed.
