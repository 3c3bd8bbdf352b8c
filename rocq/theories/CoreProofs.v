(* Parsing the text of a readable type gives the type again: the induction over the type. *)
From Coq Require Import Strings.Ascii Strings.String.
From Coq Require Import ZArith List Bool Lia.
From Coq Require Import Floats.SpecFloat.
From Verif Require Import Int64 Utf8 Text TextSpec HMap Data DataProofs Types InstProofs SubProofs Construct Print Lexer LexerSpec LexerProofs Syntax SyntaxSpec TokenProofs WriteProofs ParserProofs ReadProofs SyntaxProofs.
Import ListNotations.
Open Scope Z_scope.

Section Core.
Variable E : env.
Notation P := (e_print E).
Notation vtoks := (vtoks E).
Notation toks := (toks E).
Notation yields := (yields E).
Notation parse_t := (parse_t E).
Notation parse_u := (parse_u E).
Notation parse_a := (parse_a E).
Notation item := (item E).
Notation core := (core E).

Lemma scalar p ps l v : (forall rec, p_type E rec (tok p) (feed ps l) = POk v l) -> parse_t (p :: ps) v l.
Proof. exact (type_scalar E p ps l v). Qed.
Lemma word w l v : fol F l -> identifier_value w = Some v -> parse_t [PId w] v l.
Proof.
  intros Fl H. apply scalar. intros rec. destruct (peek_fol l Fl) as (t & Pk & N1 & N2 & N3 & _). unfold p_type. cbn -[p_peek p_identifier]. rewrite Pk. cbn [pbind]. rewrite N3. unfold p_identifier. cbn [t_value]. now rewrite H.
Qed.

Lemma integer_range x y i : in64 x -> in64 y -> x < y -> ~ (x = min_int64 /\ y = max_int64) -> integer_type 0%nat x y i = Some (TIntRange x y i).
Proof.
  intros Ix Iy L N. unfold integer_type. destruct (Z.eqb_spec x y); [lia|]. destruct (Z.ltb_spec y x); [lia|]. destruct (Z.eqb_spec x min_int64), (Z.eqb_spec y max_int64); cbn [andb]; auto. destruct N; auto.
Qed.
Lemma float_lt x y : SFltb x y = true -> SFeqb x y = false /\ SFltb y x = false.
Proof.
  intros H. assert (Nx : x <> S754_nan) by (intros ->; discriminate). assert (Ny : y <> S754_nan) by (intros ->; destruct x as [|[]| |]; discriminate).
  apply SFltb_iff in H; auto. unfold SFltb, SFeqb. rewrite (SFcompare_key x y), (SFcompare_key y x), (kcmp_opp (fkey x) (fkey y)), H by auto. auto.
Qed.
Lemma float_range x y i : SFltb x y = true -> SFeqb y max_float = false -> float_type 0%nat x y i = Some (TFloatRange x y i).
Proof. intros L N. unfold float_type. destruct (float_lt x y L) as [-> ->]. rewrite N, andb_false_r. reflexivity. Qed.

Lemma peek_dot i rest : p_peek (LTok (tok (dot_tok i)) rest) = POk (tok (dot_tok i)) (LTok (tok (dot_tok i)) rest) /\ is_tok t_dotdot (tok (dot_tok i)) || is_tok t_dotdotdot (tok (dot_tok i)) = true /\ is_tok t_dotdot (tok (dot_tok i)) = i.
Proof. destruct i; repeat split; reflexivity. Qed.

Lemma core_int_range x y i prio : in64 x -> in64 y -> x < y -> ~ (x = min_int64 /\ y = max_int64) -> forall l, fol F l -> parse_t (toks prio (TIntRange x y i)) (PT (TIntRange x y i)) l.
Proof.
  intros Ix Iy L N l Fl. destruct (peek_fol l Fl) as (t & Pk & _ & _ & _ & _ & _ & Ni & Nf). cbn [WriteProofs.toks]. destruct (Z.eqb_spec x min_int64) as [X|X]; cbn [app].
  - destruct (Z.eqb_spec y max_int64) as [Y|Y]; [tauto|]. apply scalar. intros rec. unfold p_type.
    assert (D : p_dots E (tok (dot_tok i)) (feed [PInt y] l) = POk (PT (TIntRange x y i)) l).
    { unfold p_dots. cbn [feed p_next pbind tok]. change (is_tok t_integer (mk_token (itoa y) t_integer)) with true. cbn iota. cbn [t_value]. destruct (peek_dot i l) as (_ & _ & ->). rewrite token_int_itoa by auto. rewrite <- X. rewrite integer_range by auto. reflexivity. }
    destruct i; exact D.
  - apply scalar. intros rec. unfold p_type. change (p_integer E (tok (PInt x)) (feed (dot_tok i :: (if y =? max_int64 then [] else [PInt y])) l) = POk (PT (TIntRange x y i)) l).
    unfold p_integer. cbn [feed t_value tok]. rewrite token_int_itoa by auto. destruct (peek_dot i (feed (if y =? max_int64 then [] else [PInt y]) l)) as (-> & D & D2). cbn [pbind]. rewrite D, D2. cbn [p_next pbind].
    destruct (Z.eqb_spec y max_int64) as [Y|Y]; cbn [feed].
    + rewrite Pk. cbn [pbind]. rewrite Ni, Nf. rewrite <- Y. rewrite integer_range by auto. reflexivity.
    + cbn [p_peek pbind tok]. change (is_tok t_integer (mk_token (itoa y) t_integer)) with true. cbn iota. cbn [p_next pbind t_value]. rewrite token_int_itoa by auto. rewrite integer_range by auto. reflexivity.
Qed.
Lemma core_float_range x y i prio : readable E (TFloatRange x y i) -> forall l, fol F l -> parse_t (toks prio (TFloatRange x y i)) (PT (TFloatRange x y i)) l.
Proof.
  intros (L & Hx & Ny & expo & _ & Vy) l Fl. cbn [WriteProofs.toks]. rewrite Ny. destruct Hx as [->|[Nx [_ Vx]]].
  - replace (SFeqb min_float min_float) with true by reflexivity. cbn [app]. apply scalar. intros rec. unfold p_type.
    assert (D : p_dots E (tok (dot_tok i)) (feed [PFlt (e_ftoa E y)] l) = POk (PT (TFloatRange min_float y i)) l).
    { unfold p_dots. cbn [feed p_next pbind tok]. change (is_tok t_integer (mk_token (e_ftoa E y) t_float)) with false. change (is_tok t_float (mk_token (e_ftoa E y) t_float)) with true. cbn iota. cbn [t_value]. destruct (peek_dot i l) as (_ & _ & ->). rewrite Vy. rewrite float_range by auto. reflexivity. }
    destruct i; exact D.
  - rewrite Nx. cbn [app]. apply scalar. intros rec. unfold p_type. change (p_float E (tok (PFlt (e_ftoa E x))) (feed [dot_tok i; PFlt (e_ftoa E y)] l) = POk (PT (TFloatRange x y i)) l).
    unfold p_float. cbn [feed t_value tok]. rewrite Vx. destruct (peek_dot i (feed [PFlt (e_ftoa E y)] l)) as (Pk & D & D2). cbn [feed tok] in Pk. rewrite Pk. cbn [pbind]. rewrite D, D2. cbn [p_next pbind].
    change (is_tok t_integer (mk_token (e_ftoa E y) t_float)) with false. change (is_tok t_float (mk_token (e_ftoa E y) t_float)) with true. cbn [orb]. cbn iota. cbn [t_value]. rewrite Vy. rewrite float_range by auto. reflexivity.
Qed.

Lemma p_type_word w ps l rec : (exists t, p_peek (feed ps l) = POk t (feed ps l) /\ is_tok 61 t = false) -> p_type E rec (tok (PId w)) (feed ps l) = p_identifier E rec (tok (PId w)) (feed ps l).
Proof. intros (t & Pk & N). unfold p_type. cbn -[p_peek p_identifier feed]. rewrite Pk. cbn [pbind]. now rewrite N. Qed.

Lemma sized_string x y : bounds x y -> ~ (x = 0 /\ y = max_int64) -> string_of_args (size_args x y) = Some (TStrSized x y).
Proof.
  intros (B1 & B2 & B3) N. assert (G : sized_string_type x y = TStrSized x y).
  { unfold sized_string_type. destruct (Z.ltb_spec x 0); [lia|]. destruct (Z.ltb_spec y x); [lia|]. destruct (Z.eqb_spec x 0), (Z.eqb_spec y max_int64); cbn [andb]; auto. destruct N; auto. }
  unfold size_args. destruct (Z.eqb_spec y max_int64) as [Y|]; cbn [string_of_args arg_int]; [rewrite <- Y|]; now rewrite G.
Qed.
Lemma core_str_sized x y prio : bounds x y -> ~ (x = 0 /\ y = max_int64) -> forall l, fol F l -> parse_t (toks prio (TStrSized x y)) (PT (TStrSized x y)) l.
Proof.
  intros B N l Fl. cbn [WriteProofs.toks]. assert (U : unbounded x y = false). { unfold unbounded. destruct (Z.eqb_spec x 0), (Z.eqb_spec y max_int64); cbn [andb]; auto. destruct N; auto. } rewrite U.
  destruct (params_size E x y l B) as [M H]. eexists _, _. split; [reflexivity|]. apply (y_intro _ _ _ _ _ M). intros n Ln. cbn [p_call]. rewrite p_type_word by (eexists; split; reflexivity).
  unfold p_identifier. change (identifier_value (t_value (tok (PId (lit "string"))))) with (@None pval). cbn iota. change (bytes_eqb (t_value (tok (PId (lit "string")))) (lit "map")) with false. change (bytes_eqb (t_value (tok (PId (lit "string")))) (lit "type")) with false. change (bytes_eqb (t_value (tok (PId (lit "string")))) (lit "string")) with true. cbn iota.
  unfold p_string. cbn [feed p_peek pbind tok]. change (is_tok 91 (mk_token [] 91)) with true. cbn iota. cbn [p_next pbind]. rewrite feed_app. cbn [feed tok]. rewrite H by exact Ln. cbn [pbind]. rewrite sized_string by auto. reflexivity.
Qed.
Lemma core_sens p t prio : readable E t -> as_value t = false -> core t -> forall l, fol F l -> parse_t (toks prio (TSens p t)) (PT (renewed (TSens p t))) l.
Proof.
  intros R A C l Fl. cbn [WriteProofs.toks renewed]. destruct (is_any t).
  - destruct (peek_fol l Fl) as (k & Pk & _ & _ & N3 & N4 & N5 & _). apply scalar. intros rec. rewrite p_type_word by eauto. cbn [feed]. unfold p_identifier. cbn -[p_sensitive default_sensitive]. unfold p_sensitive. rewrite Pk. cbn [pbind]. rewrite N4, N5. reflexivity.
  - destruct (params_last E (toks prio t) (pv t) l []) as [M H]; [apply core_a; [exact C|reflexivity]|now apply tsecond|now apply tfirst|]. cbn [app] in H. rewrite (pv_type E) in H by assumption.
    eexists _, _. split; [reflexivity|]. apply (y_intro _ _ _ _ _ M). intros n Ln. cbn [p_call]. rewrite p_type_word by (eexists; split; reflexivity).
    unfold p_identifier. change (identifier_value (t_value (tok (PId (lit "sensitive"))))) with (@None pval). cbn iota. change (bytes_eqb (t_value (tok (PId (lit "sensitive")))) (lit "map")) with false. change (bytes_eqb (t_value (tok (PId (lit "sensitive")))) (lit "type")) with false. change (bytes_eqb (t_value (tok (PId (lit "sensitive")))) (lit "string")) with false. change (bytes_eqb (t_value (tok (PId (lit "sensitive")))) (lit "sensitive")) with true. cbn iota.
    unfold p_sensitive. cbn [feed p_peek pbind tok]. change (is_tok 91 (mk_token [] 91)) with true. cbn iota. cbn [p_next pbind]. rewrite feed_app. cbn [feed tok]. rewrite H by exact Ln. reflexivity.
Qed.
Lemma core_meta t prio : readable E t -> core t -> forall l, fol F l -> parse_t (toks prio (TMeta (Some t))) (PT (renewed (TMeta (Some t)))) l.
Proof.
  intros R C l Fl. cbn [WriteProofs.toks renewed]. destruct (is_any t) eqn:A.
  - destruct t; try discriminate. destruct (peek_fol l Fl) as (k & Pk & _ & _ & N3 & N4 & N5 & _). apply scalar. intros rec. rewrite p_type_word by eauto. cbn [feed]. unfold p_identifier. cbn -[p_meta]. unfold p_meta. rewrite Pk. cbn [pbind]. rewrite N4. reflexivity.
  - destruct (core_a E t prio (LTok (mk_token [] 93) l) C) as (q & qs & Et & [M H]); [reflexivity|]. eexists _, _. split; [reflexivity|]. apply (y_intro _ _ _ _ _ M). intros n Ln. cbn [p_call]. rewrite p_type_word by (eexists; split; reflexivity).
    unfold p_identifier. change (identifier_value (t_value (tok (PId (lit "type"))))) with (@None pval). cbn iota. change (bytes_eqb (t_value (tok (PId (lit "type")))) (lit "map")) with false. change (bytes_eqb (t_value (tok (PId (lit "type")))) (lit "type")) with true. cbn iota.
    unfold p_meta. cbn [feed p_peek pbind tok]. change (is_tok 91 (mk_token [] 91)) with true. cbn iota. cbn [p_next pbind]. rewrite Et, feed_app. cbn [feed tok p_next pbind]. rewrite H by exact Ln. unfold p_type_of. cbn [pbind]. rewrite (as_type_pv E) by exact R. reflexivity.
Qed.
Lemma core_array p e x y prio : readable E (TArrSized p e x y) -> core e -> forall l, fol F l -> parse_t (toks prio (TArrSized p e x y)) (PT (renewed (TArrSized p e x y))) l.
Proof.
  intros (R & B & N1 & N2 & Pf) C l Fl. cbn [WriteProofs.toks renewed].
  destruct (core_t E e 4 l C) as (q & qs & Et & [M H]); [right; lia|exact Pf|exact Fl|]. destruct (params_args E x y (feed (toks 4 e) l) B) as [M2 H2].
  eexists _, _. split; [reflexivity|]. apply (y_intro _ _ _ _ _ (M + M2)). intros n Ln. cbn [p_call tok]. unfold p_type. change (is_tok 123 (mk_token [] 91)) with false. change (is_tok 40 (mk_token [] 91)) with false. change (is_tok 91 (mk_token [] 91)) with true. cbn iota.
  unfold p_array. rewrite feed_app. cbn [feed tok]. rewrite H2 by lia. cbn [pbind]. rewrite Et. cbn [feed p_next pbind]. rewrite H by lia. unfold p_type_of. cbn [pbind]. rewrite (as_type_pv E) by exact R. cbn [skip_none pbind].
  rewrite array_of_args; [reflexivity|exact B| |]. { intros (X1 & X2 & X3). apply N1. repeat split; auto. now apply any_renewed. } { now rewrite renewed_exact. }
Qed.
Lemma core_map p k v x y prio : readable E (TMapSized p k v x y) -> core k -> core v -> forall l, fol F l -> parse_t (toks prio (TMapSized p k v x y)) (PT (renewed (TMapSized p k v x y))) l.
Proof.
  intros (Rk & Rv & B & N1 & Pf) Ck Cv l Fl. cbn [WriteProofs.toks renewed].
  set (after := feed (PCh 93 :: toks 4 v) l). set (rest := feed (if unbounded x y then [] else PCh 44 :: size_toks x y) after).
  assert (Fr : fol F0 rest). { unfold rest. destruct (unbounded x y); reflexivity. }
  destruct (core_a E k 0 rest Ck Fr) as (q & qs & Ek & [M H]). destruct (core_t E v 4 l Cv) as (q' & qs' & Ev & [M' H']); [right; lia|exact Pf|exact Fl|].
  destruct (params_args E x y (feed (toks 4 v) l) B) as [M2 H2].
  eexists _, _. split; [reflexivity|]. apply (y_intro _ _ _ _ _ (M + M' + M2)). intros n Ln. cbn [p_call]. rewrite p_type_word by (eexists; split; reflexivity).
  unfold p_identifier. change (identifier_value (t_value (tok (PId (lit "map"))))) with (@None pval). cbn iota. change (bytes_eqb (t_value (tok (PId (lit "map")))) (lit "map")) with true. cbn iota.
  unfold p_map, p_expect. cbn [feed p_next pbind tok]. change (is_tok 91 (mk_token [] 91)) with true. cbn iota. cbn [pbind]. rewrite !feed_app. change (feed (PCh 93 :: toks 4 v) l) with after. fold rest. rewrite Ek. cbn [feed p_next pbind]. rewrite H by lia. unfold p_type_of at 1. cbn [pbind]. rewrite (as_type_pv E) by exact Rk. cbn [skip_none pbind].
  assert (Z : pbind (p_next rest) (fun n0 l0 => if is_tok 44 n0 then run E n (CParams []) l0 else if is_tok 93 n0 then POk [] l0 else PPanic) = POk (args x y) (feed (toks 4 v) l)).
  { unfold rest, after, args in *. destruct (unbounded x y); cbn [feed p_next pbind tok]; [reflexivity|]. change (is_tok 44 (mk_token [] 44)) with true. cbn iota. apply H2. lia. }
  assert (Z' : forall A (g : list pval -> lexed -> pres A), pbind (p_next rest) (fun n0 l0 => pbind (if is_tok 44 n0 then run E n (CParams []) l0 else if is_tok 93 n0 then POk [] l0 else PPanic) g) = pbind (pbind (p_next rest) (fun n0 l0 => if is_tok 44 n0 then run E n (CParams []) l0 else if is_tok 93 n0 then POk [] l0 else PPanic)) g).
  { intros A g. destruct (p_next rest); reflexivity. }
  rewrite Z', Z. cbn [pbind]. rewrite Ev. cbn [feed p_next pbind]. rewrite H' by lia. unfold p_type_of. cbn [pbind]. rewrite (as_type_pv E) by exact Rv. cbn [skip_none pbind].
  rewrite map_of_args; [reflexivity|exact B|]. intros (X1 & X2 & X3 & X4). apply N1. repeat split; auto; now apply any_renewed.
Qed.

(* ---------- tuples ---------- *)

Lemma items_types ts : Forall (fun t => readable E t) ts -> Forall core ts -> forallb (fun t => negb (starts_open t)) ts = true -> Forall2 (item 0) (map (toks 0) ts) (map pv ts).
Proof.
  induction 1 as [|t ts R HR IH]; intros C S; cbn [map]; constructor; inversion C; subst; cbn [forallb] in S; apply andb_true_iff in S as [S1 S2]; [|now apply IH]. apply item_type; auto. now apply negb_true_iff in S1.
Qed.
Lemma exact_renewed ts : forallb is_exact (map renewed ts) = forallb is_exact ts.
Proof. induction ts as [|t ts IH]; [reflexivity|]. cbn [map forallb]. now rewrite renewed_exact, IH. Qed.
Lemma any_renewed_all ts : forallb is_any (map renewed ts) = forallb is_any ts.
Proof. induction ts as [|t ts IH]; [reflexivity|]. cbn [map forallb]. now rewrite renewed_any, IH. Qed.

Lemma core_tuple p ts b prio : readable E (TTuple p ts b) -> Forall core ts -> forall l, fol F l -> parse_t (toks prio (TTuple p ts b)) (PT (renewed (TTuple p ts b))) l.
Proof.
  intros (R & N & X & S) C l Fl. apply fold_and in R. cbn [WriteProofs.toks renewed]. apply brace. destruct b; cbn [andb].
  - destruct (@exists_last _ ts N) as (init & t & Et). assert (Eq : removelast ts = init) by (rewrite Et; apply removelast_last). rewrite Eq in S. rewrite Et in R, C. apply Forall_app in R as [Ri Rt]. apply Forall_app in C as [Ci Ct]. apply Forall_inv in Rt as Rt'. apply Forall_inv in Ct as Ct'. subst ts.
    rewrite map_app. cbn [map]. rewrite tvariadic_snoc, <- app_assoc, feed_app. eapply list_more; [now apply items_types|now left|]. cbn [app].
    destruct (core_a E t 0 (LTok (mk_token [] 125) l) Ct') as (q & qs & Eq' & [M H]); [reflexivity|]. apply (y_intro _ _ _ _ _ M). intros n Ln. cbn [p_call feed]. rewrite Eq'. cbn [app feed]. rewrite feed_app. cbn [feed tok]. unfold p_list. cbn [p_next pbind]. change (is_tok t_dotdotdot (mk_token [] t_dotdotdot)) with true.
    cbn iota. cbn [p_next pbind]. assert (St : is_tok 125 (tok q) = false). { destruct (tfirst E t Rt' 0) as (q' & r' & E1 & E2). rewrite Eq' in E1. injection E1 as <- <-. now apply startp_not. } rewrite St. cbn [andb].
    replace ((if map (toks 0) init then 1 else 0) =? 2) with false by (destruct (map (toks 0) init); reflexivity). cbn iota. rewrite H by exact Ln. unfold p_type_of. cbn [pbind]. rewrite (as_type_pv E) by exact Rt'. cbn [skip_none pbind p_next].
    assert (A : exists a, array_of (renewed t) [PV (VInt 0); PV (VInt max_int64)] = Some a /\ last_element_type a = Some (Some (renewed t))).
    { unfold array_of, arg_int, new_array_type. cbn [or_any]. change (max_int64 <? 0) with false. change (0 <? 0) with false. cbn iota. change (0 =? 1) with false. change (0 =? 0) with true. change (max_int64 =? max_int64) with true. cbn [andb]. destruct (is_any (renewed t)) eqn:Ia; eexists; (split; [reflexivity|]); [|reflexivity]. destruct (renewed t); try discriminate. reflexivity. }
    destruct A as (a & -> & A). cbn [panic_none pbind]. unfold p_list_from. change (is_tok 125 (mk_token [] 125)) with true. cbn iota. unfold finish_list. destruct (map pv init ++ [PT a]) as [|v0 vs0] eqn:Ev; [destruct (map pv init); discriminate|]. rewrite <- Ev. change (0 =? 2) with false. cbn iota. unfold make_tuple.
    rewrite as_types_app, (as_types_pv E) by exact Ri. cbn [as_types as_type skip_none pbind]. rewrite last_last, removelast_last, A. cbn [skip_none panic_none pbind].
    replace (map renewed init ++ [renewed t]) with (map renewed (init ++ [t])) by now rewrite map_app. unfold variadic_tuple_type, new_tuple_type. destruct (map renewed (init ++ [t])) as [|r0 rs0] eqn:Er; [destruct init; discriminate|]. rewrite <- Er. rewrite map_length, any_renewed_all. cbn [andb negb].
    destruct (Nat.eqb _ _ && forallb is_any _); reflexivity.
  - apply (list_items E 0 (map (toks 0) ts) (map pv ts)); [now apply items_types|destruct ts; [congruence|discriminate]|].
    unfold finish_list. destruct (map pv ts) as [|v0 vs0] eqn:Ev; [destruct ts; [congruence|discriminate]|]. rewrite <- Ev. change (0 =? 2) with false. cbn iota. unfold make_tuple. rewrite (as_types_pv E) by exact R. cbn [skip_none pbind].
    unfold tuple_type, new_tuple_type. destruct (map renewed ts) as [|r0 rs0] eqn:Er; [destruct ts; [congruence|discriminate]|]. rewrite <- Er. cbn [andb negb]. rewrite exact_renewed, (X eq_refl). reflexivity.
Qed.

(* ---------- structs ---------- *)

Notation ent := (value * ty * bool)%type.
Definition pe (e : ent) : pval := PE (pvv (fst (fst e))) (pv (snd (fst e))) (negb (snd e)).
Definition ete (e : ent) : ty * ty * bool := (TExact 0%nat (fst (fst e)), renewed (snd (fst e)), snd e).
Definition etoks (e : ent) : list pt := vtoks (fst (fst e)) ++ (if snd e then [] else [PCh 63]) ++ PCh 58 :: toks 0 (snd (fst e)).
Definition ent_ok (e : ent) : Prop := readable_value E (fst (fst e)) /\ readable E (snd (fst e)) /\ key_ok (fst (fst e)) (snd e).

Lemma struct_entries_pe es : Forall ent_ok es -> struct_entries (map pe es) = Some (map ete es).
Proof. induction 1 as [|e es (H1 & H2 & _) HF IH]; [reflexivity|]. cbn [map struct_entries pe]. now rewrite (as_type_pvv E), (as_type_pv E), IH, negb_involutive by assumption. Qed.
Lemma exact_keys es : exact_values (map (fun e : ty * ty * bool => fst (fst e)) (map ete es)) = Some (map (fun e : ent => fst (fst e)) es).
Proof. induction es as [|e es IH]; [reflexivity|]. cbn [map exact_values exact_value ete fst]. now rewrite IH. Qed.
Lemma combine_keys es : combine (combine (map (fun e : ent => fst (fst e)) es) (map (fun e : ty * ty * bool => snd (fst e)) (map ete es))) (map snd (map ete es)) = map (fun e : ent => (fst (fst e), renewed (snd (fst e)), snd e)) es.
Proof. induction es as [|e es IH]; [reflexivity|]. cbn [map combine ete fst snd]. f_equal. exact IH. Qed.
Lemma make_struct_pe a es l : Forall ent_ok es -> (a = false -> forallb (fun e : ent => snd e && is_exact (snd (fst e))) es = false) ->
  make_struct (map pe es) a l = POk (PT (TStruct 0%nat a (map (fun e : ent => (fst (fst e), renewed (snd (fst e)), snd e)) es))) l.
Proof.
  intros H X. unfold make_struct. rewrite struct_entries_pe by exact H. cbn [panic_none pbind]. unfold struct_map_type.
  assert (K : forallb (fun e : ty * ty * bool => is_exact (fst (fst e))) (map ete es) = true). { clear X. induction H as [|e es (H1 & _) HF IH]; [reflexivity|]. cbn [map forallb ete fst]. now rewrite exact_readable with (E := E), IH. }
  assert (V : forallb (fun e : ty * ty * bool => snd e && is_exact (fst (fst e)) && is_exact (snd (fst e))) (map ete es) = forallb (fun e : ent => snd e && is_exact (snd (fst e))) es).
  { clear X K. induction H as [|e es (H1 & _) HF IH]; [reflexivity|]. cbn [map forallb]. rewrite IH. unfold ete at 1 2 3. cbn [fst snd]. now rewrite (exact_readable E) , andb_true_r, renewed_exact. }
  rewrite V, K, exact_keys, combine_keys. destruct a; cbn [negb andb]; [reflexivity|]. rewrite X by reflexivity. reflexivity.
Qed.
Lemma items_entries es : Forall ent_ok es -> Forall (fun e : ent => core (snd (fst e))) es -> Forall2 (item 2) (map etoks es) (map pe es).
Proof.
  induction 1 as [|e es (H1 & H2 & H3) HF IH]; intros C; cbn [map]; constructor; inversion C; subst; [|now apply IH].
  apply item_entry; auto; [now apply core_value|]. intros l Fl. apply core_a; auto. eapply fol_weaken; [exact Fl|reflexivity].
Qed.
Lemma tjoin_more l r : l <> [] -> tjoin 44 l ++ PCh 44 :: r = flat_map (fun ts => ts ++ [PCh 44]) l ++ r.
Proof.
  induction l as [|x l IH]; [congruence|]. intros _. destruct l as [|y l]; [cbn [tjoin flat_map]; rewrite app_nil_r, <- app_assoc; reflexivity|].
  change (tjoin 44 (x :: y :: l)) with (x ++ PCh 44 :: tjoin 44 (y :: l)). rewrite <- app_assoc. cbn [app]. rewrite IH by discriminate. change (flat_map (fun ts => ts ++ [PCh 44]) (x :: y :: l)) with ((x ++ [PCh 44]) ++ flat_map (fun ts => ts ++ [PCh 44]) (y :: l)). rewrite <- !app_assoc. reflexivity.
Qed.

Lemma core_struct p a es prio : readable E (TStruct p a es) -> Forall (fun e : ent => core (snd (fst e))) es -> forall l, fol F l -> parse_t (toks prio (TStruct p a es)) (PT (renewed (TStruct p a es))) l.
Proof.
  intros (R & X) C l Fl. apply fold_and in R. assert (H : Forall ent_ok es) by exact R. cbn [WriteProofs.toks renewed]. apply brace. change (map _ es) with (map etoks es) at 1.
  pose proof (make_struct_pe a es l H X) as Ms. destruct es as [|e0 es0].
  - destruct a; [|now specialize (X eq_refl)]. apply (y_intro _ _ _ _ _ 0). intros; reflexivity.
  - set (es := e0 :: es0) in *. assert (Fin : finish_list (map pe es) a 2 l = POk (PT (TStruct 0%nat a (map (fun e : ent => (fst (fst e), renewed (snd (fst e)), snd e)) es))) l) by exact Ms. destruct a; cbn [app].
    + rewrite tjoin_more by discriminate. rewrite feed_app. eapply list_more; [now apply items_entries|now left|]. cbn [app]. change (if map etoks es then 1 else 2) with 2. apply (y_intro _ _ _ _ _ 0). intros n _. exact Fin.
    + apply (list_items E 2 _ (map pe es)); [now apply items_entries|discriminate|exact Fin].
Qed.

(* ---------- all types ---------- *)

Lemma operands_core ts k : 1 <= k -> Forall core ts -> Forall2 (operand E) (map (toks k) ts) (map pv ts).
Proof. intros L. induction 1 as [|t ts C HC IH]; cbn [map]; constructor; auto. intros l Fl. apply core_u; auto. Qed.

Lemma core_all t : readable E t -> core t.
Proof.
  induction t as [ | | | |x y i| |x y i| | |x y|s|s|x y| | |p v|p t IHt| |p e x y IHe|p ts b IHts| |p k v x y IHk IHv|p a es IHes|p ts IHts|p vs|p ts IHts|p ts IHts|p t IHt| |t IHt] using ty_ind';
    intros R; try contradiction; unfold SyntaxProofs.core; cbn [ternary prefixed]; try (intros prio l Fl; now apply word).
  - intros prio l Fl. cbn [readable] in R. apply core_int_range; tauto.
  - intros prio l Fl. now apply core_float_range.
  - intros prio l Fl. apply scalar. intros rec. destruct (peek_fol l Fl) as (k & Pk & _ & _ & N3 & N4 & N5 & _). rewrite p_type_word by eauto. cbn [feed]. unfold p_identifier. cbn -[p_string]. unfold p_string. rewrite Pk. cbn [pbind]. rewrite N4. reflexivity.
  - intros prio l Fl. cbn [readable] in R. apply core_str_sized; tauto.
  - intros prio l Fl. destruct R as [(cs & -> & Fc) Lw]. cbn [WriteProofs.toks pv renewed]. eexists _, _. split; [reflexivity|]. apply (y_intro _ _ _ _ _ 1). intros n Ln. cbn [p_call]. unfold p_unary. destruct n as [|n]; [lia|]. cbn -[run runes e_lower encode]. cbn [run p_call]. unfold p_type. cbn -[runes e_lower encode]. rewrite runes_encode by (eapply literal_chars; exact Fc). now rewrite Lw.
  - intros prio l Fl. destruct R as [(cs & -> & Fc) Cm]. cbn [WriteProofs.toks pv renewed]. apply scalar. intros rec. unfold p_type. cbn -[runes encode]. rewrite runes_encode by (eapply pattern_chars; exact Fc). now rewrite Cm.
  - intros prio l Fl. destruct R as [-> ->]. now apply word.
  - intros prio l Fl. cbn [WriteProofs.toks pv]. now apply core_value.
  - intros prio l Fl. destruct R as [R A]. apply core_sens; auto.
  - intros prio l Fl. eexists _, _. split; [reflexivity|]. apply (y_intro _ _ _ _ _ 2). intros n Ln. destruct n as [|[|n]]; try lia. destruct (peek_fol l Fl) as (t & Pk & _ & _ & N3 & _). unfold feed. cbn -[p_peek]. rewrite Pk. cbn -[p_peek]. rewrite N3. reflexivity.
  - intros prio l Fl. apply core_array; auto. apply IHe. apply R.
  - intros prio l Fl. apply core_tuple; auto. destruct R as [R _]. apply fold_and in R. rewrite Forall_forall in *. auto.
  - intros prio l Fl. eexists _, _. split; [reflexivity|]. apply (y_intro _ _ _ _ _ 8). intros n Ln. do 8 (destruct n as [|n]; [lia|]). destruct (peek_fol l Fl) as (t & Pk & _ & _ & N3 & _). destruct l as [ | | |t0 l0]; try contradiction; [reflexivity|]. injection Pk as <-. unfold is_tok in N3. vm_compute. vm_compute in N3. rewrite N3. reflexivity.
  - intros prio l Fl. apply core_map; auto; [apply IHk|apply IHv]; apply R.
  - intros prio l Fl. apply core_struct; auto. destruct R as [R _]. apply fold_and in R. rewrite Forall_forall in *. intros e He. apply IHes; auto. now apply R.
  - intros l Fl. destruct R as [R L]. apply fold_and in R. assert (C : Forall core ts) by (rewrite Forall_forall in *; auto). cbn [WriteProofs.toks pv renewed]. unfold ternary_toks. cbn [Z.leb Z.compare].
    replace (TAllOf 0 (map renewed ts)) with (all_of_type 0 (map renewed ts)) by (destruct ts as [|? [|? ?]]; cbn in L; try lia; reflexivity). apply (all_of_any E _ (map pv ts)); auto; [apply operands_core; auto; lia|now rewrite map_length|now apply (as_types_pv E)].
  - intros l Fl. destruct R as [R L]. apply fold_and in R. assert (C : Forall core ts) by (rewrite Forall_forall in *; auto). cbn [WriteProofs.toks pv renewed]. unfold ternary_toks. cbn [Z.leb Z.compare].
    replace (TAnyOf 0 (map renewed ts)) with (any_of_type 0 (map renewed ts)) by (destruct ts as [|? [|? ?]]; cbn in L; try lia; reflexivity). apply (any_of_any E _ (map pv ts)); auto; [apply operands_core; auto; lia|now rewrite map_length|now apply (as_types_pv E)].
  - intros l Fl. destruct R as [R L]. apply fold_and in R. assert (C : Forall core ts) by (rewrite Forall_forall in *; auto). cbn [WriteProofs.toks pv renewed]. unfold ternary_toks. cbn [Z.leb Z.compare].
    replace (TOneOf 0 (map renewed ts)) with (one_of_type 0 (map renewed ts)) by (destruct ts as [|? [|? ?]]; cbn in L; try lia; reflexivity). apply (one_of_any E _ (map pv ts)); auto; [apply operands_core; auto; lia|now rewrite map_length|now apply (as_types_pv E)].
  - intros prio l Fl. destruct R as [R N]. cbn [WriteProofs.toks pv renewed]. destruct (core_u E t 4 l (IHt R)) as (q & qs & Et & [M H]); [right; lia|exact Fl|]. rewrite Et. eexists _, _. split; [reflexivity|].
    apply (y_intro _ _ _ _ _ (S M)). intros n Ln. cbn [p_call feed tok]. unfold p_unary. change (is_tok 33 (mk_token [] 33)) with true. cbn iota. cbn [p_next pbind].
    assert (Q : is_tok 33 (tok q) = false). { clear - R Et N. destruct t as [ | | | |x y i| |x y i| | |x y|s|s|x y| | |pp w|pp u| |pp e x y|pp ts b| |pp kt vt x y|pp a es|pp ts|pp vs|pp ts|pp ts|pp u|[u|]]; cbn [readable WriteProofs.toks] in R, Et; try contradiction; try (injection Et as <- _; reflexivity).
      - destruct (x =? min_int64), i; injection Et as <- _; reflexivity.
      - destruct (SFeqb x min_float), i; injection Et as <- _; reflexivity.
      - destruct w; cbn in R; try contradiction; cbn in Et; injection Et as <- _; reflexivity. }
    specialize (H (S n) ltac:(lia)). cbn [run p_call] in H. unfold p_unary in H. rewrite Q in H. rewrite H. cbn [pbind]. rewrite (as_type_pv E) by exact R. cbn [skip_none pbind]. assert (Nt : not_type 0%nat (renewed t) = TNot 0%nat (renewed t)); [|now rewrite Nt]. clear - N. destruct t as [ | | | |x y i| |x y i| | |x y|s|s|x y| | |pp w|pp u| |pp e x y|pp ts b| |pp kt vt x y|pp a es|pp ts|pp vs|pp ts|pp ts|pp u|[u|]]; try contradiction; try reflexivity; cbn [renewed]; [destruct (is_any u); reflexivity|]. destruct (_ && _); reflexivity.
  - intros prio l Fl. apply core_meta; auto.
Qed.

Theorem type_read t : readable E t -> parse_type E (type_string E t) = POk (renewed t) LEnd.
Proof.
  intros R. destruct (core_a E t 0 LEnd (core_all t R) I) as (q & qs & Et & [M H]). apply (parse_with E _ M). rewrite type_tokens by exact R. rewrite Et. unfold parse_tokens. cbn [feed p_next pbind]. rewrite H by lia. cbn [pbind p_next]. change (is_tok t_end end_token) with true. cbn iota. unfold p_type_of. cbn [pbind]. now rewrite (as_type_pv E).
Qed.
End Core.
