(* Parsing the text of a readable type gives the type again. *)
From Coq Require Import Strings.Ascii Strings.String.
From Coq Require Import ZArith List Bool Lia.
From Coq Require Import Floats.SpecFloat.
From Verif Require Import Int64 Utf8 Text TextSpec HMap Data DataProofs Types InstProofs SubProofs Construct Print Lexer LexerSpec LexerProofs Syntax SyntaxSpec TokenProofs WriteProofs ParserProofs ReadProofs.
Import ListNotations.
Open Scope Z_scope.

Section Read.
Variable E : env.
Notation P := (e_print E).
Notation vtoks := (vtoks E).
Notation toks := (toks E).
Notation yields := (yields E).
Notation parse_t := (parse_t E).
Notation parse_u := (parse_u E).
Notation parse_a := (parse_a E).
Notation item := (item E).

(* ---------- the first two tokens ---------- *)

Definition startp (p : pt) : bool := match p with PCh c => existsb (Z.eqb c) [33; 126; 123; 40; 91] | _ => true end.
Definition first (ts : list pt) : Prop := exists p r, ts = p :: r /\ startp p = true.
Definition named_pair (p q : pt) : bool := (is_tok t_identifier (tok p) && is_tok 58 (tok q)) || is_tok 63 (tok q).
Definition second (ts : list pt) : Prop := match ts with p :: q :: _ => named_pair p q = false | _ => True end.

Lemma startp_not p c : startp p = true -> existsb (Z.eqb c) [44; 58; 63; 93; 125; 61; 38; 94; 124; 41] = true -> is_tok c (tok p) = false.
Proof.
  intros S C. unfold is_tok. destruct (Z.eqb_spec (t_type (tok p)) c) as [<-|]; [|reflexivity]. destruct p; cbn in S, C; try discriminate. lia.
Qed.
Lemma pair_start p q : startp q = true -> named_pair p q = false.
Proof. intros S. unfold named_pair. rewrite !(startp_not q) by auto. now rewrite andb_false_r. Qed.
Lemma second_first p ts : first ts -> second (p :: ts).
Proof. intros (q & r & -> & S). now apply pair_start. Qed.
Lemma first_app a b : first a -> first (a ++ b).
Proof. intros (p & r & -> & S). exists p, (r ++ b). auto. Qed.
Lemma first_tjoin {A} c (g : A -> list pt) l : l <> [] -> (forall x, In x l -> first (g x)) -> first (tjoin c (map g l)).
Proof. intros N H. destruct l as [|x l]; [congruence|]. cbn [map]. rewrite tjoin_cons. apply first_app, H. now left. Qed.
Lemma first_tvariadic {A} (g : A -> list pt) l : l <> [] -> (forall x, In x l -> first (g x)) -> first (tvariadic (map g l)).
Proof.
  intros N H. destruct l as [|x [|y l]]; [congruence|exists PDots3, (g x); auto|]. change (tvariadic (map g (x :: y :: l))) with (g x ++ PCh 44 :: tvariadic (map g (y :: l))). apply first_app, H. now left.
Qed.
Lemma second_app a b : first a -> second a -> (forall q r, b = q :: r -> forall p, named_pair p q = false) -> second (a ++ b).
Proof. intros (p & r & -> & S) H B. destruct r as [|q r]; [|exact H]. destruct b as [|q b]; [exact I|]. apply (B q b eq_refl). Qed.

Lemma vfirst v : readable_value E v -> first (vtoks v).
Proof. destruct v; cbn [readable_value]; intros H; try contradiction; eexists _, _; split; reflexivity. Qed.
Lemma vsecond v : readable_value E v -> second (vtoks v).
Proof.
  destruct v as [ |b|z|f|s|s|s1 n1 z1|s|x|l|m]; cbn [readable_value]; intros H; try contradiction; try exact I.
  - destruct H as [N H]. apply fold_and in H. rewrite Forall_forall in H. cbn [WriteProofs.vtoks]. apply second_first, first_app, first_tjoin; auto. intros. now apply vfirst, H.
  - destruct H as [H _]. apply fold_and in H. rewrite Forall_forall in H. cbn [WriteProofs.vtoks]. destruct m as [|e m]; [reflexivity|].
    apply second_first, first_app, first_tjoin; [discriminate|]. intros x Hx. apply first_app, vfirst, H, Hx.
Qed.

Definition ternary (t : ty) : bool := match t with TAllOf _ _ | TAnyOf _ _ | TOneOf _ _ => true | _ => false end.

Lemma tfirst t : readable E t -> forall prio, first (toks prio t).
Proof.
  assert (T : forall c ts prio k, (forall x, In x ts -> first (toks k x)) -> (2 <= length ts)%nat -> first (ternary_toks prio c (map (toks k) ts))).
  { intros c ts prio k H L. unfold ternary_toks. destruct (1 <=? prio); [eexists _, _; split; reflexivity|]. apply first_tjoin; auto. intros ->. cbn in L. lia. }
  induction t as [ | | | |x y i| |x y i| | |x y|s|s|x y| | |p v|p t IHt| |p e x y IHe|p ts b IHts| |p k v x y IHk IHv|p a es IHes|p ts IHts|p vs|p ts IHts|p ts IHts|p t IHt| |t IHt] using ty_ind';
    cbn [readable]; intros H prio; try contradiction; try (eexists _, _; split; reflexivity).
  - cbn [WriteProofs.toks]. destruct (x =? min_int64), i; eexists _, _; split; reflexivity.
  - cbn [WriteProofs.toks]. destruct (SFeqb x min_float), i; eexists _, _; split; reflexivity.
  - now apply vfirst.
  - destruct H as [H L]. apply fold_and in H. rewrite Forall_forall in *. apply T; auto.
  - destruct H as [H L]. apply fold_and in H. rewrite Forall_forall in *. apply T; auto.
  - destruct H as [H L]. apply fold_and in H. rewrite Forall_forall in *. apply T; auto.
Qed.
Lemma tsecond t : readable E t -> forall prio, second (toks prio t).
Proof.
  assert (T : forall c ts prio k, existsb (Z.eqb c) [124; 38; 94] = true -> Forall (fun t => readable E t) ts -> (forall x, In x ts -> second (toks k x)) -> (2 <= length ts)%nat -> second (ternary_toks prio c (map (toks k) ts))).
  { intros c ts prio k C R H L. rewrite Forall_forall in R. unfold ternary_toks. destruct (1 <=? prio).
    - apply second_first, first_app, first_tjoin; [intros ->; cbn in L; lia|]. intros. now apply tfirst, R.
    - destruct ts as [|x [|y ts]]; cbn in L; try lia. cbn [map]. rewrite tjoin_cons. apply second_app; [apply tfirst, R; now left|apply H; now left|]. cbn [flat_map app]. intros q r Eq p. injection Eq as <- <-.
      unfold named_pair, is_tok. cbn [tok t_type]. cbn [existsb] in C. destruct (Z.eqb_spec c 58); [lia|]. destruct (Z.eqb_spec c 63); [lia|]. now rewrite andb_false_r. }
  induction t as [ | | | |x y i| |x y i| | |x y|s|s|x y| | |p v|p t IHt| |p e x y IHe|p ts b IHts| |p k v x y IHk IHv|p a es IHes|p ts IHts|p vs|p ts IHts|p ts IHts|p t IHt| |t IHt] using ty_ind';
    cbn [readable]; intros H prio; try contradiction; try exact I; cbn [WriteProofs.toks].
  - destruct (x =? min_int64), i, (y =? max_int64); exact I || reflexivity.
  - destruct (SFeqb x min_float), i, (SFeqb y max_float); exact I || reflexivity.
  - destruct (unbounded x y); exact I || reflexivity.
  - reflexivity.
  - now apply vsecond.
  - destruct (is_any t); exact I || reflexivity.
  - reflexivity.
  - destruct (unbounded x y); reflexivity.
  - destruct H as (H & N & _). apply fold_and in H. rewrite Forall_forall in H. apply second_first, first_app. destruct b; [apply first_tvariadic|apply first_tjoin]; auto; intros; apply tfirst; auto.
  - reflexivity.
  - reflexivity.
  - destruct H as [H _]. apply fold_and in H. rewrite Forall_forall in H. destruct es as [|e es]; [destruct a; reflexivity|]. apply second_first, first_app, first_tjoin; [discriminate|]. intros x Hx. apply first_app, vfirst. now apply H.
  - destruct H as [H L]. apply fold_and in H. pose proof H as H'. rewrite Forall_forall in *. apply T; auto; now apply Forall_forall.
  - destruct H as [H L]. apply fold_and in H. pose proof H as H'. rewrite Forall_forall in *. apply T; auto; now apply Forall_forall.
  - destruct H as [H L]. apply fold_and in H. pose proof H as H'. rewrite Forall_forall in *. apply T; auto; now apply Forall_forall.
  - apply second_first, tfirst. tauto.
  - destruct (is_any t); exact I || reflexivity.
Qed.

Lemma unnamed_toks p ps l : second (p :: ps) -> (exists n, p_peek l = POk n l /\ (is_tok t_identifier (tok p) && is_tok 58 n) || is_tok 63 n = false) -> unnamed (tok p) (feed ps l).
Proof. intros S H. destruct ps as [|q ps]; [exact H|]. exists (tok q). split; [reflexivity|exact S]. Qed.
Lemma unnamed_nxt p ps l : second (p :: ps) -> fol [44; 125; 93] l -> unnamed (tok p) (feed ps l).
Proof.
  intros S H. apply unnamed_toks; [exact S|]. destruct (fol_nxt _ l 58 H eq_refl) as (t & Pk & N1), (fol_nxt _ l 63 H eq_refl) as (t' & Pk' & N2). rewrite Pk in Pk'. injection Pk' as <-. exists t. split; [exact Pk|]. rewrite N1, N2. now rewrite andb_false_r.
Qed.

(* ---------- values ---------- *)

Definition pvv (v : value) : pval := match v with VArr _ | VMap _ => PT (TExact 0%nat v) | _ => PV v end.
Lemma as_type_pvv v : readable_value E v -> as_type (pvv v) = Some (TExact 0%nat v).
Proof. destruct v; cbn; intros H; try contradiction; reflexivity. Qed.
Lemma as_types_pvv l : Forall (fun v => readable_value E v) l -> as_types (map pvv l) = Some (map (TExact 0%nat) l).
Proof. induction 1 as [|v l H HF IH]; [reflexivity|]. cbn [map as_types]. now rewrite as_type_pvv, IH. Qed.
Lemma exact_readable v : readable_value E v -> is_exact (TExact 0%nat v) = true.
Proof. destruct v; cbn; intros H; try contradiction; reflexivity. Qed.
Lemma exact_values_map l : exact_values (map (TExact 0%nat) l) = Some l.
Proof. induction l as [|v l IH]; [reflexivity|]. cbn [map exact_values exact_value]. now rewrite IH. Qed.
Lemma forallb_exact l : Forall (fun v => readable_value E v) l -> forallb is_exact (map (TExact 0%nat) l) = true.
Proof. induction 1 as [|v l H HF IH]; [reflexivity|]. cbn [map forallb]. now rewrite exact_readable, IH. Qed.

Lemma tuple_values l q : Forall (fun v => readable_value E v) l -> l <> [] -> finish_list (map pvv l) false 0 q = POk (PT (TExact 0%nat (VArr l))) q.
Proof.
  intros H N. unfold finish_list. destruct (map pvv l) as [|v vs] eqn:Ev; [destruct l; [congruence|discriminate]|]. rewrite <- Ev. change (0 =? 2) with false. cbn iota. unfold make_tuple. rewrite as_types_pvv by exact H. cbn [skip_none pbind].
  unfold tuple_type, new_tuple_type. destruct (map (TExact 0%nat) l) as [|t ts] eqn:Et; [destruct l; [congruence|discriminate]|]. rewrite <- Et. cbn [andb negb]. rewrite forallb_exact by exact H. rewrite exact_values_map. reflexivity.
Qed.

Lemma put_new m k v : (forall e, In e m -> veq k (fst e) = false) -> put_entry m k v = m ++ [(k, v)].
Proof. induction m as [|[k' v'] m IH]; intros H; [reflexivity|]. cbn [put_entry]. pose proof (H _ (or_introl eq_refl)) as H1. cbn in H1. rewrite H1. cbn [app]. f_equal. apply IH. intros e He. apply H. now right. Qed.
Lemma exact_map_entries m : ForallOrdPairs (fun e e' : value * value => veq (fst e') (fst e) = false) m -> forall acc,
  (forall e e', In e acc -> In e' m -> veq (fst e') (fst e) = false) -> exact_map (map (fun e : value * value => (TExact 0%nat (fst e), TExact 0%nat (snd e), true)) m) acc = Some (acc ++ m).
Proof.
  induction 1 as [|[k v] m H HR IH]; intros acc A; [now rewrite app_nil_r|]. cbn [map exact_map exact_value fst snd]. rewrite put_new by (intros e He; apply (A e (k, v)); auto; now left).
  rewrite IH. { now rewrite <- app_assoc. } rewrite Forall_forall in H. intros e e' He He'. apply in_app_iff in He as [He|[<-|[]]]; [apply A; auto; now right|]. now apply H.
Qed.
Lemma struct_entries_values m : Forall (fun e : value * value => readable_value E (fst e) /\ readable_value E (snd e)) m ->
  struct_entries (map (fun e : value * value => PE (pvv (fst e)) (pvv (snd e)) false) m) = Some (map (fun e : value * value => (TExact 0%nat (fst e), TExact 0%nat (snd e), true)) m).
Proof. induction 1 as [|e m [H1 H2] HF IH]; [reflexivity|]. cbn [map struct_entries]. now rewrite !as_type_pvv, IH. Qed.
Lemma map_values m q : Forall (fun e : value * value => readable_value E (fst e) /\ readable_value E (snd e)) m -> ForallOrdPairs (fun e e' : value * value => veq (fst e') (fst e) = false) m ->
  make_struct (map (fun e : value * value => PE (pvv (fst e)) (pvv (snd e)) false) m) false q = POk (PT (TExact 0%nat (VMap m))) q.
Proof.
  intros H D. unfold make_struct. rewrite struct_entries_values by exact H. cbn [panic_none pbind]. unfold struct_map_type. cbn [negb andb].
  assert (X : forallb (fun e : ty * ty * bool => snd e && is_exact (fst (fst e)) && is_exact (snd (fst e))) (map (fun e : value * value => (TExact 0%nat (fst e), TExact 0%nat (snd e), true)) m) = true).
  { apply forallb_forall. intros e He. apply in_map_iff in He as (x & <- & Hx). rewrite Forall_forall in H. cbn [fst snd]. rewrite !exact_readable by now apply H. reflexivity. }
  rewrite X. rewrite exact_map_entries; [reflexivity|exact D|contradiction].
Qed.

(* the tokens of an entry *)
Definition key_ok (k : value) (req : bool) : Prop := match k with VBool _ => False | VInt _ | VFloat _ => req = true | _ => True end.
Lemma item_entry k req vts v : readable_value E k -> key_ok k req -> (forall l, fol F l -> parse_t (vtoks k) (pvv k) l) -> (forall l, fol [44; 125] l -> parse_a vts v l) ->
  item 2 (vtoks k ++ (if req then [] else [PCh 63]) ++ PCh 58 :: vts) (PE (pvv k) v (negb req)).
Proof.
  intros R K HK HV l Fl. destruct (HV l Fl) as (p2 & ps2 & -> & H2).
  set (rest := feed ((if req then [] else [PCh 63]) ++ PCh 58 :: p2 :: ps2) l).
  assert (Fr : fol F0 rest) by (unfold rest; destruct req; reflexivity).
  pose proof (parse_ua E _ _ _ Fr (parse_tu E _ _ _ (HK rest (F0_F _ Fr)))) as (p & ps & Ek & H1). rewrite Ek. exists p, (ps ++ (if req then [] else [PCh 63]) ++ PCh 58 :: p2 :: ps2). split; [reflexivity|].
  assert (Sp : match p with PCh c => c = 123 | PDots3 | PDots2 | PId _ => False | _ => True end). { destruct k; cbn in R, K; try contradiction; cbn in Ek; injection Ek as <- _; exact I || reflexivity. }
  split; [destruct p; try contradiction; try reflexivity; subst; reflexivity|]. split; [destruct p; try contradiction; try reflexivity; subst; reflexivity|].
  intros ex X. assert (X0 : ex <> 0) by lia. rewrite feed_app. fold rest. pose proof (vsecond k R) as S2. rewrite Ek in S2.
  assert (Hid : is_tok t_identifier (tok p) = false) by (destruct p; try contradiction; try reflexivity; subst; reflexivity).
  destruct req; cbn [negb].
  - eapply elem_entry; [exact H1| |exact H2|exact X0]. apply unnamed_toks; [exact S2|]. eexists. split; [reflexivity|]. rewrite Hid. reflexivity.
  - destruct k as [ |b|z|f|s|s|s1 n1 z1|s|x|vl|m]; cbn in R, K; try contradiction; try discriminate.
    + cbn in Ek. injection Ek as <- <-. destruct R as (cs & -> & Fc). cbn [feed]. rewrite runes_encode by (eapply literal_chars; exact Fc). apply elem_optional_string; auto.
    + eapply elem_optional; [exact H1| |exact H2|exact X0]. destruct ps as [|q ps]; [|exists (tok q); split; [reflexivity|exact S2]]. exfalso. cbn in Ek. destruct (tjoin 44 (map vtoks vl)); discriminate.
    + eapply elem_optional; [exact H1| |exact H2|exact X0]. destruct ps as [|q ps]; [|exists (tok q); split; [reflexivity|exact S2]]. exfalso. cbn in Ek. injection Ek as _ Ek. destruct (tjoin 44 _); discriminate.
Qed.

Lemma type_scalar p ps l v : (forall rec, p_type E rec (tok p) (feed ps l) = POk v l) -> parse_t (p :: ps) v l.
Proof. intros H. exists p, ps. split; [reflexivity|]. apply (y_intro _ _ _ _ _ 0). intros n _. cbn [p_call]. apply H. Qed.

Lemma peek_fol l : fol F l -> exists t, p_peek l = POk t l /\ is_tok t_dotdot t = false /\ is_tok t_dotdotdot t = false /\ is_tok 61 t = false /\ is_tok 91 t = false /\ is_expression_end (t_type t) = true /\ is_tok t_integer t = false /\ is_tok t_float t = false.
Proof.
  intros H. destruct l as [ | | |t l]; try contradiction; cbn [fol F] in H.
  - exists end_token. repeat split; reflexivity.
  - exists t. split; [reflexivity|]. unfold is_tok, is_expression_end, t_dotdot, t_dotdotdot, t_integer, t_float. cbn [existsb F] in *. repeat split; lia.
Qed.

Lemma core_value v : readable_value E v -> forall l, fol F l -> parse_t (vtoks v) (pvv v) l.
Proof.
  induction v as [ |b|z|f|s|s|s1 n1 z1|s|x IHx|l IHl|m IHm] using value_ind'; cbn [readable_value]; intros H q Fq; try contradiction; destruct (peek_fol q Fq) as (t & Pk & N1 & N2 & N3 & N4 & N5 & _).
  - cbn [WriteProofs.vtoks pvv]. apply type_scalar. intros rec. unfold p_type. destruct b; cbn -[p_peek]; rewrite Pk; cbn [pbind]; rewrite N3; reflexivity.
  - cbn [WriteProofs.vtoks pvv]. apply type_scalar. intros rec. unfold p_type. cbn -[p_peek p_integer]. unfold p_integer. rewrite Pk. cbn [pbind t_value]. rewrite N1, N2. cbn [orb]. now rewrite token_int_itoa.
  - destruct H as [expo [_ H]]. cbn [WriteProofs.vtoks pvv]. apply type_scalar. intros rec. unfold p_type. cbn -[p_peek p_float]. unfold p_float. rewrite Pk. cbn [pbind t_value]. rewrite N1, N2. cbn [orb]. now rewrite H.
  - destruct H as (cs & -> & Fc). cbn [WriteProofs.vtoks pvv]. rewrite runes_encode by (eapply literal_chars; exact Fc). apply type_scalar. reflexivity.
  - destruct H as [N H]. apply fold_and in H. cbn [WriteProofs.vtoks pvv]. apply brace. apply (list_items E 0 (map vtoks l) (map pvv l)); [|destruct l; [congruence|discriminate]|now apply tuple_values].
    clear N. induction H as [|v l Hv HR IH]; cbn [map]; constructor; [|inversion IHl; subst; now apply IH]. inversion IHl as [|? ? IHv _]; subst. intros l' Fl.
    destruct (parse_ua E _ _ _ ltac:(eapply fol_weaken; [exact Fl|reflexivity]) (parse_tu E _ _ _ (IHv Hv l' ltac:(eapply fol_weaken; [exact Fl|reflexivity])))) as (p & ps & Ev & Y).
    exists p, ps. split; [exact Ev|]. assert (Sp : match p with PCh c => c = 123 | PDots3 | PDots2 => False | _ => True end). { destruct v; cbn in Hv; try contradiction; cbn in Ev; injection Ev as <- _; exact I || reflexivity. }
    split; [destruct p; try contradiction; try reflexivity; subst; reflexivity|]. split; [destruct p; try contradiction; try reflexivity; subst; reflexivity|]. intros ex X.
    apply elem_plain; auto; [|eapply fol_nxt; [exact Fl|reflexivity]|eapply fol_nxt; [exact Fl|reflexivity]|lia]. apply unnamed_nxt; [rewrite <- Ev; now apply vsecond|eapply fol_weaken; [exact Fl|reflexivity]].
  - destruct H as [H D]. apply fold_and in H. cbn [WriteProofs.vtoks pvv]. apply brace. destruct m as [|e0 m0]; [apply (y_intro _ _ _ _ _ 0); intros; reflexivity|]. set (m := e0 :: m0) in *.
    apply (list_items E 2 _ (map (fun e : value * value => PE (pvv (fst e)) (pvv (snd e)) false) m)); [|discriminate|].
    + clear D. clearbody m. induction H as [|e m He HR IH]; cbn [map]; constructor; [|inversion IHm; subst; now apply IH]. inversion IHm as [|? ? [IHk IHv] _]; subst. destruct He as (Rk & Rv & Kk).
      apply (item_entry (fst e) true); auto; [clear - Kk; revert Kk; unfold key_ok; destruct (fst e); auto|]. intros l' Fl. apply parse_ua; [eapply fol_weaken; [exact Fl|reflexivity]|]. apply parse_tu. apply IHv; auto. eapply fol_weaken; [exact Fl|reflexivity].
    + unfold finish_list. change (2 =? 2) with true. cbn [map m]. cbn iota. fold m. apply (map_values m q); [|exact D]. eapply Forall_impl; [|exact H]. cbn. tauto.
Qed.

(* ---------- types ---------- *)

Definition pv (t : ty) : pval := match t with TNil => PV VNil | TExact _ v => pvv v | _ => PT (renewed t) end.
Lemma as_type_pv t : readable E t -> as_type (pv t) = Some (renewed t).
Proof. destruct t; cbn [readable pv]; intros H; try reflexivity. now rewrite as_type_pvv. Qed.
Lemma as_types_pv ts : Forall (readable E) ts -> as_types (map pv ts) = Some (map renewed ts).
Proof. induction 1 as [|t ts H HF IH]; [reflexivity|]. cbn [map as_types]. now rewrite as_type_pv, IH. Qed.
Lemma pv_type t : as_value t = false -> readable E t -> pv t = PT (renewed t).
Proof. destruct t; cbn [as_value pv renewed]; try reflexivity; try discriminate. destruct v; cbn; try discriminate; try contradiction; reflexivity. Qed.
Lemma renewed_exact t : is_exact (renewed t) = is_exact t.
Proof. destruct t as [ | | | |x y i| |x y i| | |x y|s|s|x y| | |p w|p t| |p e x y|p ts b| |p kt vt x y|p a es|p ts|p vs|p ts|p ts|p t|[t|]]; try reflexivity; cbn [renewed]; [destruct (is_any t); reflexivity|]. destruct (_ && _); reflexivity. Qed.
Lemma renewed_any t : is_any (renewed t) = is_any t.
Proof. destruct t as [ | | | |x y i| |x y i| | |x y|s|s|x y| | |p w|p t| |p e x y|p ts b| |p kt vt x y|p a es|p ts|p vs|p ts|p ts|p t|[t|]]; try reflexivity; cbn [renewed]; [destruct (is_any t); reflexivity|]. destruct (_ && _); reflexivity. Qed.

(* what is proved by induction *)
Definition core (t : ty) : Prop :=
  if ternary t then forall l, fol F0 l -> parse_a (toks 0 t) (pv t) l
  else if prefixed t then forall prio l, fol F l -> parse_u (toks prio t) (pv t) l
  else forall prio l, fol F l -> parse_t (toks prio t) (pv t) l.

Lemma toks_paren t prio : ternary t = true -> 1 <= prio -> toks prio t = PCh 40 :: toks 0 t ++ [PCh 41].
Proof. intros T L. destruct t; try discriminate; cbn [WriteProofs.toks]; unfold ternary_toks; (destruct (Z.leb_spec 1 prio); [reflexivity|lia]). Qed.
Lemma core_t t prio l : core t -> ternary t = false \/ 1 <= prio -> prefixed t = false -> fol F l -> parse_t (toks prio t) (pv t) l.
Proof.
  unfold core. intros C T Pf Fl. destruct (ternary t) eqn:Tt; [|rewrite Pf in C; now apply C]. destruct T as [T|T]; [discriminate|]. rewrite toks_paren by auto.
  destruct (C (LTok (mk_token [] 41) l)) as (p & ps & -> & [N H]); [reflexivity|]. exists (PCh 40), ((p :: ps) ++ [PCh 41]). split; [reflexivity|]. rewrite feed_app. apply (y_intro _ _ _ _ _ N). intros n L. cbn [p_call tok feed].
  unfold p_type. change (is_tok 123 (mk_token [] 40)) with false. change (is_tok 40 (mk_token [] 40)) with true. cbn iota. cbn [p_next pbind]. rewrite H by exact L. reflexivity.
Qed.
Lemma core_u t prio l : core t -> ternary t = false \/ 1 <= prio -> fol F l -> parse_u (toks prio t) (pv t) l.
Proof.
  intros C T Fl. destruct (prefixed t) eqn:Pf; [|now apply parse_tu, core_t]. unfold core in C. destruct t; try discriminate; now apply C.
Qed.
Lemma core_a t prio l : core t -> fol F0 l -> parse_a (toks prio t) (pv t) l.
Proof.
  intros C Fl. destruct (ternary t) eqn:Tt; [|apply parse_ua; [exact Fl|]; apply core_u; [exact C|now left|now apply F0_F]].
  destruct (Z.le_gt_cases 1 prio) as [L|L]; [apply parse_ua; [exact Fl|]; apply core_u; [exact C|now right|now apply F0_F]|].
  unfold core in C. rewrite Tt in C. replace (toks prio t) with (toks 0 t); [now apply C|]. destruct t; try discriminate; cbn [WriteProofs.toks]; unfold ternary_toks; (destruct (Z.leb_spec 1 prio); [lia|reflexivity]).
Qed.

(* parameters *)
Lemma params_none vs l : yields (CParams vs) (LTok (mk_token [] 93) l) vs l.
Proof. apply (y_intro _ _ _ _ _ 0). intros; reflexivity. Qed.
Lemma params_last ts v l vs : parse_a ts v (LTok (mk_token [] 93) l) -> second ts -> first ts -> yields (CParams vs) (feed ts (LTok (mk_token [] 93) l)) (vs ++ [v]) l.
Proof.
  intros (p & ps & -> & H) S (p' & r' & Eq & St). injection Eq as <- <-. apply (elem_plain E _ _ _ _ 0) in H; [|apply unnamed_nxt; [exact S|reflexivity]|eexists; split; reflexivity|eexists; split; reflexivity|lia]. destruct H as [N H].
  apply (y_intro _ _ _ _ _ N). intros n L. cbn [p_call feed]. unfold p_params. cbn [p_next pbind]. rewrite (startp_not p 93) by auto. rewrite H by exact L. reflexivity.
Qed.
Lemma params_more ts v l vs r l' : parse_a ts v (LTok (mk_token [] 44) l) -> second ts -> first ts -> yields (CParams (vs ++ [v])) l r l' -> yields (CParams vs) (feed ts (LTok (mk_token [] 44) l)) r l'.
Proof.
  intros (p & ps & -> & H) S (p' & r' & Eq & St) [N2 H2]. injection Eq as <- <-. apply (elem_plain E _ _ _ _ 0) in H; [|apply unnamed_nxt; [exact S|reflexivity]|eexists; split; reflexivity|eexists; split; reflexivity|lia]. destruct H as [N H].
  apply (y_intro _ _ _ _ _ (N + N2)). intros n L. cbn [p_call feed]. unfold p_params. cbn [p_next pbind]. rewrite (startp_not p 93) by auto. rewrite H by lia. cbn [pbind fst p_next]. change (is_tok 93 (mk_token [] 44)) with false. change (is_tok 44 (mk_token [] 44)) with true. cbn iota. apply H2. lia.
Qed.
Definition size_args (x y : Z) : list pval := PV (VInt x) :: if y =? max_int64 then [] else [PV (VInt y)].
Lemma params_size x y l : bounds x y -> yields (CParams []) (feed (size_toks x y) (LTok (mk_token [] 93) l)) (size_args x y) l.
Proof.
  intros (B1 & B2 & B3). assert (in64 x /\ in64 y) as [Ix Iy] by (unfold in64, min_int64, max_int64 in *; lia).
  assert (I : forall z l, in64 z -> fol F0 l -> parse_a [PInt z] (PV (VInt z)) l). { intros z q Iz Fq. apply parse_ua; [exact Fq|]. apply parse_tu. exact (core_value (VInt z) Iz q (F0_F _ Fq)). }
  assert (Fi : forall z, first [PInt z]) by (intros; eexists _, _; split; reflexivity).
  unfold size_toks, size_args. destruct (y =? max_int64).
  - apply (params_last [PInt x] (PV (VInt x)) l []); auto; try exact Logic.I. now apply I.
  - change (feed [PInt x; PCh 44; PInt y] (LTok (mk_token [] 93) l)) with (feed [PInt x] (LTok (mk_token [] 44) (feed [PInt y] (LTok (mk_token [] 93) l)))).
    apply (params_more [PInt x] (PV (VInt x))); auto; try exact Logic.I; [now apply I|]. apply (params_last [PInt y] (PV (VInt y)) l [PV (VInt x)]); auto; try exact Logic.I. now apply I.
Qed.

Definition args (x y : Z) : list pval := if unbounded x y then [] else size_args x y.
Lemma array_of_args e x y : bounds x y -> ~ (x = 0 /\ y = max_int64 /\ is_any e = true) -> ~ (x = 1 /\ y = 1 /\ is_exact e = true) -> array_of e (args x y) = Some (TArrSized 0%nat e x y).
Proof.
  intros (B1 & B2 & B3) N1 N2. assert (G : new_array_type 0%nat (Some e) x y = Some (TArrSized 0%nat e x y)).
  { unfold new_array_type. destruct (Z.ltb_spec x 0); [lia|]. destruct (Z.ltb_spec y 0); [lia|]. destruct (Z.ltb_spec y x); [lia|]. cbn [or_any].
    destruct ((x =? 0) && (y =? max_int64) && is_any e) eqn:X. { apply andb_true_iff in X as [X1 X2]. apply andb_true_iff in X1 as [X0 X1]. destruct N1. repeat split; auto; now apply Z.eqb_eq. }
    destruct ((x =? 1) && (x =? y) && is_exact e) eqn:X'; [|reflexivity]. apply andb_true_iff in X' as [X1 X2]. apply andb_true_iff in X1 as [X0 X1]. destruct N2. apply Z.eqb_eq in X0, X1. subst. auto. }
  unfold args, unbounded, size_args. destruct (Z.eqb_spec x 0) as [->|]; cbn [andb]; (destruct (Z.eqb_spec y max_int64) as [->|]; cbn [array_of arg_int]; exact G).
Qed.
Lemma map_of_args k v x y : bounds x y -> ~ (x = 0 /\ y = max_int64 /\ is_any k = true /\ is_any v = true) -> map_of k v (args x y) = Some (TMapSized 0%nat k v x y).
Proof.
  intros (B1 & B2 & B3) N1. assert (G : new_map_type 0%nat (Some k) (Some v) x y = TMapSized 0%nat k v x y).
  { unfold new_map_type. destruct (Z.ltb_spec x 0); [lia|]. destruct (Z.ltb_spec y 0); [lia|]. destruct (Z.ltb_spec y x); [lia|]. cbn [or_any].
    destruct ((x =? 0) && (y =? max_int64) && (is_any k && is_any v)) eqn:X; [|reflexivity]. apply andb_true_iff in X as [X1 X2]. apply andb_true_iff in X1 as [X0 X1]. apply andb_true_iff in X2 as [X2 X3]. destruct N1. repeat split; auto; now apply Z.eqb_eq. }
  unfold args, unbounded, size_args. destruct (Z.eqb_spec x 0) as [->|]; cbn [andb]; (destruct (Z.eqb_spec y max_int64) as [->|]; cbn [map_of arg_int]; now rewrite G).
Qed.
Lemma params_args x y l : bounds x y -> yields (CParams []) (feed (if unbounded x y then [] else size_toks x y) (LTok (mk_token [] 93) l)) (args x y) l.
Proof. intros B. unfold args. destruct (unbounded x y); [apply params_none|now apply params_size]. Qed.

Lemma any_renewed e : is_any (renewed e) = true -> e = TAny.
Proof. rewrite renewed_any. destruct e; try discriminate. reflexivity. Qed.

Lemma item_type t : readable E t -> core t -> starts_open t = false -> item 0 (toks 0 t) (pv t).
Proof.
  intros R C So l Fl. destruct (core_a t 0 l C) as (p & ps & Et & H); [eapply fol_weaken; [exact Fl|reflexivity]|]. exists p, ps. split; [exact Et|].
  destruct (tfirst t R 0) as (p' & r' & Eq & St). rewrite Et in Eq. injection Eq as <- <-. split.
  - assert (OR : forall u prio q qs, readable E u -> ternary u = false \/ 1 <= prio -> toks prio u = q :: qs -> open_range u = false -> is_tok t_dotdotdot (tok q) = false).
    { intros u prio q qs Ru Tu Eu Ou. destruct (ternary u) eqn:Tt. { destruct Tu as [Tu|Tu]; [discriminate|]. rewrite toks_paren in Eu by auto. injection Eu as <- _. reflexivity. }
      destruct u as [ | | | |x y i| |x y i| | |x y|s|s|x y| | |pp w|pp u| |pp e x y|pp ts b| |pp kt vt x y|pp a es|pp ts|pp vs|pp ts|pp ts|pp u|[u|]]; cbn [readable WriteProofs.toks] in Ru, Eu; try contradiction; try discriminate; try (injection Eu as <- _; reflexivity).
      - cbn [open_range] in Ou. destruct (x =? min_int64); [destruct i; [|discriminate]|]; injection Eu as <- _; reflexivity.
      - cbn [open_range] in Ou. destruct (SFeqb x min_float); [destruct i; [|discriminate]|]; injection Eu as <- _; reflexivity.
      - destruct w; cbn in Ru; try contradiction; cbn in Eu; injection Eu as <- _; reflexivity. }
    destruct (ternary t) eqn:Tt.
    + destruct t as [ | | | |x y i| |x y i| | |x y|s|s|x y| | |pp w|pp u| |pp e x y|pp ts b| |pp kt vt x y|pp a es|pp ts|pp vs|pp ts|pp ts|pp u|[u|]]; try discriminate; cbn [readable] in R; destruct R as [R L]; (destruct ts as [|x [|y ts]]; cbn [length] in L; try lia);
        cbn [map fold_right] in R; destruct R as [Rx _]; cbn [starts_open] in So; cbn [WriteProofs.toks map] in Et; unfold ternary_toks in Et; cbn [Z.leb Z.compare] in Et; rewrite tjoin_cons in Et.
      * destruct (tfirst x Rx 3) as (q & qs & Ex & _). rewrite Ex in Et. injection Et as <- _. apply (OR x 3 q qs); auto; lia.
      * destruct (tfirst x Rx 1) as (q & qs & Ex & _). rewrite Ex in Et. injection Et as <- _. apply (OR x 1 q qs); auto; lia.
      * destruct (tfirst x Rx 2) as (q & qs & Ex & _). rewrite Ex in Et. injection Et as <- _. apply (OR x 2 q qs); auto; lia.
    + apply (OR t 0 p ps); auto. destruct t; cbn in Tt; try discriminate; exact So.
  - split; [now apply (startp_not p 125)|]. intros ex X. apply elem_plain; auto; [|eapply fol_nxt; [exact Fl|reflexivity]|eapply fol_nxt; [exact Fl|reflexivity]|lia].
    apply unnamed_nxt; [rewrite <- Et; now apply tsecond|eapply fol_weaken; [exact Fl|reflexivity]].
Qed.
End Read.
