(* The parser of the Puppet type language: it ends on every text, and it reads expressions. *)
From Coq Require Import Strings.Ascii Strings.String.
From Coq Require Import ZArith List Bool Lia.
From Coq Require Import Floats.SpecFloat.
From Verif Require Import Int64 Utf8 Text TextSpec HMap Data DataSpec DataProofs Types Convert Print Lexer LexerSpec LexerProofs Construct Syntax SyntaxSpec ParserProofs Assign Pcore PcoreSpec PcoreLex.
Import ListNotations.
Open Scope Z_scope.
Local Notation length := List.length.

Section Proofs.
Variable E : env.
Variable W : world.
Notation run := (Pcore.run E W).

(* ---------- more fuel ---------- *)
Ltac mo R := repeat first
  [ apply pleq_refl | match goal with |- pleq (_ ?c ?l) _ => exact (R c l) end | apply pleq_bind; [|intros]
  | match goal with
    | |- pleq (if ?b then _ else _) _ => destruct b
    | |- pleq (match ?x with _ => _ end) (match ?x with _ => _ end) => destruct x
    | |- pleq (let _ := _ in _) _ => cbv zeta
    end ].
Lemma pc_call_mono rec rec' : (forall c l, pleq (rec c l) (rec' c l)) -> forall c l, pleq (pc_call E W rec c l) (pc_call E W rec' c l).
Proof.
  intros R [t|stop vs lhs en|vs] l; cbn [pc_call].
  - unfold pc_elem, pc_name, pc_identifier, type_params. mo R.
  - unfold pc_list, list_end. mo R.
  - unfold pc_hash. mo R.
Qed.
Lemma run_mono_S n : forall c l, pleq (run n c l) (run (S n) c l).
Proof.
  induction n as [|n IH]; intros c l; [now left|].
  change (pleq (pc_call E W (run n) c l) (pc_call E W (run (S n)) c l)). now apply pc_call_mono.
Qed.
Lemma run_mono n m c l : (n <= m)%nat -> run n c l <> PStuck -> run m c l = run n c l.
Proof.
  intros L. induction L as [|m L IH]; intros H; auto. destruct (run_mono_S m c l) as [X|X]; rewrite <- IH; auto.
  rewrite IH in X by auto. congruence.
Qed.
Lemma run_more n m c l x r : run n c l = POk x r -> (n <= m)%nat -> run m c l = POk x r.
Proof. intros H L. rewrite (run_mono n m c l L); [exact H|]. rewrite H. discriminate. Qed.

(* ---------- enough fuel ---------- *)
Definition rank (c : call) : nat := match c with CElem _ => 0 | _ => 1 end%nat.
Definition cwt (c : call) : nat := match c with CElem t => wt t | _ => O end.
Definition weight (c : call) (l : lexed) : nat := (2 * (size l + cwt c) + rank c)%nat.
Definition stops (c : call) : Prop := match c with CList s _ _ _ => s <> 0 | _ => True end.

Section Step.
Variable n : nat.
Hypothesis IH : forall c l, stops c -> (weight c l < n)%nat -> complete l -> good (size l) (run n c l).
Lemma good_call c l k : stops c -> (weight c l < n)%nat -> complete l -> (size l <= k)%nat -> good k (run n c l).
Proof. intros S Wt C L. eapply good_le; eauto. Qed.
Ltac call := match goal with |- good ?k (Pcore.run _ _ n ?c ?l) => refine (good_call c l k _ _ _ _) end.
Ltac wts := repeat match goal with
  | H : is_tok ?c ?t = true |- _ => first [ assert (wt t = 1%nat) by (apply (wt_1 c t H); discriminate); clear H | clear H ]
  | H : is_tok ?c ?t = false |- _ => clear H
  end.
Ltac fin := unfold weight in *; cbn [cwt rank size] in *; wts; lia.
Ltac gd := repeat first
  [ exact I
  | apply good_ok; [fin|assumption]
  | call; [first [exact I|assumption|discriminate]|fin|assumption|fin]
  | apply good_next; [assumption|intros]
  | apply good_peek; [assumption|intros]
  | eapply good_bind; [call; [first [exact I|assumption|discriminate]|fin|assumption|apply Nat.le_refl]|intros]
  | match goal with
    | |- good _ (if ?b then _ else _) => destruct b eqn:?
    | |- good _ (match ?x with _ => _ end) => destruct x
    | |- good _ (let _ := _ in _) => cbv zeta
    end ].
Lemma good_end vs en l k : complete l -> (size l <= k)%nat -> good k (list_end vs en l).
Proof. intros C L. unfold list_end. gd. Qed.
Lemma good_step c l : stops c -> (weight c l < S n)%nat -> complete l -> good (size l) (pc_call E W (run n) c l).
Proof.
  intros S Wt C. destruct c as [t|stop vs lhs en|vs]; cbn [pc_call]; unfold weight in Wt; cbn [cwt rank] in Wt.
  - unfold pc_elem. destruct (is_tok 123 t) eqn:X1; [gd|]. destruct (is_tok 91 t) eqn:X2; [gd|].
    destruct (is_tok t_integer t); [gd|]. destruct (is_tok t_float t); [gd|]. destruct (is_tok t_identifier t) eqn:X3; [unfold pc_identifier; gd|].
    destruct (is_tok t_string t); [gd|]. destruct (is_tok t_regexp t); [gd|]. destruct (is_tok k_name t) eqn:X4; [|exact I].
    rewrite (wt_1 _ _ X4) in Wt by discriminate. unfold pc_name. eapply good_bind with (j := size l); [|intros; gd].
    destruct (constant_type (t_value t)); [gd|]. destruct (type_function E W (t_value t)) as [f|]; [|exact I]. eapply good_bind with (j := size l).
    + unfold type_params. gd.
    + intros. gd.
  - cbn in S. unfold pc_list. apply good_next; auto. intros t l1 L1 C1. destruct (match lhs with None => _ | Some _ => _ end); [apply good_end; auto; lia|].
    eapply good_bind; [call; [exact I|fin|assumption|apply Nat.le_refl]|]. intros v l2 L2 C2. cbv zeta. apply good_next; auto. intros t3 l3 L3 C3.
    destruct (is_tok stop t3); [apply good_end; auto; lia|]. gd.
  - unfold pc_hash. gd.
Qed.
End Step.
Theorem run_enough n : forall c l, stops c -> (weight c l < n)%nat -> complete l -> good (size l) (run n c l).
Proof. induction n as [|n IH]; intros c l S Wt C; [lia|]. change (good (size l) (pc_call E W (run n) c l)). now apply good_step. Qed.
Lemma size_lex_all n : forall r, (size (pc_lex_all n r) <= n)%nat.
Proof.
  induction n as [|n IH]; intros r; cbn [pc_lex_all]; [cbn; lia|]. destruct (pc_lex r) as [t r'| |]; try (cbn; lia). destruct (t_type t =? t_end); [cbn; lia|].
  cbn [size]. specialize (IH r'). lia.
Qed.
Lemma parse_good s n : (8 * length s + 64 <= n)%nat -> good (2 + length s) (pc_parse_tokens E W n (pc_tokens s)).
Proof.
  intros N. unfold pc_parse_tokens. pose proof (pc_tokens_complete s) as C. pose proof (size_lex_all (2 + length s) (new_reader s)) as Sz. fold (pc_tokens s) in Sz.
  apply good_next; auto. intros t l L C1. eapply good_bind; [apply run_enough; auto; [exact I|unfold weight; cbn [cwt rank]; lia]|]. intros v l2 L2 C2.
  apply good_next; auto. intros t3 l3 L3 C3. destruct (is_tok k_rocket t3).
  - apply good_next; auto. intros t4 l4 L4 C4. eapply good_bind; [apply run_enough; auto; [exact I|unfold weight; cbn [cwt rank]; lia]|]. intros w l5 L5 C5.
    apply good_next; auto. intros t6 l6 L6 C6. destruct (is_tok t_end t6); [|exact I]. apply good_ok; auto. lia.
  - destruct (is_tok t_end t3); [|exact I]. apply good_ok; auto. lia.
Qed.
(* the parser ends on every text *)
Theorem pc_parse_ends s : pc_parse E W s <> PStuck.
Proof. intros X. pose proof (parse_good s _ (Nat.le_refl _)) as G. unfold pc_parse in X. rewrite X in G. exact G. Qed.
(* and more fuel would not change its result *)
Lemma pc_tokens_mono n m l : (n <= m)%nat -> pc_parse_tokens E W n l <> PStuck -> pc_parse_tokens E W m l = pc_parse_tokens E W n l.
Proof.
  intros L H. assert (P : pleq (pc_parse_tokens E W n l) (pc_parse_tokens E W m l)).
  { assert (R : forall c l, pleq (run n c l) (run m c l)). { intros c k. induction L as [|m L IH]; [apply pleq_refl|]. destruct IH as [X|X]; [left; exact X|]. rewrite X. apply run_mono_S. }
    unfold pc_parse_tokens. mo R. }
  destruct P; congruence.
Qed.
Theorem pc_parse_fuel s n : (8 * length s + 64 <= n)%nat -> pc_parse_tokens E W n (pc_tokens s) = pc_parse E W s.
Proof. intros L. apply pc_tokens_mono; auto. apply pc_parse_ends. Qed.
Lemma pc_parse_with s n v l : pc_parse_tokens E W n (pc_tokens s) = POk v l -> pc_parse E W s = POk v l.
Proof.
  intros H. rewrite <- (pc_parse_fuel s (n + (8 * length s + 64))) by lia. rewrite (pc_tokens_mono n) by (try lia; rewrite H; discriminate). exact H.
Qed.

(* ---------- what the parser makes of an expression ---------- *)
Fixpoint seq {A} (l : list (option A)) : option (list A) :=
  match l with [] => Some [] | o :: r => obind o (fun x => obind (seq r) (fun xs => Some (x :: xs))) end.
Definition word (l : list Z) : option pval :=
  if bytes_eqb l (lit "true") then Some (PV (VBool true)) else if bytes_eqb l (lit "type") then None
  else if bytes_eqb l (lit "false") then Some (PV (VBool false)) else if bytes_eqb l (lit "undef") then Some (PV VNil) else Some (PV (VStr l)).
Fixpoint ev (e : pexp) : option pval :=
  let items l := obind (seq (map (fun i : option pexp * pexp => match i with (Some k, v) => obind (ev k) (fun k => obind (ev v) (fun v => Some (PE k v))) | (None, v) => ev v end) l)) (convert_entries None) in
  match e with
  | EInt plus z => Some (PV (VInt z))
  | EFloat s => Some (PV (VFloat (e_float E s)))
  | EString q cs => Some (PV (VStr (encode cs)))
  | EPattern ps => let s := encode (flat_map pat_value ps) in if e_compiles E s then Some (PV (VRegexp s)) else None
  | EWord l => word l
  | EArray l _ => obind (items l) (fun vs => Some (p_array vs))
  | EHash l _ => obind (seq (map (fun i : pexp * pexp => obind (ev (fst i)) (fun k => obind (ev (snd i)) (fun v => Some (k, v)))) l)) (fun m => Some (p_map m))
  | EType n args =>
      match constant_type n, args with
      | Some t, None => Some (PT t)
      | Some t, Some _ => None
      | None, _ =>
          obind (type_function E W n) (fun f =>
          obind match args with None => Some None | Some (l, _) => obind (items l) (fun vs => Some (Some vs)) end (fun a =>
          match f a with TDone t => Some (PT t) | _ => None end))
      end
  end.
Definition item_ev (i : option pexp * pexp) : option pval := match i with (Some k, v) => obind (ev k) (fun k => obind (ev v) (fun v => Some (PE k v))) | (None, v) => ev v end.
Definition item_lex (i : option pexp * pexp) : list lexeme := match i with (Some k, v) => lexemes k ++ LRocket :: lexemes v | (None, v) => lexemes v end.

Section Ind.
Variable P : pexp -> Prop.
Definition item_ok (i : option pexp * pexp) : Prop := match i with (Some k, v) => P k /\ P v | (None, v) => P v end.
Hypothesis Hi : forall plus z, P (EInt plus z).
Hypothesis Hf : forall s, P (EFloat s).
Hypothesis Hs : forall q cs, P (EString q cs).
Hypothesis Hp : forall ps, P (EPattern ps).
Hypothesis Hw : forall l, P (EWord l).
Hypothesis Ha : forall l c, Forall item_ok l -> P (EArray l c).
Hypothesis Hh : forall l c, Forall (fun e => P (fst e) /\ P (snd e)) l -> P (EHash l c).
Hypothesis Ht : forall n, P (EType n None).
Hypothesis Htl : forall n l c, Forall item_ok l -> P (EType n (Some (l, c))).
Fixpoint pexp_ind' (e : pexp) : P e :=
  let items := fix items (l : list (option pexp * pexp)) : Forall item_ok l :=
    match l with
    | [] => Forall_nil _
    | i :: r => Forall_cons i (match i return item_ok i with (Some k, v) => conj (pexp_ind' k) (pexp_ind' v) | (None, v) => pexp_ind' v end) (items r)
    end in
  match e with
  | EInt plus z => Hi plus z | EFloat s => Hf s | EString q cs => Hs q cs | EPattern ps => Hp ps | EWord l => Hw l
  | EArray l c => Ha l c (items l)
  | EHash l c => Hh l c ((fix es (l : list (pexp * pexp)) : Forall (fun e => P (fst e) /\ P (snd e)) l :=
      match l with [] => Forall_nil _ | i :: r => Forall_cons i (conj (pexp_ind' (fst i)) (pexp_ind' (snd i))) (es r) end) l)
  | EType n None => Ht n
  | EType n (Some (l, c)) => Htl n l c (items l)
  end.
End Ind.

(* the tokens after an element do not make it longer *)
Definition calm (l : lexed) : Prop :=
  match l with LEnd => True | LTok t _ => is_tok 91 t = false /\ is_tok 40 t = false | _ => False end.
(* the parser reads the tokens of e, and makes p of them *)
Definition reads (e : pexp) : Prop :=
  forall p rest, Forall lexeme_ok (lexemes e) -> ev e = Some p -> calm rest ->
  exists x xs n, lexemes e = x :: xs /\ (forall c, is_tok c (tok x) = true -> c <> 93 /\ c <> 125) /\ run n (CElem (tok x)) (feed xs rest) = POk p rest.

Definition is_pe (v : pval) : bool := match v with PE _ _ => true | _ => false end.
Lemma convert_values l : existsb is_pe l = false -> convert_entries None l = Some l.
Proof.
  induction l as [|v l IH]; [reflexivity|]. cbn [existsb]. intros H. apply orb_false_iff in H as [H1 H2]. destruct v; try discriminate; cbn [convert_entries]; rewrite IH by exact H2; reflexivity.
Qed.
Lemma list_end_convert vs l out : convert_entries None vs = Some out -> list_end vs (existsb is_pe vs) l = POk out l.
Proof.
  intros H. unfold list_end. destruct (existsb is_pe vs) eqn:X; [now rewrite H|]. rewrite (convert_values vs X) in H. now inversion H.
Qed.
Lemma ev_not_pe e p : ev e = Some p -> is_pe p = false.
Proof.
  destruct e as [plus z|s|q cs|ps|l|l c|l c|n args]; cbn [ev].
  1-3: intros [= <-]; reflexivity.
  - cbv zeta. destruct (e_compiles _ _); [intros [= <-]; reflexivity|discriminate].
  - unfold word. repeat match goal with |- context [bytes_eqb ?a ?b] => destruct (bytes_eqb a b) end; intros [= <-]; reflexivity.
  - destruct (obind (seq _) _) as [vs|]; [|discriminate]. cbn [obind]. intros [= <-]. unfold p_array. now destruct (plain vs).
  - destruct (seq _) as [m|]; [|discriminate]. cbn [obind]. intros [= <-]. unfold p_map. now destruct (plain_entries m).
  - destruct (constant_type n). { destruct args; [discriminate|]. intros [= <-]. reflexivity. }
    destruct (type_function E W n) as [f|]; [|discriminate]. cbn [obind]. destruct (match args with None => _ | Some _ => _ end) as [a|]; [|discriminate]. cbn [obind]. destruct (f a); [|discriminate|discriminate]. intros [= <-]. reflexivity.
Qed.
Lemma pc_int_plus z plus : in64 z -> (plus = true -> 0 <= z) -> pc_int ((if plus then [43] else []) ++ itoa z) = z.
Proof.
  intros H P. destruct plus; cbn [app].
  - specialize (P eq_refl). unfold pc_int. destruct (itoa_shape z H) as (ds & N & D & Sh).
    assert (Sd : itoa z = ds). { destruct Sh as [|Sh]; auto. exfalso. revert Sh. unfold itoa. destruct (Z.ltb_spec z 0); [lia|]. intros Sh. unfold in64, max_int64 in H. assert (H10 : 2 ^ 63 < 10 ^ 20) by reflexivity.
      destruct (digits_ok 20 z ltac:(lia) ltac:(lia)) as (_ & Dd & _). rewrite Sh in Dd. discriminate Dd. }
    pose proof (token_int_itoa z H) as T. rewrite Sd in *. destruct ds as [|d ds]; [congruence|]. cbn [forallb] in D. apply andb_true_iff in D as [D _].
    destruct (Z.eq_dec d 45) as [->|Nd]; [discriminate D|]. destruct d as [|d|d]; auto. repeat (destruct d as [d|d|]; auto). congruence.
  - pose proof (token_int_itoa z H) as T. unfold pc_int. destruct (itoa_shape z H) as (ds & N & D & Sh). destruct Sh as [Sh|Sh]; rewrite Sh in *; [|exact T].
    destruct ds as [|d ds]; [congruence|]. cbn [forallb] in D. apply andb_true_iff in D as [D _].
    destruct (Z.eq_dec d 43) as [->|Nd]; [discriminate D|]. destruct d as [|d|d]; auto. repeat (destruct d as [d|d|]; auto). congruence.
Qed.

(* the tokens after an element of a list *)
Definition tail (stop : Z) (r : list (list lexeme)) (comma : bool) : list lexeme :=
  match r with [] => if comma then [LChar 44; LChar stop] else [LChar stop] | _ => LChar 44 :: commas r comma ++ [LChar stop] end.
Lemma commas_tail stop x r comma : commas (x :: r) comma ++ [LChar stop] = x ++ tail stop r comma.
Proof. cbn [commas]. unfold tail. rewrite <- app_assoc. f_equal. destruct r; [now destruct comma|]. reflexivity. Qed.
Lemma tail_calm stop r comma rest : stop = 93 \/ stop = 125 -> calm (feed (tail stop r comma) rest).
Proof. intros S. unfold tail. destruct r; [destruct comma|]; cbn; auto; destruct S as [-> | ->]; auto. Qed.

Lemma read_list l : Forall (item_ok reads) l -> forall comma vs out rest raw,
  Forall lexeme_ok (commas (map item_lex l) comma) -> seq (map item_ev l) = Some raw -> convert_entries None (vs ++ raw) = Some out ->
  exists n, run n (CList 93 vs None (existsb is_pe vs)) (feed (commas (map item_lex l) comma ++ [LChar 93]) rest) = POk out rest.
Proof.
  induction 1 as [|i l Hi Hl IH]; intros comma vs out rest raw K Ev Cv.
  - cbn in Ev. injection Ev as <-. rewrite app_nil_r in Cv. exists 1%nat. cbn [map commas app feed]. cbn [Pcore.run pc_call]. unfold pc_list. cbn [p_next pbind]. change (is_tok 93 (tok (LChar 93))) with true. cbn iota.
    now apply list_end_convert.
  - cbn [map seq] in Ev. destruct (item_ev i) as [v|] eqn:Ei; [|discriminate]. cbn [obind] in Ev. destruct (seq (map item_ev l)) as [raw'|] eqn:Er; [|discriminate]. cbn [obind] in Ev. injection Ev as <-.
    cbn [map]. rewrite commas_tail. cbn [map commas] in K. apply Forall_app in K as [K1 K2].
    assert (Kl : Forall lexeme_ok (commas (map item_lex l) comma)). { destruct (map item_lex l); [constructor|]. now inversion K2. }
    replace (vs ++ v :: raw') with ((vs ++ [v]) ++ raw') in Cv by (rewrite <- app_assoc; reflexivity).
    specialize (IH comma (vs ++ [v]) out rest raw' Kl eq_refl Cv). destruct IH as [n0 IH].
    set (tl := tail 93 (map item_lex l) comma) in *. pose proof (tail_calm 93 (map item_lex l) comma rest (or_introl eq_refl)) as Ct. fold tl in Ct.
    (* after the element *)
    assert (A : forall en, en = existsb is_pe (vs ++ [v]) -> forall k, (n0 <= k)%nat ->
      pbind (p_next (feed tl rest)) (fun t l => if is_tok 93 t then list_end (vs ++ [v]) en l else if is_tok 44 t then run k (CList 93 (vs ++ [v]) None en) l
        else if is_tok k_rocket t then run k (CList 93 vs (Some v) en) l else PPanic) = POk out rest).
    { intros en -> k Lk. unfold tl, tail. destruct (map item_lex l) as [|y ys] eqn:El.
      - destruct l; [|discriminate]. cbn in Er. injection Er as <-. rewrite app_nil_r in Cv. cbn [commas app feed] in IH. destruct comma; cbn [feed p_next pbind].
        + change (is_tok 93 (tok (LChar 44))) with false. change (is_tok 44 (tok (LChar 44))) with true. cbn iota. exact (run_more _ _ _ _ _ _ IH Lk).
        + change (is_tok 93 (tok (LChar 93))) with true. cbn iota. now apply list_end_convert.
      - cbn [feed p_next pbind]. change (is_tok 93 (tok (LChar 44))) with false. change (is_tok 44 (tok (LChar 44))) with true. cbn iota. exact (run_more _ _ _ _ _ _ IH Lk). }
    destruct i as [[k|] e]; cbn [item_ok item_ev item_lex] in *.
    + destruct Hi as [Hk He]. apply Forall_app in K1 as [K1 K3]. inversion K3 as [|? ? _ K4]; subst. destruct (ev k) as [kv|] eqn:Ek; [|discriminate]. cbn [obind] in Ei. destruct (ev e) as [ve|] eqn:Ee; [|discriminate]. injection Ei as <-.
      destruct (He ve (feed tl rest) K4 Ee Ct) as (x2 & xs2 & n2 & L2 & F2 & R2).
      destruct (Hk kv (feed (LRocket :: lexemes e ++ tl) rest) K1 Ek) as (x1 & xs1 & n1 & L1 & F1 & R1); [cbn; auto|].
      exists (S (S (n0 + n1 + n2))). rewrite <- app_assoc. rewrite L1. cbn [app feed]. rewrite feed_app. cbn [feed]. change (feed (LRocket :: lexemes e ++ tl) rest) with (LTok (tok LRocket) (feed (lexemes e ++ tl) rest)) in R1.
      cbn [Pcore.run pc_call]. unfold pc_list at 1. cbn [p_next pbind]. destruct (is_tok 93 (tok x1)) eqn:X; [apply F1 in X; lia|].
      change (pc_call E W (run (n0 + n1 + n2)) (CElem (tok x1))) with (run (S (n0 + n1 + n2)) (CElem (tok x1))).
      rewrite (run_more n1 _ _ _ _ _ R1) by lia. cbn [pbind p_next]. change (is_tok 93 (tok LRocket)) with false. change (is_tok 44 (tok LRocket)) with false. change (is_tok k_rocket (tok LRocket)) with true. cbn iota zeta.
      unfold pc_call at 1. unfold pc_list. rewrite L2. cbn [app feed p_next pbind]. rewrite feed_app. rewrite (run_more n2 _ _ _ _ _ R2) by lia. cbn [pbind]. cbv zeta.
      apply (A true); [|lia]. rewrite existsb_app. cbn. now rewrite orb_true_r.
    + destruct (Hi v (feed tl rest) K1 Ei Ct) as (x1 & xs1 & n1 & L1 & F1 & R1).
      exists (S (n0 + n1)). rewrite L1. cbn [app feed]. rewrite feed_app. cbn [Pcore.run pc_call]. unfold pc_list. cbn [p_next pbind]. destruct (is_tok 93 (tok x1)) eqn:X; [apply F1 in X; lia|].
      rewrite (run_more n1 _ _ _ _ _ R1) by lia. cbn [pbind]. cbv zeta. apply A; [|lia]. rewrite existsb_app. cbn. rewrite (ev_not_pe e v Ei). now rewrite !orb_false_r.
Qed.

Definition pair_ev (i : pexp * pexp) : option (pval * pval) := obind (ev (fst i)) (fun k => obind (ev (snd i)) (fun v => Some (k, v))).
Definition pair_lex (e : pexp * pexp) : list lexeme := lexemes (fst e) ++ LRocket :: lexemes (snd e).
Lemma read_hash l : Forall (fun e => reads (fst e) /\ reads (snd e)) l -> forall comma vs rest raw,
  Forall lexeme_ok (commas (map pair_lex l) comma) -> seq (map pair_ev l) = Some raw ->
  exists n, run n (CHash vs) (feed (commas (map pair_lex l) comma ++ [LChar 125]) rest) = POk (vs ++ raw) rest.
Proof.
  induction 1 as [|[k e] l [Hk He] Hl IH]; intros comma vs rest raw K Ev; cbn [fst snd] in *.
  - cbn in Ev. injection Ev as <-. rewrite app_nil_r. now exists 1%nat.
  - cbn [map seq] in Ev. unfold pair_ev at 1 in Ev. cbn [fst snd] in Ev. destruct (ev k) as [kv|] eqn:Ek; [|discriminate]. destruct (ev e) as [ve|] eqn:Ee; [|discriminate]. cbn [obind] in Ev.
    destruct (seq (map pair_ev l)) as [raw'|] eqn:Er; [|discriminate]. cbn [obind] in Ev. injection Ev as <-.
    cbn [map]. rewrite commas_tail. cbn [map commas] in K. apply Forall_app in K as [K1 K2].
    assert (Kl : Forall lexeme_ok (commas (map pair_lex l) comma)). { destruct (map pair_lex l); [constructor|]. now inversion K2. }
    specialize (IH comma (vs ++ [(kv, ve)]) rest raw' Kl eq_refl). rewrite <- app_assoc in IH. cbn [app] in IH. destruct IH as [n0 IH].
    set (tl := tail 125 (map pair_lex l) comma) in *. pose proof (tail_calm 125 (map pair_lex l) comma rest (or_intror eq_refl)) as Ct. fold tl in Ct.
    unfold pair_lex at 1 in K1. cbn [fst snd] in K1. apply Forall_app in K1 as [K1 K3]. inversion K3 as [|? ? _ K4]; subst.
    destruct (He ve (feed tl rest) K4 Ee Ct) as (x2 & xs2 & n2 & L2 & F2 & R2).
    destruct (Hk kv (feed (LRocket :: lexemes e ++ tl) rest) K1 Ek) as (x1 & xs1 & n1 & L1 & F1 & R1); [cbn; auto|].
    exists (S (n0 + n1 + n2)). unfold pair_lex at 1. cbn [fst snd]. rewrite <- app_assoc, L1. cbn [app feed]. rewrite feed_app. cbn [feed] in *.
    cbn [Pcore.run pc_call]. unfold pc_hash. cbn [p_next pbind]. destruct (is_tok 125 (tok x1)) eqn:X; [apply F1 in X; lia|].
    rewrite (run_more n1 _ _ _ _ _ R1) by lia. cbn [pbind p_next]. change (negb (is_tok k_rocket (tok LRocket))) with false. cbn iota. rewrite L2. cbn [app feed p_next pbind]. rewrite feed_app. rewrite (run_more n2 _ _ _ _ _ R2) by lia. cbn [pbind].
    unfold tl, tail. destruct (map pair_lex l) as [|y ys] eqn:El.
    + destruct l; [|discriminate]. cbn in Er. injection Er as <-. cbn [commas app feed] in IH. destruct comma; cbn [feed p_next pbind].
      * change (is_tok 125 (tok (LChar 44))) with false. change (is_tok 44 (tok (LChar 44))) with true. cbn iota. refine (run_more _ _ _ _ _ _ IH _); lia.
      * change (is_tok 125 (tok (LChar 125))) with true. reflexivity.
    + cbn [feed p_next pbind]. change (is_tok 125 (tok (LChar 44))) with false. change (is_tok 44 (tok (LChar 44))) with true. cbn iota. refine (run_more _ _ _ _ _ _ IH _); lia.
Qed.

Lemma calm_peek {A} l (f : token -> lexed -> pres A) : calm l -> exists t, pbind (p_peek l) f = f t l /\ is_tok 91 t = false /\ is_tok 40 t = false.
Proof. destruct l as [| | |t l]; cbn; try tauto; intros H; eexists; split; try reflexivity; auto. Qed.

Lemma is_tok_type c t : is_tok c t = true -> c = t_type t.
Proof. unfold is_tok. intros H. apply Z.eqb_eq in H. congruence. Qed.

Theorem read_all e : reads e.
Proof.
  induction e as [plus z|s|q cs|ps|l|l c F|l c F|n|n l c F] using pexp_ind'; intros p rest K Ev C; cbn [lexemes] in *.
  - injection Ev as <-. inversion K as [|? ? Kz _]; subst. destruct Kz as [K1 K2]. exists (LInt plus z), [], 1%nat. split; [reflexivity|]. split; [intros c Hc; apply is_tok_type in Hc; subst; split; discriminate|].
    change (run 1 (CElem (tok (LInt plus z))) (feed [] rest)) with (POk (PV (VInt (pc_int ((if plus then [43] else []) ++ itoa z)))) rest : pres pval). now rewrite pc_int_plus.
  - injection Ev as <-. exists (LFloat s), [], 1%nat. split; [reflexivity|]. split; [intros c Hc; apply is_tok_type in Hc; subst; split; discriminate|]. reflexivity.
  - injection Ev as <-. exists (LString q cs), [], 1%nat. split; [reflexivity|]. split; [intros c Hc; apply is_tok_type in Hc; subst; split; discriminate|]. reflexivity.
  - cbn [ev] in Ev. cbv zeta in Ev. destruct (e_compiles E _) eqn:X; [|discriminate]. injection Ev as <-. exists (LPattern ps), [], 1%nat. split; [reflexivity|]. split; [intros c Hc; apply is_tok_type in Hc; subst; split; discriminate|].
    cbn [Pcore.run pc_call feed tok]. unfold pc_elem. cbn [t_type is_tok t_value]. unfold is_tok. cbn [t_type]. change (t_regexp =? 123) with false. change (t_regexp =? 91) with false. cbn iota. rewrite X. reflexivity.
  - exists (LWord l), [], 1%nat. split; [reflexivity|]. split; [intros c Hc; apply is_tok_type in Hc; subst; split; discriminate|].
    cbn [ev] in Ev. unfold word in Ev. change (run 1 (CElem (tok (LWord l))) (feed [] rest)) with (pc_identifier l rest). unfold pc_identifier.
    destruct (bytes_eqb l (lit "true")); [injection Ev as <-; reflexivity|]. destruct (bytes_eqb l (lit "type")); [discriminate|].
    destruct (bytes_eqb l (lit "false")); [injection Ev as <-; reflexivity|]. destruct (bytes_eqb l (lit "undef")); injection Ev as <-; reflexivity.
  - cbn [ev] in Ev. change (obind (obind (seq (map item_ev l)) (convert_entries None)) (fun vs => Some (p_array vs)) = Some p) in Ev.
    destruct (seq (map item_ev l)) as [raw|] eqn:Er; [|discriminate]. cbn [obind] in Ev. destruct (convert_entries None raw) as [out|] eqn:Ec; [|discriminate]. injection Ev as <-.
    change (Forall lexeme_ok (LChar 91 :: commas (map item_lex l) c ++ [LChar 93])) in K. inversion K as [|? ? _ K']; subst. apply Forall_app in K' as [K' _].
    destruct (read_list l F c [] out rest raw K' Er Ec) as [n R]. exists (LChar 91), (commas (map item_lex l) c ++ [LChar 93]), (S n). split; [reflexivity|].
    split; [intros d Hd; apply is_tok_type in Hd; subst; split; discriminate|]. cbn [Pcore.run pc_call]. unfold pc_elem. change (is_tok 123 (tok (LChar 91))) with false. change (is_tok 91 (tok (LChar 91))) with true. cbn iota. cbn [existsb] in R. rewrite R. reflexivity.
  - cbn [ev] in Ev. change (obind (seq (map pair_ev l)) (fun m => Some (p_map m)) = Some p) in Ev. destruct (seq (map pair_ev l)) as [raw|] eqn:Er; [|discriminate]. injection Ev as <-.
    change (Forall lexeme_ok (LChar 123 :: commas (map pair_lex l) c ++ [LChar 125])) in K. inversion K as [|? ? _ K']; subst. apply Forall_app in K' as [K' _].
    destruct (read_hash l F c [] rest raw K' Er) as [n R]. exists (LChar 123), (commas (map pair_lex l) c ++ [LChar 125]), (S n). split; [reflexivity|].
    split; [intros d Hd; apply is_tok_type in Hd; subst; split; discriminate|]. cbn [Pcore.run pc_call]. unfold pc_elem. change (is_tok 123 (tok (LChar 123))) with true. cbn iota. rewrite R. reflexivity.
  - exists (LName n), [], 1%nat. split; [reflexivity|]. split; [intros d Hd; apply is_tok_type in Hd; subst; split; discriminate|].
    change (pc_name E W (run 0) n rest = POk p rest). unfold pc_name, type_params. cbn [ev] in Ev. destruct (constant_type n) as [t|].
    + injection Ev as <-. cbn [pbind]. destruct (calm_peek rest (fun n0 l => if is_tok 40 n0 then PSkip else POk (PT t) l) C) as (t0 & -> & _ & ->). reflexivity.
    + destruct (type_function E W n) as [f|]; [|discriminate]. cbn [obind] in Ev. destruct (f None) as [t| |] eqn:Ef; try discriminate. injection Ev as <-.
      match goal with |- context [pbind (p_peek rest) ?g] => destruct (calm_peek rest g C) as (t0 & E0 & T1 & _) end. rewrite E0. cbn beta. rewrite T1. cbn [pbind]. change (ret (CList 93 [] None false)) with (list pval). rewrite Ef. cbn [pbind].
      destruct (calm_peek rest (fun n0 l => if is_tok 40 n0 then PSkip else POk (PT t) l) C) as (t2 & -> & _ & ->). reflexivity.
  - cbn [ev] in Ev. destruct (constant_type n) as [t|] eqn:Ct; [discriminate|]. destruct (type_function E W n) as [f|] eqn:Tf; [|discriminate]. cbn [obind] in Ev.
    change (obind (obind (obind (seq (map item_ev l)) (convert_entries None)) (fun vs => Some (Some vs))) (fun a => match f a with TDone t => Some (PT t) | _ => None end) = Some p) in Ev.
    destruct (seq (map item_ev l)) as [raw|] eqn:Er; [|discriminate]. cbn [obind] in Ev. destruct (convert_entries None raw) as [out|] eqn:Ec; [|discriminate]. cbn [obind] in Ev. destruct (f (Some out)) as [t| |] eqn:Ef; try discriminate. injection Ev as <-.
    change (Forall lexeme_ok (LName n :: LChar 91 :: commas (map item_lex l) c ++ [LChar 93])) in K. inversion K as [|? ? _ K1]; subst. inversion K1 as [|? ? _ K']; subst. apply Forall_app in K' as [K' _].
    destruct (read_list l F c [] out rest raw K' Er Ec) as [m R]. exists (LName n), (LChar 91 :: commas (map item_lex l) c ++ [LChar 93]), (S m). split; [reflexivity|].
    split; [intros d Hd; apply is_tok_type in Hd; subst; split; discriminate|]. cbn [feed].
    change (pc_name E W (run m) n (LTok (tok (LChar 91)) (feed (commas (map item_lex l) c ++ [LChar 93]) rest)) = POk (PT t) rest). unfold pc_name, type_params. rewrite Ct, Tf. cbn [p_peek pbind].
    change (is_tok 91 (tok (LChar 91))) with true. cbn iota. cbn [p_next pbind]. cbn [existsb] in R. rewrite R. cbn [pbind]. change (ret (CList 93 [] None false)) with (list pval). rewrite Ef. cbn [pbind].
    destruct (calm_peek rest (fun n0 l => if is_tok 40 n0 then PSkip else POk (PT t) l) C) as (t2 & -> & _ & ->). reflexivity.
Qed.

Lemma layout_ok xs cs : layout xs cs -> Forall lexeme_ok xs.
Proof. induction 1; auto. Qed.
(* an expression, however it is laid out *)
Theorem parse_expression e cs p : layout (lexemes e) cs -> ev e = Some p -> pc_parse E W (encode cs) = POk p LEnd.
Proof.
  intros L Ev. pose proof (pc_tokens_layout _ _ L) as T. destruct (read_all e p LEnd (layout_ok _ _ L) Ev I) as (x & xs & n & El & _ & R).
  apply (pc_parse_with (encode cs) n). rewrite T, El. unfold pc_parse_tokens. cbn [feed p_next pbind]. rewrite R. reflexivity.
Qed.

(* ---------- data ---------- *)
Lemma plain_values vs : plain (map PV vs) = Some vs.
Proof. induction vs as [|v vs IH]; [reflexivity|]. cbn [map plain]. now rewrite IH. Qed.
Definition pv_entry (e : value * value) : pval * pval := (PV (fst e), PV (snd e)).
Lemma plain_pairs m : plain_entries (map pv_entry m) = Some m.
Proof. induction m as [|[k v] m IH]; [reflexivity|]. cbn [map plain_entries pv_entry fst snd]. now rewrite IH. Qed.

Lemma put_new m k v : Forall (fun p => veq k (fst p) = false) m -> p_put (map pv_entry m) (PV k) (PV v) = Some (map pv_entry (m ++ [(k, v)])).
Proof. induction 1 as [|[k' v'] m Hk F IH]; [reflexivity|]. cbn [map p_put pv_entry app fst snd] in *. rewrite Hk. fold (pv_entry). rewrite IH. reflexivity. Qed.

Definition pe_entry (e : value * value) : pval := PE (PV (fst e)) (PV (snd e)).
Lemma convert_run m : forall seen rest, ForallOrdPairs (fun p q => veq (fst q) (fst p) = false) (seen ++ m) ->
  convert_entries (Some (map pv_entry seen)) (map pe_entry m ++ rest) = convert_entries (Some (map pv_entry (seen ++ m))) rest.
Proof.
  induction m as [|[k v] m IH]; intros seen rest F; [now rewrite app_nil_r|]. cbn [map app pe_entry fst snd convert_entries]. rewrite put_new.
  - replace (seen ++ (k, v) :: m) with ((seen ++ [(k, v)]) ++ m) in * by (rewrite <- app_assoc; reflexivity). now apply IH.
  - clear IH. revert F. induction seen as [|p seen IH]; [constructor|]. cbn [app]. intros F. inversion F as [|? ? F1 F2]; subst. constructor; [|now apply IH].
    rewrite Forall_forall in F1. apply (F1 (k, v)). apply in_or_app. right. now left.
Qed.
Lemma convert_flush en l : match l with PE _ _ :: _ => False | _ => True end -> convert_entries en l = obind (convert_entries None l) (fun r => Some (flush en ++ r)).
Proof.
  destruct l as [|v l]; cbn [convert_entries]; [intros _; cbn; now rewrite app_nil_r|]. destruct v; try contradiction; intros _; destruct (convert_entries None l); reflexivity.
Qed.
Lemma seq_app {A} (a b : list (option A)) x y : seq a = Some x -> seq b = Some y -> seq (a ++ b) = Some (x ++ y).
Proof.
  revert x. induction a as [|o a IH]; intros x Ha Hb; cbn [app seq] in *; [now injection Ha as <-|]. destruct o as [v|]; [|discriminate]. cbn [obind] in *.
  destruct (seq a) as [r|]; [|discriminate]. injection Ha as <-. rewrite (IH r eq_refl Hb). reflexivity.
Qed.

Definition says (e : pexp) : Prop := forall v, denotes E e v -> ev e = Some (PV v).
Lemma says_entries es m : Forall (fun e => says (fst e) /\ says (snd e)) es -> Forall2 (entry_of (denotes E)) es m -> seq (map pair_ev es) = Some (map pv_entry m).
Proof.
  intros F H. revert F. induction H as [|[k v] [a b] es m [H1 H2] H IH]; intros F; [reflexivity|]. inversion F as [|? ? [F1 F2] F3]; subst. cbn [fst snd] in *. cbn [map seq]. unfold pair_ev at 1. cbn [fst snd].
  rewrite (F1 a H1), (F2 b H2). cbn [obind]. rewrite IH by exact F3. reflexivity.
Qed.
Definition keyed (e : pexp * pexp) : option pexp * pexp := (Some (fst e), snd e).
Lemma says_keyed es m : Forall (fun e => says (fst e) /\ says (snd e)) es -> Forall2 (entry_of (denotes E)) es m -> seq (map item_ev (map keyed es)) = Some (map pe_entry m).
Proof.
  intros F H. revert F. induction H as [|[k v] [a b] es m [H1 H2] H IH]; intros F; [reflexivity|]. inversion F as [|? ? [F1 F2] F3]; subst. cbn [fst snd] in *. cbn [map seq keyed item_ev fst snd].
  rewrite (F1 a H1), (F2 b H2). cbn [obind]. rewrite IH by exact F3. reflexivity.
Qed.
Lemma says_parts l vs : parts E l vs -> Forall (item_ok says) l ->
  exists raw, seq (map item_ev l) = Some raw /\ convert_entries None raw = Some (map PV vs) /\ match l with (Some _, _) :: _ => True | _ => match raw with PE _ _ :: _ => False | _ => True end end.
Proof.
  induction 1 as [|e v l vs D P IH|es m l vs Ne F2 Kd Nl P IH]; intros F.
  - exists []. split; [reflexivity|]. split; [reflexivity|exact I].
  - inversion F as [|? ? F1 F2]; subst. destruct (IH F2) as (raw & R1 & R2 & _). exists (PV v :: raw). cbn [map seq item_ev]. rewrite (F1 v D). cbn [obind]. rewrite R1. split; [reflexivity|]. split; [|exact I].
    cbn [convert_entries map]. rewrite R2. reflexivity.
  - change (map _ es) with (map keyed es) in *. apply Forall_app in F as [Fe Fl]. destruct (IH Fl) as (raw & R1 & R2 & R3).
    assert (Fs : Forall (fun e => says (fst e) /\ says (snd e)) es). { clear - Fe. induction es as [|[k v] es IH]; [constructor|]. cbn [map] in Fe. inversion Fe as [|? ? F1 F2]; subst. constructor; [exact F1|now apply IH]. }
    exists (map pe_entry m ++ raw). split; [rewrite map_app; apply seq_app; [now apply says_keyed|exact R1]|]. split.
    + destruct m as [|[k v] m]; [inversion F2; subst; congruence|]. cbn [map app pe_entry fst snd convert_entries p_put].
      change [(PV k, PV v)] with (map pv_entry [(k, v)]). rewrite (convert_run m [(k, v)]) by exact Kd. cbn [app]. rewrite convert_flush.
      * rewrite R2. cbn [obind flush app]. unfold p_map. rewrite plain_pairs. reflexivity.
      * destruct l as [|[[k'|] e'] l]; [exact R3|contradiction|exact R3].
    + destruct es as [|[k v] es]; [congruence|]. exact I.
Qed.
Theorem denotes_ev e : says e.
Proof.
  induction e as [plus z|s|q cs|ps|l|l c F|l c F|n|n l c F] using pexp_ind'; intros v D; inversion D; subst; try reflexivity.
  - cbn [ev]. cbv zeta. match goal with H : e_compiles _ _ = true |- _ => rewrite H end. reflexivity.
  - match goal with H : ~ In _ _ |- _ => rename H into N end. cbn [ev]. unfold word. cbn [In] in N.
    repeat match goal with |- context [bytes_eqb ?a ?b] => let X := fresh in destruct (bytes_eqb a b) eqn:X; [apply bytes_eqb_eq in X; exfalso; apply N; subst; tauto|] end. reflexivity.
  - match goal with H : parts _ _ _ |- _ => destruct (says_parts _ _ H F) as (raw & R1 & R2 & _) end.
    cbn [ev]. change (obind (obind (seq (map item_ev l)) (convert_entries None)) (fun vs => Some (p_array vs)) = Some (PV (VArr vs))). rewrite R1. cbn [obind]. rewrite R2. cbn [obind]. unfold p_array. now rewrite plain_values.
  - cbn [ev]. change (obind (seq (map pair_ev l)) (fun m => Some (p_map m)) = Some (PV (VMap m))). match goal with H : Forall2 _ _ _ |- _ => rewrite (says_entries _ _ F H) end. cbn [obind]. unfold p_map. now rewrite plain_pairs.
Qed.

(* data is read as what it denotes, however it is laid out *)
Theorem parse_data e cs v : layout (lexemes e) cs -> denotes E e v -> pc_parse E W (encode cs) = POk (PV v) LEnd.
Proof. intros L D. apply (parse_expression e cs); [exact L|]. now apply denotes_ev. Qed.
(* an entry at the top is a map *)
Theorem parse_entry k e cs v w : layout (lexemes k ++ LRocket :: lexemes e) cs -> denotes E k v -> denotes E e w ->
  pc_parse E W (encode cs) = POk (PV (VMap [(v, w)])) LEnd.
Proof.
  intros L D1 D2. apply denotes_ev in D1, D2. pose proof (pc_tokens_layout _ _ L) as T. pose proof (layout_ok _ _ L) as K. apply Forall_app in K as [K1 K2]. inversion K2 as [|? ? _ K3]; subst.
  destruct (read_all e _ LEnd K3 D2 I) as (x2 & xs2 & n2 & El2 & _ & R2).
  destruct (read_all k _ (feed (LRocket :: lexemes e) LEnd) K1 D1) as (x1 & xs1 & n1 & El1 & _ & R1); [cbn; auto|].
  apply (pc_parse_with (encode cs) (n1 + n2)). rewrite T, El1. unfold pc_parse_tokens. cbn [app feed p_next pbind]. rewrite feed_app.
  rewrite (run_more n1 _ _ _ _ _ R1) by lia. cbn [pbind p_next feed]. change (is_tok k_rocket (tok LRocket)) with true. cbn iota. rewrite El2. cbn [feed p_next pbind].
  rewrite (run_more n2 _ _ _ _ _ R2) by lia. reflexivity.
Qed.
End Proofs.
