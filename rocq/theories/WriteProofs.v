(* The text of a readable type as a list of tokens. *)
From Coq Require Import Strings.Ascii Strings.String.
From Coq Require Import ZArith List Bool Lia.
From Coq Require Import Floats.SpecFloat.
From Verif Require Import Int64 Utf8 Utf8Proofs Text TextSpec TextProofs HMap Data DataProofs Types InstProofs Construct Print Lexer LexerSpec LexerProofs Syntax SyntaxSpec TokenProofs.
Import ListNotations.
Open Scope Z_scope.

(* ---------- code points ---------- *)

Fixpoint runes_loop (fuel : nat) (s : list Z) : list Z :=
  match fuel, s with
  | O, _ | _, [] => []
  | S fuel, _ => let (c, w) := decode_rune s in c :: runes_loop fuel (skipn w s)
  end.
Definition runes (s : list Z) : list Z := runes_loop (length s) s.

Lemma encode_rune_pos c : scalar c -> exists b t, encode_rune c = b :: t.
Proof. intros H. destruct (encode_rune_head c H) as (b & t & E & _). eauto. Qed.
Lemma runes_loop_encode cs : Forall char cs -> forall fuel, (length cs <= fuel)%nat -> runes_loop fuel (encode cs) = cs.
Proof.
  intros F. induction F as [|c cs [Hc N] F IH]; intros fuel H; [destruct fuel; reflexivity|]. cbn [length] in H. destruct fuel as [|fuel]; [lia|].
  rewrite encode_cons. cbn [runes_loop]. destruct (encode_rune_pos c Hc) as (b & t & Eq). pose proof (decode_encode c (encode cs) Hc) as D. rewrite Eq in *. cbn [app] in *. rewrite D.
  f_equal. replace (skipn (length (b :: t)) (b :: t ++ encode cs)) with (encode cs). { apply IH. lia. } change (b :: t ++ encode cs) with ((b :: t) ++ encode cs). now rewrite skipn_app_len.
Qed.
Lemma encode_length cs : Forall char cs -> (length cs <= length (encode cs))%nat.
Proof.
  intros F. induction F as [|c cs [Hc N] F IH]; [cbn; lia|]. rewrite encode_cons, app_length. destruct (encode_rune_pos c Hc) as (b & t & ->). cbn [length]. lia.
Qed.
Lemma runes_encode cs : Forall char cs -> runes (encode cs) = cs.
Proof. intros F. apply runes_loop_encode; auto. now apply encode_length. Qed.
Lemma encode_small l : forallb (fun c => between 0 c 127) l = true -> encode l = l.
Proof.
  induction l as [|c l IH]; intros H; [reflexivity|]. cbn [forallb] in H. apply andb_true_iff in H as [A B]. rewrite encode_cons, IH by exact B. rewrite encode_rune_small by (unfold between in A; lia). reflexivity.
Qed.

Section Write.
Variable E : env.
Notation P := (e_print E).

Lemma quote_loop_encode cs : Forall char cs -> forall fuel, (length cs <= fuel)%nat -> quote_loop E fuel (encode cs) = encode (flat_map (quote_char P) cs).
Proof.
  intros F. induction F as [|c cs [Hc N] F IH]; intros fuel H; [destruct fuel; reflexivity|]. cbn [length] in H. destruct fuel as [|fuel]; [lia|].
  rewrite encode_cons. cbn [quote_loop]. destruct (encode_rune_pos c Hc) as (b & t & Eq). pose proof (decode_encode c (encode cs) Hc) as D. rewrite Eq in *. cbn [app] in *. rewrite D.
  destruct (Z.eqb_spec c rune_error); [contradiction|]. cbn [andb flat_map]. rewrite encode_app. f_equal.
  replace (skipn (length (b :: t)) (b :: t ++ encode cs)) with (encode cs). { apply IH. lia. } change (b :: t ++ encode cs) with ((b :: t) ++ encode cs). now rewrite skipn_app_len.
Qed.
Lemma quote_bytes_encode cs : Forall char cs -> quote_bytes E (encode cs) = encode (quote P cs).
Proof. intros F. unfold quote_bytes, quote. rewrite !encode_app. rewrite quote_loop_encode by (auto; now apply encode_length). reflexivity. Qed.
Lemma slash_loop_encode cs : Forall char cs -> forall fuel, (length cs <= fuel)%nat -> slash_loop fuel (encode cs) = encode (flat_map slash_char cs).
Proof.
  intros F. induction F as [|c cs [Hc N] F IH]; intros fuel H; [destruct fuel; reflexivity|]. cbn [length] in H. destruct fuel as [|fuel]; [lia|].
  rewrite encode_cons. cbn [slash_loop]. destruct (encode_rune_pos c Hc) as (b & t & Eq). pose proof (decode_encode c (encode cs) Hc) as D. rewrite Eq in *. cbn [app] in *. rewrite D.
  cbn [flat_map]. rewrite encode_app. f_equal.
  replace (skipn (length (b :: t)) (b :: t ++ encode cs)) with (encode cs). { apply IH. lia. } change (b :: t ++ encode cs) with ((b :: t) ++ encode cs). now rewrite skipn_app_len.
Qed.
Lemma slash_bytes_encode cs : Forall char cs -> slash_bytes (encode cs) = encode (slash_quote cs).
Proof. intros F. unfold slash_bytes, slash_quote. rewrite !encode_app. rewrite slash_loop_encode by (auto; now apply encode_length). reflexivity. Qed.

(* ---------- the tokens ---------- *)

Fixpoint tjoin (sep : Z) (l : list (list pt)) : list pt :=
  match l with
  | [] => []
  | [x] => x
  | x :: r => x ++ PCh sep :: tjoin sep r
  end.
Fixpoint tvariadic (l : list (list pt)) : list pt :=
  match l with
  | [] => []
  | [x] => PDots3 :: x
  | x :: r => x ++ PCh 44 :: tvariadic r
  end.
Fixpoint vtoks (v : value) : list pt :=
  match v with
  | VBool b => [PId (if b then lit "true" else lit "false")]
  | VInt z => [PInt z]
  | VFloat f => [PFlt (e_ftoa E f)]
  | VStr s => [PStr (runes s)]
  | VArr l => PCh 123 :: tjoin 44 (map vtoks l) ++ [PCh 125]
  | VMap m => PCh 123 :: tjoin 44 (map (fun e => vtoks (fst e) ++ PCh 58 :: vtoks (snd e)) m) ++ [PCh 125]
  | _ => []
  end.
Definition size_toks (min max : Z) : list pt := PInt min :: if max =? max_int64 then [] else [PCh 44; PInt max].
Definition dot_tok (incl : bool) : pt := if incl then PDots2 else PDots3.
Definition ternary_toks (prio : Z) (op : Z) (l : list (list pt)) : list pt :=
  if 1 <=? prio then PCh 40 :: tjoin op l ++ [PCh 41] else tjoin op l.
Fixpoint toks (prio : Z) (t : ty) {struct t} : list pt :=
  match t with
  | TAny => [PId (lit "any")]
  | TNil => [PId (lit "nil")]
  | TBool => [PId (lit "bool")]
  | TInt => [PId (lit "int")]
  | TIntRange min max incl => (if min =? min_int64 then [] else [PInt min]) ++ dot_tok incl :: (if max =? max_int64 then [] else [PInt max])
  | TFloat => [PId (lit "float")]
  | TFloatRange min max incl => (if SFeqb min min_float then [] else [PFlt (e_ftoa E min)]) ++ dot_tok incl :: (if SFeqb max max_float then [] else [PFlt (e_ftoa E max)])
  | TString => [PId (lit "string")]
  | TDgoString => [PId (lit "dgo")]
  | TStrSized min max => PId (lit "string") :: if unbounded min max then [] else PCh 91 :: size_toks min max ++ [PCh 93]
  | TCiStr s => [PCh 126; PStr (runes s)]
  | TPattern s => [PPat (runes s)]
  | TBinary _ _ => [PId (lit "binary")]
  | TExact _ v => vtoks v
  | TSens _ t => PId (lit "sensitive") :: if is_any t then [] else PCh 91 :: toks prio t ++ [PCh 93]
  | TArray => [PCh 91; PCh 93; PId (lit "any")]
  | TArrSized _ e min max => PCh 91 :: (if unbounded min max then [] else size_toks min max) ++ PCh 93 :: toks 4 e
  | TTuple _ ts variadic => PCh 123 :: (if variadic then tvariadic (map (toks 0) ts) else tjoin 44 (map (toks 0) ts)) ++ [PCh 125]
  | TMap => [PId (lit "map"); PCh 91; PId (lit "any"); PCh 93; PId (lit "any")]
  | TMapSized _ k v min max =>
      PId (lit "map") :: PCh 91 :: toks 0 k ++ (if unbounded min max then [] else PCh 44 :: size_toks min max) ++ PCh 93 :: toks 4 v
  | TStruct _ additional es =>
      PCh 123 :: tjoin 44 (map (fun e : value * ty * bool =>
        vtoks (fst (fst e)) ++ (if snd e then [] else [PCh 63]) ++ PCh 58 :: toks 0 (snd (fst e))) es) ++
      (if additional then match es with [] => [] | _ => [PCh 44] end ++ [PDots3] else []) ++ [PCh 125]
  | TAllOf _ ts => ternary_toks prio 38 (map (toks 3) ts)
  | TAnyOf _ ts => ternary_toks prio 124 (map (toks 1) ts)
  | TOneOf _ ts => ternary_toks prio 94 (map (toks 2) ts)
  | TNot _ t => PCh 33 :: toks 4 t
  | TMeta (Some t) => PId (lit "type") :: if is_any t then [] else PCh 91 :: toks prio t ++ [PCh 93]
  | _ => []
  end.

Definition enc (ts : list pt) : list Z := encode (all_chars P ts).
Lemma enc_nil : enc [] = []. Proof. reflexivity. Qed.
Lemma enc_app a b : enc (a ++ b) = enc a ++ enc b.
Proof. unfold enc. now rewrite all_chars_app, encode_app. Qed.
Lemma enc_cons p r : enc (p :: r) = encode (chars P p) ++ enc r.
Proof. unfold enc, all_chars. cbn [flat_map]. apply encode_app. Qed.
Lemma enc_ch c : 0 <= c < 128 -> encode (chars P (PCh c)) = [c].
Proof. intros H. cbn [chars]. rewrite encode_cons, encode_rune_small by exact H. reflexivity. Qed.
Lemma enc_int z : in64 z -> encode (chars P (PInt z)) = itoa z.
Proof. intros H. apply encode_small, itoa_small, H. Qed.
Lemma enc_flt expo f : float_ok E expo f -> encode (chars P (PFlt (e_ftoa E f))) = e_ftoa E f.
Proof. intros [H _]. eapply encode_small, float_small, H. Qed.
Lemma literal_chars cs : Forall (literal_char P) cs -> Forall char cs.
Proof. intros F. eapply Forall_impl; [|exact F]. intros c [H _]. exact H. Qed.
Lemma pattern_chars cs : Forall pattern_char cs -> Forall char cs.
Proof. intros F. eapply Forall_impl; [|exact F]. intros c [H _]. exact H. Qed.
Lemma enc_str s : text_ok E s -> encode (chars P (PStr (runes s))) = quote_bytes E s.
Proof. intros (cs & -> & F). apply literal_chars in F. rewrite runes_encode by exact F. symmetry. now apply quote_bytes_encode. Qed.
Lemma enc_dots incl : encode (chars P (dot_tok incl)) = dots incl.
Proof. destruct incl; reflexivity. Qed.

Lemma enc_tjoin {A} sep (f : A -> list Z) (g : A -> list pt) l : 0 <= sep < 128 -> (forall x, In x l -> f x = enc (g x)) -> join [sep] (map f l) = enc (tjoin sep (map g l)).
Proof.
  intros S H. induction l as [|x r IH]; [reflexivity|]. destruct r as [|y r]; [exact (H x (or_introl eq_refl))|].
  change (join [sep] (map f (x :: y :: r))) with (f x ++ [sep] ++ join [sep] (map f (y :: r))). change (tjoin sep (map g (x :: y :: r))) with (g x ++ PCh sep :: tjoin sep (map g (y :: r))).
  rewrite IH by (intros; apply H; now right). rewrite enc_app, enc_cons, enc_ch by exact S. rewrite H by now left. reflexivity.
Qed.
Lemma enc_tvariadic {A} (f : A -> list Z) (g : A -> list pt) l : (forall x, In x l -> f x = enc (g x)) -> variadic_text (map f l) = enc (tvariadic (map g l)).
Proof.
  intros H. induction l as [|x r IH]; [reflexivity|]. destruct r as [|y r]; [cbn [map variadic_text tvariadic]; rewrite enc_cons, (H x (or_introl eq_refl)); reflexivity|].
  change (variadic_text (map f (x :: y :: r))) with (f x ++ [44] ++ variadic_text (map f (y :: r))). change (tvariadic (map g (x :: y :: r))) with (g x ++ PCh 44 :: tvariadic (map g (y :: r))).
  rewrite IH by (intros; apply H; now right). rewrite enc_app, enc_cons, enc_ch by lia. rewrite H by now left. reflexivity.
Qed.

Lemma enc_size x y : bounds x y -> size_text x y = enc (size_toks x y).
Proof.
  intros (B1 & B2 & B3). assert (in64 x /\ in64 y) as [Ix Iy] by (unfold in64, min_int64, max_int64 in *; lia). unfold size_text, size_toks. rewrite enc_cons, enc_int by exact Ix. destruct (y =? max_int64); [now rewrite enc_nil|].
  rewrite !enc_cons, enc_int by exact Iy. rewrite enc_nil, app_nil_r. reflexivity.
Qed.

Lemma value_text v : readable_value E v -> exact_text E v = enc (vtoks v).
Proof.
  induction v as [ |b|z|f|s|s|s1 n1 z1|s|x IHx|l IHl|m IHm] using value_ind'; cbn [readable_value]; intros H; try contradiction.
  - destruct b; reflexivity.
  - cbn [exact_text leaf_type_text vtoks]. now rewrite enc_cons, enc_int, enc_nil, app_nil_r.
  - destruct H as [expo H]. cbn [exact_text leaf_type_text vtoks]. now rewrite enc_cons, (enc_flt expo), enc_nil, app_nil_r.
  - cbn [exact_text leaf_type_text vtoks]. now rewrite enc_cons, enc_str, enc_nil, app_nil_r.
  - destruct H as [_ H]. apply fold_and in H. cbn [exact_text vtoks]. rewrite enc_cons, enc_app, enc_cons, !enc_ch by lia. rewrite enc_nil. change (lit "{") with [123]. change (lit "}") with [125]. change (lit ",") with [44].
    rewrite (enc_tjoin 44 (exact_text E) vtoks); [reflexivity|lia|]. rewrite Forall_forall in *. auto.
  - destruct H as [H _]. apply fold_and in H. cbn [exact_text vtoks]. rewrite enc_cons, enc_app, enc_cons, !enc_ch by lia. rewrite enc_nil. change (lit "{") with [123]. change (lit "}") with [125]. change (lit ",") with [44].
    rewrite (enc_tjoin 44 _ (fun e : value * value => vtoks (fst e) ++ PCh 58 :: vtoks (snd e))); [reflexivity|lia|]. rewrite Forall_forall in *. intros e He.
    specialize (H e He). specialize (IHm e He). rewrite enc_app, enc_cons, enc_ch by lia. change (lit ":") with [58]. rewrite (proj1 IHm), (proj2 IHm) by tauto. reflexivity.
Qed.

Lemma ternary_enc {A} prio op c (f : A -> list Z) (g : A -> list pt) l : lit op = [c] -> 0 <= c < 128 -> (forall x, In x l -> f x = enc (g x)) -> ternary_text prio op (map f l) = enc (ternary_toks prio c (map g l)).
Proof.
  intros O C H. unfold ternary_text, ternary_toks. rewrite O, (enc_tjoin c f g l C H). destruct (1 <=? prio); [|reflexivity]. rewrite enc_cons, enc_app, enc_cons, !enc_ch by lia. rewrite enc_nil. reflexivity.
Qed.

Theorem type_text_toks t : readable E t -> forall prio, type_text E prio t = enc (toks prio t).
Proof.
  unfold type_text.
  induction t as [ | | | |x y i| |x y i| | |x y|s|s|x y| | |p v|p t IHt| |p e x y IHe|p ts b IHts| |p k v x y IHk IHv|p a es IHes|p ts IHts|p vs|p ts IHts|p ts IHts|p t IHt| |t IHt] using ty_ind';
    cbn [readable]; intros H prio; try contradiction; try reflexivity; cbn [type_text_with toks].
  - destruct H as (Ix & Iy & _). unfold int_range_text. rewrite enc_app, enc_cons, enc_dots. f_equal; [|f_equal]; (destruct (_ =? _); [reflexivity|]); now rewrite enc_cons, enc_int, enc_nil, app_nil_r.
  - destruct H as (_ & Hx & _ & ex & Hy). unfold float_range_text. rewrite enc_app, enc_cons, enc_dots. f_equal; [|f_equal].
    + destruct Hx as [-> |[-> Hx]]; [reflexivity|]. now rewrite enc_cons, (enc_flt false), enc_nil, app_nil_r.
    + destruct (SFeqb y max_float); [reflexivity|]. now rewrite enc_cons, (enc_flt ex), enc_nil, app_nil_r.
  - rewrite enc_cons. f_equal. destruct (unbounded x y); [reflexivity|]. rewrite enc_cons, enc_app, enc_cons, !enc_ch, enc_nil by lia. rewrite (enc_size x y) by tauto. reflexivity.
  - rewrite !enc_cons, enc_str, enc_nil, app_nil_r by tauto. reflexivity.
  - destruct H as [(cs & -> & F) _]. apply pattern_chars in F. rewrite enc_cons, enc_nil, app_nil_r, runes_encode by exact F. apply slash_bytes_encode, F.
  - destruct H as [-> ->]. reflexivity.
  - now apply value_text.
  - rewrite enc_cons. f_equal. destruct (is_any t); [reflexivity|]. rewrite enc_cons, enc_app, enc_cons, !enc_ch, enc_nil by lia. rewrite IHt by tauto. reflexivity.
  - rewrite enc_cons, enc_app, enc_cons, !enc_ch by lia. rewrite IHe by tauto. destruct (unbounded x y); [reflexivity|]. rewrite (enc_size x y) by tauto. rewrite <- !app_assoc. reflexivity.
  - destruct H as [H _]. apply fold_and in H. rewrite Forall_forall in *. unfold tuple_text. rewrite enc_cons, enc_app, enc_cons, !enc_ch, enc_nil by lia. change (lit "{") with [123]. change (lit "}") with [125]. change (lit ",") with [44].
    destruct b; [rewrite (enc_tvariadic _ (toks 0))|rewrite (enc_tjoin 44 _ (toks 0))]; auto; lia.
  - rewrite !enc_cons, !enc_app, enc_cons, !enc_ch by lia. rewrite IHk, IHv by tauto. change (encode (chars P (PId (lit "map")))) with (lit "map"). change (lit "map[") with (lit "map" ++ [91]). rewrite <- !app_assoc. do 3 f_equal.
    destruct (unbounded x y); [reflexivity|]. rewrite enc_cons, enc_ch by lia. rewrite (enc_size x y) by tauto. rewrite <- !app_assoc. reflexivity.
  - destruct H as [H _]. apply fold_and in H. rewrite Forall_forall in *. rewrite enc_cons, !enc_app, enc_cons, !enc_ch, enc_nil by lia. change (lit "{") with [123]. change (lit "}") with [125]. change (lit ",") with [44].
    rewrite (enc_tjoin 44 _ (fun e : value * ty * bool => vtoks (fst (fst e)) ++ (if snd e then [] else [PCh 63]) ++ PCh 58 :: toks 0 (snd (fst e)))); [|lia|].
    + do 2 f_equal. destruct a; [|reflexivity]. destruct es; reflexivity.
    + intros [[k t] r] He. specialize (H _ He). specialize (IHes _ He). cbn [fst snd] in *. rewrite value_text by tauto. rewrite IHes by tauto. rewrite !enc_app, enc_cons, enc_ch by lia. destruct r; reflexivity.
  - destruct H as [H _]. apply fold_and in H. rewrite Forall_forall in *. apply ternary_enc; [reflexivity|lia|]. intros; apply IHts; auto.
  - destruct H as [H _]. apply fold_and in H. rewrite Forall_forall in *. apply ternary_enc; [reflexivity|lia|]. intros; apply IHts; auto.
  - destruct H as [H _]. apply fold_and in H. rewrite Forall_forall in *. apply ternary_enc; [reflexivity|lia|]. intros; apply IHts; auto.
  - rewrite enc_cons, enc_ch, IHt by (tauto || lia). reflexivity.
  - rewrite enc_cons. f_equal. destruct (is_any t); [reflexivity|]. rewrite enc_cons, enc_app, enc_cons, !enc_ch, enc_nil by lia. rewrite IHt by tauto. reflexivity.
Qed.

(* ---------- the tokens are read back ---------- *)

Definition sepd (r : list pt) : Prop := separated (all_chars P r).
Notation lexb := (lexable P).
Lemma lexb_sep p r : tok_ok P p -> sepd r -> lexb r -> lexb (p :: r).
Proof. intros K S L. cbn [lexable]. split; [exact K|]. split; [now apply (separated_fits P)|exact L]. Qed.
Lemma lexb_ch c r : tok_ok P (PCh c) -> lexb r -> lexb (PCh c :: r).
Proof. intros K L. cbn [lexable]. split; [exact K|]. split; [exact I|exact L]. Qed.
Lemma sepd_ch c r : existsb (Z.eqb c) [41; 125; 93; 44; 58; 63; 124; 38; 94; 91] = true -> sepd (PCh c :: r).
Proof. intros H. exact H. Qed.
Lemma ok_str s : text_ok E s -> tok_ok P (PStr (runes s)).
Proof. intros (cs & -> & F). cbn [tok_ok]. now rewrite runes_encode by (eapply literal_chars; exact F). Qed.

Definition joins (ts : list pt) : Prop := forall r, lexb r -> sepd r -> lexb (ts ++ r).
Lemma joins_tjoin {A} c (g : A -> list pt) l : existsb (Z.eqb c) [44; 124; 38; 94] = true -> (forall x, In x l -> joins (g x)) -> joins (tjoin c (map g l)).
Proof.
  intros C H r L S. assert (C1 : tok_ok P (PCh c)) by (cbn [tok_ok existsb] in *; lia). assert (C2 : forall r, sepd (PCh c :: r)) by (intros; apply sepd_ch; cbn [existsb] in *; lia).
  induction l as [|x l IH]; [exact L|]. destruct l as [|y l]; [apply (H x); auto; now left|].
  change (tjoin c (map g (x :: y :: l))) with (g x ++ PCh c :: tjoin c (map g (y :: l))). rewrite <- app_assoc. apply (H x); [now left| |apply C2]. cbn [app]. apply lexb_ch; [exact C1|]. apply IH. intros; apply H; now right.
Qed.
Lemma joins_tvariadic {A} (g : A -> list pt) l : (forall x, In x l -> joins (g x)) -> joins (tvariadic (map g l)).
Proof.
  intros H r L S. induction l as [|x l IH]; [exact L|]. destruct l as [|y l]; [cbn [map tvariadic app lexable]; split; [exact I|]; split; [exact I|]; apply (H x); auto; now left|].
  change (tvariadic (map g (x :: y :: l))) with (g x ++ PCh 44 :: tvariadic (map g (y :: l))). rewrite <- app_assoc. apply (H x); [now left| |reflexivity]. cbn [app]. apply lexb_ch; [reflexivity|]. apply IH. intros; apply H; now right.
Qed.

Lemma joins_value v : readable_value E v -> joins (vtoks v).
Proof.
  induction v as [ |b|z|f|s|s|s1 n1 z1|s|x IHx|l IHl|m IHm] using value_ind'; cbn [readable_value]; intros H; try contradiction; intros r L S; cbn [vtoks app].
  - apply lexb_sep; auto. destruct b; cbn; auto.
  - apply lexb_sep; auto.
  - apply lexb_sep; auto. destruct H as [expo H]. exists expo. apply H.
  - apply lexb_sep; auto. now apply ok_str.
  - destruct H as [_ H]. apply fold_and in H. rewrite Forall_forall in *. apply lexb_ch; [reflexivity|]. rewrite <- app_assoc. apply joins_tjoin; [reflexivity|auto| |reflexivity]. cbn [app]. now apply lexb_ch.
  - destruct H as [H _]. apply fold_and in H. rewrite Forall_forall in *. apply lexb_ch; [reflexivity|]. rewrite <- app_assoc. apply joins_tjoin; [reflexivity| | |reflexivity]; [|cbn [app]; now apply lexb_ch].
    intros e He q Lq Sq. specialize (H e He). specialize (IHm e He). rewrite <- app_assoc. apply (proj1 IHm); [tauto| |reflexivity]. cbn [app]. apply lexb_ch; [reflexivity|]. apply (proj2 IHm); tauto.
Qed.

Lemma joins_size x y : bounds x y -> joins (size_toks x y).
Proof.
  intros (B1 & B2 & B3) r L S. assert (in64 x /\ in64 y) as [Ix Iy] by (unfold in64, min_int64, max_int64 in *; lia). unfold size_toks. destruct (y =? max_int64); cbn [app]; [now apply lexb_sep|].
  apply lexb_sep; [exact Ix|reflexivity|]. apply lexb_ch; [reflexivity|]. now apply lexb_sep.
Qed.

Lemma joins_ternary {A} prio c (g : A -> list pt) l : existsb (Z.eqb c) [44; 124; 38; 94] = true -> (forall x, In x l -> joins (g x)) -> joins (ternary_toks prio c (map g l)).
Proof.
  intros C H r L S. unfold ternary_toks. destruct (1 <=? prio); [|now apply joins_tjoin]. cbn [app]. apply lexb_ch; [reflexivity|]. rewrite <- app_assoc. apply joins_tjoin; auto; [|reflexivity]. cbn [app]. now apply lexb_ch.
Qed.

(* a range: the dots after a number, and a number after the dots *)
Lemma itoa_first z : in64 z -> exists c r, itoa z = c :: r /\ c <> 46.
Proof.
  intros H. destruct (itoa_shape z H) as (ds & N & D & [-> | ->]); [|exists 45, ds; split; [reflexivity|lia]]. destruct ds as [|d ds]; [congruence|]. exists d, ds. split; [reflexivity|]. cbn [forallb] in D. apply andb_true_iff in D as [D _]. unfold is_digit, between in D. lia.
Qed.
Lemma float_first expo s : float_shape expo s -> exists c r, s = c :: r /\ c <> 46.
Proof.
  intros (sign & ip & fp & ex & -> & Hs & N & D & _). destruct ip as [|d ip]; [congruence|]. cbn [forallb] in D. apply andb_true_iff in D as [D _]. unfold is_digit, between in D.
  destruct Hs as [-> | ->]; [exists d|exists 45]; eexists; (split; [reflexivity|lia]).
Qed.
Lemma lexb_dots incl r : (forall c q, all_chars P r = c :: q -> c <> 46) -> lexb r -> lexb (dot_tok incl :: r).
Proof.
  intros H L. destruct incl; cbn [dot_tok lexable tok_ok tok_fits]; (split; [exact I|]); (split; [|exact L]); [|exact I]. destruct (all_chars P r) as [|c q]; cbn [hd]; [discriminate|]. now apply (H c q).
Qed.
Lemma sepd_not_dot r : sepd r -> forall c q, all_chars P r = c :: q -> c <> 46.
Proof. unfold sepd, separated. intros H c q X ->. rewrite X in H. discriminate H. Qed.
Lemma ends_dots incl r : ends_number (all_chars P (dot_tok incl :: r)).
Proof. destruct incl; cbn; repeat split; lia. Qed.

Theorem joins_toks t : readable E t -> forall prio, joins (toks prio t).
Proof.
  assert (ID : forall s r, identifier_text (lit s) -> lexb r -> sepd r -> lexb (PId (lit s) :: r)) by (intros; now apply lexb_sep).
  induction t as [ | | | |x y i| |x y i| | |x y|s|s|x y| | |p v|p t IHt| |p e x y IHe|p ts b IHts| |p k v x y IHk IHv|p a es IHes|p ts IHts|p vs|p ts IHts|p ts IHts|p t IHt| |t IHt] using ty_ind';
    cbn [readable]; intros H prio; try contradiction; try (intros r L S; apply ID; auto; cbn; auto; fail); intros r L S; cbn [toks].
  - destruct H as (Ix & Iy & _ & _). rewrite <- app_assoc. cbn [app]. assert (T : lexb (dot_tok i :: (if y =? max_int64 then [] else [PInt y]) ++ r)).
    { destruct (y =? max_int64); cbn [app].
      - apply lexb_dots; [now apply sepd_not_dot|exact L].
      - apply lexb_dots; [|now apply lexb_sep]. intros c q X. destruct (itoa_first y Iy) as (c' & q' & X' & N). change (itoa y ++ all_chars P r = c :: q) in X. rewrite X' in X. cbn in X. congruence. }
    destruct (x =? min_int64); [exact T|]. cbn [app]. cbn [lexable]. split; [exact Ix|]. split; [|exact T]. apply ends_dots.
  - destruct H as (_ & Hx & _ & ex & Hy & _). rewrite <- app_assoc. cbn [app]. assert (T : lexb (dot_tok i :: (if SFeqb y max_float then [] else [PFlt (e_ftoa E y)]) ++ r)).
    { destruct (SFeqb y max_float); cbn [app].
      - apply lexb_dots; [now apply sepd_not_dot|exact L].
      - apply lexb_dots; [|apply lexb_sep; auto; now exists ex]. intros c q X. destruct (float_first ex _ Hy) as (c' & q' & X' & N). change (e_ftoa E y ++ all_chars P r = c :: q) in X. rewrite X' in X. cbn in X. congruence. }
    destruct Hx as [-> |[-> [Hx _]]]; [exact T|]. cbn [app]. cbn [lexable]. split; [now exists false|]. split; [|exact T]. exists false. split; [exact Hx|]. apply ends_dots.
  - cbn [app]. destruct (unbounded x y); cbn [app]; [apply ID; cbn; auto|]. apply ID; [cbn; auto| |reflexivity]. apply lexb_ch; [reflexivity|]. rewrite <- app_assoc. apply joins_size; [tauto| |reflexivity]. cbn [app]. now apply lexb_ch.
  - cbn [app]. apply lexb_ch; [reflexivity|]. apply lexb_sep; auto. apply ok_str. tauto.
  - destruct H as [(cs & -> & F) _]. cbn [app]. apply lexb_sep; auto. cbn [tok_ok]. now rewrite runes_encode by now apply pattern_chars.
  - now apply joins_value.
  - cbn [app]. destruct (is_any t); cbn [app]; [apply ID; cbn; auto|]. apply ID; [cbn; auto| |reflexivity]. apply lexb_ch; [reflexivity|]. rewrite <- app_assoc. apply IHt; [tauto| |reflexivity]. cbn [app]. now apply lexb_ch.
  - cbn [app]. apply lexb_ch; [reflexivity|]. apply lexb_ch; [reflexivity|]. apply ID; cbn; auto.
  - cbn [app]. apply lexb_ch; [reflexivity|]. rewrite <- app_assoc. assert (T : lexb ((PCh 93 :: toks 4 e) ++ r)) by (cbn [app]; apply lexb_ch; [reflexivity|]; apply IHe; tauto).
    destruct (unbounded x y); [exact T|]. apply joins_size; [tauto|exact T|reflexivity].
  - destruct H as [H _]. apply fold_and in H. rewrite Forall_forall in *. cbn [app]. apply lexb_ch; [reflexivity|]. rewrite <- app_assoc. assert (T : lexb ([PCh 125] ++ r)) by (cbn [app]; now apply lexb_ch).
    destruct b; [apply joins_tvariadic|apply joins_tjoin]; auto; reflexivity.
  - cbn [app]. apply ID; [cbn; auto| |reflexivity]. apply lexb_ch; [reflexivity|]. apply ID; [cbn; auto| |reflexivity]. apply lexb_ch; [reflexivity|]. apply ID; cbn; auto.
  - cbn [app]. apply ID; [cbn; auto| |reflexivity]. apply lexb_ch; [reflexivity|]. rewrite <- !app_assoc. assert (T : lexb ((PCh 93 :: toks 4 v) ++ r)) by (cbn [app]; apply lexb_ch; [reflexivity|]; apply IHv; tauto).
    apply IHk; [tauto| |destruct (unbounded x y); reflexivity]. destruct (unbounded x y); [exact T|]. cbn [app]. apply lexb_ch; [reflexivity|]. apply joins_size; [tauto|exact T|reflexivity].
  - destruct H as [H _]. apply fold_and in H. rewrite Forall_forall in *. cbn [app]. apply lexb_ch; [reflexivity|]. rewrite <- !app_assoc. assert (T : lexb ([PCh 125] ++ r)) by (cbn [app]; now apply lexb_ch).
    assert (T2 : lexb (((if a then match es with [] => [] | _ => [PCh 44] end ++ [PDots3] else []) ++ [PCh 125]) ++ r)).
    { destruct a; [|exact T]. destruct es; cbn [app lexable] in *; tauto. }
    rewrite <- app_assoc in T2. destruct es as [|e es]; [exact T2|]. apply joins_tjoin; [reflexivity| |exact T2|destruct a; reflexivity].
    intros [[k t] rq] He. specialize (H _ He). specialize (IHes _ He). cbn [fst snd] in *. intros q Lq Sq. rewrite <- !app_assoc. cbn [app].
    assert (T3 : lexb (PCh 58 :: toks 0 t ++ q)) by (apply lexb_ch; [reflexivity|]; apply IHes; tauto). apply joins_value; [tauto| |destruct rq; reflexivity]. destruct rq; [exact T3|]. cbn [app]. now apply lexb_ch.
  - destruct H as [H _]. apply fold_and in H. rewrite Forall_forall in *. apply joins_ternary; auto.
  - destruct H as [H _]. apply fold_and in H. rewrite Forall_forall in *. apply joins_ternary; auto.
  - destruct H as [H _]. apply fold_and in H. rewrite Forall_forall in *. apply joins_ternary; auto.
  - cbn [app]. apply lexb_ch; [reflexivity|]. apply IHt; tauto.
  - cbn [app]. destruct (is_any t); cbn [app]; [apply ID; cbn; auto|]. apply ID; [cbn; auto| |reflexivity]. apply lexb_ch; [reflexivity|]. rewrite <- app_assoc. apply IHt; [tauto| |reflexivity]. cbn [app]. now apply lexb_ch.
Qed.

Theorem type_tokens t : readable E t -> tokens (type_string E t) = feed (toks 0 t) LEnd.
Proof.
  intros H. unfold type_string. rewrite type_text_toks by exact H. apply tokens_feed. rewrite <- (app_nil_r (toks 0 t)). apply joins_toks; auto; exact I.
Qed.
End Write.
