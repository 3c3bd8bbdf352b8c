(* Texts that are written token by token: the lexer delivers these tokens. *)
From Coq Require Import ZArith List Bool Lia.
From Coq Require Import Floats.SpecFloat.
From Verif Require Import Int64 Utf8 Utf8Proofs Text TextSpec TextProofs Print Lexer LexerSpec LexerProofs Syntax SyntaxSpec.
Import ListNotations.
Open Scope Z_scope.

(* ---------- floats ---------- *)

(* after an exponent the lexer panics on more *)
Definition ends_exponent (rest : list Z) : Prop :=
  match rest with [] => True | c :: _ => is_digit c = false /\ is_letter c = false /\ c <> 46 end.

Section Chars.
Variable w : list Z.
Hypothesis W : Forall char w.

Ltac step := match goal with
  | |- gives _ (bind (rd_next ?r0) _) _ _ => eapply g_bind; [eapply g_next_cons; eassumption|clear dependent r0; let r1 := fresh "r" in let H1 := fresh "Hr" in intros r1 H1; cbn beta]
  | H : rd _ ?r ?cs |- context [rd_peek ?r] => rewrite (g_peek w W r cs H); cbn [bind hd]
  | H : rd _ ?r ?cs |- context [rd_peek2 ?r] => rewrite (g_peek2 w W r cs H); cbn [bind hd tl]
  end.
Ltac no_eq c := repeat match goal with |- context [Z.eqb c ?k] => destruct (Z.eqb_spec c k); [lia|] end.

Lemma write_digit d : is_digit d = true -> write_rune d = [d].
Proof. unfold is_digit, between. intros H. unfold write_rune. destruct (Z.ltb_spec d 128); [reflexivity|lia]. Qed.

Lemma unsigned_digits ds : forallb is_digit ds = true -> forall fuel r buf rest,
  rd w r (ds ++ rest) -> ends_exponent rest -> (length ds < fuel)%nat -> gives w (unsigned_integer fuel r buf) (buf ++ ds) rest.
Proof.
  induction ds as [|d ds IH]; intros D fuel r buf rest Hr X Hf; (destruct fuel as [|fuel]; [cbn in Hf; lia|]); cbn [unsigned_integer app length] in *.
  - step. rewrite app_nil_r. destruct rest as [|c rest]; cbn [hd]; [now apply g_ret|]. cbn in X. destruct X as (X1 & X2 & X3).
    destruct (Z.eqb_spec c 46); [contradiction|]. rewrite X1, X2. now apply g_ret.
  - cbn [forallb] in D. apply andb_true_iff in D as [D1 D2]. step. pose proof D1 as Dd. unfold is_digit, between in Dd.
    destruct (Z.eqb_spec d 46); [lia|]. replace (is_letter d) with false by (symmetry; unfold is_letter, between; lia). rewrite D1. cbn [orb]. step. rewrite write_digit by exact D1.
    replace (buf ++ d :: ds) with ((buf ++ [d]) ++ ds) by (rewrite <- app_assoc; reflexivity). apply IH; auto. lia.
Qed.

Lemma exponent_reads c ds fuel r buf rest : c = 43 \/ c = 45 -> ds <> [] -> forallb is_digit ds = true ->
  rd w r (c :: ds ++ rest) -> ends_exponent rest -> (length ds < fuel)%nat -> gives w (exponent fuel r buf) (buf ++ c :: ds) rest.
Proof.
  intros Hc N D Hr X Hf. destruct ds as [|d ds]; [congruence|]. cbn [forallb] in D. apply andb_true_iff in D as [D1 D2]. cbn [app length] in *. unfold exponent. step.
  assert (Ec : (c =? 0) = false /\ (c =? 43) || (c =? 45) = true /\ write_rune c = [c]) by (destruct Hc as [-> | ->]; auto). destruct Ec as (-> & -> & ->). step. rewrite D1.
  rewrite write_digit by exact D1. replace (buf ++ c :: d :: ds) with (((buf ++ [c]) ++ [d]) ++ ds) by (rewrite <- !app_assoc; reflexivity). apply unsigned_digits; auto. lia.
Qed.

(* what may follow the digits of the integer part or the fraction *)
Lemma number_digits_then ds : forallb is_digit ds = true -> forall fuel fz t r buf rest x out,
  rd w r (ds ++ rest) -> (length ds <= fuel)%nat ->
  (forall f r, (fuel - length ds <= f)%nat -> (f <= fuel)%nat -> rd w r rest -> gives w (number_loop f fz t r (buf ++ ds)) x out) ->
  gives w (number_loop fuel fz t r buf) x out.
Proof.
  induction ds as [|d ds IH]; intros D fuel fz t r buf rest x out Hr Hf K.
  - rewrite app_nil_r in K. apply K; auto; cbn; lia.
  - cbn [length] in *. destruct fuel as [|fuel]; [lia|]. cbn [number_loop app] in *.
    cbn [forallb] in D. apply andb_true_iff in D as [D1 D2]. step. pose proof D1 as Dd. unfold is_digit, between in Dd. destruct (Z.eqb_spec d 0); [lia|]. destruct (Z.eqb_spec d 48).
    + step. eapply IH; [exact D2|eassumption|lia|]. intros f r1 F1 F2 Hr1. rewrite write_digit by exact D1. rewrite <- app_assoc. apply K; auto; lia.
    + destruct (Z.eqb_spec d 101); [lia|]. destruct (Z.eqb_spec d 69); [lia|]. destruct (Z.eqb_spec d 120); [lia|]. destruct (Z.eqb_spec d 88); [lia|]. destruct (Z.eqb_spec d 46); [lia|].
      cbn [orb]. rewrite D1. cbn [negb]. step. eapply IH; [exact D2|eassumption|lia|]. intros f r1 F1 F2 Hr1. rewrite write_digit by exact D1. rewrite <- app_assoc. apply K; auto; lia.
Qed.

Lemma number_exponent c ds fuel fz t r buf rest : c = 43 \/ c = 45 -> ds <> [] -> forallb is_digit ds = true ->
  rd w r (69 :: c :: ds ++ rest) -> ends_exponent rest -> (S (length ds) < fuel)%nat -> gives w (number_loop fuel fz t r buf) (buf ++ 69 :: c :: ds, t_float) rest.
Proof.
  intros Hc N D Hr X Hf. destruct fuel as [|fuel]; [lia|]. cbn [number_loop]. step. cbn [Z.eqb Pos.eqb orb]. step.
  eapply g_bind. { eapply (exponent_reads c ds fuel _ _ rest Hc N D); eauto. lia. }
  intros r1 Hr1. change (write_rune 69) with [69]. rewrite <- app_assoc. now apply g_ret.
Qed.

Definition fits_float (expo : bool) (rest : list Z) : Prop := if expo then ends_exponent rest else ends_number rest.

Lemma number_float (expo : bool) ip fp ex rest : forallb is_digit ip = true ->
  (fp = [] \/ exists ds, fp = 46 :: ds /\ ds <> [] /\ forallb is_digit ds = true) ->
  (if expo then exists c ds, ex = 69 :: c :: ds /\ (c = 43 \/ c = 45) /\ ds <> [] /\ forallb is_digit ds = true else ex = [] /\ fp <> []) ->
  fits_float expo rest -> forall fuel fz r buf, rd w r (ip ++ fp ++ ex ++ rest) -> (S (length (ip ++ fp ++ ex)) < fuel)%nat ->
  gives w (number_loop fuel fz t_integer r buf) (buf ++ ip ++ fp ++ ex, t_float) rest.
Proof.
  intros Di Hf He X fuel fz r buf Hr L. rewrite !app_length in L.
  eapply (number_digits_then ip); [exact Di|exact Hr|lia|]. intros f r1 F1 F2 Hr1. destruct Hf as [-> |(ds & -> & Nd & Dd)].
  - destruct expo; [|destruct He; congruence]. destruct He as (c & es & -> & Hc & Ne & De). cbn [app length] in *. cbn [fits_float] in X.
    rewrite app_assoc. apply number_exponent; auto. lia.
  - cbn [length app] in *. destruct f as [|f]; [lia|]. cbn [number_loop]. step. cbn [Z.eqb Pos.eqb orb]. step.
    destruct ds as [|d ds]; [congruence|]. cbn [app hd forallb length] in *. apply andb_true_iff in Dd as [D1 D2].
    destruct (Z.eqb_spec d 46) as [->|]; [discriminate|]. change (negb (t_integer =? t_float)) with true. cbn iota. step. step. rewrite D1.
    change (write_rune 46) with [46]. rewrite write_digit by exact D1.
    replace (buf ++ ip ++ 46 :: d :: ds ++ ex) with ((((buf ++ ip) ++ [46]) ++ [d]) ++ ds ++ ex) by (rewrite <- !app_assoc; reflexivity).
    destruct expo.
    + destruct He as (c & es & -> & Hc & Ne & De). cbn [app length] in *. eapply (number_digits_then ds); [exact D2|eassumption|lia|]. intros f' r3 F3 F4 Hr3. cbn [fits_float] in X.
      rewrite app_assoc. apply number_exponent; auto. lia.
    + destruct He as [-> _]. rewrite app_nil_r. cbn [app] in *. cbn [fits_float] in X. apply number_digits; auto. lia.
Qed.

Lemma lex_float expo s r rest : float_shape expo s -> fits_float expo rest -> rd w r (s ++ rest) -> gives w (lex r) (mk_token s t_float) rest.
Proof.
  intros (sign & ip & fp & ex & -> & Hs & Ni & Di & Hf & He) X Hr. destruct ip as [|d ip]; [congruence|]. cbn [forallb] in Di. apply andb_true_iff in Di as [D1 D2].
  pose proof (rd_fuel w W r _ Hr) as L. unfold lex. rewrite !app_length in L. cbn [length] in L. pose proof D1 as Dd. unfold is_digit, between in Dd. destruct Hs as [-> | ->].
  - cbn [app length] in *. rewrite <- !app_assoc in Hr. cbn [Nat.add next_token]. revert L. generalize (length (r_s r)). intros k L. step.
    no_eq d. cbn [orb]. unfold build_token. rewrite D1. unfold consume_number.
    eapply g_bind; [eapply (number_float expo ip fp ex rest D2 Hf He X); [eassumption|rewrite !app_length; lia]|]. intros r1 Hr1. cbn [fst snd]. rewrite write_digit by exact D1. now apply g_ret.
  - cbn [app length] in *. rewrite <- !app_assoc in Hr. cbn [Nat.add next_token]. revert L. generalize (length (r_s r)). intros k L. step.
    cbn [Z.eqb Pos.eqb orb]. step. rewrite D1. unfold consume_number.
    eapply g_bind; [eapply (number_float expo ip fp ex rest D2 Hf He X); [eassumption|rewrite !app_length; lia]|]. intros r2 Hr2. cbn [fst snd]. rewrite (write_digit d D1). now apply g_ret.
Qed.
End Chars.

(* ---------- lists of tokens ---------- *)

Inductive pt := PStr (cs : list Z) | PPat (cs : list Z) | PInt (z : Z) | PFlt (s : list Z) | PId (l : list Z) | PDots2 | PDots3 | PCh (c : Z).

Section Tokens.
Variable P : Z -> bool.

Definition chars (p : pt) : list Z :=
  match p with
  | PStr cs => quote P cs | PPat cs => slash_quote cs | PInt z => itoa z | PFlt s => s | PId l => l
  | PDots2 => [46; 46] | PDots3 => [46; 46; 46] | PCh c => [c]
  end.
Definition tok (p : pt) : token :=
  match p with
  | PStr cs => mk_token (encode cs) t_string | PPat cs => mk_token (encode cs) t_regexp | PInt z => mk_token (itoa z) t_integer
  | PFlt s => mk_token s t_float | PId l => mk_token l t_identifier
  | PDots2 => mk_token [46; 46] t_dotdot | PDots3 => mk_token [46; 46; 46] t_dotdotdot | PCh c => mk_token [] c
  end.
Definition tok_ok (p : pt) : Prop :=
  match p with
  | PStr cs => Forall (literal_char P) cs
  | PPat cs => Forall pattern_char cs
  | PInt z => in64 z
  | PFlt s => exists expo, float_shape expo s
  | PId l => identifier_text l
  | PCh c => existsb (Z.eqb c) [33; 38; 40; 41; 44; 58; 63; 91; 93; 94; 123; 124; 125; 126] = true
  | _ => True
  end.
Definition tok_fits (p : pt) (rest : list Z) : Prop :=
  match p with
  | PInt _ => ends_number rest
  | PFlt s => exists expo, float_shape expo s /\ fits_float expo rest
  | PId _ => ends_identifier rest
  | PDots2 => hd 0 rest <> 46
  | _ => True
  end.
Definition all_chars (ts : list pt) : list Z := flat_map chars ts.
Fixpoint lexable (ts : list pt) : Prop :=
  match ts with [] => True | p :: r => tok_ok p /\ tok_fits p (all_chars r) /\ lexable r end.
Fixpoint feed (ts : list pt) (l : lexed) : lexed := match ts with [] => l | p :: r => LTok (tok p) (feed r l) end.

Lemma all_chars_app a b : all_chars (a ++ b) = all_chars a ++ all_chars b.
Proof. unfold all_chars. apply flat_map_app. Qed.
Lemma feed_app a b l : feed (a ++ b) l = feed a (feed b l).
Proof. induction a as [|p a IH]; cbn [app feed]; [reflexivity|]. now rewrite IH. Qed.

(* a character after which every token ends *)
Definition separated (rest : list Z) : Prop := match rest with [] => True | c :: _ => existsb (Z.eqb c) [41; 125; 93; 44; 58; 63; 124; 38; 94; 91] = true end.
Lemma separated_fits p rest : tok_ok p -> separated rest -> tok_fits p rest.
Proof.
  assert (D : forall c, existsb (Z.eqb c) [41; 125; 93; 44; 58; 63; 124; 38; 94; 91] = true -> is_digit c = false /\ is_id c = false /\ is_letter c = false /\ c <> 46 /\ c <> 101 /\ c <> 69 /\ c <> 120 /\ c <> 88).
  { intros c H. cbn [existsb] in H. unfold is_id, is_id_start, is_letter, is_digit, between. lia. }
  intros K H. destruct p; cbn in *; auto; (destruct rest as [|c rest]; cbn in *; [auto|apply D in H]).
  - repeat split; try tauto.
  - destruct K as [expo K]. exists expo. split; [exact K|]. destruct expo; exact I.
  - destruct K as [expo K]. exists expo. split; [exact K|]. destruct expo; cbn; repeat split; tauto.
  - tauto.
  - lia.
  - tauto.
Qed.

Lemma digits_small ds : forallb is_digit ds = true -> forallb (fun c => between 0 c 127) ds = true.
Proof. intros H. rewrite forallb_forall in *. intros c Hc. specialize (H c Hc). unfold is_digit, between in *. lia. Qed.
Lemma itoa_small z : in64 z -> forallb (fun c => between 0 c 127) (itoa z) = true.
Proof. intros H. destruct (itoa_shape z H) as (ds & _ & D & [-> | ->]); cbn [forallb]; now rewrite (digits_small ds D). Qed.
Lemma float_small expo s : float_shape expo s -> forallb (fun c => between 0 c 127) s = true.
Proof.
  intros (sign & ip & fp & ex & -> & Hs & Ni & Di & Hf & He). rewrite !forallb_app. rewrite (digits_small ip Di).
  replace (forallb (fun c => between 0 c 127) sign) with true by (destruct Hs as [-> | ->]; reflexivity).
  replace (forallb (fun c => between 0 c 127) fp) with true. 2:{ destruct Hf as [-> |(ds & -> & _ & D)]; [reflexivity|]. cbn [forallb]. now rewrite (digits_small ds D). }
  destruct expo; [destruct He as (c & ds & -> & Hc & _ & D); cbn [forallb]; rewrite (digits_small ds D); destruct Hc as [-> | ->]; reflexivity|destruct He as [-> _]; reflexivity].
Qed.
Lemma identifier_small l : identifier_text l -> forallb (fun c => between 0 c 127) l = true.
Proof.
  destruct l as [|c l]; [contradiction|]. intros [A B]. cbn [forallb]. apply andb_true_iff. split; [unfold is_id_start, is_letter, between in *; lia|].
  rewrite forallb_forall in *. intros d Hd. specialize (B d Hd). unfold is_id, is_id_start, is_letter, is_digit, between in *. lia.
Qed.
Lemma slash_chars cs : Forall pattern_char cs -> Forall char (slash_quote cs).
Proof.
  intros F. unfold slash_quote. apply Forall_app; split; [now apply smalls|]. apply Forall_app; split; [|now apply smalls].
  induction F as [|c cs (Hc & L & N) F IH]; [constructor|]. cbn [flat_map]. apply Forall_app; split; [|exact IH]. unfold slash_char.
  destruct (Z.eqb_spec c 9); [lia|]. destruct (Z.eqb_spec c 10); [lia|]. destruct (Z.eqb_spec c 13); [lia|].
  destruct (Z.eqb_spec c 47); [now apply smalls|]. destruct (Z.eqb_spec c 92); [lia|]. destruct (Z.ltb_spec c 32); [lia|]. constructor; auto.
Qed.
Lemma tok_chars p : tok_ok p -> Forall char (chars p) /\ chars p <> [].
Proof.
  destruct p as [cs|cs|z|s|l| | |c]; cbn [tok_ok chars]; intros H.
  - split; [now apply quote_chars|discriminate].
  - split; [now apply slash_chars|discriminate].
  - split; [apply smalls, itoa_small, H|]. destruct (itoa_shape z H) as (ds & N & _ & [-> | ->]); [exact N|discriminate].
  - destruct H as [expo H]. split; [eapply smalls, float_small, H|]. destruct H as (sign & ip & fp & ex & -> & _ & N & _). destruct sign, ip; cbn; congruence.
  - split; [apply smalls, identifier_small, H|]. intros ->. exact H.
  - split; [now apply smalls|discriminate].
  - split; [now apply smalls|discriminate].
  - split; [|discriminate]. apply smalls. cbn [existsb forallb] in *. unfold between. lia.
Qed.

Lemma lex_tok w p r rest : Forall char w -> tok_ok p -> tok_fits p rest -> rd w r (chars p ++ rest) -> gives w (lex r) (tok p) rest.
Proof.
  intros W K F Hr. destruct p as [cs|cs|z|s|l| | |c]; cbn [tok_ok chars tok_fits tok] in *.
  - now apply (lex_string w W P).
  - now apply (lex_regexp w W).
  - now apply (lex_itoa w z).
  - destruct F as (expo & S & F). now apply (lex_float w W expo).
  - now apply (lex_identifier w W).
  - now apply (lex_dots2 w W).
  - now apply (lex_dots3 w W).
  - apply (lex_char w W); auto; cbn [existsb] in *; [lia|unfold is_digit, between; lia|unfold is_id_start, is_letter, between; lia].
Qed.
Lemma tok_not_end p : tok_ok p -> t_type (tok p) =? t_end = false.
Proof. destruct p; cbn [tok tok_ok t_type existsb]; try reflexivity. unfold t_end. intros H. destruct (Z.eqb_spec c 0); [subst; discriminate|reflexivity]. Qed.

Lemma lex_feed w : Forall char w -> forall ts r n, lexable ts -> rd w r (all_chars ts) -> (length ts < n)%nat -> lex_all n r = feed ts LEnd.
Proof.
  intros W. induction ts as [|p ts IH]; intros r n K Hr Hn; (destruct n as [|n]; [cbn in Hn; lia|]); cbn [lex_all feed].
  - destruct (lex_end w W r Hr) as [r' ->]. reflexivity.
  - destruct K as (K1 & K2 & K3). destruct (lex_tok w p r (all_chars ts) W K1 K2 Hr) as (r' & -> & Hr'). rewrite tok_not_end by exact K1. f_equal. apply IH; auto. cbn in Hn. lia.
Qed.

Lemma lexable_chars ts : lexable ts -> Forall char (all_chars ts) /\ (length ts <= length (all_chars ts))%nat.
Proof.
  induction ts as [|p ts IH]; intros K; [split; [constructor|cbn; lia]|]. destruct K as (K1 & _ & K3). destruct (tok_chars p K1) as [C N]. destruct (IH K3) as [C' L].
  unfold all_chars in *. cbn [flat_map]. split; [apply Forall_app; auto|]. rewrite app_length. destruct (chars p); [congruence|]. cbn [length]. lia.
Qed.

Theorem tokens_feed ts : lexable ts -> tokens (encode (all_chars ts)) = feed ts LEnd.
Proof.
  intros K. destruct (lexable_chars ts K) as [C L]. unfold tokens. apply (lex_feed (all_chars ts)); auto.
  - exists 0%nat. rewrite new_after. split; [reflexivity|]. split; [reflexivity|lia].
  - assert (R : rd (all_chars ts) (new_reader (encode (all_chars ts))) (all_chars ts)) by (exists 0%nat; rewrite new_after; split; [reflexivity|]; split; [reflexivity|lia]).
    pose proof (rd_fuel _ C _ _ R) as Q. cbn [new_reader r_s] in Q. lia.
Qed.
End Tokens.
