From Coq Require Import ZArith List Bool Lia.
From Verif Require Import Int64 Utf8 Utf8Proofs Text TextSpec TextProofs Print Lexer LexerSpec.
Import ListNotations.
Open Scope Z_scope.

(* ---------- reading characters ---------- *)

(* r is a reader that will deliver the characters cs *)
Definition rd (w : list Z) (r : reader) (cs : list Z) : Prop := exists n, r = after w n /\ skipn n w = cs /\ (n <= length w)%nat.
Definition gives {A} (w : list Z) (m : res A) (x : A) (cs : list Z) : Prop := exists r, m = Ok x r /\ rd w r cs.

Lemma skipn_S {A} n : forall (w : list A), skipn (S n) w = tl (skipn n w).
Proof. induction n as [|n IH]; intros [|a w]; try reflexivity. cbn [skipn]. destruct n; [reflexivity|]. rewrite <- IH. reflexivity. Qed.
Lemma nth_skipn n : forall (w : list Z), nth n w 0 = hd 0 (skipn n w).
Proof. induction n as [|n IH]; intros [|a w]; try reflexivity. cbn [skipn nth]. apply IH. Qed.

Section Chars.
Variable w : list Z.
Hypothesis W : Forall char w.

Lemma g_next_cons r c cs : rd w r (c :: cs) -> gives w (rd_next r) c cs.
Proof.
  intros (n & -> & E & L). unfold gives, rd_next. rewrite next_after by exact W. exists (after w (S n)). rewrite nth_skipn, E. split; [reflexivity|]. exists (S n). split; [reflexivity|]. split; [rewrite skipn_S, E; reflexivity|].
  apply (f_equal (@length Z)) in E. rewrite skipn_length in E. cbn in E. lia.
Qed.
Lemma g_peek r cs : rd w r cs -> rd_peek r = Ok (hd 0 cs) r.
Proof. intros (n & -> & E & _). unfold rd_peek. rewrite peek_after by exact W. subst cs. now rewrite <- nth_skipn. Qed.
Lemma g_peek2 r cs : rd w r cs -> rd_peek2 r = Ok (hd 0 (tl cs)) r.
Proof. intros (n & -> & E & _). unfold rd_peek2. rewrite peek2_after by exact W. subst cs. now rewrite <- skipn_S, <- nth_skipn. Qed.
Lemma g_ret {A} (x : A) r cs : rd w r cs -> gives w (Ok x r) x cs.
Proof. intros H. now exists r. Qed.
Lemma g_bind {A B} (m : res A) (f : A -> reader -> res B) x cs y cs' : gives w m x cs -> (forall r, rd w r cs -> gives w (f x r) y cs') -> gives w (bind m f) y cs'.
Proof. intros (r & -> & H) F. cbn. now apply F. Qed.
Lemma rd_fuel r cs : rd w r cs -> (length cs <= length (r_s r))%nat.
Proof.
  intros (n & -> & <- & _). change (r_s (after w n)) with (encode w). assert (L : (length (skipn n w) <= length w)%nat) by (rewrite skipn_length; lia).
  enough (length w <= length (encode w))%nat by lia. clear - W. induction W as [|c w Hc Hw IH]; [cbn; lia|]. cbn [encode flat_map]. fold (encode w). rewrite app_length. cbn [length].
  destruct Hc as [Sc _]. destruct (encode_rune_head c Sc) as (b & t & -> & _). cbn [length]. specialize (IH Hw). lia.
Qed.


Ltac step := match goal with
  | |- gives _ (bind (rd_next ?r0) _) _ _ => eapply g_bind; [eapply g_next_cons; eassumption|clear dependent r0; let r1 := fresh "r" in let H1 := fresh "Hr" in intros r1 H1; cbn beta]
  | H : rd _ ?r ?cs |- context [rd_peek ?r] => rewrite (g_peek r cs H); cbn [bind hd]
  | H : rd _ ?r ?cs |- context [rd_peek2 ?r] => rewrite (g_peek2 r cs H); cbn [bind hd tl]
  end.

Lemma enc1 c : encode_rune c = write_rune c.
Proof. now rewrite write_rune_encode. Qed.

Lemma app_write buf c cs : (buf ++ write_rune c) ++ encode cs = buf ++ encode (c :: cs).
Proof. rewrite encode_cons, enc1, <- app_assoc. reflexivity. Qed.

(* ---------- string literals ---------- *)

Lemma consume_string_quoted P cs : Forall (literal_char P) cs -> forall fuel r buf rest,
  rd w r (flat_map (quote_char P) cs ++ 34 :: rest) -> (length (flat_map (quote_char P) cs) < fuel)%nat ->
  gives w (consume_string fuel r 34 buf) (buf ++ encode cs) rest.
Proof.
  intros F. induction F as [|c cs [Hc L] F IH]; intros fuel r buf rest Hr Hf; (destruct fuel as [|fuel]; [cbn in Hf; lia|]); cbn [consume_string flat_map] in *.
  - cbn [app] in Hr. step. cbn [Z.eqb Pos.eqb encode flat_map]. rewrite app_nil_r. now apply g_ret.
  - rewrite app_length in Hf. rewrite <- app_assoc in Hr. rewrite <- app_write. unfold quote_char in *.
    destruct (Z.eqb_spec c 34) as [->|N34]; [|destruct (Z.eqb_spec c 92) as [->|N92]]; cbn [orb app length] in *.
    + step. cbn [Z.eqb Pos.eqb]. step. cbn [escape Z.eqb Pos.eqb]. apply IH; [exact Hr|lia].
    + step. cbn [Z.eqb Pos.eqb]. step. cbn [escape Z.eqb Pos.eqb]. apply IH; [exact Hr|lia].
    + destruct (printable P c) eqn:Pc; [|destruct L as [L|[-> |[-> | ->]]]; [congruence| | |]]; cbn [app length Z.eqb Pos.eqb] in *.
      * step. destruct (Z.eqb_spec c 34); [contradiction|]. unfold printable, between in Pc.
        destruct (Z.eqb_spec c 0) as [->|]; [discriminate|]. destruct (Z.eqb_spec c 92); [contradiction|]. destruct (Z.eqb_spec c 10) as [->|]; [discriminate|].
        apply IH; [exact Hr|lia].
      * step. cbn [Z.eqb Pos.eqb]. step. cbn [escape Z.eqb Pos.eqb]. apply IH; [exact Hr|lia].
      * step. cbn [Z.eqb Pos.eqb]. step. cbn [escape Z.eqb Pos.eqb]. apply IH; [exact Hr|lia].
      * step. cbn [Z.eqb Pos.eqb]. step. cbn [escape Z.eqb Pos.eqb]. apply IH; [exact Hr|lia].
Qed.

Lemma raw_string_raw cs : Forall char cs -> ~ In 96 cs -> ~ In 0 cs -> forall fuel r buf rest,
  rd w r (cs ++ 96 :: rest) -> (length cs < fuel)%nat -> gives w (raw_string fuel r buf) (buf ++ encode cs) rest.
Proof.
  intros F. induction F as [|c cs Hc F IH]; intros N1 N0 fuel r buf rest Hr Hf; (destruct fuel as [|fuel]; [cbn in Hf; lia|]); cbn [raw_string app length] in *.
  - step. cbn [Z.eqb Pos.eqb encode flat_map]. rewrite app_nil_r. now apply g_ret.
  - step. destruct (Z.eqb_spec c 96) as [->|]; [destruct N1; now left|]. destruct (Z.eqb_spec c 0) as [->|]; [destruct N0; now left|].
    rewrite <- app_write. apply IH; [intros H; apply N1; now right|intros H; apply N0; now right|exact Hr|lia].
Qed.

Lemma consume_regexp_slashed cs : Forall pattern_char cs -> forall fuel r buf rest,
  rd w r (flat_map slash_char cs ++ 47 :: rest) -> (length (flat_map slash_char cs) < fuel)%nat -> gives w (consume_regexp fuel r buf) (buf ++ encode cs) rest.
Proof.
  intros F. induction F as [|c cs (Hc & L & N92) F IH]; intros fuel r buf rest Hr Hf; (destruct fuel as [|fuel]; [cbn in Hf; lia|]); cbn [consume_regexp flat_map] in *.
  - cbn [app] in Hr. step. cbn [Z.eqb Pos.eqb encode flat_map]. rewrite app_nil_r. now apply g_ret.
  - rewrite app_length in Hf. rewrite <- app_assoc in Hr. rewrite <- app_write. unfold slash_char in *.
    destruct (Z.eqb_spec c 9); [lia|]. destruct (Z.eqb_spec c 10); [lia|]. destruct (Z.eqb_spec c 13); [lia|].
    destruct (Z.eqb_spec c 47) as [->|N47]; cbn [app length] in *.
    + step. cbn [Z.eqb Pos.eqb]. step. cbn [Z.eqb Pos.eqb app]. apply IH; [exact Hr|lia].
    + destruct (Z.eqb_spec c 92); [lia|]. destruct (Z.ltb_spec c 32); [lia|]. cbn [app length] in *. step.
      destruct (Z.eqb_spec c 47); [contradiction|]. destruct (Z.eqb_spec c 92); [contradiction|]. destruct (Z.eqb_spec c 0); [lia|]. destruct (Z.eqb_spec c 10); [lia|]. cbn [orb].
      apply IH; [exact Hr|lia].
Qed.

(* ---------- numbers and identifiers ---------- *)

Lemma number_digits ds : forallb is_digit ds = true -> forall fuel fz t r buf rest,
  rd w r (ds ++ rest) -> ends_number rest -> (length ds < fuel)%nat -> gives w (number_loop fuel fz t r buf) (buf ++ ds, t) rest.
Proof.
  induction ds as [|d ds IH]; intros D fuel fz t r buf rest Hr E Hf; (destruct fuel as [|fuel]; [cbn in Hf; lia|]); cbn [number_loop app length] in *.
  - rewrite (g_peek r rest Hr). cbn [bind]. destruct rest as [|c rest]; cbn [hd]; [cbn; rewrite app_nil_r; now apply g_ret|]. cbn in E. destruct E as (N & N1 & N2 & N3 & N4 & N5).
    rewrite app_nil_r. destruct (Z.eqb_spec c 0); [now apply g_ret|]. destruct (Z.eqb_spec c 48) as [->|]; [discriminate|]. destruct (Z.eqb_spec c 101); [contradiction|]. destruct (Z.eqb_spec c 69); [contradiction|].
    destruct (Z.eqb_spec c 120); [contradiction|]. destruct (Z.eqb_spec c 88); [contradiction|]. cbn [orb]. rewrite N. cbn [negb].
    destruct (Z.eqb_spec c 46) as [->|]; [|now apply g_ret]. step. rewrite (N5 eq_refl). cbn. now apply g_ret.
  - cbn [forallb] in D. apply andb_true_iff in D as [D1 D2]. step. pose proof D1 as Dd. unfold is_digit, between in D1.
    assert (48 <= d <= 57) by lia. assert (WR : write_rune d = [d]) by (unfold write_rune; destruct (Z.ltb_spec d 128); [reflexivity|lia]).
    replace (buf ++ d :: ds) with ((buf ++ write_rune d) ++ ds) by (rewrite WR, <- app_assoc; reflexivity).
    destruct (Z.eqb_spec d 0); [lia|]. destruct (Z.eqb_spec d 48).
    + step. apply IH; auto. lia.
    + destruct (Z.eqb_spec d 101); [lia|]. destruct (Z.eqb_spec d 69); [lia|]. destruct (Z.eqb_spec d 120); [lia|]. destruct (Z.eqb_spec d 88); [lia|]. destruct (Z.eqb_spec d 46); [lia|].
      cbn [orb]. rewrite Dd. cbn [negb]. step. apply IH; auto. lia.
Qed.

Lemma identifier_reads ds : forallb is_id ds = true -> forall fuel r buf rest,
  rd w r (ds ++ rest) -> ends_identifier rest -> (length ds < fuel)%nat -> gives w (identifier_loop fuel r buf) (buf ++ ds) rest.
Proof.
  induction ds as [|d ds IH]; intros D fuel r buf rest Hr E Hf; (destruct fuel as [|fuel]; [cbn in Hf; lia|]); cbn [identifier_loop app length] in *.
  - rewrite (g_peek r rest Hr). cbn [bind]. rewrite app_nil_r. destruct rest as [|c rest]; cbn [hd]; [now apply g_ret|]. cbn in E. rewrite E. now apply g_ret.
  - cbn [forallb] in D. apply andb_true_iff in D as [D1 D2]. step. rewrite D1. step.
    assert (WR : write_rune d = [d]). { unfold write_rune. destruct (Z.ltb_spec d 128); [reflexivity|]. unfold is_id, is_id_start, is_letter, is_digit, between in D1. lia. }
    replace (buf ++ d :: ds) with ((buf ++ write_rune d) ++ ds) by (rewrite WR, <- app_assoc; reflexivity). apply IH; auto. lia.
Qed.

(* ---------- tokens ---------- *)

Ltac no_eq c := repeat match goal with |- context [Z.eqb c ?k] => destruct (Z.eqb_spec c k); [lia|] end.

Lemma lex_string P cs r rest : Forall (literal_char P) cs -> rd w r (quote P cs ++ rest) -> gives w (lex r) (mk_token (encode cs) t_string) rest.
Proof.
  intros F Hr. pose proof (rd_fuel r _ Hr) as L. unfold lex. unfold quote in *. rewrite <- !app_assoc in *. cbn [app length] in *. rewrite app_length in L. cbn [Nat.add next_token]. revert L. generalize (length (r_s r)). intros k L. step. cbn [Z.eqb Pos.eqb orb].
  eapply g_bind; [apply (consume_string_quoted P cs F _ r [] rest Hr); lia|]. intros r' Hr'. now apply g_ret.
Qed.
Lemma lex_raw cs r rest : Forall char cs -> ~ In 96 cs -> ~ In 0 cs -> rd w r ([96] ++ cs ++ [96] ++ rest) -> gives w (lex r) (mk_token (encode cs) t_string) rest.
Proof.
  intros F N1 N2 Hr. pose proof (rd_fuel r _ Hr) as L. unfold lex. cbn [app length] in *. rewrite app_length in L. cbn [Nat.add next_token]. revert L. generalize (length (r_s r)). intros k L. step. cbn [Z.eqb Pos.eqb orb].
  eapply g_bind; [apply (raw_string_raw cs F N1 N2 _ r [] rest Hr); lia|]. intros r' Hr'. now apply g_ret.
Qed.
Lemma lex_regexp cs r rest : Forall pattern_char cs -> rd w r (slash_quote cs ++ rest) -> gives w (lex r) (mk_token (encode cs) t_regexp) rest.
Proof.
  intros F Hr. pose proof (rd_fuel r _ Hr) as L. unfold lex. unfold slash_quote in *. rewrite <- !app_assoc in *. cbn [app length] in *. rewrite app_length in L. cbn [Nat.add next_token]. revert L. generalize (length (r_s r)). intros k L. step. cbn [Z.eqb Pos.eqb orb].
  eapply g_bind; [apply (consume_regexp_slashed cs F _ r [] rest Hr); lia|]. intros r' Hr'. now apply g_ret.
Qed.
Lemma lex_number ds r rest : forallb is_digit ds = true -> ds <> [] -> ends_number rest -> rd w r (ds ++ rest) -> gives w (lex r) (mk_token ds t_integer) rest.
Proof.
  intros D N E Hr. destruct ds as [|d ds]; [congruence|]. cbn [forallb] in D. apply andb_true_iff in D as [D1 D2].
  pose proof (rd_fuel r _ Hr) as L. unfold lex. cbn [app length] in *. rewrite app_length in L. cbn [Nat.add next_token]. revert L. generalize (length (r_s r)). intros k L. step.
  pose proof D1 as Dd. unfold is_digit, between in Dd. no_eq d. cbn [orb].
  unfold build_token. rewrite D1. eapply g_bind; [unfold consume_number; apply (number_digits ds D2 _ _ _ r _ rest Hr E); lia|].
  intros r' Hr'. cbn [fst snd]. assert (WR : write_rune d = [d]) by (unfold write_rune; destruct (Z.ltb_spec d 128); [reflexivity|lia]). rewrite WR. now apply g_ret.
Qed.
Lemma lex_negative ds r rest : forallb is_digit ds = true -> ds <> [] -> ends_number rest -> rd w r (45 :: ds ++ rest) -> gives w (lex r) (mk_token (45 :: ds) t_integer) rest.
Proof.
  intros D N E Hr. destruct ds as [|d ds]; [congruence|]. cbn [forallb] in D. apply andb_true_iff in D as [D1 D2].
  pose proof (rd_fuel r _ Hr) as L. unfold lex. cbn [app length] in *. rewrite app_length in L. cbn [Nat.add next_token]. revert L. generalize (length (r_s r)). intros k L. step.
  cbn [Z.eqb Pos.eqb orb]. step. rewrite D1. eapply g_bind; [unfold consume_number; apply (number_digits ds D2 _ _ _ r _ rest Hr E); lia|].
  intros r' Hr'. cbn [fst snd]. assert (WR : write_rune d = [d]). { unfold is_digit, between in D1. unfold write_rune; destruct (Z.ltb_spec d 128); [reflexivity|lia]. } rewrite WR. now apply g_ret.
Qed.
Lemma lex_identifier l r rest : identifier_text l -> ends_identifier rest -> rd w r (l ++ rest) -> gives w (lex r) (mk_token l t_identifier) rest.
Proof.
  intros D E Hr. destruct l as [|d ds]; [contradiction|]. destruct D as [D1 D2].
  pose proof (rd_fuel r _ Hr) as L. unfold lex. cbn [app length] in *. rewrite app_length in L. cbn [Nat.add next_token]. revert L. generalize (length (r_s r)). intros k L. step.
  pose proof D1 as Dd. unfold is_id_start, is_letter, between in Dd. no_eq d. cbn [orb]. unfold build_token. replace (is_digit d) with false by (symmetry; unfold is_digit, between; lia). rewrite D1.
  assert (WR : write_rune d = [d]) by (unfold write_rune; destruct (Z.ltb_spec d 128); [reflexivity|lia]). rewrite WR.
  eapply g_bind; [apply (identifier_reads ds D2 _ r [d] rest Hr E); lia|]. intros r' Hr'. now apply g_ret.
Qed.
Lemma lex_dots3 r rest : rd w r (46 :: 46 :: 46 :: rest) -> gives w (lex r) (mk_token [46; 46; 46] t_dotdotdot) rest.
Proof.
  intros Hr. unfold lex. cbn [Nat.add next_token]. generalize (length (r_s r)). intros k. step. cbn [Z.eqb Pos.eqb orb]. step. cbn [Z.eqb Pos.eqb]. step. step. cbn [Z.eqb Pos.eqb]. step. now apply g_ret.
Qed.
Lemma lex_dots2 r rest : hd 0 rest <> 46 -> rd w r (46 :: 46 :: rest) -> gives w (lex r) (mk_token [46; 46] t_dotdot) rest.
Proof.
  intros N Hr. unfold lex. cbn [Nat.add next_token]. generalize (length (r_s r)). intros k. step. cbn [Z.eqb Pos.eqb orb]. step. cbn [Z.eqb Pos.eqb]. step. step. destruct (Z.eqb_spec (hd 0 rest) 46); [contradiction|]. now apply g_ret.
Qed.
(* other characters *)
Lemma lex_char c r rest : existsb (Z.eqb c) [0; 32; 9; 10; 96; 34; 47; 46; 45; 43] = false -> is_digit c = false -> is_id_start c = false ->
  rd w r (c :: rest) -> gives w (lex r) (mk_token [] c) rest.
Proof.
  intros N D I Hr. unfold lex. cbn [Nat.add next_token]. generalize (length (r_s r)). intros k. step. cbn [existsb] in N. repeat (apply orb_false_iff in N; destruct N as [?E N]).
  repeat match goal with E : (c =? _) = false |- _ => rewrite E; clear E end. cbn [orb]. unfold build_token. rewrite D, I. now apply g_ret.
Qed.
Lemma lex_end r : rd w r [] -> exists r', lex r = Ok (mk_token [] t_end) r'.
Proof. intros (n & -> & E & _). unfold lex. cbn [Nat.add next_token]. unfold rd_next. rewrite next_after by exact W. rewrite nth_skipn, E. cbn. eauto. Qed.
End Chars.

(* ---------- the lexer ends ---------- *)

Lemma decode_width b s : (0 < snd (decode_rune (b :: s)))%nat.
Proof.
  assert (X : forall (b : bool) (p q : Z * nat), (0 < snd p)%nat -> (0 < snd q)%nat -> (0 < snd (if b then p else q))%nat) by (intros [|]; auto).
  cbn [decode_rune]. apply X; [cbn; lia|]. apply X; [destruct s; [|apply X]; cbn; lia|]. apply X.
  - destruct s as [|b1 [|b2 s]]; try (cbn; lia). apply X; cbn; lia.
  - apply X; [|cbn; lia]. destruct s as [|b1 [|b2 [|b3 s]]]; try (cbn; lia). apply X; cbn; lia.
Qed.
Lemma next_left r c r' : next r = Some (c, r') -> r_s r' = r_s r /\ (left r' <= left r)%nat /\ (c <> 0 -> (left r' < left r)%nat).
Proof.
  unfold next, left. destruct (Nat.leb_spec (length (r_s r)) (r_p r)) as [L|L].
  - destruct (Nat.eqb_spec (r_p r) (length (r_s r))); intros [= <- <-]; cbn [r_s r_p]; split; auto; split; try lia; congruence.
  - destruct (skipn (r_p r) (r_s r)) as [|b s] eqn:E. { apply (f_equal (@length Z)) in E. rewrite skipn_length in E. cbn in E. lia. }
    cbn [hd]. destruct (b <? 128); [destruct (b =? 10); intros [= <- <-]; cbn [r_s r_p]; split; auto; lia|].
    pose proof (decode_width b s) as D. destruct (decode_rune (b :: s)) as [d sz]. cbn [snd] in D. destruct (d =? rune_error); [discriminate|]. intros [= <- <-]. cbn [r_s r_p]. split; auto; lia.
Qed.

(* m returns or panics, and reads no more than there is after r *)
Definition sure {A} (r : reader) (m : res A) : Prop := match m with Ok _ r' => r_s r' = r_s r /\ (left r' <= left r)%nat | Panic => True | Stuck => False end.
Lemma sure_ok {A} r (x : A) : sure r (Ok x r).
Proof. cbn. auto. Qed.
Lemma sure_bind {A B} r (m : res A) (f : A -> reader -> res B) : sure r m -> (forall x r', m = Ok x r' -> r_s r' = r_s r -> (left r' <= left r)%nat -> sure r' (f x r')) -> sure r (bind m f).
Proof. unfold sure, bind. destruct m as [x r'| |]; auto. intros [E L] F. specialize (F x r' eq_refl E L). destruct (f x r') as [y r''| |]; auto. destruct F. split; [congruence|lia]. Qed.
Lemma sure_next {B} r (f : Z -> reader -> res B) : (forall c r', r_s r' = r_s r -> (left r' <= left r)%nat -> (c <> 0 -> (left r' < left r)%nat) -> sure r' (f c r')) -> sure r (bind (rd_next r) f).
Proof. intros F. unfold rd_next. destruct (next r) as [[c r']|] eqn:E; [|exact I]. cbn [bind]. apply next_left in E as (E & L & L'). specialize (F c r' E L L'). unfold sure in *. destruct (f c r'); auto. destruct F. split; [congruence|lia]. Qed.
Lemma sure_peek {B} r (f : Z -> reader -> res B) : (forall c, sure r (f c r)) -> sure r (bind (rd_peek r) f).
Proof. intros F. unfold rd_peek. destruct (peek r) as [c|]; [apply F|exact I]. Qed.
Lemma sure_peek2 {B} r (f : Z -> reader -> res B) : (forall c, sure r (f c r)) -> sure r (bind (rd_peek2 r) f).
Proof. intros F. unfold rd_peek2. destruct (peek2 r) as [c|]; [apply F|exact I]. Qed.
(* after a character has been seen, reading it makes progress *)
Lemma sure_peeked {B} r (f : Z -> reader -> res B) : (forall c, (c <> 0 -> forall c' r', next r = Some (c', r') -> c' = c) -> sure r (f c r)) -> sure r (bind (rd_peek r) f).
Proof.
  intros F. unfold rd_peek. destruct (peek r) as [c|] eqn:P; [|exact I]. cbn [bind]. apply F. intros N c' r' E. unfold peek in P. unfold next in E.
  destruct (Nat.leb (length (r_s r)) (r_p r)); [congruence|]. destruct (Z.leb_spec 128 (hd 0 (skipn (r_p r) (r_s r)))), (Z.ltb_spec (hd 0 (skipn (r_p r) (r_s r))) 128); try lia.
  - destruct (decode_rune _) as [d sz]. destruct (d =? rune_error); congruence.
  - destruct (_ =? 10); congruence.
Qed.

Ltac peeked := apply sure_peeked; let c := fresh "c" in let H := fresh "PK" in intros c H; cbn beta.
Ltac nexted := apply sure_next; let c := fresh "c" in let r' := fresh "r" in let E := fresh "E" in let L := fresh "L" in let L' := fresh "L'" in intros c r' E L L'; cbn beta.
(* reading a character that has been seen and is not zero *)
Lemma sure_next_seen {B} r c0 (f : Z -> reader -> res B) : (c0 <> 0 -> forall c' r', next r = Some (c', r') -> c' = c0) -> c0 <> 0 ->
  (forall r', r_s r' = r_s r -> (left r' < left r)%nat -> sure r' (f c0 r')) -> sure r (bind (rd_next r) f).
Proof. intros P N F. unfold rd_next. destruct (next r) as [[c r']|] eqn:E; [|exact I]. cbn [bind]. rewrite (P N c r' eq_refl) in *. apply next_left in E as (E & L & L'). specialize (L' N). specialize (F r' E L'). unfold sure in *. destruct (f c0 r'); auto. destruct F. split; [congruence|lia]. Qed.
Ltac seen := eapply sure_next_seen; [eassumption| |let r' := fresh "r" in let E := fresh "E" in let L := fresh "L" in intros r' E L; cbn beta].
Ltac kinds := unfold is_hex, is_id, is_id_start, is_letter, is_digit, between in *; lia.

Lemma sure_unsigned fuel : forall r buf, (left r < fuel)%nat -> sure r (unsigned_integer fuel r buf).
Proof.
  induction fuel as [|fuel IH]; intros r buf H; [lia|]. cbn [unsigned_integer]. peeked. destruct ((c =? 46) || is_letter c); [exact I|]. destruct (is_digit c) eqn:D; [|apply sure_ok]. seen; [kinds|]. apply IH. lia.
Qed.
Lemma sure_exponent fuel r buf : (left r < fuel)%nat -> sure r (exponent fuel r buf).
Proof.
  intros H. unfold exponent. nexted. destruct (c =? 0); [exact I|]. destruct ((c =? 43) || (c =? 45)).
  - nexted. destruct (is_digit c0); [|exact I]. apply sure_unsigned. lia.
  - destruct (is_digit c); [|exact I]. apply sure_unsigned. lia.
Qed.
Lemma sure_hex fuel : forall r buf, (left r < fuel)%nat -> sure r (hex_integer fuel r buf).
Proof. induction fuel as [|fuel IH]; intros r buf H; [lia|]. cbn [hex_integer]. peeked. destruct (is_hex c) eqn:D; [|apply sure_ok]. seen; [kinds|]. apply IH. lia. Qed.
Lemma sure_number fuel : forall fz t r buf, (left r < fuel)%nat -> sure r (number_loop fuel fz t r buf).
Proof.
  induction fuel as [|fuel IH]; intros fz t r buf H; [lia|]. cbn [number_loop]. peeked. destruct (Z.eqb_spec c 0); [apply sure_ok|]. destruct (c =? 48).
  { seen; [exact n|]. apply IH. lia. }
  destruct ((c =? 101) || (c =? 69)). { seen; [exact n|]. apply sure_bind; [apply sure_exponent; lia|]. intros. apply sure_ok. }
  destruct ((c =? 120) || (c =? 88)). { destruct fz; [|exact I]. seen; [exact n|]. nexted. destruct (is_hex c0); [|exact I]. apply sure_bind; [apply sure_hex; lia|]. intros. apply sure_ok. }
  destruct (c =? 46). { apply sure_peek2. intros c2. destruct (c2 =? 46); [apply sure_ok|]. destruct (negb (t =? t_float)); [|exact I]. seen; [exact n|]. nexted. destruct (is_digit c0); [|exact I]. apply IH. lia. }
  destruct (negb (is_digit c)); [apply sure_ok|]. seen; [exact n|]. apply IH. lia.
Qed.
Lemma sure_regexp fuel : forall r buf, (left r < fuel)%nat -> sure r (consume_regexp fuel r buf).
Proof.
  induction fuel as [|fuel IH]; intros r buf H; [lia|]. cbn [consume_regexp]. nexted. destruct (c =? 47); [apply sure_ok|]. destruct (Z.eqb_spec c 92).
  - nexted. destruct (c0 =? 0); [exact I|]. apply IH. lia.
  - destruct (Z.eqb_spec c 0); [exact I|]. cbn [orb]. destruct (c =? 10); [exact I|]. apply IH. lia.
Qed.
Lemma sure_string fuel : forall r stop buf, (left r < fuel)%nat -> sure r (consume_string fuel r stop buf).
Proof.
  induction fuel as [|fuel IH]; intros r stop buf H; [lia|]. cbn [consume_string]. nexted. destruct (c =? stop); [apply sure_ok|]. destruct (Z.eqb_spec c 0); [exact I|]. destruct (c =? 92).
  - nexted. destruct (escape c0 stop); [|exact I]. apply IH. lia.
  - destruct (c =? 10); [exact I|]. apply IH. lia.
Qed.
Lemma sure_raw fuel : forall r buf, (left r < fuel)%nat -> sure r (raw_string fuel r buf).
Proof. induction fuel as [|fuel IH]; intros r buf H; [lia|]. cbn [raw_string]. nexted. destruct (c =? 96); [apply sure_ok|]. destruct (Z.eqb_spec c 0); [exact I|]. apply IH. lia. Qed.
Lemma sure_identifier fuel : forall r buf, (left r < fuel)%nat -> sure r (identifier_loop fuel r buf).
Proof. induction fuel as [|fuel IH]; intros r buf H; [lia|]. cbn [identifier_loop]. peeked. destruct (is_id c) eqn:D; [|apply sure_ok]. seen; [kinds|]. apply IH. lia. Qed.

(* nextToken ends; unless the token is the end, it has read something *)
Definition advances (r : reader) (m : res token) : Prop :=
  match m with Ok t r' => r_s r' = r_s r /\ (left r' <= left r)%nat /\ (t_type t <> t_end -> (left r' < left r)%nat) | Panic => True | Stuck => False end.
Lemma advances_sure r r' m : r_s r' = r_s r -> (left r' < left r)%nat -> sure r' m -> advances r m.
Proof. unfold advances, sure. destruct m; auto. intros E L [E' L']. split; [congruence|lia]. Qed.
Lemma next_token_advances fuel : forall r, (left r < fuel)%nat -> advances r (next_token fuel r).
Proof.
  induction fuel as [|fuel IH]; intros r H; [lia|]. cbn [next_token]. unfold rd_next at 1. destruct (next r) as [[c r']|] eqn:E; [|exact I]. cbn [bind].
  apply next_left in E as (E & L & L'). destruct (Z.eqb_spec c 0) as [->|N]. { cbn. split; [exact E|]. split; [exact L|]. intros X. now destruct X. }
  specialize (L' N). destruct ((c =? 32) || (c =? 9) || (c =? 10)).
  { specialize (IH r' ltac:(lia)). unfold advances in *. destruct (next_token fuel r'); auto. destruct IH as (A & B & C). split; [congruence|]. split; [lia|]. intros X. specialize (C X). lia. }
  apply (advances_sure r r' _ E L').
  destruct (c =? 96). { apply sure_bind; [apply sure_raw; lia|]. intros. apply sure_ok. }
  destruct (c =? 34). { apply sure_bind; [apply sure_string; lia|]. intros. apply sure_ok. }
  destruct (c =? 47). { apply sure_bind; [apply sure_regexp; lia|]. intros. apply sure_ok. }
  destruct (c =? 46). { apply sure_peek. intros c1. destruct (c1 =? 46); [|apply sure_ok]. nexted. apply sure_peek. intros c2. destruct (c2 =? 46); [|apply sure_ok]. nexted. apply sure_ok. }
  destruct ((c =? 45) || (c =? 43)). { nexted. destruct (is_digit c0); [|exact I]. apply sure_bind; [apply sure_number; lia|]. intros. apply sure_ok. }
  unfold build_token. destruct (is_digit c). { apply sure_bind; [apply sure_number; lia|]. intros. apply sure_ok. }
  destruct (is_id_start c). { apply sure_bind; [apply sure_identifier; lia|]. intros. apply sure_ok. }
  apply sure_ok.
Qed.
Theorem lex_advances r : advances r (lex r).
Proof. apply next_token_advances. unfold left. lia. Qed.

Lemma lex_all_complete n : forall r, (left r < n)%nat -> complete (lex_all n r).
Proof.
  induction n as [|n IH]; intros r H; [lia|]. cbn [lex_all]. pose proof (lex_advances r) as A. destruct (lex r) as [t r'| |]; [|exact I|contradiction]. destruct A as (_ & _ & A).
  destruct (Z.eqb_spec (t_type t) t_end) as [|N]; [exact I|]. cbn [complete]. apply IH. specialize (A N). lia.
Qed.
Theorem tokens_complete s : complete (tokens s).
Proof. apply lex_all_complete. unfold left. cbn. lia. Qed.

(* ---------- integers ---------- *)

Lemma digits_value_app b acc l c : digits_value b acc (l ++ [c]) = match digits_value b acc l with Some a => if digit_value c <? b then Some (a * b + digit_value c) else None | None => None end.
Proof. revert acc. induction l as [|d l IH]; intros acc; cbn [app digits_value]; [reflexivity|]. destruct (digit_value d <? b); [apply IH|reflexivity]. Qed.
Lemma digit_value_digit d : 0 <= d < 10 -> digit_value (48 + d) = d.
Proof. intros H. unfold digit_value. replace (is_digit (48 + d)) with true by (symmetry; unfold is_digit, between; lia). lia. Qed.

Lemma digits_ok fuel : forall z, 0 <= z < 10 ^ Z.of_nat fuel -> (0 < fuel)%nat ->
  digits_value 10 0 (digits fuel z) = Some z /\ forallb is_digit (digits fuel z) = true /\ (exists c r, digits fuel z = c :: r /\ (0 < z -> c <> 48) /\ (z = 0 -> c = 48 /\ r = [])).
Proof.
  induction fuel as [|fuel IH]; intros z Hz Hf; [lia|]. cbn [digits]. destruct (Z.ltb_spec z 10) as [L|L].
  - cbn [digits_value forallb]. rewrite digit_value_digit by lia. destruct (Z.ltb_spec z 10); [|lia]. split; [f_equal; lia|]. split; [unfold is_digit, between; lia|]. exists (48 + z), []. split; [reflexivity|]. split; [lia|]. intros ->. auto.
  - rewrite Nat2Z.inj_succ, Z.pow_succ_r in Hz by lia. pose proof (Z.div_mod z 10 ltac:(lia)). pose proof (Z.mod_pos_bound z 10 ltac:(lia)).
    destruct fuel as [|fuel]. { cbn in Hz. lia. }
    destruct (IH (z / 10)) as (V & D & c & r & E & N & _); [|lia|]. { split; [apply Z.div_pos; lia|]. apply Z.div_lt_upper_bound; lia. }
    rewrite digits_value_app, V, digit_value_digit by lia. destruct (Z.ltb_spec (z mod 10) 10); [|lia]. split; [f_equal; lia|]. rewrite forallb_app, D. cbn [forallb andb]. split; [unfold is_digit, between; lia|].
    exists c, (r ++ [48 + z mod 10]). rewrite E. split; [reflexivity|]. split; [|lia]. intros _. apply N. lia.
Qed.

Lemma parse_digits z : 0 <= z < 10 ^ 20 -> parse_unsigned (digits 20 z) = Some z.
Proof.
  intros H. destruct (digits_ok 20 z H ltac:(lia)) as (V & D & c & r & E & N & Z0). rewrite E in *. destruct (Z.eq_dec z 0) as [->|Nz].
  - destruct (Z0 eq_refl) as [-> ->]. reflexivity.
  - specialize (N ltac:(lia)). unfold parse_unsigned. destruct c as [|p|p]; try exact V. destruct (Pos.eq_dec p 48) as [->|Np]; [congruence|].
    repeat (destruct p as [p|p|]; try exact V). congruence.
Qed.

Lemma digits_head z : 0 <= z < 10 ^ 20 -> exists c r, digits 20 z = c :: r /\ is_digit c = true.
Proof. intros H. destruct (digits_ok 20 z H ltac:(lia)) as (_ & D & c & r & E & _). rewrite E in *. cbn [forallb] in D. apply andb_true_iff in D as [D _]. eauto. Qed.

Theorem token_int_itoa z : in64 z -> token_int (itoa z) = z.
Proof.
  unfold in64, min_int64, max_int64. intros H. assert (H10 : 2 ^ 63 < 10 ^ 20) by reflexivity. unfold itoa. destruct (Z.ltb_spec z 0).
  - cbn [token_int]. rewrite parse_digits by lia. unfold min_int64. lia.
  - destruct (digits_head z ltac:(lia)) as (c & r & E & D). unfold token_int. pose proof (parse_digits z ltac:(lia)) as PD. rewrite E in *.
    assert (c <> 45) by (unfold is_digit, between in D; lia).
    assert (X : forall A (a b : A), match c with 45 => a | _ => b end = b). { intros. destruct c as [|p|p]; auto. repeat (destruct p as [p|p|]; auto). congruence. }
    change (match c with 45 => match parse_unsigned r with Some z0 => Z.max min_int64 (- z0) | None => 0 end | _ => match parse_unsigned (c :: r) with Some z0 => Z.min max_int64 z0 | None => 0 end end = z).
    rewrite X, PD. unfold max_int64. lia.
Qed.

Lemma itoa_shape z : in64 z -> exists ds, ds <> [] /\ forallb is_digit ds = true /\ (itoa z = ds \/ itoa z = 45 :: ds).
Proof.
  unfold in64, min_int64, max_int64. intros H. assert (H10 : 2 ^ 63 < 10 ^ 20) by reflexivity. unfold itoa. destruct (Z.ltb_spec z 0).
  - destruct (digits_ok 20 (- z) ltac:(lia) ltac:(lia)) as (_ & D & c & r & E & _). exists (digits 20 (- z)). rewrite E in *. split; [congruence|auto].
  - destruct (digits_ok 20 z ltac:(lia) ltac:(lia)) as (_ & D & c & r & E & _). exists (digits 20 z). rewrite E in *. split; [congruence|auto].
Qed.
Lemma lex_itoa w z r rest : Forall char w -> in64 z -> ends_number rest -> rd w r (itoa z ++ rest) -> gives w (lex r) (mk_token (itoa z) t_integer) rest.
Proof. intros W H E Hr. destruct (itoa_shape z H) as (ds & N & D & [S|S]); rewrite S in *; [now apply lex_number|now apply lex_negative]. Qed.

(* ---------- in terms of LexerSpec ---------- *)

Lemma after_chars_after w n r : Forall char w -> after_chars w n r <-> r = after w n.
Proof. intros W. unfold after_chars. rewrite new_after, (nexts_after w W n 0). cbn [Nat.add]. split; [intros (cs & [= _ <-]); reflexivity|intros ->; eauto]. Qed.
Lemma skipn_len_app {A} (a b : list A) : skipn (length a) (a ++ b) = b.
Proof. apply skipn_app_len. Qed.

Lemma rd_unique (w : list Z) n m cs : (n <= length w)%nat -> skipn n w = cs -> skipn m w = cs -> (m <= length w)%nat -> n = m.
Proof. intros Hn E1 E2 Hm. assert (L : length (skipn n w) = length (skipn m w)) by congruence. rewrite !skipn_length in L. lia. Qed.

Lemma reads_as_gives pre l rest t : Forall char (pre ++ l ++ rest) ->
  (forall r, rd (pre ++ l ++ rest) r (l ++ rest) -> gives (pre ++ l ++ rest) (lex r) t rest) -> reads_as pre l rest t.
Proof.
  intros W H r Hr. apply after_chars_after in Hr; [|exact W]. destruct (H r) as (r' & E & m & -> & S & M). { exists (length pre). split; [exact Hr|]. split; [apply skipn_len_app|rewrite app_length; lia]. }
  exists (after (pre ++ l ++ rest) m). split; [exact E|]. apply after_chars_after; [exact W|]. f_equal.
  symmetry. apply (rd_unique (pre ++ l ++ rest) (length (pre ++ l)) m rest); auto; [rewrite !app_length; lia|]. rewrite app_assoc. apply skipn_len_app.
Qed.

Theorem quoted_reads P pre cs rest : Forall char (pre ++ quote P cs ++ rest) -> Forall (literal_char P) cs -> reads_as pre (quote P cs) rest (mk_token (encode cs) t_string).
Proof. intros W F. apply reads_as_gives; [exact W|]. intros r. apply (lex_string _ W P cs r rest F). Qed.
Theorem raw_reads pre cs rest : Forall char (pre ++ ([96] ++ cs ++ [96]) ++ rest) -> ~ In 96 cs -> ~ In 0 cs -> reads_as pre ([96] ++ cs ++ [96]) rest (mk_token (encode cs) t_string).
Proof.
  intros W N1 N2. apply reads_as_gives; [exact W|]. intros r Hr. apply lex_raw; auto.
  - apply Forall_app in W as [_ W]. apply Forall_app in W as [W _]. apply Forall_app in W as [_ W]. now apply Forall_app in W as [W _].
  - rewrite <- !app_assoc in Hr. rewrite <- !app_assoc. exact Hr.
Qed.
Theorem regexp_reads pre cs rest : Forall char (pre ++ slash_quote cs ++ rest) -> Forall pattern_char cs -> reads_as pre (slash_quote cs) rest (mk_token (encode cs) t_regexp).
Proof. intros W F. apply reads_as_gives; [exact W|]. intros r. apply (lex_regexp _ W cs r rest F). Qed.
Theorem integer_reads pre z rest : Forall char (pre ++ itoa z ++ rest) -> in64 z -> ends_number rest -> reads_as pre (itoa z) rest (mk_token (itoa z) t_integer).
Proof. intros W F E. apply reads_as_gives; [exact W|]. intros r. apply (lex_itoa _ z r rest W F E). Qed.

(* the text of a literal consists of characters *)
Lemma small_char c : 0 <= c < 128 -> char c.
Proof. intros H. split; [left; lia|unfold rune_error; lia]. Qed.
Lemma smalls l : forallb (fun c => between 0 c 127) l = true -> Forall char l.
Proof. intros H. apply Forall_forall. intros c Hc. rewrite forallb_forall in H. specialize (H c Hc). apply small_char. unfold between in H. lia. Qed.
Lemma quote_chars P cs : Forall (literal_char P) cs -> Forall char (quote P cs).
Proof.
  intros F. unfold quote. apply Forall_app; split; [now apply smalls|]. apply Forall_app; split; [|now apply smalls].
  induction F as [|c cs [Hc L] F IH]; [constructor|]. cbn [flat_map]. apply Forall_app; split; [|exact IH]. unfold quote_char.
  destruct ((c =? 34) || (c =? 92)); [constructor; [apply small_char; lia|now repeat (constructor; [exact Hc|])]|].
  destruct (printable P c) eqn:Pc; [now repeat (constructor; [exact Hc|])|]. destruct L as [L|[-> |[-> | ->]]]; [congruence| | |]; now apply smalls.
Qed.
Theorem quoted_token P cs : Forall (literal_char P) cs -> tokens (encode (quote P cs)) = LTok (mk_token (encode cs) t_string) LEnd.
Proof.
  intros F. pose proof (quote_chars P cs F) as W. unfold tokens. cbn [Nat.add lex_all].
  destruct (lex_string _ W P cs (new_reader (encode (quote P cs))) [] F) as (r' & -> & Hr). { exists 0%nat. rewrite new_after, app_nil_r. split; [reflexivity|]. split; [reflexivity|lia]. }
  cbn [t_type Z.eqb]. change (t_string =? t_end) with false. destruct (lex_end _ W r' Hr) as [r'' ->]. reflexivity.
Qed.
