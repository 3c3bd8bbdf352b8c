(* The lexer of the Puppet type language: it ends on every text, and it delivers the tokens that a text consists of. *)
From Coq Require Import Strings.Ascii Strings.String.
From Coq Require Import ZArith List Bool Lia.
From Coq Require Import Floats.SpecFloat.
From Verif Require Import Int64 Utf8 Utf8Proofs Text TextSpec TextProofs HMap Data Types Print Lexer LexerSpec LexerProofs Syntax SyntaxSpec TokenProofs Pcore PcoreSpec.
Import ListNotations.
Open Scope Z_scope.
Local Notation length := List.length.

Ltac nexted := apply sure_next; let c := fresh "c" in let r' := fresh "r" in let E := fresh "E" in let L := fresh "L" in let L' := fresh "L'" in intros c r' E L L'; cbn beta.
Ltac peeked := apply sure_peeked; let c := fresh "c" in let H := fresh "PK" in intros c H; cbn beta.
Ltac seen := eapply sure_next_seen; [eassumption| |let r' := fresh "r" in let E := fresh "E" in let L := fresh "L" in intros r' E L; cbn beta].

Lemma sure_comment fuel : forall r, (left r < fuel)%nat -> sure r (line_comment fuel r).
Proof.
  induction fuel as [|fuel IH]; intros r H; [lia|]. cbn [line_comment]. nexted. destruct (Z.eqb_spec c 0); [apply sure_ok|]. destruct (c =? 10); [apply sure_ok|].
  cbn [orb]. apply IH. lia.
Qed.
Lemma sure_name up fuel : forall r buf, (left r < fuel)%nat -> sure r (name_loop up fuel r buf).
Proof.
  induction fuel as [|fuel IH]; intros r buf H; [lia|]. cbn [name_loop]. peeked. destruct (Z.eqb_spec c 0); [apply sure_ok|]. destruct (c =? 58).
  - seen; [exact n|]. nexted. destruct (c0 =? 58); [|exact I]. nexted. destruct (if up then _ else _); [|exact I]. apply IH. lia.
  - destruct (_ || _); [|apply sure_ok]. seen; [exact n|]. apply IH. lia.
Qed.
Lemma pc_next_advances fuel : forall r, (left r < fuel)%nat -> advances r (pc_next fuel r).
Proof.
  induction fuel as [|fuel IH]; intros r H; [lia|]. cbn [pc_next]. unfold rd_next at 1. destruct (next r) as [[c r']|] eqn:E; [|exact I]. cbn [bind].
  apply next_left in E as (E & L & L'). destruct (Z.eqb_spec c 0) as [->|N]. { cbn. split; [exact E|]. split; [exact L|]. intros X. now destruct X. }
  specialize (L' N).
  assert (IH' : forall r1, r_s r1 = r_s r' -> (left r1 <= left r')%nat -> advances r (pc_next fuel r1)).
  { intros r1 E1 L1. specialize (IH r1 ltac:(lia)). unfold advances in *. destruct (pc_next fuel r1); auto. destruct IH as (A & B & C). split; [congruence|]. split; [lia|]. intros X. specialize (C X). lia. }
  destruct ((c =? 32) || (c =? 9) || (c =? 10)); [now apply IH'|].
  destruct (c =? 35).
  { pose proof (sure_comment fuel r' ltac:(lia)) as S. destruct (line_comment fuel r') as [u r1| |]; [|exact I|contradiction]. cbn [bind]. destruct S as [S1 S2]. now apply IH'. }
  apply (advances_sure r r' _ E L').
  destruct ((c =? 39) || (c =? 34)). { apply sure_bind; [apply sure_string; lia|]. intros. apply sure_ok. }
  destruct (c =? 47). { apply sure_bind; [apply sure_regexp; lia|]. intros. apply sure_ok. }
  destruct (c =? 61). { apply sure_peek. intros c1. destruct (c1 =? 62); [|apply sure_ok]. nexted. apply sure_ok. }
  destruct ((c =? 45) || (c =? 43)). { nexted. destruct (is_digit c0); [|exact I]. apply sure_bind; [apply sure_number; lia|]. intros. apply sure_ok. }
  unfold pc_build. destruct (is_digit c). { apply sure_bind; [apply sure_number; lia|]. intros. apply sure_ok. }
  destruct (is_upper c). { apply sure_bind; [apply sure_name; lia|]. intros. apply sure_ok. }
  destruct (is_lower c). { apply sure_bind; [apply sure_name; lia|]. intros. apply sure_ok. }
  apply sure_ok.
Qed.
Theorem pc_lex_advances r : advances r (pc_lex r).
Proof. apply pc_next_advances. unfold left. lia. Qed.
Lemma pc_lex_all_complete n : forall r, (left r < n)%nat -> complete (pc_lex_all n r).
Proof.
  induction n as [|n IH]; intros r H; [lia|]. cbn [pc_lex_all]. pose proof (pc_lex_advances r) as A. destruct (pc_lex r) as [t r'| |]; [|exact I|contradiction]. destruct A as (_ & _ & A).
  destruct (Z.eqb_spec (t_type t) t_end) as [|N]; [exact I|]. cbn [complete]. apply IH. specialize (A N). lia.
Qed.
Theorem pc_tokens_complete s : complete (pc_tokens s).
Proof. apply pc_lex_all_complete. unfold left. cbn. lia. Qed.

(* ---------- the tokens of a text ---------- *)

Definition tok (x : lexeme) : token :=
  match x with
  | LString q cs => mk_token (encode cs) t_string
  | LPattern ps => mk_token (encode (flat_map pat_value ps)) t_regexp
  | LInt plus z => mk_token ((if plus then [43] else []) ++ itoa z) t_integer
  | LFloat s => mk_token s t_float
  | LWord l => mk_token l t_identifier
  | LName l => mk_token l k_name
  | LRocket => mk_token (lit "=>") k_rocket
  | LChar c => mk_token [] c
  end.
Fixpoint feed (xs : list lexeme) (l : lexed) : lexed := match xs with [] => l | x :: r => LTok (tok x) (feed r l) end.
Lemma feed_app a b l : feed (a ++ b) l = feed a (feed b l).
Proof. induction a as [|p a IH]; cbn [app feed]; [reflexivity|]. now rewrite IH. Qed.

Section Chars.
Variable w : list Z.
Hypothesis W : Forall char w.

Ltac step := match goal with
  | |- gives _ (bind (rd_next ?r0) _) _ _ => eapply g_bind; [eapply g_next_cons; eassumption|clear dependent r0; let r1 := fresh "r" in let H1 := fresh "Hr" in intros r1 H1; cbn beta]
  | H : rd _ ?r ?cs |- context [rd_peek ?r] => rewrite (g_peek w W r cs H); cbn [bind hd]
  end.
Ltac no_eq c := repeat match goal with |- context [Z.eqb c ?k] => destruct (Z.eqb_spec c k); [lia|] end.

(* at the end zeros are read *)
Lemma g_next_nil r : rd w r [] -> exists r', rd_next r = Ok 0 r'.
Proof.
  intros (n & -> & E & L). unfold rd_next. rewrite next_after by exact W. rewrite nth_skipn, E. cbn [hd]. now eexists.
Qed.

Lemma consume_string_reads q cs : (q = 39 \/ q = 34) -> Forall (fun c => char c /\ c <> 0) cs -> forall fuel r buf rest,
  rd w r (flat_map (string_char q) cs ++ q :: rest) -> (length (flat_map (string_char q) cs) < fuel)%nat ->
  gives w (consume_string fuel r q buf) (buf ++ encode cs) rest.
Proof.
  intros Q F. assert (Q0 : q <> 92 /\ q <> 10 /\ q <> 0 /\ q <> 110 /\ q <> 114 /\ q <> 116) by lia. destruct Q0 as (Q1 & Q2 & Q3 & Q4 & Q5 & Q6).
  induction F as [|c cs [Hc N0] F IH]; intros fuel r buf rest Hr Hf; (destruct fuel as [|fuel]; [cbn in Hf; lia|]); cbn [consume_string flat_map] in *.
  - cbn [app] in Hr. step. rewrite Z.eqb_refl. cbn [encode flat_map]. rewrite app_nil_r. now apply g_ret.
  - rewrite app_length in Hf. rewrite <- app_assoc in Hr. rewrite <- app_write. unfold string_char in *.
    destruct (Z.eqb_spec c q) as [->|Nq]; [|destruct (Z.eqb_spec c 92) as [->|N92]; [|destruct (Z.eqb_spec c 10) as [->|N10]]]; cbn [orb app List.length] in *.
    + step. destruct (Z.eqb_spec 92 q); [congruence|]. cbn [Z.eqb Pos.eqb]. step. unfold escape. no_eq q. rewrite Z.eqb_refl. apply IH; [assumption|lia].
    + step. destruct (Z.eqb_spec 92 q); [congruence|]. cbn [Z.eqb Pos.eqb]. step. cbn [escape Z.eqb Pos.eqb]. apply IH; [assumption|lia].
    + step. destruct (Z.eqb_spec 92 q); [congruence|]. cbn [Z.eqb Pos.eqb]. step. cbn [escape Z.eqb Pos.eqb]. apply IH; [assumption|lia].
    + step. destruct (Z.eqb_spec c q); [congruence|]. no_eq c. apply IH; [assumption|lia].
Qed.

Lemma consume_pattern_reads ps : Forall pat_ok ps -> forall fuel r buf rest,
  rd w r (flat_map pat_text ps ++ 47 :: rest) -> (length (flat_map pat_text ps) < fuel)%nat ->
  gives w (consume_regexp fuel r buf) (buf ++ encode (flat_map pat_value ps)) rest.
Proof.
  intros F. induction F as [|p ps Hp F IH]; intros fuel r buf rest Hr Hf; (destruct fuel as [|fuel]; [cbn in Hf; lia|]); cbn [consume_regexp flat_map] in *.
  - cbn [app] in Hr. step. cbn [Z.eqb Pos.eqb encode flat_map]. rewrite app_nil_r. now apply g_ret.
  - rewrite app_length in Hf. rewrite <- app_assoc in Hr. destruct p as [c| |c]; cbn [pat_text pat_value pat_ok app List.length] in *.
    + destruct Hp as (Hc & N0 & N10 & N47 & N92). step. no_eq c. cbn [orb]. rewrite <- app_write. apply IH; [assumption|lia].
    + step. cbn [Z.eqb Pos.eqb]. step. cbn [Z.eqb Pos.eqb]. rewrite <- (app_write buf 47). apply IH; [assumption|lia].
    + destruct Hp as (Hc & N0 & N47). step. cbn [Z.eqb Pos.eqb]. step. no_eq c.
      rewrite <- (app_write buf 92), <- (app_write (buf ++ write_rune 92) c). rewrite (app_assoc buf). apply IH; [assumption|lia].
Qed.

Lemma line_comment_reads cs : ~ In 0 cs -> ~ In 10 cs -> forall fuel r rest, rd w r (cs ++ 10 :: rest) -> (length cs < fuel)%nat -> gives w (line_comment fuel r) tt rest.
Proof.
  induction cs as [|c cs IH]; intros N0 N1 fuel r rest Hr Hf; (destruct fuel as [|fuel]; [cbn in Hf; lia|]); cbn [line_comment app List.length] in *.
  - step. cbn. now apply g_ret.
  - step. destruct (Z.eqb_spec c 0) as [->|]; [destruct N0; now left|]. destruct (Z.eqb_spec c 10) as [->|]; [destruct N1; now left|]. cbn [orb].
    apply IH; [intros X; apply N0; now right|intros X; apply N1; now right|assumption|lia].
Qed.
Lemma line_comment_last cs : ~ In 0 cs -> ~ In 10 cs -> forall fuel r, rd w r cs -> (length cs < fuel)%nat -> exists r' r2, line_comment fuel r = Ok tt r' /\ rd_next r' = Ok 0 r2.
Proof.
  induction cs as [|c cs IH]; intros N0 N1 fuel r Hr Hf; (destruct fuel as [|fuel]; [cbn in Hf; lia|]); cbn [line_comment app List.length] in *.
  - destruct Hr as (n & -> & E & L). unfold rd_next at 1. rewrite next_after by exact W. rewrite nth_skipn, E. cbn [hd bind Z.eqb orb]. exists (after w (S n)), (after w (S (S n))). split; [reflexivity|].
    unfold rd_next. rewrite next_after by exact W. rewrite nth_overflow; [reflexivity|].
    apply (f_equal (@List.length Z)) in E. rewrite skipn_length in E. cbn in E. lia.
  - destruct (g_next_cons w W r c cs Hr) as (r1 & E1 & Hr1). rewrite E1. cbn [bind]. destruct (Z.eqb_spec c 0) as [->|]; [destruct N0; now left|]. destruct (Z.eqb_spec c 10) as [->|]; [destruct N1; now left|]. cbn [orb].
    apply IH; [intros X; apply N0; now right|intros X; apply N1; now right|assumption|lia].
Qed.

Lemma word_char_code c : word_char c -> (c =? 95) || (is_letter c || is_digit c) = true /\ c <> 58 /\ c <> 0 /\ write_rune c = [c].
Proof.
  unfold word_char, upper, lower, is_letter, is_digit, Utf8.between. intros H. split; [lia|]. split; [lia|]. split; [lia|].
  unfold write_rune. destruct (Z.ltb_spec c 128); [reflexivity|lia].
Qed.
Lemma not_word_code c : ~ word_char c -> (c =? 95) || (is_letter c || is_digit c) = false.
Proof. unfold word_char, upper, lower, is_letter, is_digit, Utf8.between. intros H. lia. Qed.

Lemma name_reads up l : name_rest up l -> forall fuel r buf rest, rd w r (l ++ rest) -> ends_name rest -> (length l < fuel)%nat ->
  gives w (name_loop up fuel r buf) (buf ++ l) rest.
Proof.
  induction 1 as [|c l Hc F IH|c l Hc F IH]; intros fuel r buf rest Hr X Hf; (destruct fuel as [|fuel]; [cbn in Hf; lia|]); cbn [name_loop app List.length] in *.
  - step. rewrite app_nil_r. destruct rest as [|c rest]; cbn [hd]; [now apply g_ret|]. destruct X as [X1 X2]. destruct (Z.eqb_spec c 0); [now apply g_ret|].
    destruct (Z.eqb_spec c 58); [contradiction|]. rewrite (not_word_code c X1). now apply g_ret.
  - destruct (word_char_code c Hc) as (C1 & C2 & C3 & C4). step. destruct (Z.eqb_spec c 0); [contradiction|]. destruct (Z.eqb_spec c 58); [contradiction|]. rewrite C1. step. rewrite C4.
    replace (buf ++ c :: l) with ((buf ++ [c]) ++ l) by (rewrite <- app_assoc; reflexivity). apply IH; auto. lia.
  - assert (Wc : (if up then is_upper c else (c =? 95) || is_lower c) = true /\ write_rune c = [c]).
    { unfold upper, lower in Hc. unfold is_upper, is_lower, Utf8.between, write_rune. destruct (Z.ltb_spec c 128); [|destruct up; lia]. split; [|reflexivity]. destruct up; lia. }
    destruct Wc as [C1 C2]. step. cbn [Z.eqb Pos.eqb]. step. step. cbn [Z.eqb Pos.eqb]. step. rewrite C1, C2. change (write_rune 58) with [58].
    replace (buf ++ 58 :: 58 :: c :: l) with ((((buf ++ [58]) ++ [58]) ++ [c]) ++ l) by (rewrite <- !app_assoc; reflexivity). apply IH; auto. lia.
Qed.

(* one token *)
Lemma lexeme_reads x fuel r rest : lexeme_ok x -> lexeme_ends x rest -> rd w r (spelling x ++ rest) -> (length (spelling x) + 1 < fuel)%nat -> gives w (pc_next fuel r) (tok x) rest.
Proof.
  intros K X Hr L. destruct fuel as [|fuel]; [lia|]. cbn [pc_next]. destruct x as [q cs|ps|plus z|s|l|l| |c]; cbn [spelling tok lexeme_ok lexeme_ends app List.length] in *.
  - destruct K as [Q F]. rewrite <- app_assoc in Hr. rewrite app_length in L. cbn [List.length app] in *. step.
    assert (Eq : (q =? 0) = false /\ (q =? 32) || (q =? 9) || (q =? 10) = false /\ (q =? 35) = false /\ (q =? 39) || (q =? 34) = true) by lia. destruct Eq as (-> & -> & -> & ->).
    eapply g_bind; [eapply (consume_string_reads q cs Q F); [eassumption|lia]|]. intros. now apply g_ret.
  - rewrite <- app_assoc in Hr. rewrite app_length in L. cbn [List.length app] in *. step. cbn [Z.eqb Pos.eqb orb].
    eapply g_bind; [eapply (consume_pattern_reads ps K); [eassumption|lia]|]. intros. now apply g_ret.
  - destruct K as [K P]. destruct (itoa_shape z K) as (ds & Nd & D & Sh). destruct ds as [|d ds]; [congruence|]. cbn [forallb] in D. apply andb_true_iff in D as [D1 D2]. pose proof D1 as Dd. unfold is_digit, Utf8.between in Dd.
    assert (Sg : exists sg, (if plus then [43] else []) ++ itoa z = sg ++ d :: ds /\ (sg = [] \/ sg = [43] \/ sg = [45])).
    { destruct plus; [|destruct Sh as [-> | ->]; [exists []|exists [45]]; auto]. specialize (P eq_refl). destruct Sh as [-> |Sh]; [exists [43]; auto|].
      exfalso. revert Sh. clear - P K. unfold itoa. destruct (Z.ltb_spec z 0); [lia|]. intros Sh. 
      assert (F : forallb is_digit (45 :: d :: ds) = true). { rewrite <- Sh. unfold in64, max_int64 in K. assert (H10 : 2 ^ 63 < 10 ^ 20) by reflexivity. destruct (digits_ok 20 z ltac:(lia) ltac:(lia)) as (_ & D & _). exact D. } discriminate F. }
    destruct Sg as (sg & Es & Sg). rewrite Es in *. rewrite <- app_assoc in Hr. rewrite app_length in L. cbn [List.length app] in *. destruct Sg as [-> |Sg]; cbn [app] in *.
    + step. no_eq d. cbn [orb]. unfold pc_build. rewrite D1. unfold consume_number. eapply g_bind; [eapply number_digits; [exact W|exact D2|eassumption|exact X|lia]|]. intros r1 Hr1. cbn [fst snd]. rewrite write_digit by exact D1. now apply g_ret.
    + assert (Sg' : exists g, sg = [g] /\ (g = 43 \/ g = 45)) by (destruct Sg as [-> | ->]; eauto). destruct Sg' as (g & -> & Hg). cbn [app List.length] in *. step.
      no_eq g. assert (Eg : (g =? 45) || (g =? 43) = true /\ write_rune g = [g]) by (destruct Hg as [-> | ->]; auto). destruct Eg as [-> ->]. cbn [orb]. step. rewrite D1. unfold consume_number.
      eapply g_bind; [eapply number_digits; [exact W|exact D2|eassumption|exact X|lia]|]. intros r2 Hr2. cbn [fst snd]. rewrite (write_digit d D1). now apply g_ret.
  - destruct X as (expo & (sign & ip & fp & ex & -> & Hs & Ni & Di & Hf & He) & X). destruct ip as [|d ip]; [congruence|]. cbn [forallb] in Di. apply andb_true_iff in Di as [D1 D2].
    rewrite !app_length in L. cbn [List.length] in L. pose proof D1 as Dd. unfold is_digit, Utf8.between in Dd. destruct Hs as [-> | ->].
    + cbn [app List.length] in *. rewrite <- !app_assoc in Hr. step. no_eq d. cbn [orb]. unfold pc_build. rewrite D1. unfold consume_number.
      eapply g_bind; [eapply (number_float w W expo ip fp ex rest D2 Hf He X); [eassumption|rewrite !app_length; lia]|]. intros r1 Hr1. cbn [fst snd]. rewrite write_digit by exact D1. now apply g_ret.
    + cbn [app List.length] in *. rewrite <- !app_assoc in Hr. step. cbn [Z.eqb Pos.eqb orb]. step. rewrite D1. unfold consume_number.
      eapply g_bind; [eapply (number_float w W expo ip fp ex rest D2 Hf He X); [eassumption|rewrite !app_length; lia]|]. intros r2 Hr2. cbn [fst snd]. rewrite (write_digit d D1). now apply g_ret.
  - destruct l as [|c l]; [contradiction|]. destruct K as [K F]. unfold lower in K. cbn [app List.length] in *. step. no_eq c. cbn [orb]. unfold pc_build.
    replace (is_digit c) with false by (symmetry; unfold is_digit, Utf8.between; lia). replace (is_upper c) with false by (symmetry; unfold is_upper, Utf8.between; lia). replace (is_lower c) with true by (symmetry; unfold is_lower, Utf8.between; lia).
    eapply g_bind; [eapply (name_reads false l F); [eassumption|exact X|lia]|]. intros r1 Hr1. replace (write_rune c) with [c] by (unfold write_rune; destruct (Z.ltb_spec c 128); [reflexivity|lia]). now apply g_ret.
  - destruct l as [|c l]; [contradiction|]. destruct K as [K F]. unfold upper in K. cbn [app List.length] in *. step. no_eq c. cbn [orb]. unfold pc_build.
    replace (is_digit c) with false by (symmetry; unfold is_digit, Utf8.between; lia). replace (is_upper c) with true by (symmetry; unfold is_upper, Utf8.between; lia).
    eapply g_bind; [eapply (name_reads true l F); [eassumption|exact X|lia]|]. intros r1 Hr1. replace (write_rune c) with [c] by (unfold write_rune; destruct (Z.ltb_spec c 128); [reflexivity|lia]). now apply g_ret.
  - step. cbn [Z.eqb Pos.eqb orb]. step. cbn [Z.eqb Pos.eqb]. step. now apply g_ret.
  - step. cbn [In] in K. no_eq c. cbn [orb]. unfold pc_build.
    replace (is_digit c) with false by (symmetry; unfold is_digit, Utf8.between; lia). replace (is_upper c) with false by (symmetry; unfold is_upper, Utf8.between; lia). replace (is_lower c) with false by (symmetry; unfold is_lower, Utf8.between; lia).
    now apply g_ret.
Qed.

(* what is between tokens is skipped *)
Lemma gap_skipped g : gap g -> forall fuel r rest, rd w r (g ++ rest) -> (length (g ++ rest) + 1 < fuel)%nat ->
  exists f r', pc_next fuel r = pc_next f r' /\ rd w r' rest /\ (length rest + 1 < f)%nat.
Proof.
  induction 1 as [|c g Hc G IH|cs g _ N0 N1 G IH]; intros fuel r rest Hr Hf.
  - exists fuel, r. auto.
  - destruct fuel as [|fuel]; [lia|]. cbn [app List.length] in *. destruct (g_next_cons w W r c _ Hr) as (r1 & E1 & Hr1).
    destruct (IH fuel r1 rest Hr1 ltac:(lia)) as (f & r' & E & H). exists f, r'. split; [|exact H]. rewrite <- E. cbn [pc_next]. rewrite E1. cbn [bind]. cbn [In] in Hc.
    destruct (Z.eqb_spec c 0); [lia|]. replace ((c =? 32) || (c =? 9) || (c =? 10)) with true by lia. reflexivity.
  - destruct fuel as [|fuel]; [lia|]. cbn [app List.length] in *. destruct (g_next_cons w W r 35 _ Hr) as (r1 & E1 & Hr1). rewrite <- app_assoc in Hr1, Hf. rewrite app_length in Hf. cbn [app List.length] in *.
    destruct (line_comment_reads cs N0 N1 fuel r1 _ Hr1 ltac:(lia)) as (r2 & E2 & Hr2). cbn [app] in Hr2.
    destruct (IH fuel r2 rest Hr2 ltac:(lia)) as (f & r' & E & H). exists f, r'. split; [|exact H]. rewrite <- E. cbn [pc_next]. rewrite E1. cbn [bind Z.eqb Pos.eqb orb]. rewrite E2. reflexivity.
Qed.
End Chars.

Lemma lex_layout w xs cs : Forall char w -> layout xs cs -> forall n r, rd w r cs -> (length xs < n)%nat -> pc_lex_all n r = feed xs LEnd.
Proof.
  intros W. induction 1 as [g G|g cs G _ N0 N1|g x xs rest G K X H IH]; intros n r Hr Hn; (destruct n as [|n]; [cbn in Hn; lia|]); cbn [pc_lex_all feed List.length] in *; pose proof (rd_fuel w W r _ Hr) as L.
  - unfold pc_lex. destruct (gap_skipped w W g G (2 + length (r_s r)) r []) as (f & r' & E & H & Lf); [now rewrite app_nil_r|rewrite app_nil_r; lia|].
    rewrite E. destruct f as [|f]; [lia|]. cbn [pc_next]. destruct (g_next_nil w W r' H) as (r2 & ->). reflexivity.
  - unfold pc_lex. destruct (gap_skipped w W g G (2 + length (r_s r)) r (35 :: cs) Hr ltac:(lia)) as (f & r' & E & H & Lf). rewrite E.
    destruct f as [|f]; [lia|]. cbn [pc_next]. destruct (g_next_cons w W r' 35 cs H) as (r1 & -> & H1). cbn [bind Z.eqb Pos.eqb orb].
    cbn [List.length] in Lf. destruct (line_comment_last w W cs N0 N1 f r1 H1 ltac:(lia)) as (r2 & r3 & -> & E3). cbn [bind]. destruct f as [|f]; [lia|]. cbn [pc_next]. rewrite E3. reflexivity.
  - unfold pc_lex. destruct (gap_skipped w W g G (2 + length (r_s r)) r (spelling x ++ rest) Hr ltac:(lia)) as (f & r' & E & H' & Lf). rewrite E.
    rewrite app_length in Lf. destruct (lexeme_reads w W x f r' rest K X H' ltac:(lia)) as (r2 & -> & H2). replace (t_type (tok x) =? t_end) with false. 2:{ destruct x; try reflexivity. cbn in K |- *. unfold t_end. lia. }
    rewrite IH by (auto; lia). reflexivity.
Qed.
Lemma spelling_some x : lexeme_ok x -> (1 <= length (spelling x))%nat.
Proof.
  destruct x as [q cs|ps|plus z|s|l|l| |c]; cbn [spelling lexeme_ok List.length]; intros K; try lia.
  - destruct K as [K _]. destruct (itoa_shape z K) as (ds & N & _ & E). destruct ds; [congruence|]. rewrite app_length. destruct E as [-> | ->]; cbn [List.length]; lia.
  - destruct K as (e & sg & ip & fp & ex & -> & _ & N & _). destruct ip; [congruence|]. rewrite !app_length. cbn [List.length]. lia.
  - destruct l; [contradiction|]. cbn. lia.
  - destruct l; [contradiction|]. cbn. lia.
Qed.
Lemma layout_length xs cs : layout xs cs -> (length xs <= length cs)%nat.
Proof.
  induction 1 as [g G|g cs G|g x xs rest G K X H IH]; cbn [List.length]; [lia|lia|]. rewrite !app_length. pose proof (spelling_some x K). lia.
Qed.

Lemma gap_chars g : gap g -> Forall char g.
Proof.
  induction 1 as [|c g Hc G IH|cs g F _ _ G IH]; [constructor| |].
  - constructor; auto. cbn [In] in Hc. apply Forall_inv with (l := []). apply smalls. cbn. unfold Utf8.between. lia.
  - apply Forall_cons; [apply Forall_inv with (l := []); now apply smalls|]. apply Forall_app. split; auto. constructor; auto. apply Forall_inv with (l := []). now apply smalls.
Qed.
Lemma name_small up l : name_rest up l -> forallb (fun c => between 0 c 127) l = true.
Proof.
  induction 1 as [|c r Hc F IH|c r Hc F IH]; [reflexivity| |]; cbn [forallb]; rewrite IH; unfold word_char, upper, lower, Utf8.between in *; [lia|]. destruct up; lia.
Qed.
Lemma spelling_chars x : lexeme_ok x -> Forall char (spelling x).
Proof.
  destruct x as [q cs|ps|plus z|s|l|l| |c]; cbn [spelling lexeme_ok]; intros K.
  - destruct K as [Q F]. assert (Cq : char q). { apply Forall_inv with (l := []). apply smalls. cbn. unfold Utf8.between. lia. }
    constructor; auto. apply Forall_app. split; [|now constructor]. induction F as [|c cs [Hc _] F IH]; [constructor|]. cbn [flat_map]. apply Forall_app. split; auto. unfold string_char.
    destruct (_ || _); [constructor; [apply Forall_inv with (l := []); now apply smalls|now constructor]|]. destruct (c =? 10); [now apply smalls|now constructor].
  - constructor; [apply Forall_inv with (l := []); now apply smalls|]. apply Forall_app. split; [|now apply smalls]. induction K as [|p ps Hp F IH]; [constructor|]. cbn [flat_map]. apply Forall_app. split; auto.
    destruct p as [c| |c]; cbn [pat_text pat_ok] in *; [constructor; [tauto|constructor]|now apply smalls|]. constructor; [apply Forall_inv with (l := []); now apply smalls|]. constructor; [tauto|constructor].
  - apply smalls. rewrite forallb_app, (itoa_small z) by tauto. now destruct plus.
  - destruct K as [e K]. apply smalls. now apply (float_small e).
  - destruct l as [|c l]; [contradiction|]. apply smalls. cbn [forallb]. destruct K as [K F]. rewrite (name_small false l F). unfold lower in K. unfold Utf8.between. lia.
  - destruct l as [|c l]; [contradiction|]. apply smalls. cbn [forallb]. destruct K as [K F]. rewrite (name_small true l F). unfold upper in K. unfold Utf8.between. lia.
  - now apply smalls.
  - apply smalls. cbn [forallb In] in *. unfold Utf8.between. lia.
Qed.
Lemma layout_chars xs cs : layout xs cs -> Forall char cs.
Proof.
  induction 1 as [g G|g cs G F|g x xs rest G K X H IH].
  - now apply gap_chars.
  - apply Forall_app. split; [now apply gap_chars|]. constructor; auto. apply Forall_inv with (l := []). now apply smalls.
  - apply Forall_app. split; [now apply gap_chars|]. apply Forall_app. split; auto. now apply spelling_chars.
Qed.

(* the tokens of a text that consists of tokens are these tokens *)
Theorem pc_tokens_layout xs cs : layout xs cs -> pc_tokens (encode cs) = feed xs LEnd.
Proof.
  intros H. pose proof (layout_chars xs cs H) as C. pose proof (layout_length xs cs H) as L. unfold pc_tokens.
  assert (R : rd cs (new_reader (encode cs)) cs). { exists 0%nat. split; [|split; [reflexivity|lia]]. reflexivity. }
  pose proof (rd_fuel cs C _ _ R) as L2. apply (lex_layout cs xs cs C H); auto. cbn [new_reader r_s] in L2. lia.
Qed.
