(* The lexer reads exactly the tokens of the grammar. *)
From Coq Require Import ZArith List Bool Lia.
From Verif Require Import Int64 Utf8 Utf8Proofs Text TextSpec TextProofs Print Lexer LexerSpec LexerProofs LexBlank LexGrammarSpec.
Import ListNotations.
Open Scope Z_scope.

(* ---------- the functions of the lexer on characters ---------- *)

Fixpoint raw_c (cs : list Z) : option (list Z * list Z) :=
  match cs with
  | [] => None
  | c :: r => if c =? 96 then Some ([], r) else if c =? 0 then None else match raw_c r with Some (b, rest) => Some (c :: b, rest) | None => None end
  end.
Definition escape_c (e : Z) : option Z :=
  if e =? 0 then None else if e =? 110 then Some 10 else if e =? 114 then Some 13 else if e =? 116 then Some 9 else if e =? 92 then Some 92 else if e =? 34 then Some 34 else None.
Fixpoint str_c (cs : list Z) : option (list Z * list Z) :=
  match cs with
  | [] => None
  | c :: r =>
      if c =? 34 then Some ([], r) else if c =? 0 then None
      else if c =? 92 then match r with e :: r' => match escape_c e, str_c r' with Some x, Some (b, rest) => Some (x :: b, rest) | _, _ => None end | [] => None end
      else if c =? 10 then None else match str_c r with Some (b, rest) => Some (c :: b, rest) | None => None end
  end.
Fixpoint reg_c (cs : list Z) : option (list Z * list Z) :=
  match cs with
  | [] => None
  | c :: r =>
      if c =? 47 then Some ([], r)
      else if c =? 92 then match r with
                           | e :: r' => if e =? 0 then None else match reg_c r' with Some (b, rest) => Some ((if e =? 47 then [] else [92]) ++ e :: b, rest) | None => None end
                           | [] => None end
      else if (c =? 0) || (c =? 10) then None else match reg_c r with Some (b, rest) => Some (c :: b, rest) | None => None end
  end.
Fixpoint while_c (P : Z -> bool) (cs : list Z) : list Z * list Z :=
  match cs with [] => ([], []) | c :: r => if P c then let (b, rest) := while_c P r in (c :: b, rest) else ([], cs) end.
Fixpoint uns_c (cs : list Z) : option (list Z * list Z) :=
  match cs with
  | [] => Some ([], [])
  | c :: r => if (c =? 46) || is_letter c then None else if is_digit c then match uns_c r with Some (b, rest) => Some (c :: b, rest) | None => None end else Some ([], cs)
  end.
Definition digits_c (cs : list Z) : option (list Z * list Z) :=
  match cs with c :: r => if is_digit c then match uns_c r with Some (b, rest) => Some (c :: b, rest) | None => None end else None | [] => None end.
Definition exp_c (cs : list Z) : option (list Z * list Z) :=
  match cs with
  | c :: r => if (c =? 43) || (c =? 45) then match digits_c r with Some (b, rest) => Some (c :: b, rest) | None => None end else digits_c cs
  | [] => None
  end.
Fixpoint num_c (fz : bool) (t : Z) (cs : list Z) : option (list Z * Z * list Z) :=
  match cs with
  | [] => Some ([], t, [])
  | c :: r =>
      if c =? 0 then Some ([], t, cs)
      else if is_digit c then match num_c fz t r with Some (b, t', rest) => Some (c :: b, t', rest) | None => None end
      else if (c =? 101) || (c =? 69) then match exp_c r with Some (b, rest) => Some (c :: b, t_float, rest) | None => None end
      else if (c =? 120) || (c =? 88) then
        if fz then match r with h :: r' => if is_hex h then let (hs, rest) := while_c is_hex r' in Some (c :: h :: hs, t, rest) else None | [] => None end else None
      else if c =? 46 then
        if hd 0 r =? 46 then Some ([], t, cs)
        else if t =? t_float then None
        else match r with d :: r' => if is_digit d then match num_c false t_float r' with Some (b, t', rest) => Some (c :: d :: b, t', rest) | None => None end else None | [] => None end
      else Some ([], t, cs)
  end.

Section Reads.
Variable w : list Z.
Hypothesis W : Forall char w.

(* m does what o says *)
Definition does {A} (m : res A) (o : option (A * list Z)) : Prop := match o with Some (x, rest) => gives w m x rest | None => m = Panic end.
Lemma next_nil r : rd w r [] -> exists r', rd_next r = Ok 0 r'.
Proof.
  intros (n & -> & E & L). unfold rd_next. rewrite next_after by exact W. rewrite nth_skipn, E. eauto.
Qed.
Lemma d_bind {A B} (m : res A) (f : A -> reader -> res B) o o' : does m o ->
  (forall x rest r, o = Some (x, rest) -> rd w r rest -> does (f x r) o') -> (o = None -> o' = None) -> does (bind m f) o'.
Proof.
  intros H F N. destruct o as [[x rest]|]; cbn in H.
  - destruct H as (r & -> & Hr). cbn. now apply (F x rest r).
  - rewrite H, N by reflexivity. reflexivity.
Qed.
Ltac nx Hr := match type of Hr with
  | rd _ ?r (?c :: ?cs) => let r1 := fresh "r" in let E := fresh "E" in let H1 := fresh "Hr" in destruct (g_next_cons w W r c cs Hr) as (r1 & E & H1); rewrite E; cbn [bind]
  | rd _ ?r [] => let r1 := fresh "r" in let E := fresh "E" in destruct (next_nil r Hr) as (r1 & E); rewrite E; cbn [bind]
  end.
Ltac pk Hr := match type of Hr with rd _ ?r ?cs => rewrite (g_peek w W r cs Hr); cbn [bind hd] end.
(* add a character to what the rest gives *)
Lemma d_cons (m : res (list Z)) buf c o : does m (match o with Some (b, rest) => Some ((buf ++ write_rune c) ++ encode b, rest) | None => None end) ->
  does m (match match o with Some (b, rest) => Some (c :: b, rest) | None => None end with Some (b, rest) => Some (buf ++ encode b, rest) | None => None end).
Proof. destruct o as [[b rest]|]; cbn; [|auto]. now rewrite app_write. Qed.
Definition put (buf : list Z) (o : option (list Z * list Z)) := match o with Some (b, rest) => Some (buf ++ encode b, rest) | None => None end.

Lemma does_raw fuel : forall cs r buf, rd w r cs -> (length cs < fuel)%nat -> does (raw_string fuel r buf) (put buf (raw_c cs)).
Proof.
  induction fuel as [|fuel IH]; intros [|c cs] r buf Hr L; cbn [length] in L; try lia; cbn [raw_string raw_c]; nx Hr; [reflexivity|].
  destruct (c =? 96); [cbn; rewrite app_nil_r; now apply g_ret|]. destruct (c =? 0); [reflexivity|]. unfold put. apply d_cons. apply IH; [assumption|lia].
Qed.
Lemma escape_ok e : escape e 34 = match escape_c e with Some x => Some (write_rune x) | None => None end.
Proof. unfold escape, escape_c. repeat match goal with |- context [e =? ?k] => destruct (Z.eqb_spec e k); [subst; reflexivity|] end. reflexivity. Qed.
Lemma does_str fuel : forall cs r buf, rd w r cs -> (length cs < fuel)%nat -> does (consume_string fuel r 34 buf) (put buf (str_c cs)).
Proof.
  induction fuel as [|fuel IH]; intros [|c cs] r buf Hr L; cbn [length] in L; try lia; cbn [consume_string str_c]; nx Hr; [reflexivity|].
  destruct (c =? 34); [cbn; rewrite app_nil_r; now apply g_ret|]. destruct (c =? 0); [reflexivity|]. destruct (c =? 92).
  - destruct cs as [|e cs]; nx Hr0; [reflexivity|]. rewrite escape_ok. destruct (escape_c e) as [x|]; [|reflexivity]. unfold put. apply d_cons. apply IH; [assumption|cbn [length] in L; lia].
  - destruct (c =? 10); [reflexivity|]. unfold put. apply d_cons. apply IH; [assumption|lia].
Qed.
Lemma does_reg fuel : forall cs r buf, rd w r cs -> (length cs < fuel)%nat -> does (consume_regexp fuel r buf) (put buf (reg_c cs)).
Proof.
  induction fuel as [|fuel IH]; intros [|c cs] r buf Hr L; cbn [length] in L; try lia; cbn [consume_regexp reg_c]; nx Hr; [reflexivity|].
  destruct (c =? 47); [cbn; rewrite app_nil_r; now apply g_ret|]. destruct (c =? 92).
  - destruct cs as [|e cs]; nx Hr0; [reflexivity|]. destruct (e =? 0); [reflexivity|].
    specialize (IH cs r1 (buf ++ (if e =? 47 then [] else write_rune 92) ++ write_rune e) Hr1 ltac:(cbn [length] in L; lia)).
    destruct (reg_c cs) as [[b rest]|]; cbn [put does] in *; [|exact IH].
    replace (buf ++ encode ((if e =? 47 then [] else [92]) ++ e :: b)) with ((buf ++ (if e =? 47 then [] else write_rune 92) ++ write_rune e) ++ encode b); [exact IH|].
    destruct (e =? 47); cbn [app]; [now rewrite app_write|]. rewrite app_assoc, app_write, app_write. reflexivity.
  - destruct ((c =? 0) || (c =? 10)); [reflexivity|]. unfold put. apply d_cons. apply IH; [assumption|lia].
Qed.
Lemma does_while P : P 0 = false -> forall (loop : nat -> reader -> list Z -> res (list Z)),
  (forall fuel r buf, loop (S fuel) r buf = bind (rd_peek r) (fun c r => if P c then bind (rd_next r) (fun c' r => loop fuel r (buf ++ write_rune c')) else Ok buf r)) ->
  forall fuel cs r buf, rd w r cs -> (length cs < fuel)%nat -> does (loop fuel r buf) (put buf (Some (while_c P cs))).
Proof.
  intros P0 loop Hl. induction fuel as [|fuel IH]; intros [|c cs] r buf Hr L; cbn [length] in L; try lia; rewrite Hl; cbn [while_c]; pk Hr.
  - rewrite P0. cbn. rewrite app_nil_r. now apply g_ret.
  - destruct (P c); [|cbn; rewrite app_nil_r; now apply g_ret]. nx Hr. specialize (IH cs r0 (buf ++ write_rune c) Hr0 ltac:(lia)). destruct (while_c P cs) as [b rest].
    cbn [put does] in *. now rewrite <- app_write.
Qed.
Lemma does_hex fuel cs r buf : rd w r cs -> (length cs < fuel)%nat -> does (hex_integer fuel r buf) (put buf (Some (while_c is_hex cs))).
Proof. apply does_while; reflexivity. Qed.
Lemma does_word fuel cs r buf : rd w r cs -> (length cs < fuel)%nat -> does (identifier_loop fuel r buf) (put buf (Some (while_c is_id cs))).
Proof. apply does_while; reflexivity. Qed.
Lemma does_uns fuel : forall cs r buf, rd w r cs -> (length cs < fuel)%nat -> does (unsigned_integer fuel r buf) (put buf (uns_c cs)).
Proof.
  induction fuel as [|fuel IH]; intros [|c cs] r buf Hr L; cbn [length] in L; try lia; cbn [unsigned_integer uns_c]; pk Hr; [cbn; rewrite app_nil_r; now apply g_ret|].
  destruct ((c =? 46) || is_letter c); [reflexivity|]. destruct (is_digit c); [|cbn; rewrite app_nil_r; now apply g_ret]. nx Hr. unfold put. apply d_cons. apply IH; [assumption|lia].
Qed.
Lemma does_exp fuel cs r buf : rd w r cs -> (length cs < fuel)%nat -> does (exponent fuel r buf) (put buf (exp_c cs)).
Proof.
  intros Hr L. unfold exponent. destruct cs as [|c cs]; nx Hr; [reflexivity|]. cbn [exp_c length] in *.
  assert (Fin : forall c cs r buf, rd w r cs -> (length cs < fuel)%nat -> does (if is_digit c then unsigned_integer fuel r (buf ++ write_rune c) else Panic) (put buf (digits_c (c :: cs)))).
  { clear - W. intros c cs r buf Hr L. cbn [digits_c]. destruct (is_digit c); [|reflexivity]. unfold put. apply d_cons. now apply does_uns. }
  destruct (Z.eqb_spec c 0) as [->|N]; [reflexivity|]. destruct ((c =? 43) || (c =? 45)).
  - unfold put. apply d_cons. destruct cs as [|d cs]; nx Hr0; [reflexivity|]. fold (put (buf ++ write_rune c) (digits_c (d :: cs))). apply Fin; [assumption|cbn [length] in L; lia].
  - apply Fin; [assumption|lia].
Qed.
Definition put2 (buf : list Z) (o : option (list Z * Z * list Z)) := match o with Some (b, t, rest) => Some ((buf ++ encode b, t), rest) | None => None end.
Lemma does_num fuel : forall cs fz t r buf, rd w r cs -> (length cs < fuel)%nat -> does (number_loop fuel fz t r buf) (put2 buf (num_c fz t cs)).
Proof.
  induction fuel as [|fuel IH]; intros [|c cs] fz t r buf Hr L; cbn [length] in L; try lia; cbn [number_loop num_c]; pk Hr; [cbn; rewrite app_nil_r; now apply g_ret|].
  destruct (c =? 0); [cbn; rewrite app_nil_r; now apply g_ret|].
  assert (Dg : does (bind (rd_next r) (fun c' r => number_loop fuel fz t r (buf ++ write_rune c))) (put2 buf match num_c fz t cs with Some (b, t', rest) => Some (c :: b, t', rest) | None => None end)).
  { nx Hr. specialize (IH cs fz t r0 (buf ++ write_rune c) Hr0 ltac:(lia)). destruct (num_c fz t cs) as [[[b t'] rest]|]; cbn [put2 does] in *; [now rewrite <- app_write|exact IH]. }
  destruct (Z.eqb_spec c 48) as [->|N48]; [exact Dg|].
  destruct (is_digit c) eqn:D.
  { unfold is_digit, between in D. repeat match goal with |- context [c =? ?k] => destruct (Z.eqb_spec c k); [lia|] end. cbn [orb negb]. exact Dg. }
  clear Dg. destruct ((c =? 101) || (c =? 69)).
  { nx Hr. eapply d_bind; [apply (does_exp fuel cs r0 (buf ++ write_rune c) Hr0); lia| |].
    - intros x rest r1 E1 Hr1. destruct (exp_c cs) as [[b rest']|]; [|discriminate]. cbn [put] in E1. injection E1 as <- <-. cbn [put2 does]. rewrite <- app_write. now apply g_ret.
    - destruct (exp_c cs) as [[b rest]|]; [discriminate|reflexivity]. }
  destruct ((c =? 120) || (c =? 88)).
  { destruct fz; [|reflexivity]. nx Hr. destruct cs as [|h cs]; nx Hr0; [reflexivity|]. destruct (is_hex h); [|reflexivity].
    eapply d_bind; [apply (does_hex fuel cs r1 _ Hr1); cbn [length] in L; lia| |destruct (while_c is_hex cs); discriminate].
    intros x rest r2 E1 Hr2. destruct (while_c is_hex cs) as [hs rest']. cbn [put] in E1. injection E1 as <- <-. cbn [put2 does]. rewrite <- app_write, <- app_write. now apply g_ret. }
  destruct (c =? 46).
  { rewrite (g_peek2 w W r _ Hr). cbn [bind tl]. destruct (hd 0 cs =? 46); [cbn; rewrite app_nil_r; now apply g_ret|]. destruct (t =? t_float); cbn [negb]; [reflexivity|].
    nx Hr. destruct cs as [|d cs]; nx Hr0; [reflexivity|]. destruct (is_digit d); [|reflexivity].
    specialize (IH cs false t_float r1 ((buf ++ write_rune c) ++ write_rune d) Hr1 ltac:(cbn [length] in L; lia)). destruct (num_c false t_float cs) as [[[b t'] rest]|]; cbn [put2 does] in *; [now rewrite <- !app_write|exact IH]. }
  cbn. rewrite app_nil_r. now apply g_ret.
Qed.

(* the next token *)
Inductive out := NEnd | NPanic | NTok (t : token) (rest : list Z).
Definition text_out (ty : Z) (o : option (list Z * list Z)) : out := match o with Some (b, rest) => NTok (mk_token (encode b) ty) rest | None => NPanic end.
Definition num_out (sign : list Z) (n : Z) (cs : list Z) : out :=
  match num_c (n =? 48) t_integer cs with Some (b, ty, rest) => NTok (mk_token (sign ++ encode (n :: b)) ty) rest | None => NPanic end.
Fixpoint next_c (cs : list Z) : out :=
  match cs with
  | [] => NEnd
  | c :: r =>
      if c =? 0 then NEnd
      else if (c =? 32) || (c =? 9) || (c =? 10) then next_c r
      else if c =? 96 then text_out t_string (raw_c r)
      else if c =? 34 then text_out t_string (str_c r)
      else if c =? 47 then text_out t_regexp (reg_c r)
      else if c =? 46 then
        if hd 0 r =? 46 then if hd 0 (tl r) =? 46 then NTok (mk_token [46; 46; 46] t_dotdotdot) (tl (tl r)) else NTok (mk_token [46; 46] t_dotdot) (tl r)
        else NTok (mk_token [] 46) r
      else if (c =? 45) || (c =? 43) then
        match r with n :: r' => if is_digit n then num_out (if c =? 45 then [45] else []) n r' else NPanic | [] => NPanic end
      else if is_digit c then num_out [] c r
      else if is_id_start c then let (b, rest) := while_c is_id r in NTok (mk_token (encode (c :: b)) t_identifier) rest
      else NTok (mk_token [] c) r
  end.
Definition does_out (m : res token) (o : out) : Prop :=
  match o with
  | NEnd => exists r, m = Ok (mk_token [] t_end) r
  | NPanic => m = Panic
  | NTok t rest => gives w m t rest
  end.
Lemma out_text ty m o : does m (put [] o) -> does_out (bind m (fun b r => Ok (mk_token b ty) r)) (text_out ty o).
Proof.
  intros H. destruct o as [[b rest]|]; cbn in *.
  - destruct H as (r & -> & Hr). cbn. now apply g_ret.
  - now rewrite H.
Qed.
Lemma out_num fuel sign n cs r : rd w r cs -> (length cs < fuel)%nat ->
  does_out (bind (consume_number fuel r n sign t_integer) (fun bt r => Ok (mk_token (fst bt) (snd bt)) r)) (num_out sign n cs).
Proof.
  intros Hr L. unfold consume_number, num_out. change (negb (t_integer =? t_float)) with true. cbn [andb].
  pose proof (does_num fuel cs (n =? 48) t_integer r (sign ++ write_rune n) Hr L) as H. destruct (num_c (n =? 48) t_integer cs) as [[[b ty] rest]|]; cbn [put2 does does_out] in *.
  - destruct H as (r' & -> & Hr'). cbn [bind fst snd]. rewrite app_write. now apply g_ret.
  - now rewrite H.
Qed.
Lemma does_next fuel : forall cs r, rd w r cs -> (length cs < fuel)%nat -> does_out (next_token fuel r) (next_c cs).
Proof.
  induction fuel as [|fuel IH]; intros [|c cs] r Hr L; cbn [length] in L; try lia; cbn [next_token next_c]; nx Hr; [cbn; eauto|].
  destruct (c =? 0); [cbn; eauto|]. destruct ((c =? 32) || (c =? 9) || (c =? 10)); [apply IH; [assumption|lia]|].
  destruct (c =? 96); [apply out_text; apply does_raw; [assumption|lia]|].
  destruct (Z.eqb_spec c 34) as [->|]; [apply out_text; apply does_str; [assumption|lia]|].
  destruct (c =? 47); [apply out_text; apply does_reg; [assumption|lia]|].
  destruct (Z.eqb_spec c 46) as [->|].
  { pk Hr0. destruct cs as [|d cs]; cbn [hd]; [apply g_ret; assumption|]. destruct (Z.eqb_spec d 46) as [->|N]; [|apply g_ret; assumption].
    nx Hr0. pk Hr1. cbn [tl]. destruct cs as [|e cs]; cbn [hd]; [apply g_ret; assumption|]. destruct (Z.eqb_spec e 46) as [->|N]; [nx Hr1|]; apply g_ret; assumption. }
  destruct ((c =? 45) || (c =? 43)) eqn:S.
  { destruct cs as [|n' cs]; nx Hr0; [reflexivity|]. destruct (is_digit n'); [|reflexivity].
    replace (if c =? 45 then write_rune c else []) with (if c =? 45 then [45] else []) by (destruct (Z.eqb_spec c 45) as [->|]; reflexivity).
    apply out_num; [assumption|cbn [length] in L; lia]. }
  unfold build_token. destruct (is_digit c); [apply out_num; [assumption|lia]|]. destruct (is_id_start c); [|apply g_ret; assumption].
  pose proof (does_word fuel cs r0 (write_rune c) Hr0 ltac:(lia)) as H. destruct (while_c is_id cs) as [b rest]. cbn [put does does_out] in *. destruct H as (r' & -> & Hr'). cbn [bind].
  change (write_rune c) with ([] ++ write_rune c). rewrite app_write. now apply g_ret.
Qed.
End Reads.

(* ---------- and the grammar ---------- *)

Lemma digit_iff c : is_digit c = true <-> digit c.
Proof. unfold is_digit, between, digit. rewrite andb_true_iff, !Z.leb_le. reflexivity. Qed.
Lemma letter_iff c : is_letter c = true <-> letter c.
Proof. unfold is_letter, between, letter. rewrite orb_true_iff, !andb_true_iff, !Z.leb_le. reflexivity. Qed.
Lemma hex_iff c : is_hex c = true <-> hex c.
Proof. unfold is_hex, hex, between. rewrite !orb_true_iff, digit_iff, !andb_true_iff, !Z.leb_le. tauto. Qed.
Lemma word_start_iff c : is_id_start c = true <-> word_start c.
Proof. unfold is_id_start, word_start. rewrite !orb_true_iff, letter_iff, !Z.eqb_eq. tauto. Qed.
Lemma word_char_iff c : is_id c = true <-> word_char c.
Proof. unfold is_id, word_char. rewrite orb_true_iff, word_start_iff, digit_iff. reflexivity. Qed.

Lemma raw_iff cs : forall b rest, raw_c cs = Some (b, rest) <-> cs = b ++ 96 :: rest /\ ~ In 96 b /\ ~ In 0 b.
Proof.
  induction cs as [|c cs IH]; intros b rest; cbn [raw_c].
  - split; [discriminate|]. intros [E _]. destruct b; discriminate.
  - destruct (Z.eqb_spec c 96) as [->|N].
    + split; [intros [= <- <-]; cbn; tauto|]. intros (E & A & B). destruct b as [|x b]; cbn in E; [now injection E as ->|]. injection E as <- _. exfalso. apply A. now left.
    + destruct (Z.eqb_spec c 0) as [->|N0].
      * split; [discriminate|]. intros (E & A & B). destruct b as [|x b]; cbn in E; [injection E as E1 _; lia|]. injection E as <- _. exfalso. apply B. now left.
      * destruct (raw_c cs) as [[b' rest']|] eqn:R.
        -- destruct (proj1 (IH b' rest') eq_refl) as (-> & A & B). split.
           ++ intros [= <- <-]. split; [reflexivity|]. cbn. split; intros [|]; auto.
           ++ intros (E & A' & B'). destruct b as [|x b]; cbn in E; [injection E as E1 _; congruence|]. injection E as <- E. assert (H : Some (b', rest') = Some (b, rest)) by (apply IH; split; [exact E|split; intros ?; [apply A'|apply B']; now right]). now injection H as <- <-.
        -- split; [discriminate|]. intros (E & A' & B'). destruct b as [|x b]; cbn in E; [injection E as E1 _; congruence|]. injection E as <- E. exfalso.
           assert (H : None = Some (b, rest)) by (apply IH; split; [exact E|split; intros ?; [apply A'|apply B']; now right]). discriminate.
Qed.
Lemma escape_iff e c : escape_c e = Some c <-> In (e, c) [(110, 10); (114, 13); (116, 9); (92, 92); (34, 34)].
Proof.
  unfold escape_c. repeat match goal with |- context [e =? ?k] => destruct (Z.eqb_spec e k); [subst; cbn; split; [intros H; first [discriminate|injection H as <-; tauto]|intros H; repeat destruct H as [H|H]; try contradiction; try discriminate; now injection H as <-]|] end.
  split; [discriminate|]. cbn. intros H. repeat destruct H as [H|H]; try contradiction; injection H as <- <-; congruence.
Qed.
Ltac inlist := cbn [In] in *; intuition congruence.
Lemma str_sound n : forall cs t rest, (length cs < n)%nat -> str_c cs = Some (t, rest) -> exists s, cs = s ++ 34 :: rest /\ quoted_text s t.
Proof.
  induction n as [|n IH]; intros [|c cs] t rest L E; cbn [length] in L; try lia; try discriminate. cbn [str_c] in E.
  destruct (Z.eqb_spec c 34) as [->|]; [injection E as <- <-; exists []; split; [reflexivity|constructor]|]. destruct (Z.eqb_spec c 0) as [->|]; [discriminate|].
  destruct (Z.eqb_spec c 92) as [->|].
  - destruct cs as [|e cs]; [discriminate|]. destruct (escape_c e) as [x|] eqn:X; [|discriminate]. destruct (str_c cs) as [[b rest']|] eqn:R; [|discriminate]. injection E as <- <-.
    destruct (IH cs b rest' ltac:(cbn [length] in L; lia) R) as (s & -> & Q). exists (92 :: e :: s). split; [reflexivity|]. apply q_escape; [now apply escape_iff|exact Q].
  - destruct (Z.eqb_spec c 10) as [->|]; [discriminate|]. destruct (str_c cs) as [[b rest']|] eqn:R; [|discriminate]. injection E as <- <-.
    destruct (IH cs b rest' ltac:(lia) R) as (s & -> & Q). exists (c :: s). split; [reflexivity|]. apply q_char; [inlist|exact Q].
Qed.
Ltac neqb := repeat match goal with |- context [?c =? ?k] => first [change (c =? k) with false | change (c =? k) with true | replace (c =? k) with false by (symmetry; apply Z.eqb_neq; inlist)]; cbv iota end.
Lemma str_complete s t rest : quoted_text s t -> str_c (s ++ 34 :: rest) = Some (t, rest).
Proof.
  induction 1 as [|c s t N Q IH|e c s t I Q IH]; cbn [app str_c].
  - reflexivity.
  - neqb. now rewrite IH.
  - neqb. apply escape_iff in I. now rewrite I, IH.
Qed.
Lemma reg_sound n : forall cs t rest, (length cs < n)%nat -> reg_c cs = Some (t, rest) -> exists s, cs = s ++ 47 :: rest /\ pattern_text s t.
Proof.
  induction n as [|n IH]; intros [|c cs] t rest L E; cbn [length] in L; try lia; try discriminate. cbn [reg_c] in E.
  destruct (Z.eqb_spec c 47) as [->|]; [injection E as <- <-; exists []; split; [reflexivity|constructor]|]. destruct (Z.eqb_spec c 92) as [->|].
  - destruct cs as [|e cs]; [discriminate|]. destruct (Z.eqb_spec e 0) as [->|]; [discriminate|]. destruct (reg_c cs) as [[b rest']|] eqn:R; [|discriminate]. injection E as <- <-.
    destruct (IH cs b rest' ltac:(cbn [length] in L; lia) R) as (s & -> & Q). exists (92 :: e :: s). split; [reflexivity|]. destruct (Z.eqb_spec e 47) as [->|]; cbn [app]; [now apply p_slash|]. apply p_escape; [inlist|exact Q].
  - destruct ((c =? 0) || (c =? 10)) eqn:Z0; [discriminate|]. apply orb_false_iff in Z0 as [Z0 Z1]. apply Z.eqb_neq in Z0, Z1. destruct (reg_c cs) as [[b rest']|] eqn:R; [|discriminate]. injection E as <- <-.
    destruct (IH cs b rest' ltac:(lia) R) as (s & -> & Q). exists (c :: s). split; [reflexivity|]. apply p_char; [inlist|exact Q].
Qed.
Lemma reg_complete s t rest : pattern_text s t -> reg_c (s ++ 47 :: rest) = Some (t, rest).
Proof.
  induction 1 as [|c s t N Q IH|s t Q IH|c s t N Q IH]; cbn [app reg_c].
  - reflexivity.
  - neqb. cbn [orb]. now rewrite IH.
  - neqb. now rewrite IH.
  - neqb. now rewrite IH.
Qed.
Lemma while_iff P (Q : Z -> Prop) (PQ : forall c, P c = true <-> Q c) cs : forall b rest, while_c P cs = (b, rest) <-> cs = b ++ rest /\ Forall Q b /\ no_start Q rest.
Proof.
  induction cs as [|c cs IH]; intros b rest; cbn [while_c].
  - split; [intros [= <- <-]; repeat split; constructor|]. intros (E & _). symmetry in E. apply app_eq_nil in E as [-> ->]. reflexivity.
  - destruct (P c) eqn:Pc.
    + destruct (while_c P cs) as [b' rest'] eqn:R. destruct (proj1 (IH b' rest') eq_refl) as (E0 & F & N). split.
      * intros [= <- <-]. split; [now rewrite E0|]. split; [constructor; [now apply PQ|exact F]|exact N].
      * intros (E & F' & N'). destruct b as [|x b]; cbn in E; [subst rest; cbn in N'; exfalso; apply N'; now apply PQ|]. injection E as <- E. inversion F' as [|? ? _ F'']; subst.
        assert (H : (b', rest') = (b, rest)) by (apply IH; auto). now injection H as <- <-.
    + split.
      * intros [= <- <-]. split; [reflexivity|]. split; [constructor|]. cbn. rewrite <- PQ, Pc. discriminate.
      * intros (E & F & N). destruct b as [|x b]; cbn in E; [now subst|]. injection E as <- _. inversion F as [|? ? F0 _]; subst. apply PQ in F0. congruence.
Qed.
Definition exp_stop (c : Z) : Prop := digit c \/ letter c \/ c = 46.
Lemma uns_iff cs : forall b rest, uns_c cs = Some (b, rest) <-> cs = b ++ rest /\ Forall digit b /\ exponent_ends rest.
Proof.
  induction cs as [|c cs IH]; intros b rest; cbn [uns_c].
  - split; [intros [= <- <-]; repeat split; constructor|]. intros (E & _). symmetry in E. apply app_eq_nil in E as [-> ->]. reflexivity.
  - assert (X : (c =? 46) || is_letter c = true <-> c = 46 \/ letter c) by (rewrite orb_true_iff, Z.eqb_eq, letter_iff; reflexivity).
    destruct ((c =? 46) || is_letter c) eqn:S.
    + split; [discriminate|]. intros (E & F & N). exfalso. apply proj1 in X. specialize (X eq_refl). destruct b as [|x b]; cbn in E; [subst rest; cbn in N; tauto|]. injection E as <- _. inversion F as [|? ? F0 _]; subst. unfold digit, letter in *. lia.
    + assert (X' : ~ (c = 46 \/ letter c)) by (intros Y; apply X in Y; discriminate). clear X S. destruct (is_digit c) eqn:D.
      * apply digit_iff in D. destruct (uns_c cs) as [[b' rest']|] eqn:R.
        -- destruct (proj1 (IH b' rest') eq_refl) as (E0 & F & N). split.
           ++ intros [= <- <-]. split; [now rewrite E0|]. split; [now constructor|exact N].
           ++ intros (E & F' & N'). destruct b as [|x b]; cbn in E; [subst rest; cbn in N'; tauto|]. injection E as <- E. inversion F' as [|? ? _ F'']; subst.
              assert (H : Some (b', rest') = Some (b, rest)) by (apply IH; auto). now injection H as <- <-.
        -- split; [discriminate|]. intros (E & F' & N'). exfalso. destruct b as [|x b]; cbn in E; [subst rest; cbn in N'; tauto|]. injection E as <- E. inversion F' as [|? ? _ F'']; subst.
           assert (H : None = Some (b, rest)) by (apply IH; auto). discriminate.
      * assert (D' : ~ digit c) by (rewrite <- digit_iff, D; discriminate). split.
        -- intros [= <- <-]. split; [reflexivity|]. split; [constructor|]. cbn. tauto.
        -- intros (E & F & N). destruct b as [|x b]; cbn in E; [now subst|]. injection E as <- _. inversion F; subst. contradiction.
Qed.
Lemma digits_iff cs b rest : digits_c cs = Some (b, rest) <-> cs = b ++ rest /\ some_of digit b /\ exponent_ends rest.
Proof.
  unfold digits_c, some_of. destruct cs as [|c cs].
  - split; [discriminate|]. intros (E & [N _] & _). symmetry in E. apply app_eq_nil in E as [-> _]. congruence.
  - destruct (is_digit c) eqn:D.
    + apply digit_iff in D. destruct (uns_c cs) as [[b' rest']|] eqn:R.
      * apply uns_iff in R as R'. destruct R' as (E0 & F & N). split.
        -- intros [= <- <-]. split; [now rewrite E0|]. split; [split; [discriminate|now constructor]|exact N].
        -- intros (E & [N0 F'] & N'). destruct b as [|x b]; [congruence|]. injection E as <- E. inversion F' as [|? ? _ F'']; subst x l.
           assert (H : uns_c cs = Some (b, rest)) by (apply uns_iff; auto). rewrite R in H. now injection H as <- <-.
      * split; [discriminate|]. intros (E & [N0 F'] & N'). destruct b as [|x b]; [congruence|]. injection E as <- E. inversion F' as [|? ? _ F'']; subst x l.
        assert (H : uns_c cs = Some (b, rest)) by (apply uns_iff; auto). congruence.
    + split; [discriminate|]. intros (E & [N0 F'] & N'). destruct b as [|x b]; [congruence|]. injection E as <- E. inversion F' as [|? ? F0 F'']; subst x l. apply digit_iff in F0. congruence.
Qed.
Lemma exp_iff cs b rest : exp_c cs = Some (b, rest) <-> cs = b ++ rest /\ (exists sign ds, b = sign ++ ds /\ In sign [[]; [43]; [45]] /\ some_of digit ds) /\ exponent_ends rest.
Proof.
  unfold exp_c. destruct cs as [|c cs].
  - split; [discriminate|]. intros (E & (sg & ds & -> & I & [N _]) & _). symmetry in E. apply app_eq_nil in E as [E _]. apply app_eq_nil in E as [_ E]. congruence.
  - destruct ((c =? 43) || (c =? 45)) eqn:S.
    + apply orb_true_iff in S. rewrite !Z.eqb_eq in S. destruct (digits_c cs) as [[b' rest']|] eqn:R.
      * apply digits_iff in R as R'. destruct R' as (E0 & F & N). split.
        -- intros [= <- <-]. split; [now rewrite E0|]. split; [|exact N]. exists [c], b'. split; [reflexivity|]. split; [destruct S; subst; cbn; tauto|exact F].
        -- intros (E & (sg & ds & -> & I & F') & N'). assert (sg = [c]) as ->.
           { destruct I as [<-|[<-|[<-|[]]]]; cbn in E.
             - destruct F' as [N1 F']. destruct ds as [|d ds]; [congruence|]. injection E as <- _. inversion F' as [|? ? F0 _]; subst. unfold digit in F0. lia.
             - injection E as -> _. reflexivity.
             - injection E as -> _. reflexivity. }
           injection E as E. assert (H : digits_c cs = Some (ds, rest)) by (apply digits_iff; auto). rewrite R in H. now injection H as <- <-.
      * split; [discriminate|]. intros (E & (sg & ds & -> & I & F') & N'). assert (sg = [c]) as ->.
           { destruct I as [<-|[<-|[<-|[]]]]; cbn in E.
             - destruct F' as [N1 F']. destruct ds as [|d ds]; [congruence|]. injection E as <- _. inversion F' as [|? ? F0 _]; subst. unfold digit in F0. lia.
             - injection E as -> _. reflexivity.
             - injection E as -> _. reflexivity. }
        injection E as E. assert (H : digits_c cs = Some (ds, rest)) by (apply digits_iff; auto). congruence.
    + apply orb_false_iff in S. rewrite !Z.eqb_neq in S. rewrite digits_iff. split.
      * intros (E & F & N). split; [exact E|]. split; [|exact N]. exists [], b. cbn. auto.
      * intros (E & (sg & ds & -> & I & F') & N'). destruct I as [<-|[<-|[<-|[]]]]; cbn in E; [cbn; auto| |]; injection E as E _; lia.
Qed.

Lemma not_digit c : is_digit c = false -> ~ digit c.
Proof. intros D H. apply digit_iff in H. congruence. Qed.
Ltac dg c D := destruct (is_digit c) eqn:D; [apply digit_iff in D|apply not_digit in D].
Lemma num_digits fz t ds x : Forall digit ds ->
  num_c fz t (ds ++ x) = match num_c fz t x with Some (b, t', rest) => Some (ds ++ b, t', rest) | None => None end.
Proof.
  induction 1 as [|d ds D F IH]; [cbn; destruct (num_c fz t x) as [[[? ?] ?]|]; reflexivity|]. cbn [app num_c].
  replace (d =? 0) with false by (symmetry; apply Z.eqb_neq; unfold digit in D; lia). apply digit_iff in D. rewrite D, IH. destruct (num_c fz t x) as [[[? ?] ?]|]; reflexivity.
Qed.
(* a number ends here *)
Lemma num_stop fz t rest : number_ends rest -> num_c fz t rest = Some ([], t, rest).
Proof.
  intros [N P]. destruct rest as [|c r]; [reflexivity|]. cbn [num_c]. cbn [no_start] in N. destruct (Z.eqb_spec c 0); [reflexivity|]. dg c D; [tauto|].
  repeat match goal with |- context [c =? ?k] => destruct (Z.eqb_spec c k); [subst; cbn [In orb] in *; try tauto|] end; cbn [orb]; [|reflexivity].
  destruct (P r eq_refl) as (r' & ->). reflexivity.
Qed.
Lemma num_exp fz t e rest : exponent_text e -> exponent_ends rest -> num_c fz t (e ++ rest) = Some (e, t_float, rest).
Proof.
  intros (x & sg & ds & -> & I & J & K) N. cbn [app num_c].
  assert (X : exp_c ((sg ++ ds) ++ rest) = Some (sg ++ ds, rest)) by (apply exp_iff; split; [reflexivity|]; split; [eauto|exact N]).
  destruct I as [<-|[<-|[]]]; cbn; rewrite X; reflexivity.
Qed.
Lemma num_hex t x hs rest : In x [120; 88] -> some_of hex hs -> no_start hex rest -> num_c true t (x :: hs ++ rest) = Some (x :: hs, t, rest).
Proof.
  intros I [N F] R. destruct hs as [|h hs]; [congruence|]. inversion F as [|? ? H F']; subst. assert (W : while_c is_hex (hs ++ rest) = (hs, rest)) by (apply (while_iff _ _ hex_iff); auto).
  apply hex_iff in H. destruct I as [<-|[<-|[]]]; cbn; rewrite H, W; reflexivity.
Qed.
Lemma num_dot fz d r : digit d -> num_c fz t_integer (46 :: d :: r) = match num_c false t_float r with Some (b, t', rest) => Some (46 :: d :: b, t', rest) | None => None end.
Proof.
  intros D. cbn [num_c hd]. replace (d =? 46) with false by (symmetry; apply Z.eqb_neq; unfold digit in D; lia). apply digit_iff in D. rewrite D. reflexivity.
Qed.
Definition fraction_tail (b rest : list Z) : Prop :=
  exists fs, Forall digit fs /\ ((b = fs /\ number_ends rest) \/ exists e, b = fs ++ e /\ exponent_text e /\ exponent_ends rest).
Lemma ends_other c r : c <> 46 -> ~ digit c -> ~ In c [101; 69; 120; 88] -> number_ends (c :: r).
Proof. intros A B C. split; [cbn [no_start]; tauto|]. intros r' [= -> _]. congruence. Qed.
Lemma exp_text e r b rest : In e [101; 69] -> exp_c r = Some (b, rest) -> r = b ++ rest /\ exponent_text (e :: b) /\ exponent_ends rest.
Proof. intros I E. apply exp_iff in E as (-> & (sg & ds & -> & J & K) & N). split; [reflexivity|]. split; [|exact N]. exists e, sg, ds. auto. Qed.
Ltac ors := repeat match goal with H : (_ || _) = true |- _ => apply orb_true_iff in H; rewrite !Z.eqb_eq in H | H : (_ || _) = false |- _ => apply orb_false_iff in H; rewrite !Z.eqb_neq in H; destruct H end.
Lemma float_sound cs : forall b t rest, num_c false t_float cs = Some (b, t, rest) -> t = t_float /\ cs = b ++ rest /\ fraction_tail b rest.
Proof.
  induction cs as [|c cs IH]; intros b t rest E.
  { cbn in E. injection E as <- <- <-. split; [reflexivity|]. split; [reflexivity|]. exists []. split; [constructor|]. left. split; [reflexivity|]. split; [exact I|discriminate]. }
  cbn [num_c] in E. destruct (Z.eqb_spec c 0) as [->|N].
  { injection E as <- <- <-. split; [reflexivity|]. split; [reflexivity|]. exists []. split; [constructor|]. left. split; [reflexivity|]. apply ends_other; [lia|unfold digit; lia|cbn; lia]. }
  dg c D.
  { destruct (num_c false t_float cs) as [[[b' t'] rest']|] eqn:R; [|discriminate]. injection E as <- <- <-. destruct (IH b' t' rest' eq_refl) as (-> & -> & fs & F & X). split; [reflexivity|]. split; [reflexivity|].
    exists (c :: fs). split; [now constructor|]. destruct X as [[-> X]|(e & -> & X)]; [left; auto|right; exists e; auto]. }
  destruct ((c =? 101) || (c =? 69)) eqn:S1; ors.
  { destruct (exp_c cs) as [[b' rest']|] eqn:R; [|discriminate]. injection E as <- <- <-. apply (exp_text c) in R as (-> & X & Y); [|cbn; intuition]. split; [reflexivity|]. split; [reflexivity|].
    exists []. split; [constructor|]. right. exists (c :: b'). auto. }
  destruct ((c =? 120) || (c =? 88)) eqn:S2; ors; [discriminate|]. destruct (Z.eqb_spec c 46) as [->|N46].
  - destruct (Z.eqb_spec (hd 0 cs) 46) as [Hd|Hd]; [|discriminate]. injection E as <- <- <-. split; [reflexivity|]. split; [reflexivity|]. exists []. split; [constructor|]. left. split; [reflexivity|].
    split; [cbn [no_start In]; unfold digit; lia|]. intros r [= <-]. destruct cs as [|d cs]; cbn in Hd; [lia|]. subst. eauto.
  - injection E as <- <- <-. split; [reflexivity|]. split; [reflexivity|]. exists []. split; [constructor|]. left. split; [reflexivity|]. apply ends_other; auto. inlist.
Qed.
Lemma float_complete b rest : fraction_tail b rest -> num_c false t_float (b ++ rest) = Some (b, t_float, rest).
Proof.
  intros (fs & F & [[-> N]|(e & -> & X & Y)]).
  - rewrite num_digits, num_stop, app_nil_r by assumption. reflexivity.
  - rewrite <- app_assoc, num_digits, num_exp by assumption. reflexivity.
Qed.
Definition number_tail (fz : bool) (b : list Z) (t : Z) (rest : list Z) : Prop :=
  exists ds, Forall digit ds /\
    ((b = ds /\ t = t_integer /\ number_ends rest)
     \/ (fz = true /\ t = t_integer /\ exists x hs, b = ds ++ x :: hs /\ In x [120; 88] /\ some_of hex hs /\ no_start hex rest)
     \/ (t = t_float /\ exists e, b = ds ++ e /\ exponent_text e /\ exponent_ends rest)
     \/ (t = t_float /\ exists d b', b = ds ++ 46 :: d :: b' /\ digit d /\ fraction_tail b' rest)).
Lemma number_sound fz cs : forall b t rest, num_c fz t_integer cs = Some (b, t, rest) -> cs = b ++ rest /\ number_tail fz b t rest.
Proof.
  induction cs as [|c cs IH]; intros b t rest E.
  { cbn in E. injection E as <- <- <-. split; [reflexivity|]. exists []. split; [constructor|]. left. split; [reflexivity|]. split; [reflexivity|]. split; [exact I|discriminate]. }
  cbn [num_c] in E. destruct (Z.eqb_spec c 0) as [->|N].
  { injection E as <- <- <-. split; [reflexivity|]. exists []. split; [constructor|]. left. split; [reflexivity|]. split; [reflexivity|]. apply ends_other; [lia|unfold digit; lia|cbn; lia]. }
  dg c D.
  { destruct (num_c fz t_integer cs) as [[[b' t'] rest']|] eqn:R; [|discriminate]. injection E as <- <- <-. destruct (IH b' t' rest' eq_refl) as (-> & ds & F & X). split; [reflexivity|].
    exists (c :: ds). split; [now constructor|]. destruct X as [(-> & X)|[(Z & T & x & hs & -> & X)|[(T & e & -> & X)|(T & d & b & -> & X)]]]; [left; auto|right; left; split; [exact Z|]; split; [exact T|]; exists x, hs; auto|right; right; left; split; [exact T|]; exists e; auto|right; right; right; split; [exact T|]; exists d, b; auto]. }
  destruct ((c =? 101) || (c =? 69)) eqn:S1; ors.
  { destruct (exp_c cs) as [[b' rest']|] eqn:R; [|discriminate]. injection E as <- <- <-. apply (exp_text c) in R as (-> & X & Y); [|cbn; intuition]. split; [reflexivity|].
    exists []. split; [constructor|]. right. right. left. split; [reflexivity|]. exists (c :: b'). auto. }
  destruct ((c =? 120) || (c =? 88)) eqn:S2; ors.
  { destruct fz; [|discriminate]. destruct cs as [|h cs]; [discriminate|]. destruct (is_hex h) eqn:Hx; [|discriminate]. apply hex_iff in Hx. destruct (while_c is_hex cs) as [hs rest'] eqn:W. injection E as <- <- <-.
    apply (while_iff _ _ hex_iff) in W as (-> & F & Q). split; [reflexivity|]. exists []. split; [constructor|]. right. left. split; [reflexivity|]. split; [reflexivity|]. exists c, (h :: hs).
    split; [reflexivity|]. split; [cbn; intuition|]. split; [split; [discriminate|now constructor]|exact Q]. }
  destruct (Z.eqb_spec c 46) as [->|N46].
  - destruct (Z.eqb_spec (hd 0 cs) 46) as [Hd|Hd].
    + injection E as <- <- <-. split; [reflexivity|]. exists []. split; [constructor|]. left. split; [reflexivity|]. split; [reflexivity|].
      split; [cbn [no_start In]; unfold digit; lia|]. intros r [= <-]. destruct cs as [|d cs]; cbn in Hd; [lia|]. subst. eauto.
    + change (t_integer =? t_float) with false in E. cbv iota in E. destruct cs as [|d cs]; [discriminate|]. dg d D'; [|discriminate].
      destruct (num_c false t_float cs) as [[[b' t'] rest']|] eqn:R; [|discriminate]. injection E as <- <- <-. apply float_sound in R as (-> & -> & X). split; [reflexivity|]. exists []. split; [constructor|].
      right. right. right. split; [reflexivity|]. exists d, b'. auto.
  - injection E as <- <- <-. split; [reflexivity|]. exists []. split; [constructor|]. left. split; [reflexivity|]. split; [reflexivity|]. apply ends_other; auto. inlist.
Qed.
Lemma number_complete fz b t rest : number_tail fz b t rest -> num_c fz t_integer (b ++ rest) = Some (b, t, rest).
Proof.
  intros (ds & F & [(-> & -> & N)|[(-> & -> & x & hs & -> & I & H & N)|[(-> & e & -> & X & Y)|(-> & d & b' & -> & D & X)]]]).
  - rewrite num_digits, num_stop, app_nil_r by assumption. reflexivity.
  - rewrite <- app_assoc, num_digits by assumption. cbn [app]. rewrite num_hex by assumption. reflexivity.
  - rewrite <- app_assoc, num_digits, num_exp by assumption. reflexivity.
  - rewrite <- app_assoc, num_digits by assumption. cbn [app]. rewrite num_dot by assumption. rewrite float_complete by assumption. reflexivity.
Qed.
Lemma number_tail_iff c b t rest : digit c -> number_tail (c =? 48) b t rest <-> number_text (c :: b) t rest.
Proof.
  intros D. assert (SD : forall ds, Forall digit ds -> some_of digit (c :: ds)) by (split; [discriminate|now constructor]).
  split.
  - intros (ds & F & [(-> & -> & N)|[(Z & -> & x & hs & -> & I & H & N)|[(-> & e & -> & X & Y)|(-> & d & b' & -> & D' & fs & F' & [[-> X]|(e & -> & X & Y)])]]]).
    + apply n_integer; auto.
    + apply (n_hex (c :: ds)); auto. cbn. now apply Z.eqb_eq in Z.
    + apply (n_exponent (c :: ds)); auto.
    + apply (n_fraction (c :: ds) (d :: fs)); auto. split; [discriminate|now constructor].
    + apply (n_both (c :: ds) (d :: fs) e); auto. split; [discriminate|now constructor].
  - assert (U : forall ds x, some_of digit ds -> ds ++ x = c :: b -> exists ds', ds = c :: ds' /\ b = ds' ++ x /\ Forall digit ds').
    { intros ds x [N F] E. destruct ds as [|d ds]; [congruence|]. injection E as -> <-. inversion F; subst. eauto. }
    intros H. remember (c :: b) as s eqn:E in H. destruct H as [ds rest Ds N|ds x hs rest Ds Z I H N|ds e rest Ds X Y|ds fs rest Ds Fs N|ds fs e rest Ds Fs X Y].
    + destruct (U ds [] Ds) as (ds' & -> & -> & F); [now rewrite app_nil_r|]. exists ds'. split; [exact F|]. rewrite app_nil_r. left. auto.
    + destruct (U ds _ Ds E) as (ds' & -> & -> & F). exists ds'. split; [exact F|]. right. left. cbn in Z. split; [now apply Z.eqb_eq|]. split; [reflexivity|]. exists x, hs. auto.
    + destruct (U ds _ Ds E) as (ds' & -> & -> & F). exists ds'. split; [exact F|]. right. right. left. eauto.
    + destruct (U ds _ Ds E) as (ds' & -> & -> & F). exists ds'. split; [exact F|]. right. right. right. split; [reflexivity|]. destruct Fs as [N1 F1]. destruct fs as [|f fs]; [congruence|]. inversion F1; subst.
      exists f, fs. split; [reflexivity|]. split; [assumption|]. exists fs. auto.
    + destruct (U ds _ Ds E) as (ds' & -> & -> & F). exists ds'. split; [exact F|]. right. right. right. split; [reflexivity|]. destruct Fs as [N1 F1]. destruct fs as [|f fs]; [congruence|]. inversion F1; subst.
      exists f, (fs ++ e). split; [reflexivity|]. split; [assumption|]. exists fs. split; [assumption|]. right. eauto.
Qed.

(* ---------- the next token ---------- *)

Lemma encode_ascii l : Forall (fun c => 0 <= c < 128) l -> encode l = l.
Proof.
  induction 1 as [|c l H F IH]; [reflexivity|]. change (encode (c :: l)) with (encode_rune c ++ encode l). rewrite IH. unfold encode_rune.
  destruct (Z.ltb_spec c 128); [reflexivity|lia].
Qed.
Lemma digit_ascii c : digit c -> 0 <= c < 128.
Proof. unfold digit. lia. Qed.
Lemma word_ascii c : word_char c -> 0 <= c < 128.
Proof. unfold word_char, word_start, letter, digit. lia. Qed.
Lemma some_ascii (P : Z -> Prop) l : (forall c, P c -> 0 <= c < 128) -> some_of P l -> Forall (fun c => 0 <= c < 128) l.
Proof. intros H [_ F]. eapply Forall_impl; [|exact F]. exact H. Qed.
Lemma exponent_ascii e : exponent_text e -> Forall (fun c => 0 <= c < 128) e.
Proof.
  intros (x & sg & ds & -> & I & J & K). constructor; [cbn in I; lia|]. apply Forall_app. split; [|apply (some_ascii digit); [exact digit_ascii|exact K]].
  destruct J as [<-|[<-|[<-|[]]]]; repeat constructor; lia.
Qed.
Lemma number_ascii s t rest : number_text s t rest -> Forall (fun c => 0 <= c < 128) s.
Proof.
  assert (DA := some_ascii digit). assert (A := digit_ascii). assert (EA := exponent_ascii). assert (P : 0 <= 46 < 128) by lia.
  destruct 1 as [ds rest Ds N|ds x hs rest Ds Z I H N|ds e rest Ds X Y|ds fs rest Ds Fs N|ds fs e rest Ds Fs X Y]; rewrite ?Forall_app; try split; auto.
  - constructor; [cbn in I; lia|]. apply (some_ascii hex); [|exact H]. unfold hex, digit. lia.
  - constructor; auto. apply Forall_app. auto.
Qed.
Lemma num_out_iff sign c cs t rest : digit c -> num_out sign c cs = NTok t rest <-> exists b ty, cs = b ++ rest /\ t = mk_token (sign ++ c :: b) ty /\ number_text (c :: b) ty rest.
Proof.
  intros D. unfold num_out. split.
  - destruct (num_c (c =? 48) t_integer cs) as [[[b ty] rest']|] eqn:E; [|discriminate]. intros E'. assert (t = mk_token (sign ++ encode (c :: b)) ty /\ rest = rest') as [-> ->] by (split; congruence). apply number_sound in E as (-> & X). apply number_tail_iff in X; [|exact D].
    exists b, ty. split; [reflexivity|]. split; [|exact X]. rewrite encode_ascii by (eapply number_ascii; exact X). reflexivity.
  - intros (b & ty & -> & -> & X). pose proof (number_ascii _ _ _ X) as A. apply number_tail_iff in X; [|exact D]. rewrite (number_complete _ _ _ _ X). now rewrite encode_ascii.
Qed.
Lemma number_head s ty rest : number_text s ty rest -> exists c b, s = c :: b /\ digit c.
Proof.
  assert (U : forall ds x, some_of digit ds -> exists c b, ds ++ x = c :: b /\ digit c) by (intros ds x [N F]; destruct ds as [|d ds]; [congruence|]; inversion F; subst; exists d, (ds ++ x); auto).
  destruct 1; auto. destruct (U ds [] H) as (c & b & E & D). rewrite app_nil_r in E. eauto.
Qed.
(* one token without spaces before it *)
Ltac fe := repeat match goal with |- context [?c =? ?k] => change (c =? k) with false || change (c =? k) with true end; cbn [orb]; cbv iota.
Lemma space_iff c : (c =? 32) || (c =? 9) || (c =? 10) = true <-> space c.
Proof. rewrite !orb_true_iff, !Z.eqb_eq. unfold space. cbn. intuition. Qed.
Lemma next_complete s t rest : item s t rest -> next_c (s ++ rest) = NTok t rest.
Proof.
  assert (Num : forall sign s ty rest, number_text s ty rest -> exists c r, s ++ rest = c :: r /\ digit c /\ num_out sign c r = NTok (mk_token (sign ++ s) ty) rest).
  { intros sign s0 ty rest0 N. destruct (number_head _ _ _ N) as (c & b & -> & D). exists c, (b ++ rest0). split; [reflexivity|]. split; [exact D|]. apply num_out_iff; [exact D|]. exists b, ty. auto. }
  destruct 1 as [s rest A B|s t rest Q|s t rest Q|rest|rest N|rest N|c s rest A B C|s ty rest N|s ty rest N|s ty rest N|c rest A B C].
  - cbn [app next_c]. fe. rewrite <- app_assoc. cbn [app]. rewrite (proj2 (raw_iff _ s rest)) by auto. reflexivity.
  - cbn [app next_c]. fe. rewrite <- app_assoc. cbn [app]. rewrite (str_complete _ _ _ Q). reflexivity.
  - cbn [app next_c]. fe. rewrite <- app_assoc. cbn [app]. rewrite (reg_complete _ _ _ Q). reflexivity.
  - reflexivity.
  - cbn [app next_c]. fe. cbn [hd tl]. fe. destruct rest as [|c r]; [reflexivity|]. cbn in N |- *. destruct (Z.eqb_spec c 46); [congruence|reflexivity].
  - cbn [app next_c]. fe. destruct rest as [|c r]; [reflexivity|]. cbn in N |- *. destruct (Z.eqb_spec c 46); [congruence|reflexivity].
  - cbn [app next_c]. assert (A' : 65 <= c \/ c = 36) by (unfold word_start, letter in A; lia). assert (X : c <> 96) by (unfold word_start, letter in A; lia).
    repeat match goal with |- context [c =? ?k] => replace (c =? k) with false by (symmetry; apply Z.eqb_neq; lia) end. cbn [orb]. cbv iota.
    replace (is_digit c) with false by (symmetry; apply not_true_iff_false; rewrite digit_iff; unfold digit; unfold word_start, letter in A; lia).
    rewrite (proj2 (word_start_iff c) A). rewrite (proj2 (while_iff _ _ word_char_iff _ s rest)) by auto. rewrite encode_ascii; [reflexivity|]. constructor; [apply word_ascii; now left|]. eapply Forall_impl; [|exact B]. exact word_ascii.
  - destruct (Num [] _ _ _ N) as (c & r & -> & D & E). cbn [next_c].
    assert (D' := D). unfold digit in D'. repeat match goal with |- context [c =? ?k] => replace (c =? k) with false by (symmetry; apply Z.eqb_neq; lia) end. cbn [orb]. cbv iota. rewrite (proj2 (digit_iff c) D). exact E.
  - destruct (Num [] _ _ _ N) as (c & r & E0 & D & E). cbn [app]. rewrite E0. cbn [next_c]. fe. rewrite (proj2 (digit_iff c) D). exact E.
  - destruct (Num [45] _ _ _ N) as (c & r & E0 & D & E). cbn [app]. rewrite E0. cbn [next_c]. fe. rewrite (proj2 (digit_iff c) D). exact E.
  - cbn [app next_c]. cbn [In] in A. repeat match goal with |- context [c =? ?k] => replace (c =? k) with false by (symmetry; apply Z.eqb_neq; lia) end. cbn [orb]. cbv iota.
    replace (is_digit c) with false by (symmetry; apply not_true_iff_false; rewrite digit_iff; exact B). replace (is_id_start c) with false by (symmetry; apply not_true_iff_false; rewrite word_start_iff; exact C). reflexivity.
Qed.
Lemma next_sound cs t rest : next_c cs = NTok t rest -> token_at cs t rest.
Proof.
  assert (One : forall s t rest, item s t rest -> token_at (s ++ rest) t rest) by (intros s t0 rest0 I; exists [], s; auto).
  induction cs as [|c cs IH]; cbn [next_c]; [discriminate|].
  destruct (Z.eqb_spec c 0) as [->|N0]; [discriminate|]. destruct ((c =? 32) || (c =? 9) || (c =? 10)) eqn:S.
  { apply space_iff in S. intros E. destruct (IH E) as (bs & s & -> & F & I). exists (c :: bs), s. auto. }
  assert (S' : ~ space c) by (intros X; apply space_iff in X; congruence). clear S.
  assert (Txt : forall ty o, text_out ty o = NTok t rest -> exists b, o = Some (b, rest) /\ t = mk_token (encode b) ty) by (intros ty [[b r]|] E; [injection E as <- <-; eauto|discriminate]).
  destruct (Z.eqb_spec c 96) as [->|N96].
  { intros E. apply Txt in E as (b & E & ->). apply raw_iff in E as (-> & A & B). replace (96 :: b ++ 96 :: rest) with ((96 :: b ++ [96]) ++ rest) by (cbn; now rewrite <- app_assoc). apply One. now apply i_raw. }
  destruct (Z.eqb_spec c 34) as [->|N34].
  { intros E. apply Txt in E as (b & E & ->). apply (str_sound (S (length cs))) in E as (s & -> & Q); [|lia]. replace (34 :: s ++ 34 :: rest) with ((34 :: s ++ [34]) ++ rest) by (cbn; now rewrite <- app_assoc). apply One. now apply i_quoted. }
  destruct (Z.eqb_spec c 47) as [->|N47].
  { intros E. apply Txt in E as (b & E & ->). apply (reg_sound (S (length cs))) in E as (s & -> & Q); [|lia]. replace (47 :: s ++ 47 :: rest) with ((47 :: s ++ [47]) ++ rest) by (cbn; now rewrite <- app_assoc). apply One. now apply i_pattern. }
  destruct (Z.eqb_spec c 46) as [->|N46].
  { destruct cs as [|d cs]; cbn [hd].
    - intros [= <- <-]. apply (One [46]). now apply i_dot.
    - destruct (Z.eqb_spec d 46) as [->|Nd]; [|intros [= <- <-]; apply (One [46]); apply i_dot; cbn; congruence]. cbn [tl]. destruct cs as [|e cs]; cbn [hd].
      + intros [= <- <-]. apply (One [46; 46]). now apply i_dots2.
      + destruct (Z.eqb_spec e 46) as [->|Ne]; intros [= <- <-]; [apply (One [46; 46; 46]); apply i_dots3|apply (One [46; 46]); apply i_dots2; cbn; congruence]. }
  destruct ((c =? 45) || (c =? 43)) eqn:Sg; ors.
  { destruct cs as [|n cs]; [discriminate|]. dg n D; [|discriminate]. intros E. apply num_out_iff in E as (b & ty & -> & -> & X); [|exact D]. destruct Sg as [-> | ->].
    - apply (One (45 :: n :: b)). now apply i_minus.
    - apply (One (43 :: n :: b)). now apply i_plus. }
  dg c D.
  { intros E. apply num_out_iff in E as (b & ty & -> & -> & X); [|exact D]. apply (One (c :: b)). now apply i_number. }
  destruct (is_id_start c) eqn:Ws.
  - apply word_start_iff in Ws. destruct (while_c is_id cs) as [b r] eqn:W. intros E'. assert (t = mk_token (encode (c :: b)) t_identifier /\ rest = r) as [-> ->] by (split; congruence). apply (while_iff _ _ word_char_iff) in W as (-> & F & Q). rewrite encode_ascii; [apply (One (c :: b)); now apply i_word|].
    constructor; [apply word_ascii; now left|]. eapply Forall_impl; [|exact F]. exact word_ascii.
  - assert (Wn : ~ word_start c) by (rewrite <- word_start_iff, Ws; discriminate). intros [= <- <-]. apply (One [c]). apply i_char; [|exact D|exact Wn]. unfold space in S'. cbn [In] in *. lia.
Qed.
Lemma next_spaces bs cs : Forall space bs -> next_c (bs ++ cs) = next_c cs.
Proof.
  induction 1 as [|c bs S F IH]; [reflexivity|]. cbn [app next_c]. rewrite (proj2 (space_iff c) S), IH. unfold space in S. destruct (Z.eqb_spec c 0); [cbn in S; lia|reflexivity].
Qed.
Lemma next_tok_iff cs t rest : next_c cs = NTok t rest <-> token_at cs t rest.
Proof. split; [apply next_sound|]. intros (bs & s & -> & F & I). rewrite next_spaces by exact F. now apply next_complete. Qed.
Lemma num_out_end sign c cs : num_out sign c cs <> NEnd.
Proof. unfold num_out. destruct (num_c (c =? 48) t_integer cs) as [[[? ?] ?]|]; discriminate. Qed.
Lemma next_end_iff cs : next_c cs = NEnd <-> at_end cs.
Proof.
  split.
  - induction cs as [|c cs IH]; [intros _; exists []; auto|]. cbn [next_c]. destruct (Z.eqb_spec c 0) as [->|N]; [intros _; exists []; split; [constructor|right; exists cs; reflexivity]|].
    destruct ((c =? 32) || (c =? 9) || (c =? 10)) eqn:S.
    + intros E. apply space_iff in S. destruct (IH E) as (bs & F & X). exists (c :: bs). split; [now constructor|]. destruct X as [->|(r & ->)]; [now left|right; now exists r].
    + intros E. exfalso. revert E. repeat match goal with |- context [if ?b then _ else _] => destruct b end; try discriminate; try apply num_out_end.
      * destruct (raw_c cs) as [[? ?]|]; discriminate.
      * destruct (str_c cs) as [[? ?]|]; discriminate.
      * destruct (reg_c cs) as [[? ?]|]; discriminate.
      * destruct cs as [|n cs]; [discriminate|]. destruct (is_digit n); [apply num_out_end|discriminate].
      * destruct cs as [|n cs]; [discriminate|]. destruct (is_digit n); [apply num_out_end|discriminate].
      * destruct (while_c is_id cs); discriminate.
  - intros (bs & F & [->|(r & ->)]); [rewrite <- (app_nil_r bs)|]; rewrite next_spaces by exact F; reflexivity.
Qed.

(* ---------- all tokens ---------- *)

Lemma item_type s t rest : item s t rest -> t_type t <> t_end.
Proof. assert (NT : forall s ty rest, number_text s ty rest -> ty <> t_end) by (destruct 1; discriminate). destruct 1; cbn; try discriminate; eauto. intros ->. cbn in H. tauto. Qed.
Lemma item_shorter s t rest : item s t rest -> s <> [].
Proof. assert (NT : forall s ty rest, number_text s ty rest -> s <> []) by (intros s0 ty r N E; destruct (number_head _ _ _ N) as (c & b & -> & _); discriminate). destruct 1; try discriminate; eauto. Qed.
Lemma lexes_all w (W : Forall char w) n : forall r cs, rd w r cs -> (length cs < n)%nat -> lexes cs (lex_all n r).
Proof.
  induction n as [|n IH]; intros r cs Hr L; [lia|]. cbn [lex_all]. pose proof (rd_fuel w W r cs Hr) as Fu.
  pose proof (does_next w W (2 + length (r_s r)) cs r Hr ltac:(lia)) as H. fold (lex r) in H. destruct (next_c cs) as [| |t rest] eqn:E; cbn [does_out] in H.
  - destruct H as (r' & ->). apply lexes_end. now apply next_end_iff.
  - rewrite H. apply lexes_panic; [rewrite <- next_end_iff; congruence|]. intros t rest X. apply next_tok_iff in X. congruence.
  - destruct H as (r' & -> & Hr'). apply next_tok_iff in E. assert (T := E). destruct T as (bs & s & -> & F & I). pose proof (item_type _ _ _ I) as NT. pose proof (item_shorter _ _ _ I) as NS.
    destruct (Z.eqb_spec (t_type t) t_end); [congruence|]. apply (lexes_token _ t rest); [exact E|]. apply IH; [exact Hr'|]. rewrite !app_length in L. destruct s; [congruence|]. cbn [length] in L. lia.
Qed.
Lemma lexes_unique cs l : lexes cs l -> forall l', lexes cs l' -> l = l'.
Proof.
  induction 1 as [cs E|cs t rest l T _ IH|cs A B]; intros l' H; inversion H as [? E'|? t' rest' l0 T' H'|? A' B']; subst; auto.
  - apply next_end_iff in E. apply next_tok_iff in T'. congruence.
  - contradiction.
  - apply next_end_iff in E'. apply next_tok_iff in T. congruence.
  - apply next_tok_iff in T, T'. rewrite T in T'. injection T' as <- <-. f_equal. now apply IH.
  - exfalso. now apply (B' t rest).
  - contradiction.
  - exfalso. now apply (B t' rest').
Qed.
Lemma tokens_lexes w l : Forall char w -> tokens (encode w) = l <-> lexes w l.
Proof.
  intros W. assert (R : rd w (new_reader (encode w)) w) by (exists 0%nat; split; [reflexivity|]; split; [reflexivity|lia]).
  assert (L : lexes w (tokens (encode w))).
  { apply (lexes_all w W _ _ _ R). pose proof (rd_fuel w W _ _ R) as Fu. change (r_s (new_reader (encode w))) with (encode w) in Fu. lia. }
  split; [intros <-; exact L|]. intros H. now apply (lexes_unique w).
Qed.
