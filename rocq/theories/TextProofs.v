(* The string reader delivers the characters of a text; the indenter strips blanks. *)
From Coq Require Import ZArith List Bool Lia.
From Verif Require Import Utf8 Utf8Proofs Text TextSpec.
Import ListNotations.
Open Scope Z_scope.

Lemma skipn_app_len {A} (a b : list A) : skipn (length a) (a ++ b) = b.
Proof. rewrite skipn_app, skipn_all, Nat.sub_diag. reflexivity. Qed.

(* ---------- the reader ---------- *)

Definition code_col (k : nat) (cs : list Z) : nat := fold_left (fun a c => if c =? 10 then 1%nat else S a) cs k.

Lemma scalar_pos c : scalar c -> 0 <= c.
Proof. unfold scalar. lia. Qed.

Lemma next_at a c b l k : char c ->
  next (mk_reader (length (encode a)) l k (encode (a ++ c :: b))) =
  Some (c, mk_reader (length (encode (a ++ [c]))) (if c =? 10 then S l else l) (if c =? 10 then 1%nat else S k) (encode (a ++ c :: b))).
Proof.
  intros [Sc Nc]. unfold next. cbn [r_s r_p r_l r_c].
  rewrite !encode_app, encode_cons. cbn [encode flat_map]. rewrite app_nil_r.
  destruct (encode_rune_head c Sc) as (h & t & Eh & Hh).
  replace (Nat.leb _ _) with false.
  2:{ symmetry. apply Nat.leb_gt. rewrite !app_length, Eh. cbn. lia. }
  rewrite skipn_app_len. fold (encode b). pose proof (decode_encode c (encode b) Sc) as D. pose proof (scalar_pos c Sc).
  destruct (Z.ltb_spec c 128) as [L|L].
  - rewrite encode_rune_small in * by lia. cbn [app hd]. destruct (Z.ltb_spec c 128); [|lia].
    rewrite app_length. cbn [length]. rewrite Nat.add_1_r. destruct (c =? 10); reflexivity.
  - rewrite D. destruct (Z.eqb_spec c 10); [lia|]. rewrite Eh. cbn [app hd]. destruct (Z.ltb_spec h 128); [lia|].
    destruct (Z.eqb_spec c rune_error); [contradiction|]. rewrite <- Eh, app_length. reflexivity.
Qed.

Lemma peek_at a c b l k : char c -> peek (mk_reader (length (encode a)) l k (encode (a ++ c :: b))) = Some c.
Proof.
  intros [Sc Nc]. unfold peek. cbn [r_s r_p r_l r_c].
  rewrite !encode_app, encode_cons.
  destruct (encode_rune_head c Sc) as (h & t & Eh & Hh).
  replace (Nat.leb _ _) with false.
  2:{ symmetry. apply Nat.leb_gt. rewrite !app_length, Eh. cbn. lia. }
  rewrite skipn_app_len. pose proof (decode_encode c (encode b) Sc) as D. pose proof (scalar_pos c Sc).
  destruct (Z.ltb_spec c 128) as [L|L].
  - rewrite encode_rune_small in * by lia. cbn [app hd]. destruct (Z.leb_spec 128 c); [lia|reflexivity].
  - rewrite D. rewrite Eh. cbn [app hd]. destruct (Z.leb_spec 128 h); [|lia].
    destruct (Z.eqb_spec c rune_error); [contradiction|reflexivity].
Qed.

Lemma peek_end p l k s : (length s <= p)%nat -> peek (mk_reader p l k s) = Some 0.
Proof. intros H. unfold peek. cbn [r_s r_p]. apply Nat.leb_le in H. now rewrite H. Qed.

(* Peek2 is Peek at the position after the next character *)
Lemma peek2_at a c b l k : char c ->
  peek2 (mk_reader (length (encode a)) l k (encode (a ++ c :: b))) = peek (mk_reader (length (encode (a ++ [c]))) l k (encode (a ++ c :: b))).
Proof.
  intros [Sc Nc]. unfold peek2, peek. cbn [r_s r_p r_l r_c].
  rewrite !encode_app, encode_cons. cbn [encode flat_map]. rewrite app_nil_r.
  destruct (encode_rune_head c Sc) as (h & t & Eh & Hh).
  replace (Nat.leb (length (encode a ++ encode_rune c ++ encode b)) (length (encode a))) with false.
  2:{ symmetry. apply Nat.leb_gt. rewrite !app_length, Eh. cbn. lia. }
  rewrite skipn_app_len. fold (encode b). pose proof (decode_encode c (encode b) Sc) as D. pose proof (scalar_pos c Sc).
  rewrite (app_length (encode a) (encode_rune c)). set (np := (length (encode a) + length (encode_rune c))%nat).
  destruct (Z.ltb_spec c 128) as [L|L].
  - assert (N1 : length (encode_rune c) = 1%nat) by (rewrite encode_rune_small by lia; reflexivity).
    assert (H1 : hd 0 (encode_rune c ++ encode b) = c) by (rewrite encode_rune_small by lia; reflexivity).
    rewrite H1. destruct (Z.leb_spec 128 c); [lia|]. subst np. rewrite N1. reflexivity.
  - rewrite D. assert (H1 : hd 0 (encode_rune c ++ encode b) = h) by (rewrite Eh; reflexivity).
    rewrite H1. destruct (Z.leb_spec 128 h); [|lia].
    destruct (Z.eqb_spec c rune_error); [contradiction|reflexivity].
Qed.

(* the reader after n calls of Next *)
Definition after (cs : list Z) (n : nat) : reader :=
  mk_reader (length (encode (firstn n cs)) + (if Nat.ltb (length cs) n then 1 else 0)) (newlines (firstn n cs))
            (code_col 0 (firstn n cs) + (if Nat.ltb (length cs) n then 1 else 0)) (encode cs).

Lemma newlines_app a b : newlines (a ++ b) = (newlines a + newlines b)%nat.
Proof. unfold newlines. now rewrite filter_app, app_length. Qed.

Lemma after_split a b : after (a ++ b) (length a) =
  mk_reader (length (encode a)) (newlines a) (code_col 0 a) (encode (a ++ b)).
Proof.
  unfold after. rewrite firstn_app, firstn_all, Nat.sub_diag, firstn_O, app_nil_r.
  replace (Nat.ltb _ _) with false; [now rewrite !Nat.add_0_r|]. symmetry. apply Nat.ltb_ge. rewrite app_length. lia.
Qed.

Lemma next_after cs n : Forall char cs -> next (after cs n) = Some (nth n cs 0, after cs (S n)).
Proof.
  intros H. destruct (Nat.lt_ge_cases n (length cs)) as [L|L].
  - destruct (nth_split cs 0 L) as (a & b & E & La). set (c := nth n cs 0) in *. clearbody c. subst cs n.
    rewrite after_split. rewrite next_at.
    2:{ apply Forall_app in H as [_ H]. now inversion H. }
    replace (S (length a)) with (length (a ++ [c])) by (rewrite app_length; cbn; lia).
    replace (a ++ c :: b) with ((a ++ [c]) ++ b) by (now rewrite <- app_assoc). rewrite after_split.
    rewrite newlines_app. unfold code_col. rewrite fold_left_app. cbn [fold_left newlines filter].
    unfold newlines. cbn [filter]. rewrite (Z.eqb_sym 10 c). destruct (c =? 10); cbn [length]; repeat f_equal; lia.
  - rewrite nth_overflow by lia. unfold next. unfold after at 1 2 3 4 5. cbn [r_s r_p r_l r_c].
    unfold after. cbn [r_s r_p r_l r_c]. rewrite !firstn_all2 by lia.
    destruct (Nat.leb_spec (length (encode cs)) (length (encode cs) + (if Nat.ltb (length cs) n then 1 else 0))); [|lia].
    destruct (Nat.ltb_spec (length cs) (S n)); [|lia].
    destruct (Nat.ltb_spec (length cs) n).
    + destruct (Nat.eqb_spec (length (encode cs) + 1) (length (encode cs))); [lia|reflexivity].
    + rewrite Nat.add_0_r, Nat.eqb_refl. repeat f_equal; lia.
Qed.

Lemma nexts_after cs : Forall char cs -> forall n m, nexts n (after cs m) = Some (map (fun i => nth i cs 0) (seq m n), after cs (m + n)).
Proof.
  intros H. induction n as [|n IH]; intros m; cbn [nexts seq map].
  - now rewrite Nat.add_0_r.
  - rewrite next_after by exact H. rewrite IH. now rewrite Nat.add_succ_comm.
Qed.

Lemma new_after cs : new_reader (encode cs) = after cs 0.
Proof. reflexivity. Qed.

Lemma seq_nth_chars cs : map (fun i => nth i cs 0) (seq 0 (length cs)) = cs.
Proof.
  induction cs as [|c r IH]; [reflexivity|]. cbn [length seq map nth]. f_equal.
  rewrite <- seq_shift, map_map. cbn [nth]. exact IH.
Qed.

Lemma seq_nth_over cs m n : (length cs <= m)%nat -> map (fun i => nth i cs 0) (seq m n) = repeat 0 n.
Proof.
  revert m. induction n as [|n IH]; intros m L; [reflexivity|]. cbn [seq map repeat]. rewrite nth_overflow by lia.
  f_equal. apply IH. lia.
Qed.

Lemma firstn_repeat {A} (x : A) k : forall n, (k <= n)%nat -> firstn k (repeat x n) = repeat x k.
Proof.
  induction k as [|k IH]; intros n L; [reflexivity|]. destruct n as [|n]; [lia|]. cbn. f_equal. apply IH. lia.
Qed.

Lemma first_chars_gen n : forall cs k, (n <= k)%nat -> map (fun i => nth i cs 0) (seq 0 n) = firstn n (cs ++ repeat 0 k).
Proof.
  induction n as [|n IH]; intros cs k L; [reflexivity|]. destruct cs as [|c r].
  - cbn [app]. rewrite firstn_repeat by lia. apply seq_nth_over. cbn. lia.
  - cbn [seq map app firstn nth]. f_equal. rewrite <- seq_shift, map_map. cbn [nth]. apply IH. lia.
Qed.
Lemma first_chars cs n : map (fun i => nth i cs 0) (seq 0 n) = firstn n (cs ++ repeat 0 n).
Proof. now apply first_chars_gen. Qed.

Lemma peek_after cs n : Forall char cs -> peek (after cs n) = Some (nth n cs 0).
Proof.
  intros H. destruct (Nat.lt_ge_cases n (length cs)) as [L|L].
  - destruct (nth_split cs 0 L) as (a & b & E & La). set (c := nth n cs 0) in *. clearbody c. subst cs n.
    rewrite after_split. apply peek_at. apply Forall_app in H as [_ H]. now inversion H.
  - rewrite nth_overflow by lia. apply peek_end. rewrite firstn_all2 by lia. lia.
Qed.

Lemma peek2_after cs n : Forall char cs -> peek2 (after cs n) = Some (nth (S n) cs 0).
Proof.
  intros H. destruct (Nat.lt_ge_cases n (length cs)) as [L|L].
  - destruct (nth_split cs 0 L) as (a & b & E & La). set (c := nth n cs 0) in *. clearbody c. subst cs n.
    rewrite after_split. rewrite peek2_at.
    2:{ apply Forall_app in H as [_ H]. now inversion H. }
    replace (a ++ c :: b) with ((a ++ [c]) ++ b) in * by (now rewrite <- app_assoc).
    rewrite <- (peek_after ((a ++ [c]) ++ b) (S (length a)) H).
    replace (S (length a)) with (length (a ++ [c])) by (rewrite app_length; cbn; lia). rewrite after_split. reflexivity.
  - rewrite nth_overflow by lia. unfold peek2, after. cbn [r_s r_p]. rewrite firstn_all2 by lia.
    destruct (Nat.leb_spec (length (encode cs)) (length (encode cs) + (if Nat.ltb (length cs) n then 1 else 0))); [reflexivity|lia].
Qed.

(* the column as computed by the code *)
Lemma code_col_since k cs : (code_col k cs = since_newline k cs + if Nat.eqb (newlines cs) 0 then 0 else 1)%nat.
Proof.
  assert (G : forall (cs : list Z) k, fold_left (fun a c => if c =? 10 then 1%nat else S a) cs (S k) = S (since_newline k cs)).
  { clear. induction cs as [|c r IH]; intros k; [reflexivity|]. cbn [fold_left since_newline].
    destruct (c =? 10); apply IH. }
  unfold code_col. revert k. induction cs as [|c r IH]; intros k; [cbn; lia|]. cbn [fold_left since_newline].
  unfold newlines in *. cbn [filter]. rewrite (Z.eqb_sym 10 c). destruct (c =? 10).
  - rewrite G. cbn. lia.
  - apply IH.
Qed.

Theorem reader_reads cs n : Forall char cs ->
  exists r, nexts n (new_reader (encode cs)) = Some (firstn n (cs ++ repeat 0 n), r) /\
  next r = Some (nth n cs 0, after cs (S n)) /\
  peek r = Some (nth n cs 0) /\ peek2 r = Some (nth (S n) cs 0) /\
  rewind r = new_reader (encode cs) /\
  line r = S (newlines (firstn n cs)) /\
  ((n <= length cs)%nat -> pos r = length (encode (firstn n cs)) /\
    column r = (S (since_newline 0 (firstn n cs)) + if Nat.eqb (newlines (firstn n cs)) 0 then 0 else 1)%nat) /\
  ((length cs < n)%nat -> pos r = S (length (encode cs))).
Proof.
  intros H. exists (after cs n). rewrite new_after, nexts_after, first_chars by exact H.
  split; [reflexivity|]. split; [now apply next_after|]. split; [now apply peek_after|]. split; [now apply peek2_after|].
  split; [reflexivity|]. split; [reflexivity|]. split.
  - intros L. unfold pos, column, after. cbn [r_p r_c]. apply Nat.ltb_ge in L. rewrite L, code_col_since. lia.
  - intros L. unfold pos, after. cbn [r_p]. rewrite firstn_all2 by lia. apply Nat.ltb_lt in L. rewrite L. lia.
Qed.

Theorem reader_reads_text cs n : Forall char cs ->
  exists r, nexts n (new_reader (encode cs)) = Some (firstn n (cs ++ repeat 0 n), r) /\
  (exists r', next r = Some (nth n cs 0, r')) /\
  peek r = Some (nth n cs 0) /\ peek2 r = Some (nth (S n) cs 0) /\
  rewind r = new_reader (encode cs) /\
  line r = S (newlines (firstn n cs)) /\
  ((n <= length cs)%nat -> pos r = length (encode (firstn n cs)) /\
    column r = (S (since_newline 0 (firstn n cs)) + if Nat.eqb (newlines (firstn n cs)) 0 then 0 else 1)%nat) /\
  ((length cs < n)%nat -> pos r = S (length (encode cs))).
Proof. intros H. destruct (reader_reads cs n H) as (r & H1 & H2 & H3). exists r. eauto. Qed.

(* ---------- bytes that are no text ---------- *)

(* what Next returns for arbitrary bytes: the character that starts at the position, or it panics when there is none *)
Theorem next_reads_character s p l k : Forall byte s -> (p < length s)%nat ->
  match next (mk_reader p l k s) with
  | Some (c, r) => char c /\ exists t, skipn p s = encode_rune c ++ t /\ r_p r = (p + length (encode_rune c))%nat /\ r_s r = s
  | None => ~ exists c t, char c /\ skipn p s = encode_rune c ++ t
  end.
Proof.
  intros Hb L. unfold next. cbn [r_s r_p r_l r_c].
  destruct (Nat.leb_spec (length s) p); [lia|].
  assert (Hs : skipn p s <> []). { intros E. pose proof (f_equal (@length Z) E) as E2. rewrite skipn_length in E2. cbn in E2. lia. }
  assert (Hb' : Forall byte (skipn p s)). { rewrite <- (firstn_skipn p s) in Hb. now apply Forall_app in Hb as [_ Hb]. }
  set (rest := skipn p s) in *. clearbody rest.
  destruct rest as [|h t]; [contradiction|]. cbn [hd]. inversion Hb' as [|? ? Bh Ht]; subst. unfold byte in Bh.
  destruct (Z.ltb_spec h 128) as [Lh|Lh].
  - assert (C : char h) by (split; [unfold scalar; lia|unfold rune_error; lia]).
    destruct (h =? 10); (split; [exact C|]; exists t; rewrite encode_rune_small by lia; cbn; repeat split; lia).
  - destruct (decode_rune (h :: t)) as [c sz] eqn:D. destruct (Z.eqb_spec c rune_error) as [E|E].
    + intros (c' & t' & [Sc Nc] & E'). rewrite E', decode_encode in D by exact Sc. congruence.
    + destruct (decode_inv _ _ _ Hb' Hs D) as [[Sc (r & E' & Ek)]|[? _]]; [|contradiction].
      split; [split; assumption|]. exists r. cbn. rewrite E', Ek. auto.
Qed.

(* ---------- the indenter ---------- *)

Lemma write_rune_encode c : write_rune c = encode_rune c.
Proof. unfold write_rune, encode_rune. destruct (c <? 128); reflexivity. Qed.

(* the loop on characters *)
Fixpoint strip_loop (cs wb : list Z) : list Z :=
  match cs with
  | [] => []
  | c :: r => if blank c then strip_loop r (wb ++ [c])
              else if c =? 10 then c :: strip_loop r []
              else wb ++ c :: strip_loop r []
  end.

Lemma blank_small c : blank c = true -> encode_rune c = [c].
Proof. unfold blank. intros H. apply orb_true_iff in H as [H|H]; apply Z.eqb_eq in H; subst; reflexivity. Qed.

Lemma blanks_encode wb : forallb blank wb = true -> encode wb = wb.
Proof.
  induction wb as [|c r IH]; [reflexivity|]. cbn [forallb]. intros H. apply andb_true_iff in H as [H1 H2].
  rewrite encode_cons, blank_small, IH by assumption. reflexivity.
Qed.

Lemma string_loop_strip fuel : forall cs wb n, Forall scalar cs -> forallb blank wb = true -> (length (encode cs) <= fuel)%nat ->
  string_loop fuel (encode cs) wb n = n ++ encode (strip_loop cs wb).
Proof.
  induction fuel as [|fuel IH]; intros cs wb n Hs Hw L.
  - destruct cs as [|c r]; [now rewrite app_nil_r|]. rewrite encode_cons, app_length in L.
    inversion Hs as [|? ? Sc _]; subst. destruct (encode_rune_head c Sc) as (h & t & E & _). rewrite E in L. cbn in L. lia.
  - destruct cs as [|c r]; [now rewrite app_nil_r|]. inversion Hs as [|? ? Sc Hr]; subst.
    rewrite encode_cons in *. cbn [string_loop].
    destruct (encode_rune_head c Sc) as (h & t & E & _).
    assert (Lr : (length (encode r) <= fuel)%nat) by (rewrite app_length, E in L; cbn in L; lia).
    destruct (encode_rune c ++ encode r) as [|b0 b1] eqn:Eb; [rewrite E in Eb; discriminate|].
    rewrite <- Eb. rewrite decode_encode by exact Sc. rewrite skipn_app_len. cbn [strip_loop]. fold (blank c). rewrite write_rune_encode.
    destruct (blank c) eqn:B.
    + apply IH; auto. rewrite forallb_app. cbn. rewrite Hw, B. reflexivity.
    + destruct (c =? 10).
      * rewrite IH by auto. now rewrite encode_cons, <- app_assoc.
      * rewrite IH by auto. now rewrite encode_app, encode_cons, (blanks_encode wb Hw), !app_assoc.
Qed.

Lemma unlines_cons_char c l ls : unlines ((c :: l) :: ls) = c :: unlines (l :: ls).
Proof. destruct ls; reflexivity. Qed.
Lemma unlines_app_char a l ls : unlines ((a ++ l) :: ls) = a ++ unlines (l :: ls).
Proof. destruct ls; cbn; [reflexivity|]. now rewrite <- app_assoc. Qed.

Lemma strip_loop_lines cs : forall wb, forallb blank wb = true ->
  exists t ts, strip_loop cs wb = unlines (t :: ts) /\ exists l ls, lines cs = l :: ls /\ stripped (wb ++ l) t /\ Forall2 stripped ls ts.
Proof.
  induction cs as [|c r IH]; intros wb Hw.
  - exists [], []. split; [reflexivity|]. exists [], []. split; [reflexivity|]. split; [|constructor].
    exists wb. rewrite app_nil_r. split; [reflexivity|]. split; [exact Hw|]. intros [|? ?] ? E; discriminate.
  - cbn [strip_loop lines]. destruct (blank c) eqn:B.
    + destruct (IH (wb ++ [c])) as (t & ts & E & l & ls & El & S1 & S2). { rewrite forallb_app. cbn. now rewrite Hw, B. }
      exists t, ts. split; [exact E|]. rewrite El. destruct (Z.eqb_spec c 10); [subst; discriminate|].
      exists (c :: l), ls. split; [reflexivity|]. rewrite <- app_assoc in S1. auto.
    + destruct (IH [] eq_refl) as (t & ts & E & l & ls & El & S1 & S2). cbn [app] in S1.
      destruct (Z.eqb_spec c 10) as [->|N].
      * exists [], (t :: ts). split; [rewrite E; reflexivity|]. rewrite El. exists [], (l :: ls). split; [reflexivity|].
        split; [|constructor; assumption]. exists wb. rewrite app_nil_r. split; [reflexivity|]. split; [exact Hw|]. intros [|? ?] ? E'; discriminate.
      * exists (wb ++ c :: t), ts. split. { rewrite unlines_app_char, unlines_cons_char, E. reflexivity. }
        rewrite El. exists (c :: l), ls. split; [reflexivity|]. split; [|exact S2].
        destruct S1 as (bs & -> & Hb & Hl). exists bs. split; [now rewrite <- app_assoc|]. split; [exact Hb|].
        intros t' d E'. destruct t as [|t0 tr].
        -- apply app_inj_tail in E' as [_ <-]. exact B.
        -- destruct (@exists_last _ (t0 :: tr)) as (u & e & Eu); [discriminate|]. rewrite Eu in E'.
           replace (wb ++ c :: u ++ [e]) with ((wb ++ c :: u) ++ [e]) in E' by (now rewrite <- app_assoc).
           apply app_inj_tail in E' as [_ <-]. exact (Hl _ _ Eu).
Qed.

Theorem indenter_string cs : Forall scalar cs ->
  exists t, to_string (encode cs) = (encode t, []) /\ stripped_lines cs t.
Proof.
  intros H. unfold to_string. rewrite string_loop_strip by auto. exists (strip_loop cs []). split; [reflexivity|].
  destruct (strip_loop_lines cs [] eq_refl) as (t & ts & E & l & ls & El & S1 & S2). exists (t :: ts). rewrite E, El. auto.
Qed.

(* stripping is unique *)
Lemma stripped_unique s t t' : stripped s t -> stripped s t' -> t = t'.
Proof.
  assert (G : forall t t' bs bs', t ++ bs = t' ++ bs' -> forallb blank bs' = true -> (forall u c, t = u ++ [c] -> blank c = false) ->
              (length t <= length t')%nat).
  { clear. intros t t' bs bs' E H L. destruct (Nat.le_gt_cases (length t) (length t')) as [|G]; [assumption|exfalso].
    destruct (@exists_last _ t) as (u & c & ->). { intros ->. cbn in G. lia. }
    specialize (L u c eq_refl). rewrite app_length in G. cbn in G. rewrite <- app_assoc in E. cbn in E.
    apply (f_equal (skipn (length t'))) in E. rewrite skipn_app_len in E.
    rewrite skipn_app in E. replace (length t' - length u)%nat with 0%nat in E by lia. cbn in E. rewrite <- E in H.
    rewrite forallb_app in H. apply andb_true_iff in H as [_ H]. cbn in H. rewrite L in H. discriminate. }
  intros (bs & -> & H1 & H2) (bs' & E & H1' & H2').
  pose proof (G _ _ _ _ E H1' H2). pose proof (G _ _ _ _ (eq_sym E) H1 H2').
  assert (length t = length t') by lia. apply (f_equal (firstn (length t))) in E.
  rewrite firstn_app, firstn_all, Nat.sub_diag in E. rewrite H3, firstn_app, firstn_all, Nat.sub_diag in E. cbn in E. now rewrite !app_nil_r in E.
Qed.

Theorem stripped_lines_unique s t t' : stripped_lines s t -> stripped_lines s t' -> t = t'.
Proof.
  intros (ts & -> & H) (ts' & -> & H'). f_equal. revert ts' H'. induction H as [|l t ls ts S _ IH]; intros ts' H'; inversion H'; subst; [reflexivity|].
  f_equal; [eapply stripped_unique; eassumption|auto].
Qed.

Lemma write_times_repeat n s : forall b, write_times n s b = b ++ concat (repeat s n).
Proof.
  induction n as [|n IH]; intros b; cbn; [now rewrite app_nil_r|]. rewrite IH. now rewrite <- app_assoc.
Qed.

Lemma new_line_break i b : new_line i b = b ++ line_break i.
Proof.
  unfold new_line, line_break. destruct (i_indent i); cbn; [now rewrite app_nil_r|]. rewrite write_times_repeat.
  now rewrite <- app_assoc.
Qed.

Lemma index_byte_some s c n : index_byte s c = Some n -> s = firstn n s ++ c :: skipn (S n) s /\ ~ In c (firstn n s) /\ (n < length s)%nat.
Proof.
  revert n. induction s as [|x r IH]; intros n E; [discriminate|]. cbn [index_byte] in E.
  destruct (Z.eqb_spec x c) as [->|N].
  - injection E as <-. split; [reflexivity|]. split; [intros []|cbn; lia].
  - destruct (index_byte r c) as [m|]; [|discriminate]. injection E as <-. destruct (IH m eq_refl) as (E1 & E2 & E3).
    split; [|split].
    + change (x :: r = x :: (firstn m r ++ c :: skipn (S m) r)). f_equal. exact E1.
    + cbn. intros [H|H]; auto.
    + cbn. lia.
Qed.
Lemma index_byte_none s c : index_byte s c = None -> ~ In c s.
Proof.
  induction s as [|x r IH]; intros E; [intros []|]. cbn [index_byte] in E. destruct (Z.eqb_spec x c); [discriminate|].
  destruct (index_byte r c); [discriminate|]. intros [H|H]; [congruence|]. now apply IH.
Qed.

Lemma broken_none i s : ~ In 10 s -> flat_map (broken i) s = s.
Proof.
  induction s as [|x r IH]; intros H; [reflexivity|]. cbn. unfold broken at 1. destruct (Z.eqb_spec x 10) as [->|]; [exfalso; apply H; now left|].
  cbn. f_equal. apply IH. intros I. apply H. now right.
Qed.

Theorem append_indented_breaks i s b : append_indented i s b = b ++ flat_map (broken i) s.
Proof.
  unfold append_indented.
  assert (G : forall fuel s b, (length s < fuel)%nat -> append_indented_loop fuel i s b = b ++ flat_map (broken i) s); [|apply G; lia].
  clear. induction fuel as [|fuel IH]; intros s b L; [lia|]. cbn [append_indented_loop].
  destruct (index_byte s 10) as [n|] eqn:E.
  - apply index_byte_some in E as (E1 & E2 & E3).
    assert (Eb : (if Nat.ltb 0 n then b ++ firstn n s else b) = b ++ firstn n s).
    { destruct n; [cbn; now rewrite app_nil_r|reflexivity]. }
    rewrite Eb, new_line_break.
    assert (Ef : flat_map (broken i) s = firstn n s ++ line_break i ++ flat_map (broken i) (skipn (S n) s)).
    { rewrite E1 at 1. rewrite flat_map_app, broken_none by exact E2. cbn [flat_map]. unfold broken at 1. cbn. reflexivity. }
    rewrite Ef. destruct (Nat.leb_spec (length s) (S n)) as [G|G].
    + rewrite skipn_all2 by lia. cbn. rewrite app_nil_r. now rewrite <- app_assoc.
    + rewrite IH by (rewrite skipn_length; lia). now rewrite !app_assoc.
  - apply index_byte_none in E. rewrite broken_none by exact E. destruct s; cbn; [now rewrite app_nil_r|reflexivity].
Qed.
