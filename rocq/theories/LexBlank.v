(* A blank between tokens is skipped by the lexer. *)
From Coq Require Import Strings.Ascii Strings.String.
From Coq Require Import ZArith List Bool Lia.
From Verif Require Import Int64 Utf8 Utf8Proofs Text TextSpec TextProofs Print Lexer LexerSpec LexerProofs TokenProofs.
Import ListNotations.
Open Scope Z_scope.

(* more fuel gives the same, unless it was not enough *)
Definition le {A} (m m' : res A) : Prop := m = Stuck \/ m = m'.
Lemma le_refl {A} (m : res A) : le m m. Proof. now right. Qed.
Lemma le_stuck {A} (m : res A) : le Stuck m. Proof. now left. Qed.
Lemma le_bind {A B} (m m' : res A) (f f' : A -> reader -> res B) : le m m' -> (forall a r, le (f a r) (f' a r)) -> le (bind m f) (bind m' f').
Proof. intros [-> | ->] H; [now left|]. destruct m' as [a r| |]; [apply H|now right|now right]. Qed.

Ltac mono := repeat first
  [ apply le_refl | apply le_stuck | match goal with H : forall _, _ |- _ => solve [apply H] end
  | apply le_bind; [|intros ? ?]
  | match goal with |- le (if ?b then _ else _) _ => destruct b end
  | match goal with |- le (match ?x with _ => _ end) _ => destruct x end ].
Ltac loop f := let n := fresh "n" in let IH := fresh "IH" in let m := fresh "m" in let L := fresh "L" in
  intros n; induction n as [|n IH]; intros m L; [intros; apply le_stuck|]; destruct m as [|m]; [lia|]; specialize (IH m ltac:(lia)); intros; cbn [f].
Lemma unsigned_mono : forall n m, (n <= m)%nat -> forall r b, le (unsigned_integer n r b) (unsigned_integer m r b).
Proof. loop unsigned_integer. mono. Qed.
Lemma exponent_mono n m : (n <= m)%nat -> forall r b, le (exponent n r b) (exponent m r b).
Proof. intros L r b. pose proof (unsigned_mono n m L). unfold exponent. mono. Qed.
Lemma hex_mono : forall n m, (n <= m)%nat -> forall r b, le (hex_integer n r b) (hex_integer m r b).
Proof. loop hex_integer. mono. Qed.
Lemma number_mono : forall n m, (n <= m)%nat -> forall z t r b, le (number_loop n z t r b) (number_loop m z t r b).
Proof. loop number_loop. assert (L' : (n <= m)%nat) by lia. pose proof (exponent_mono n m L'). pose proof (hex_mono n m L'). mono. Qed.
Lemma regexp_mono : forall n m, (n <= m)%nat -> forall r b, le (consume_regexp n r b) (consume_regexp m r b).
Proof. loop consume_regexp. mono. Qed.
Lemma string_mono : forall n m, (n <= m)%nat -> forall r c b, le (consume_string n r c b) (consume_string m r c b).
Proof. loop consume_string. mono. Qed.
Lemma raw_mono : forall n m, (n <= m)%nat -> forall r b, le (raw_string n r b) (raw_string m r b).
Proof. loop raw_string. mono. Qed.
Lemma identifier_mono : forall n m, (n <= m)%nat -> forall r b, le (identifier_loop n r b) (identifier_loop m r b).
Proof. loop identifier_loop. mono. Qed.
Lemma next_token_mono : forall n m, (n <= m)%nat -> forall r, le (next_token n r) (next_token m r).
Proof.
  loop next_token. assert (L' : (n <= m)%nat) by lia. pose proof (number_mono n m L'). pose proof (regexp_mono n m L'). pose proof (string_mono n m L'). pose proof (raw_mono n m L'). pose proof (identifier_mono n m L'). unfold build_token, consume_number. mono.
Qed.

Section Blank.
Variable w : list Z.
Hypothesis W : Forall char w.
Lemma lex_blank r rest : rd w r (32 :: rest) -> exists r', rd w r' rest /\ lex r = lex r'.
Proof.
  intros Hr. destruct (g_next_cons w W r 32 rest Hr) as (r' & E & Hr'). exists r'. split; [exact Hr'|]. pose proof E as E'. unfold rd_next in E'. destruct (next r) as [[c q]|] eqn:En; [|discriminate]. injection E' as -> ->.
  apply next_left in En as (Es & L & L'). specialize (L' ltac:(discriminate)). unfold lex. rewrite Es. change (2 + length (r_s r))%nat with (S (S (length (r_s r)))). remember (S (length (r_s r))) as k eqn:Ek. cbn [next_token]. rewrite E. cbn [bind]. change (32 =? 0) with false. change ((32 =? 32) || (32 =? 9) || (32 =? 10)) with true. cbn iota.
  destruct (next_token_mono k (S k) ltac:(lia) r') as [X|X]; [|exact X]. pose proof (next_token_advances k r') as A. rewrite X in A. exfalso. apply A. unfold left in *. rewrite Es in *. lia.
Qed.
End Blank.

Section Gap.
Variable P : Z -> bool.
Notation lexb := (lexable P).
Notation all := (all_chars P).

Lemma fits_close p q post : tok_fits p (q ++ [41]) -> tok_fits p (q ++ 41 :: post).
Proof.
  assert (N : ends_number (q ++ [41]) -> ends_number (q ++ 41 :: post)).
  { destruct q as [|c [|d q]]; cbn [app ends_number hd]; intuition. }
  destruct p; cbn [tok_fits]; auto.
  - intros (expo & S & F). exists expo. split; [exact S|]. destruct expo; cbn [fits_float] in *; [|auto]. destruct q as [|c q]; exact F.
  - destruct q as [|c q]; cbn; auto.
  - destruct q as [|c q]; cbn; auto.
Qed.

Lemma lex_feed_gap w : Forall char w -> forall post l k, (forall r n, rd w r post -> (k < n)%nat -> lex_all n r = l) ->
  forall ts r n, lexb (ts ++ [PCh 41]) -> rd w r (all ts ++ 41 :: post) -> (length ts + 1 + k < n)%nat -> lex_all n r = feed (ts ++ [PCh 41]) l.
Proof.
  intros W post l k H. induction ts as [|p ts IH]; intros r n K Hr Hn; (destruct n as [|n]; [lia|]); cbn [app lex_all feed] in *.
  - destruct (lex_tok P w (PCh 41) r post W) as (r' & -> & Hr'); [reflexivity|exact I|exact Hr|]. cbn [tok]. change (t_type (mk_token [] 41) =? t_end) with false. cbn iota. f_equal. apply H; [exact Hr'|lia].
  - destruct K as (K1 & K2 & K3). rewrite all_chars_app in K2. change (all [PCh 41]) with [41] in K2. apply fits_close with (post := post) in K2.
    unfold all_chars in Hr. cbn [flat_map] in Hr. rewrite <- app_assoc in Hr. destruct (lex_tok P w p r _ W K1 K2 Hr) as (r' & -> & Hr'). rewrite (tok_not_end P) by exact K1. f_equal. apply IH; auto. cbn [length] in Hn. lia.
Qed.

(* two runs of tokens with a blank between them *)
Theorem tokens_blank a b : lexb (a ++ [PCh 41]) -> lexb b -> tokens (encode (all a ++ 41 :: 32 :: all b)) = feed (a ++ [PCh 41]) (feed b LEnd).
Proof.
  intros Ka Kb. destruct (lexable_chars P _ Ka) as [Ca La]. destruct (lexable_chars P _ Kb) as [Cb Lb]. rewrite all_chars_app in Ca. change (all [PCh 41]) with [41] in Ca. rewrite all_chars_app, !app_length in La. cbn in La.
  set (w := all a ++ 41 :: 32 :: all b). assert (W : Forall char w). { unfold w. apply Forall_app in Ca as [C1 C2]. apply Forall_app. split; [exact C1|]. inversion C2; subst. constructor; auto. constructor; [|exact Cb]. split; [red; lia|discriminate]. }
  assert (R : rd w (new_reader (encode w)) w) by (exists 0%nat; rewrite new_after; split; [reflexivity|]; split; [reflexivity|lia]).
  pose proof (rd_fuel w W _ _ R) as Q. cbn [new_reader r_s] in Q. unfold tokens. apply (lex_feed_gap w W (32 :: all b) (feed b LEnd) (length b)); auto.
  - intros r n Hr Hn. destruct (lex_blank w W r _ Hr) as (r' & Hr' & Eq). destruct n as [|n]; [lia|]. transitivity (lex_all (S n) r'); [cbn [lex_all]; now rewrite Eq|]. apply (lex_feed P w); auto.
  - unfold w in *. rewrite app_length in Q. cbn [length] in Q. lia.
Qed.
End Gap.
