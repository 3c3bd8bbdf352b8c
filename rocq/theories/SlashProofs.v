(* How patterns are written. *)
From Coq Require Import ZArith List Bool Lia.
From Verif Require Import Int64 Utf8 Text TextSpec Lexer LexerSpec.
Import ListNotations.
Open Scope Z_scope.

Lemma small_numeral c : 0 <= c < 32 -> hex_numeral ((if c <? 16 then [] else [hex_digit true (c / 16)]) ++ [hex_digit true (c mod 16)]) c.
Proof.
  intros H. destruct (Z.ltb_spec c 16) as [L|L].
  - rewrite Z.mod_small by lia. unfold hex_numeral, hex_digit, upper_hex, upper_value. cbn [app hd fold_left]. split; [discriminate|].
    destruct (Z.ltb_spec c 10).
    + split; [repeat constructor; lia|]. split; [now intros ->|]. destruct (Z.ltb_spec (48 + c) 58); lia.
    + split; [repeat constructor; lia|]. split; [lia|]. destruct (Z.ltb_spec (55 + c) 58); lia.
  - assert (Q : c / 16 = 1) by (symmetry; apply Z.div_unique with (c - 16); lia). assert (R : c mod 16 = c - 16) by (symmetry; apply Z.mod_unique with 1; lia). rewrite Q, R.
    unfold hex_numeral, hex_digit, upper_hex, upper_value. cbn [app hd fold_left]. change (1 <? 10) with true. cbn iota. split; [discriminate|]. change (48 + 1 <? 58) with true. cbn iota.
    destruct (Z.ltb_spec (c - 16) 10).
    + split; [repeat constructor; lia|]. split; [lia|]. destruct (Z.ltb_spec (48 + (c - 16)) 58); lia.
    + split; [repeat constructor; lia|]. split; [lia|]. destruct (Z.ltb_spec (55 + (c - 16)) 58); lia.
Qed.
Theorem slash_spelled cs : Forall (fun c => 0 <= c) cs -> exists s, slash_quote cs = 47 :: s ++ [47] /\ spelled cs s.
Proof.
  intros F. exists (flat_map slash_char cs). split; [reflexivity|]. induction F as [|c cs H F IH]; [constructor|]. cbn [flat_map]. remember (flat_map slash_char cs) as r eqn:R. clear R. unfold slash_char.
  repeat match goal with |- context [if c =? ?k then _ else _] => destruct (Z.eqb_spec c k) as [->|]; [apply spelled_escape; [cbn; auto 10|exact IH]|] end.
  destruct (Z.ltb_spec c 32) as [L|L].
  - replace (([92; 117; 123] ++ (if c <? 16 then [] else [hex_digit true (c / 16)]) ++ [hex_digit true (c mod 16); 125]) ++ r)
      with ([92; 117; 123] ++ ((if c <? 16 then [] else [hex_digit true (c / 16)]) ++ [hex_digit true (c mod 16)]) ++ 125 :: r) by (rewrite <- !app_assoc; reflexivity).
    apply spelled_code; [lia|cbn; lia|now apply small_numeral|exact IH].
  - apply spelled_plain; auto.
Qed.
Lemma numeral_split h : forall h' s s', Forall upper_hex h -> Forall upper_hex h' -> h ++ 125 :: s = h' ++ 125 :: s' -> h = h' /\ s = s'.
Proof.
  induction h as [|x h IH]; intros [|y h'] s s' F F' E; cbn in E.
  - injection E as <-. auto.
  - injection E as <- _. inversion F' as [|? ? U _]; subst. unfold upper_hex in U. lia.
  - injection E as -> _. inversion F as [|? ? U _]; subst. unfold upper_hex in U. lia.
  - injection E as <- E. inversion F; inversion F'; subst. destruct (IH h' s s') as [-> ->]; auto.
Qed.
Theorem spelled_unique cs s : spelled cs s -> forall cs', spelled cs' s -> cs = cs'.
Proof.
  assert (Esc : forall e c, In (e, c) [(116, 9); (110, 10); (114, 13); (47, 47); (92, 92)] -> e <> 117 /\ forall c', In (e, c') [(116, 9); (110, 10); (114, 13); (47, 47); (92, 92)] -> c = c').
  { intros e c I. cbn in I. destruct I as [I|[I|[I|[I|[I|[]]]]]]; injection I as <- <-; (split; [discriminate|]); intros c' J; cbn in J; destruct J as [J|[J|[J|[J|[J|[]]]]]]; try discriminate; now injection J. }
  induction 1 as [|c cs s L N1 N2 S IH|e c cs s I S IH|c h cs s L N H S IH]; intros cs' S'.
  - inversion S'; auto.
  - inversion S' as [|c' cs0 s0 L' N1' N2' S0|e' c' cs0 s0 I' S0|c' h' cs0 s0 L' N' H' S0]; subst; [f_equal; auto|congruence|congruence].
  - inversion S' as [|c' cs0 s0 L' N1' N2' S0|e' c' cs0 s0 I' S0|c' h' cs0 s0 L' N' H' S0]; subst; [congruence| |].
    + destruct (Esc _ _ I) as [_ U]. f_equal; auto.
    + destruct (Esc _ _ I) as [U _]. congruence.
  - cbn [app] in S'. inversion S' as [|c' cs0 s0 L' N1' N2' S0|e' c' cs0 s0 I' S0|c' h' cs0 s0 L' N' H' S0]; subst; [congruence| |].
    + destruct (Esc _ _ I') as [U _]. congruence.
    + match goal with E : _ ++ 125 :: _ = _ ++ 125 :: _ |- _ => apply numeral_split in E as [-> ->]; [|apply H'|apply H] end. destruct H as (_ & _ & _ & <-). destruct H' as (_ & _ & _ & <-). f_equal. auto.
Qed.
