(* Property C88. Only statements, [exact], assumptions and examples. *)
From Coq Require Import Strings.Ascii Strings.String.
From Coq Require Import ZArith List Bool Lia.
From Verif Require Import Int64 Utf8 Data Types Print Text TextSpec Lexer LexGrammarSpec LexGrammarProofs Syntax.
Import ListNotations.
Open Scope Z_scope.

(* C88. The lexer finds the tokens of the grammar, and it panics exactly where there is neither a token nor the end. *)
Theorem C88_tokens_of_text : forall w l, Forall char w -> tokens (encode w) = l <-> lexes w l.
Proof. exact tokens_lexes. Qed.
Print Assumptions C88_tokens_of_text.

(* The grammar is unambiguous: there is one way to read a text. *)
Theorem C88_unambiguous : forall w l l', lexes w l -> lexes w l' -> l = l'.
Proof. intros w l l' H. exact (lexes_unique w l H l'). Qed.
Print Assumptions C88_unambiguous.

(* $a_1 0x1F..-2.5e+3 "b\n" *)
Definition a_text : list Z := lit "$a_1 0x1F..-2.5e+3" ++ [9; 34; 98; 92; 110; 34].
Example C88_example :
  Forall char a_text /\
  lexes a_text (LTok (mk_token (lit "$a_1") t_identifier) (LTok (mk_token (lit "0x1F") t_integer) (LTok (mk_token (lit "..") t_dotdot)
    (LTok (mk_token (lit "-2.5e+3") t_float) (LTok (mk_token [98; 10] t_string) LEnd))))) /\
  lexes (lit "1.2.3") LPanic /\ lexes (lit "1e5..2") LPanic /\ lexes (lit "01x") LPanic.
Proof.
  assert (A : forall s, forallb (fun c => (0 <=? c) && (c <? 128)) s = true -> Forall char s).
  { intros s H. apply Forall_forall. intros c I. rewrite forallb_forall in H. specialize (H c I). apply andb_true_iff in H as [A B]. apply Z.leb_le in A. apply Z.ltb_lt in B. unfold char, scalar, rune_error. split; lia. }
  split; [apply A; vm_compute; reflexivity|].
  repeat split; apply tokens_lexes; try (apply A; vm_compute; reflexivity); vm_compute; reflexivity.
Qed.

(* Every integer that is read has digits: false. The character with code 1 is read as an integer, as its code is the
   type of integers; the parser takes it for the type of the integer 0. *)
Theorem C88_integers_have_digits_refuted :
  exists w, Forall char w /\ ~ (exists d, digit d /\ In d w) /\ tokens (encode w) = LTok (mk_token [] t_integer) LEnd /\
    forall E, exists t, parse_type E (encode w) = POk t LEnd /\ parse_type E (lit "0") = POk t LEnd.
Proof.
  exists [1]. split; [constructor; [unfold char, scalar, rune_error; lia|constructor]|]. split; [intros (d & D & [<-|[]]); unfold digit in D; lia|].
  split; [vm_compute; reflexivity|]. intros E. eexists. split; vm_compute; reflexivity.
Qed.
Print Assumptions C88_integers_have_digits_refuted.

(* Digits that are read have a meaning: false. 012x34 is one token and stands for 0. *)
Theorem C88_hex_digits_refuted :
  tokens (lit "012x34") = LTok (mk_token (lit "012x34") t_integer) LEnd /\
  forall E, exists t, parse_type E (lit "012x34") = POk t LEnd /\ parse_type E (lit "0") = POk t LEnd.
Proof. split; [vm_compute; reflexivity|]. intros E. eexists. split; vm_compute; reflexivity. Qed.
Print Assumptions C88_hex_digits_refuted.
