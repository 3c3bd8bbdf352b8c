(* Names that are declared again, or not at all. *)
From Coq Require Import Strings.Ascii Strings.String.
From Coq Require Import ZArith List Bool Lia.
From Coq Require Import Floats.SpecFloat.
From Verif Require Import Int64 Utf8 Text TextSpec HMap Data DataProofs Types InstProofs Construct Print Lexer LexerSpec LexerProofs Syntax SyntaxSpec TokenProofs WriteProofs ParserProofs ReadProofs SyntaxProofs.
From Verif Require Import Graph RecTypes RecTypesSpec Resolve ResolveSpec ResolveProofs Declare DeclareSpec DeclareRead DeclareParse DeclareProofs DeclareDone.
Import ListNotations.
Open Scope Z_scope.

Section Once.
Variable E : env.
Variable any : nat.
Variable backing : list Z -> option nat.
Variable named : list Z -> bool.
Notation run := (a_run E any backing named).
Notation call := (a_call E any backing named).

Definition fails (c : acall) (l : lexed) (s : pstate) : Prop := exists N, forall n, (N <= n)%nat -> run n c l s = APanic.
Lemma f_intro c l s N : (forall n, (N <= n)%nat -> call (run n) c l s = APanic) -> fails c l s.
Proof. intros H. exists (S N). intros [|n] L; [lia|]. cbn [a_run]. apply H. lia. Qed.
Ltac pass H f := let N := fresh "N" in let n := fresh "n" in let L := fresh "L" in
  destruct H as [N H]; apply (f_intro _ _ _ N); intros n L; cbn [a_call]; unfold f, a_bind; rewrite H by lia; reflexivity.
Lemma all_fails t l s : fails (BUnary t) l s -> fails (BAll t) l s.
Proof. intros H. pass H a_all. Qed.
Lemma one_fails t l s : fails (BAll t) l s -> fails (BOne t) l s.
Proof. intros H. pass H a_one. Qed.
Lemma any_fails t l s : fails (BOne t) l s -> fails (BAny t) l s.
Proof. intros H. pass H a_any. Qed.
Lemma unary_fails t l s : is_tok 33 t = false -> is_tok 126 t = false -> fails (BType t) l s -> fails (BUnary t) l s.
Proof. intros A B [N H]. apply (f_intro _ _ _ N). intros n L. cbn [a_call]. unfold a_unary. rewrite ?A, ?B. apply H. lia. Qed.
Lemma upto_any t l s : is_tok 33 t = false -> is_tok 126 t = false -> fails (BType t) l s -> fails (BAny t) l s.
Proof. intros A B H. now apply any_fails, one_fails, all_fails, unary_fails. Qed.

Definition known_here (s : pstate) (n : list Z) : Prop := In n keywords \/ named n = true \/ get_type backing (ps_names s) n <> None.
Lemma keyword_reserved n : In n keywords -> reserved n = true.
Proof. intros H. unfold reserved. apply existsb_exists. exists n. split; [|apply bytes_same]. revert H. unfold keywords, words. cbn [map fst app In]. tauto. Qed.
Lemma again_fails n l s : known_here s n -> fails (BAny (word n)) (LTok (punct 61) l) s.
Proof.
  intros H. apply upto_any; [reflexivity|reflexivity|]. apply (f_intro _ _ _ 0). intros m _. cbn -[a_declaration]. unfold a_bind, a_peek, a_lift. cbn -[a_declaration]. unfold a_declaration. change (t_value (word n)) with n.
  destruct H as [H|[H|H]]; [rewrite (keyword_reserved n H)|rewrite H, orb_true_r|destruct (get_type backing (ps_names s) n); [rewrite !orb_true_r|congruence]]; reflexivity.
Qed.
Lemma list_fails b tss s xs s1 : chain (elem E any backing named b) tss s xs s1 -> forall done ex l, ex = 1 \/ ex = b -> fails (BList 125 (done ++ xs) false (if tss then ex else b)) l s1 ->
  fails (BList 125 done false ex) (fd (flat_map (fun ts => ts ++ [punct 44]) tss) l) s.
Proof.
  induction 1 as [s|ts tss s x s' xs s1 (t & r & -> & D & St & H) C IH]; intros done ex l X Y; cbn [flat_map fd].
  - now rewrite app_nil_r in Y.
  - change (done ++ x :: xs) with (done ++ [x] ++ xs) in Y. rewrite app_assoc in Y. specialize (IH (done ++ [x]) b l (or_intror eq_refl)). destruct IH as [N2 IH]; [destruct tss; exact Y|].
    cbn [app fd]. rewrite <- app_assoc, fd_app. destruct (H (fd ([punct 44] ++ flat_map (fun ts => ts ++ [punct 44]) tss) l) eq_refl ex X) as [N1 H1].
    apply (f_intro _ _ _ (N1 + N2)). intros n L. cbn [a_call]. unfold a_list. unfold a_bind at 1. unfold a_next at 1, a_lift at 1. cbn [p_next]. rewrite D. unfold a_list_from. rewrite St. unfold a_bind at 1. rewrite H1 by lia. cbn [fst snd app fd].
    unfold a_bind at 1. unfold a_next, a_lift. cbn [p_next]. change (is_tok 125 (punct 44)) with false. change (is_tok 44 (punct 44)) with true. cbn beta iota. cbn [p_next]. apply IH. lia.
Qed.
Lemma elem_fails n l s done ex : ex = 1 \/ ex = 0 -> known_here s n -> fails (BList 125 done false ex) (LTok (word n) (LTok (punct 61) l)) s.
Proof.
  intros X H. destruct (again_fails n l s H) as [N Y].
  assert (Z1 : fails (BElem (word n) ex) (LTok (punct 61) l) s).
  { apply (f_intro _ _ _ N). intros m L. cbn [a_call]. unfold a_elem, a_bind. unfold a_peek, a_lift. cbn [p_peek]. change (is_tok 58 (punct 61)) with false. change (is_tok 63 (punct 61)) with false. rewrite andb_false_r. cbn [orb andb]. now rewrite Y by lia. }
  destruct Z1 as [N1 Z1]. apply (f_intro _ _ _ N1). intros m L. cbn [a_call]. unfold a_list. unfold a_bind at 1. unfold a_next at 1, a_lift at 1. cbn [p_next]. change (is_tok t_dotdotdot (word n)) with false. cbn iota. unfold a_list_from.
  change (is_tok 125 (word n)) with false. cbn iota. unfold a_bind at 1. now rewrite Z1 by lia.
Qed.
Lemma fd_read ts rest : fd ts (read_as rest) = read_as (ts ++ rest).
Proof. induction ts as [|t ts IH]; cbn; [reflexivity|]. now rewrite IH. Qed.

Section There.
Variable h : heap.
Hypothesis TH : there any backing h.
Let s0 := {| ps_heap := h; ps_names := [] |}.

Lemma declare_fails t l : fails (BAny t) l s0 -> exists N, forall k m, (N <= k)%nat -> declare E any backing named k m (LTok t l) h = DPanic.
Proof. intros [N H]. exists N. intros k m L. unfold declare. change {| ps_heap := h; ps_names := [] |} with s0. unfold a_parse, a_bind. unfold a_next at 1, a_lift at 1. cbn [p_next]. now rewrite H by lia. Qed.

(* the first thing that is declared *)
Theorem first_taken n rest : taken named backing [] n -> exists N, forall k m, (N <= k)%nat -> declare E any backing named k m (read_as (word n :: punct 61 :: rest)) h = DPanic.
Proof.
  intros H. apply (declare_fails (word n)). apply again_fails. unfold known_here, get_type. cbn [ps_names s0 get_name]. destruct H as [H|[H|[H|[]]]]; auto.
Qed.
(* something that is declared after other expressions *)
Theorem later_taken es n rest : Forall correct es -> NoDup (flat_map declared es) -> Forall (fun n => named n = false /\ backing n = None) (flat_map declared es) -> Forall (fun n => named n = false) (flat_map used es) ->
  taken named backing es n ->
  exists N, forall k m, (N <= k)%nat -> declare E any backing named k m (read_as (punct 123 :: flat_map (fun e => written Anywhere e ++ [punct 44]) es ++ word n :: punct 61 :: rest)) h = DPanic.
Proof.
  intros C ND D U H. apply (declare_fails (punct 123)). set (K := fun _ : list Z => True).
  destruct (list_reads E any backing named K es) with (s := s0) as (xs & s1 & F & S & _ & _ & Ch); auto.
  { apply Forall_forall. intros e _. intros s. apply all_read. }
  { rewrite Forall_forall in *. intros z I. split; [now apply U|exact Logic.I]. }
  { rewrite Forall_forall in *. intros z I. destruct (D z I). repeat split; auto. }
  { now apply start_ok. }
  { split; [exact ND|reflexivity]. }
  assert (Kn : known_here s1 n).
  { destruct H as [H|[H|[H|H]]]; [now left|right; now left|right; right|right; right]; unfold get_type; [destruct (get_name (ps_names s1) n); congruence|].
    destruct (f_new _ _ _ _ F n H) as (p & nd & -> & _). discriminate. }
  apply upto_any; [reflexivity|reflexivity|]. rewrite <- (fd_read (flat_map _ es)). cbn [read_as].
  assert (W : flat_map (fun e => written Anywhere e ++ [punct 44]) es = flat_map (fun ts => ts ++ [punct 44]) (map (written Anywhere) es)) by (clear; induction es as [|e es IH]; cbn; [reflexivity|]; now rewrite IH).
  rewrite W. assert (Z1 : fails (BList 125 [] false 1) (fd (flat_map (fun ts => ts ++ [punct 44]) (map (written Anywhere) es)) (LTok (word n) (LTok (punct 61) (read_as rest)))) s0).
  { eapply list_fails; [exact Ch|now left|]. apply elem_fails; [destruct (map (written Anywhere) es); auto|exact Kn]. }
  destruct Z1 as [N Z1]. apply (f_intro _ _ _ N). intros m L. cbn [a_call]. unfold a_type_expression. change (is_tok 123 (punct 123)) with true. cbn iota. apply Z1. lia.
Qed.
End There.
End Once.
