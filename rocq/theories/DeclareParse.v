(* The parser reads the tokens of correct expressions. *)
From Coq Require Import Strings.Ascii Strings.String.
From Coq Require Import ZArith List Bool Lia.
From Coq Require Import Floats.SpecFloat.
From Verif Require Import Int64 Utf8 Text TextSpec HMap Data DataProofs Types InstProofs Construct Print Lexer LexerSpec LexerProofs Syntax SyntaxSpec TokenProofs WriteProofs ParserProofs ReadProofs SyntaxProofs.
From Verif Require Import Graph RecTypes RecTypesSpec Resolve ResolveSpec Declare DeclareSpec DeclareRead.
Import ListNotations.
Open Scope Z_scope.

Fixpoint fd (ts : list token) (l : lexed) : lexed := match ts with [] => l | t :: r => LTok t (fd r l) end.
Lemma fd_app a b l : fd (a ++ b) l = fd a (fd b l).
Proof. induction a as [|p a IH]; cbn [app fd]; [reflexivity|]. now rewrite IH. Qed.
Lemma fd_end ts : fd ts LEnd = read_as ts.
Proof. induction ts as [|t ts IH]; cbn; [reflexivity|]. now rewrite IH. Qed.

Section Parse.
Variable E : env.
Variable any : nat.
Variable backing : list Z -> option nat.
Variable named : list Z -> bool.
Notation run := (a_run E any backing named).
Notation call := (a_call E any backing named).

Definition yields (c : acall) (l : lexed) (s : pstate) (x : aret c) (l' : lexed) (s' : pstate) : Prop := exists N, forall n, (N <= n)%nat -> run n c l s = AOk x l' s'.
Lemma y_intro c l s x l' s' N : (forall n, (N <= n)%nat -> call (run n) c l s = AOk x l' s') -> yields c l s x l' s'.
Proof. intros H. exists (S N). intros [|n] L; [lia|]. cbn [a_run]. apply H. lia. Qed.

Lemma peek_at t l s : p_peek l = POk t l -> a_peek l s = AOk t l s.
Proof. intros H. unfold a_peek, a_lift. now rewrite H. Qed.

(* ---------- operators ---------- *)

Lemma and_end v l s : nxt 38 l -> yields (BAnd [v]) l s v l s.
Proof. intros (t & Pk & N). apply (y_intro _ _ _ _ _ _ 0). intros n _. cbn [a_call]. unfold a_and, a_bind. rewrite (peek_at t) by exact Pk. rewrite N. reflexivity. Qed.
Lemma xor_end v l s : nxt 94 l -> yields (BXor [v]) l s v l s.
Proof. intros (t & Pk & N). apply (y_intro _ _ _ _ _ _ 0). intros n _. cbn [a_call]. unfold a_xor, a_bind. rewrite (peek_at t) by exact Pk. rewrite N. reflexivity. Qed.
Lemma or_end v l s : nxt 124 l -> yields (BOr [v]) l s v l s.
Proof. intros (t & Pk & N). apply (y_intro _ _ _ _ _ _ 0). intros n _. cbn [a_call]. unfold a_or, a_bind. rewrite (peek_at t) by exact Pk. rewrite N. reflexivity. Qed.

Ltac two H1 H2 f := let N1 := fresh "N" in let N2 := fresh "N" in let n := fresh "n" in let L := fresh "L" in
  destruct H1 as [N1 H1], H2 as [N2 H2]; apply (y_intro _ _ _ _ _ _ (N1 + N2)); intros n L; cbn [a_call]; unfold f, a_bind; rewrite H1 by lia; apply H2; lia.
Lemma all_intro t l s v l1 s1 x l2 s2 : yields (BUnary t) l s v l1 s1 -> yields (BAnd [v]) l1 s1 x l2 s2 -> yields (BAll t) l s x l2 s2.
Proof. intros H1 H2. two H1 H2 a_all. Qed.
Lemma one_intro t l s v l1 s1 x l2 s2 : yields (BAll t) l s v l1 s1 -> yields (BXor [v]) l1 s1 x l2 s2 -> yields (BOne t) l s x l2 s2.
Proof. intros H1 H2. two H1 H2 a_one. Qed.
Lemma any_intro t l s v l1 s1 x l2 s2 : yields (BOne t) l s v l1 s1 -> yields (BOr [v]) l1 s1 x l2 s2 -> yields (BAny t) l s x l2 s2.
Proof. intros H1 H2. two H1 H2 a_any. Qed.
Lemma up_all t l s v l' s' : yields (BUnary t) l s v l' s' -> nxt 38 l' -> yields (BAll t) l s v l' s'.
Proof. intros H N. eapply all_intro; [exact H|]. now apply and_end. Qed.
Lemma up_one t l s v l' s' : yields (BUnary t) l s v l' s' -> nxt 38 l' -> nxt 94 l' -> yields (BOne t) l s v l' s'.
Proof. intros H N1 N2. eapply one_intro; [apply up_all; eauto|]. now apply xor_end. Qed.
Lemma up_any t l s v l' s' : yields (BUnary t) l s v l' s' -> fol F0 l' -> yields (BAny t) l s v l' s'.
Proof. intros H N. eapply any_intro; [apply up_one; eauto; eapply fol_nxt; eauto|]. apply or_end. eapply fol_nxt; eauto. Qed.

(* the tokens are read, whatever follows of cs *)
Definition parses (c : token -> acall) (V : forall t, aval -> aret (c t)) (cs : list Z) (ts : list token) (s : pstate) (x : aval) (s' : pstate) : Prop :=
  exists t r, ts = t :: r /\ forall l, fol cs l -> yields (c t) (fd r l) s (V t x) l s'.
Definition pa := parses BAny (fun _ x => x) F0.
Definition pu := parses BUnary (fun _ x => x) F.
Definition pt := parses BType (fun _ x => x) F.

Lemma type_bad t l s n : existsb (Z.eqb (t_type t)) [123; 40; 91; 60; 1; 2; 3; 4; 5; 6; 7] = false -> run (S n) (BType t) l s = APanic.
Proof.
  intros H. cbn [a_run a_call]. unfold a_type_expression. cbn [existsb] in H. repeat (apply orb_false_iff in H; destruct H as [?X H]). unfold is_tok, t_integer, t_float, t_string, t_regexp, t_identifier, t_dotdot, t_dotdotdot.
  repeat match goal with X : (t_type t =? _) = false |- _ => rewrite X; clear X end. reflexivity.
Qed.
Lemma unary_type t l s v l' s' : yields (BType t) l s v l' s' -> yields (BUnary t) l s v l' s'.
Proof.
  intros [N H]. assert (S : existsb (Z.eqb (t_type t)) [123; 40; 91; 60; 1; 2; 3; 4; 5; 6; 7] = true).
  { destruct (existsb _ _) eqn:X; [reflexivity|]. specialize (H (S N) ltac:(lia)). rewrite type_bad in H by exact X. discriminate. }
  apply (y_intro _ _ _ _ _ _ N). intros n L. cbn [a_call]. unfold a_unary, is_tok.
  destruct (Z.eqb_spec (t_type t) 33) as [X|]; [rewrite X in S; discriminate|]. destruct (Z.eqb_spec (t_type t) 126) as [X|]; [rewrite X in S; discriminate|]. now apply H.
Qed.
Lemma pt_pu ts s x s' : pt ts s x s' -> pu ts s x s'.
Proof. intros (t & r & -> & H). exists t, r. split; [reflexivity|]. intros l Fl. now apply unary_type, H. Qed.
Lemma pu_pa ts s x s' : pu ts s x s' -> pa ts s x s'.
Proof. intros (t & r & -> & H). exists t, r. split; [reflexivity|]. intros l Fl. apply up_any; [|exact Fl]. now apply H, F0_F. Qed.
Lemma paren ts s x s' : pa ts s x s' -> pt (parens ts) s x s'.
Proof.
  intros (t & r & -> & H). unfold parens. eexists _, _. split; [reflexivity|]. intros l _. cbn [app fd]. rewrite fd_app. cbn [fd]. destruct (H (LTok (punct 41) l) eq_refl) as [N H1].
  apply (y_intro _ _ _ _ _ _ N). intros n L. cbn [a_call]. unfold a_type_expression. change (is_tok 123 (punct 40)) with false. change (is_tok 40 (punct 40)) with true. cbn beta iota. cbn [p_next]. unfold a_bind at 1. cbn [a_next a_lift p_next].
  unfold a_next, a_lift. cbn [p_next]. unfold a_bind at 1. rewrite H1 by lia. reflexivity.
Qed.

(* one after the other *)
Inductive chain (P : list token -> pstate -> aval -> pstate -> Prop) : list (list token) -> pstate -> list aval -> pstate -> Prop :=
| chain_nil s : chain P [] s [] s
| chain_cons ts tss s x s1 xs s' : P ts s x s1 -> chain P tss s1 xs s' -> chain P (ts :: tss) s (x :: xs) s'.
Lemma chain_length P tss s xs s' : chain P tss s xs s' -> length tss = length xs.
Proof. induction 1; cbn; congruence. Qed.

Lemma sep_cons c x l : sep_by c (x :: l) = x ++ flat_map (fun ts => punct c :: ts) l.
Proof.
  revert x. induction l as [|y l IH]; intros x; [cbn; now rewrite app_nil_r|]. change (sep_by c (x :: y :: l)) with (x ++ punct c :: sep_by c (y :: l)). rewrite IH. reflexivity.
Qed.

Lemma and_loop s1 s2 y tss s xs : chain pu tss s xs s1 -> forall done l, fol F l -> nxt 38 l -> a_operands NAll (done ++ xs) l s1 = AOk y l s2 ->
  yields (BAnd done) (fd (flat_map (fun ts => punct 38 :: ts) tss) l) s y l s2.
Proof.
  intros C. induction C as [s|ts tss s x s' xs s1' (t & r & -> & H) C IH]; intros done l Fl N A; cbn [flat_map fd].
  - destruct N as (t & Pk & N). apply (y_intro _ _ _ _ _ _ 0). intros n _. cbn [a_call]. unfold a_and, a_bind. rewrite (peek_at t) by exact Pk. rewrite N. rewrite app_nil_r in A. exact A.
  - change (done ++ x :: xs) with (done ++ [x] ++ xs) in A. rewrite app_assoc in A. specialize (IH (done ++ [x]) l Fl N A).
    cbn [app fd]. rewrite fd_app. assert (Ff : fol F (fd (flat_map (fun ts => punct 38 :: ts) tss) l)) by (destruct tss; [exact Fl|reflexivity]).
    destruct (H _ Ff) as [N1 H1], IH as [N2 IH]. apply (y_intro _ _ _ _ _ _ (N1 + N2)). intros n Ln. cbn [a_call]. unfold a_and, a_bind. cbn [a_peek]. unfold a_peek, a_next, a_lift. cbn [p_peek p_next]. change (is_tok 38 (punct 38)) with true. cbn beta iota. cbn [p_next].
    rewrite H1 by lia. apply IH. lia.
Qed.
Lemma xor_loop s1 s2 y tss s xs : chain pu tss s xs s1 -> forall done l, fol F l -> nxt 38 l -> nxt 94 l -> a_operands NOne (done ++ xs) l s1 = AOk y l s2 ->
  yields (BXor done) (fd (flat_map (fun ts => punct 94 :: ts) tss) l) s y l s2.
Proof.
  intros C. induction C as [s|ts tss s x s' xs s1' (t & r & -> & H) C IH]; intros done l Fl N38 N A; cbn [flat_map fd].
  - destruct N as (t & Pk & N). apply (y_intro _ _ _ _ _ _ 0). intros n _. cbn [a_call]. unfold a_xor, a_bind. rewrite (peek_at t) by exact Pk. rewrite N. rewrite app_nil_r in A. exact A.
  - change (done ++ x :: xs) with (done ++ [x] ++ xs) in A. rewrite app_assoc in A. specialize (IH (done ++ [x]) l Fl N38 N A).
    cbn [app fd]. rewrite fd_app. assert (Ff : fol F (fd (flat_map (fun ts => punct 94 :: ts) tss) l)) by (destruct tss; [exact Fl|reflexivity]).
    specialize (H _ Ff). apply up_all in H; [|destruct tss; [exact N38|eexists; split; reflexivity]].
    destruct H as [N1 H1], IH as [N2 IH]. apply (y_intro _ _ _ _ _ _ (N1 + N2)). intros n Ln. cbn [a_call]. unfold a_xor, a_bind. unfold a_peek, a_next, a_lift. cbn [p_peek p_next]. change (is_tok 94 (punct 94)) with true. cbn beta iota. cbn [p_next].
    rewrite H1 by lia. apply IH. lia.
Qed.
Lemma or_loop s1 s2 y tss s xs : chain pu tss s xs s1 -> forall done l, fol F0 l -> a_operands NAny (done ++ xs) l s1 = AOk y l s2 ->
  yields (BOr done) (fd (flat_map (fun ts => punct 124 :: ts) tss) l) s y l s2.
Proof.
  intros C. induction C as [s|ts tss s x s' xs s1' (t & r & -> & H) C IH]; intros done l Fl A; cbn [flat_map fd].
  - destruct (fol_nxt F0 l 124 Fl eq_refl) as (t & Pk & N). apply (y_intro _ _ _ _ _ _ 0). intros n _. cbn [a_call]. unfold a_or, a_bind. rewrite (peek_at t) by exact Pk. rewrite N. rewrite app_nil_r in A. exact A.
  - change (done ++ x :: xs) with (done ++ [x] ++ xs) in A. rewrite app_assoc in A. specialize (IH (done ++ [x]) l Fl A).
    cbn [app fd]. rewrite fd_app. assert (Ff : fol (124 :: F0) (fd (flat_map (fun ts => punct 124 :: ts) tss) l)) by (destruct tss; [eapply fol_weaken; [exact Fl|reflexivity]|reflexivity]).
    specialize (H _ (fol_weaken _ F _ Ff eq_refl)). apply up_one in H; [|eapply fol_nxt; [exact Ff|reflexivity]|eapply fol_nxt; [exact Ff|reflexivity]].
    destruct H as [N1 H1], IH as [N2 IH]. apply (y_intro _ _ _ _ _ _ (N1 + N2)). intros n Ln. cbn [a_call]. unfold a_or, a_bind. unfold a_peek, a_next, a_lift. cbn [p_peek p_next]. change (is_tok 124 (punct 124)) with true. cbn beta iota. cbn [p_next].
    rewrite H1 by lia. apply IH. lia.
Qed.

Lemma and_any s1 s2 y tss s xs : chain pu tss s xs s1 -> (2 <= length xs)%nat -> (forall l, a_operands NAll xs l s1 = AOk y l s2) -> pa (sep_by 38 tss) s y s2.
Proof.
  intros C L A. destruct C as [s|ts tss s x s' xs s1' (t & r & -> & H) C]; [cbn in L; lia|]. rewrite sep_cons. exists t, (r ++ flat_map (fun ts => punct 38 :: ts) tss). split; [reflexivity|]. intros l Fl. rewrite fd_app.
  eapply any_intro; [eapply one_intro; [eapply all_intro; [apply H; destruct tss; [now apply F0_F|reflexivity]|]|]|].
  - eapply and_loop; [exact C|now apply F0_F|eapply fol_nxt; eauto|]. cbn [app]. apply A.
  - apply xor_end. eapply fol_nxt; eauto.
  - apply or_end. eapply fol_nxt; eauto.
Qed.
Lemma xor_any s1 s2 y tss s xs : chain pu tss s xs s1 -> (2 <= length xs)%nat -> (forall l, a_operands NOne xs l s1 = AOk y l s2) -> pa (sep_by 94 tss) s y s2.
Proof.
  intros C L A. destruct C as [s|ts tss s x s' xs s1' (t & r & -> & H) C]; [cbn in L; lia|]. rewrite sep_cons. exists t, (r ++ flat_map (fun ts => punct 94 :: ts) tss). split; [reflexivity|]. intros l Fl. rewrite fd_app.
  eapply any_intro; [eapply one_intro; [apply up_all; [apply H; destruct tss; [now apply F0_F|reflexivity]|destruct tss; [eapply fol_nxt; eauto|eexists; split; reflexivity]]|]|].
  - eapply xor_loop; [exact C|now apply F0_F|eapply fol_nxt; eauto|eapply fol_nxt; eauto|]. cbn [app]. apply A.
  - apply or_end. eapply fol_nxt; eauto.
Qed.
Lemma or_any s1 s2 y tss s xs : chain pu tss s xs s1 -> (2 <= length xs)%nat -> (forall l, a_operands NAny xs l s1 = AOk y l s2) -> pa (sep_by 124 tss) s y s2.
Proof.
  intros C L A. destruct C as [s|ts tss s x s' xs s1' (t & r & -> & H) C]; [cbn in L; lia|]. rewrite sep_cons. exists t, (r ++ flat_map (fun ts => punct 124 :: ts) tss). split; [reflexivity|]. intros l Fl. rewrite fd_app.
  eapply any_intro; [apply up_one; [apply H; destruct tss; [now apply F0_F|reflexivity]|destruct tss; [eapply fol_nxt; eauto|eexists; split; reflexivity]|destruct tss; [eapply fol_nxt; eauto|eexists; split; reflexivity]]|].
  eapply or_loop; [exact C|exact Fl|]. cbn [app]. apply A.
Qed.

(* ---------- elements ---------- *)

(* the tokens are not taken for a key: the second is neither a colon nor a question mark *)
Definition no_key (ts : list token) : Prop := match ts with _ :: t :: _ => is_tok 58 t = false /\ is_tok 63 t = false | _ => True end.
Definition elem (b : Z) (ts : list token) (s : pstate) (x : aval) (s' : pstate) : Prop :=
  exists t r, ts = t :: r /\ is_tok t_dotdotdot t = false /\ is_tok 125 t = false /\
  forall l, fol [44; 125] l -> forall ex, ex = 1 \/ ex = b -> yields (BElem t ex) (fd r l) s (Some x, b) l s'.
Definition starts (ts : list token) : Prop := match ts with t :: _ => is_tok t_dotdotdot t = false /\ is_tok 125 t = false | [] => False end.
Lemma elem_plain ts s x s' : pa ts s x s' -> no_key ts -> starts ts -> elem 0 ts s x s'.
Proof.
  intros (t & r & -> & H) NK [St1 St2]. exists t, r. split; [reflexivity|]. split; [exact St1|]. split; [exact St2|]. intros l Fl ex X.
  assert (exists n, p_peek (fd r l) = POk n (fd r l) /\ is_tok 58 n = false /\ is_tok 63 n = false) as (n1 & Pk1 & A1 & A2).
  { destruct r as [|t2 r]; [|exists t2; split; [reflexivity|exact NK]]. cbn [fd]. destruct (fol_nxt _ l 58 Fl eq_refl) as (m & Pm & M1). exists m. split; [exact Pm|]. split; [exact M1|].
    destruct (fol_nxt _ l 63 Fl eq_refl) as (m' & Pm' & M2). rewrite Pm in Pm'. injection Pm' as <-. exact M2. }
  assert (Fl0 : fol F0 l) by (eapply fol_weaken; [exact Fl|reflexivity]). destruct (H l Fl0) as [N H1].
  destruct (fol_nxt _ l 58 Fl eq_refl) as (m & Pm & M1). assert (M2 : is_tok 63 m = false). { destruct (fol_nxt _ l 63 Fl eq_refl) as (m' & Pm' & M2). rewrite Pm in Pm'. injection Pm' as <-. exact M2. }
  apply (y_intro _ _ _ _ _ _ N). intros n L. cbn [a_call]. unfold a_elem. unfold a_bind at 1. rewrite (peek_at n1) by exact Pk1. cbn beta zeta. rewrite A1, A2, andb_false_r. cbn [orb andb]. unfold a_bind at 1. rewrite H1 by lia.
  unfold a_bind at 1. rewrite (peek_at m) by exact Pm. cbn beta zeta. rewrite M2. unfold a_bind at 1. unfold a_ret at 1. unfold a_bind at 1. rewrite (peek_at m) by exact Pm. rewrite M1. destruct X as [->| ->]; reflexivity.
Qed.
Lemma elem_entry w (required : bool) ts s x s' : pa ts s x s' -> elem 2 (word w :: (if required then [] else [punct 63]) ++ punct 58 :: ts) s (AE (AV (VStr w)) x (negb required)) s'.
Proof.
  intros (t & r & -> & H). eexists _, _. split; [reflexivity|]. split; [reflexivity|]. split; [reflexivity|]. intros l Fl ex X. assert (Fl0 : fol F0 l) by (eapply fol_weaken; [exact Fl|reflexivity]). destruct (H l Fl0) as [N H1].
  apply (y_intro _ _ _ _ _ _ N). intros n L. assert (X0 : ex =? 0 = false) by (destruct X as [->| ->]; reflexivity). cbn [a_call]. unfold a_elem, a_bind. unfold a_peek, a_next, a_lift.
  destruct required; cbn [app fd p_peek p_next]; rewrite X0; cbn [andb]; cbn -[run]; rewrite H1 by lia; reflexivity.
Qed.

Lemma list_more b tss s xs s1 : chain (elem b) tss s xs s1 -> forall done ex l y l' s2, ex = 1 \/ ex = b -> yields (BList 125 (done ++ xs) false (if tss then ex else b)) l s1 y l' s2 ->
  yields (BList 125 done false ex) (fd (flat_map (fun ts => ts ++ [punct 44]) tss) l) s y l' s2.
Proof.
  induction 1 as [s|ts tss s x s' xs s1 (t & r & -> & D & St & H) C IH]; intros done ex l y l' s2 X Y; cbn [flat_map fd].
  - now rewrite app_nil_r in Y.
  - change (done ++ x :: xs) with (done ++ [x] ++ xs) in Y. rewrite app_assoc in Y. specialize (IH (done ++ [x]) b l y l' s2 (or_intror eq_refl)). destruct IH as [N2 IH]; [destruct tss; exact Y|].
    cbn [app fd]. rewrite <- app_assoc, fd_app. destruct (H (fd ([punct 44] ++ flat_map (fun ts => ts ++ [punct 44]) tss) l) eq_refl ex X) as [N1 H1].
    apply (y_intro _ _ _ _ _ _ (N1 + N2)). intros n L. cbn [a_call]. unfold a_list. unfold a_bind at 1. unfold a_next at 1, a_lift at 1. cbn [p_next]. rewrite D. unfold a_list_from. rewrite St. unfold a_bind at 1. rewrite H1 by lia. cbn [fst snd app fd].
    unfold a_bind at 1. unfold a_next, a_lift. cbn [p_next]. change (is_tok 125 (punct 44)) with false. change (is_tok 44 (punct 44)) with true. cbn beta iota. cbn [p_next]. apply IH. lia.
Qed.
Lemma list_last b ts s x s1 : elem b ts s x s1 -> forall done ex l y s2, ex = 1 \/ ex = b -> a_finish_list any (done ++ [x]) false b l s1 = AOk y l s2 ->
  yields (BList 125 done false ex) (fd (ts ++ [punct 125]) l) s y l s2.
Proof.
  intros (t & r & -> & D & St & H) done ex l y s2 X Y. cbn [app fd]. rewrite fd_app. destruct (H (fd [punct 125] l) eq_refl ex X) as [N1 H2].
  apply (y_intro _ _ _ _ _ _ N1). intros n L. cbn [a_call]. unfold a_list. unfold a_bind at 1. unfold a_next at 1, a_lift at 1. cbn [p_next]. rewrite D. unfold a_list_from. rewrite St. unfold a_bind at 1. rewrite H2 by lia. cbn [fst snd app fd].
  unfold a_bind at 1. unfold a_next, a_lift. cbn [p_next]. change (is_tok 125 (punct 125)) with true. cbn beta iota. cbn [p_next]. exact Y.
Qed.
Lemma sep_snoc l x : sep_by 44 (l ++ [x]) = flat_map (fun ts => ts ++ [punct 44]) l ++ x.
Proof.
  induction l as [|y l IH]; [reflexivity|]. cbn [flat_map]. rewrite <- !app_assoc. cbn [app]. rewrite <- IH. destruct l; reflexivity.
Qed.
Lemma chain_split P a b s xs s' : chain P (a ++ b) s xs s' -> exists x1 x2 s1, xs = x1 ++ x2 /\ chain P a s x1 s1 /\ chain P b s1 x2 s'.
Proof.
  revert s xs. induction a as [|t a IH]; intros s xs H; cbn [app] in H.
  - exists [], xs, s. split; [reflexivity|]. split; [constructor|exact H].
  - inversion H as [|? ? ? x s1 xr ? A B]; subst. destruct (IH _ _ B) as (x1 & x2 & s2 & -> & C & D). exists (x :: x1), x2, s2. split; [reflexivity|]. split; [econstructor; eauto|exact D].
Qed.
Lemma list_items b tss s xs s1 y s2 : chain (elem b) tss s xs s1 -> tss <> [] -> (forall l, a_finish_list any xs false b l s1 = AOk y l s2) ->
  forall l, yields (BList 125 [] false 1) (fd (sep_by 44 tss ++ [punct 125]) l) s y l s2.
Proof.
  intros C N Y l. destruct (@exists_last _ tss N) as (init & x & ->). apply chain_split in C as (xi & xl & s3 & -> & Ci & Cl). inversion Cl as [|? ? ? v ? ? ? Hx Hn]; subst. inversion Hn; subst.
  rewrite sep_snoc, <- app_assoc, fd_app. eapply list_more; [exact Ci|now left|]. cbn [app]. eapply (list_last b x); [exact Hx|destruct init; auto|]. apply Y.
Qed.
(* entries and an ellipsis *)
Lemma list_open tss s xs s1 y s2 : chain (elem 2) tss s xs s1 -> (forall l, a_make_struct xs true l s1 = AOk y l s2) ->
  forall l, yields (BList 125 [] false 1) (fd (sep_by 44 (tss ++ [[ellipsis]]) ++ [punct 125]) l) s y l s2.
Proof.
  intros C Y l. rewrite sep_snoc, <- app_assoc, fd_app. eapply list_more; [exact C|now left|]. cbn [app fd]. apply (y_intro _ _ _ _ _ _ 0). intros n _. cbn [a_call]. unfold a_list, a_bind. unfold a_next, a_lift. cbn [p_next].
  change (is_tok t_dotdotdot ellipsis) with true. change (is_tok 125 (punct 125)) with true. destruct C as [s|ts tss s x s' xs s1' H C].
  - cbn [negb andb Z.eqb]. unfold a_finish_list. apply Y.
  - cbn [negb andb Z.eqb]. change (negb (2 =? 0)) with true. cbn [andb]. unfold a_finish_list. change (2 =? 2) with true. cbn beta iota. cbn [p_next]. apply Y.
Qed.
Lemma brace ts s y s2 : (forall l, yields (BList 125 [] false 1) (fd ts l) s y l s2) -> pt (punct 123 :: ts) s y s2.
Proof.
  intros H. eexists _, _. split; [reflexivity|]. intros l _. destruct (H l) as [N H1]. apply (y_intro _ _ _ _ _ _ N). intros n L. cbn [a_call]. unfold a_type_expression. change (is_tok 123 (punct 123)) with true. cbn beta iota. cbn [p_next]. apply H1, L.
Qed.
Lemma empty_braces s y s2 : (forall l, a_make_struct [] false l s = AOk y l s2) -> pt [punct 123; punct 125] s y s2.
Proof.
  intros Y. apply brace. intros l. apply (y_intro _ _ _ _ _ _ 0). intros n _. cbn [a_call fd]. unfold a_list, a_bind. unfold a_next, a_lift. cbn [p_next]. change (is_tok t_dotdotdot (punct 125)) with false. cbn beta iota. cbn [p_next].
  unfold a_list_from. change (is_tok 125 (punct 125)) with true. cbn beta iota. cbn [p_next]. unfold a_finish_list. change (1 =? 0) with false. cbn beta iota. cbn [p_next]. apply Y.
Qed.

(* ---------- numbers and sizes ---------- *)

Lemma number_type z l s : in64 z -> fol F l -> yields (BType (number z)) l s (AV (VInt z)) l s.
Proof.
  intros I64 Fl. destruct (fol_nxt F l t_dotdot Fl eq_refl) as (t & Pk & N1). destruct (fol_nxt F l t_dotdotdot Fl eq_refl) as (t' & Pk' & N2). rewrite Pk in Pk'. injection Pk' as <-.
  apply (y_intro _ _ _ _ _ _ 0). intros n _. cbn [a_call]. unfold a_type_expression. change (is_tok 123 (number z)) with false. change (is_tok 40 (number z)) with false. change (is_tok 91 (number z)) with false.
  change (is_tok 60 (number z)) with false. change (is_tok t_integer (number z)) with true. cbn iota. unfold a_bind, a_lift, p_integer. rewrite Pk. cbn [pbind]. rewrite N1, N2. cbn [orb]. change (t_value (number z)) with (itoa z). rewrite token_int_itoa by exact I64. reflexivity.
Qed.
Lemma range_type lo hi incl l s : in64 lo -> in64 hi -> lo < hi -> fol F l ->
  yields (BType (number lo)) (fd [dots incl; number hi] l) s (AT (length (ps_heap s))) l
    {| ps_heap := ps_heap s ++ [HNode (NLeaf (if (lo =? min_int64) && (hi =? max_int64) then TInt else TIntRange lo hi incl))]; ps_names := ps_names s |}.
Proof.
  intros I1 I2 L Fl. apply (y_intro _ _ _ _ _ _ 0). intros n _. cbn [a_call]. unfold a_type_expression. change (is_tok 123 (number lo)) with false. change (is_tok 40 (number lo)) with false. change (is_tok 91 (number lo)) with false.
  change (is_tok 60 (number lo)) with false. change (is_tok t_integer (number lo)) with true. cbn iota. unfold a_bind, a_lift, p_integer. cbn [fd p_peek pbind].
  assert (X : is_tok t_dotdot (dots incl) = incl /\ is_tok t_dotdot (dots incl) || is_tok t_dotdotdot (dots incl) = true) by (destruct incl; split; reflexivity). destruct X as [X1 X2]. rewrite X2, X1. cbn [p_next pbind p_peek].
  change (is_tok t_integer (number hi)) with true. cbn iota. cbn [p_next pbind]. change (t_value (number lo)) with (itoa lo). change (t_value (number hi)) with (itoa hi). rewrite !token_int_itoa by assumption.
  unfold integer_type. destruct (Z.eqb_spec lo hi); [lia|]. destruct (Z.ltb_spec hi lo); [lia|]. destruct ((lo =? min_int64) && (hi =? max_int64)); reflexivity.
Qed.
Lemma number_elem z l s : in64 z -> (exists c r, (c = 44 \/ c = 93) /\ l = LTok (punct c) r) -> yields (BElem (number z) 0) l s (Some (AV (VInt z)), 0) l s.
Proof.
  intros I64 (c & r & C & ->). assert (Fl : fol F0 (LTok (punct c) r)) by (destruct C as [-> | ->]; reflexivity).
  assert (Q : is_tok 58 (punct c) = false /\ is_tok 63 (punct c) = false) by (destruct C as [-> | ->]; split; reflexivity). destruct Q as [Q1 Q2].
  destruct (up_any _ _ _ _ _ _ (unary_type _ _ _ _ _ _ (number_type z _ s I64 (F0_F _ Fl))) Fl) as [N H].
  apply (y_intro _ _ _ _ _ _ N). intros n L. cbn [a_call]. unfold a_elem. unfold a_bind at 1. rewrite (peek_at (punct c)) by reflexivity. cbn beta zeta. rewrite Q1, Q2, andb_false_r. cbn [orb andb]. unfold a_bind at 1. rewrite H by exact L.
  unfold a_bind at 1. rewrite (peek_at (punct c)) by reflexivity. cbn beta zeta. rewrite Q2. unfold a_bind at 1. unfold a_ret at 1. unfold a_bind at 1. rewrite (peek_at (punct c)) by reflexivity. rewrite Q1. reflexivity.
Qed.
Lemma params_read sz l s : Forall in64 sz -> forall done, yields (BParams done) (fd (sep_by 44 (map (fun z => [number z]) sz) ++ [punct 93]) l) s (done ++ map (fun z => AV (VInt z)) sz) l s.
Proof.
  induction 1 as [|z sz I64 HR IH]; intros done.
  - apply (y_intro _ _ _ _ _ _ 0). intros n _. cbn [map app]. rewrite app_nil_r. reflexivity.
  - destruct sz as [|z2 sz].
    + cbn [map sep_by app fd]. destruct (number_elem z (LTok (punct 93) l) s I64) as [N H]; [eauto|]. apply (y_intro _ _ _ _ _ _ N). intros n L. cbn [a_call]. unfold a_params. unfold a_bind at 1. unfold a_next at 1, a_lift at 1. cbn [p_next].
      change (is_tok 93 (number z)) with false. cbn iota. unfold a_bind at 1. rewrite H by exact L. reflexivity.
    + specialize (IH (done ++ [AV (VInt z)])). rewrite <- app_assoc in IH. cbn [map app] in IH. destruct IH as [N2 IH].
      change (sep_by 44 (map (fun z => [number z]) (z :: z2 :: sz))) with ([number z] ++ punct 44 :: sep_by 44 (map (fun z => [number z]) (z2 :: sz))). cbn [app fd map].
      destruct (number_elem z (LTok (punct 44) (fd (sep_by 44 (map (fun z => [number z]) (z2 :: sz)) ++ [punct 93]) l)) s I64) as [N H]; [eauto|].
      apply (y_intro _ _ _ _ _ _ (N + N2)). intros n L. cbn [a_call]. unfold a_params. unfold a_bind at 1. unfold a_next at 1, a_lift at 1. cbn [p_next].
      change (is_tok 93 (number z)) with false. cbn iota. unfold a_bind at 1. cbn [map] in H. rewrite H by lia. cbn [fst snd app]. unfold a_bind at 1. unfold a_next, a_lift. cbn [p_next]. change (is_tok 93 (punct 44)) with false. change (is_tok 44 (punct 44)) with true. cbn iota.
      apply IH. lia.
Qed.
Lemma size_read sz : size_ok sz -> Forall in64 sz /\ size_of_args (map (fun z => AV (VInt z)) sz) = Some (size_of sz).
Proof.
  intros (L & Z1 & Z2). unfold in64, min_int64. destruct sz as [|a [|b [|c sz]]]; cbn [length size_of fst snd] in *; [| | |lia]; (split; [repeat (constructor; try lia)|reflexivity]).
Qed.
End Parse.
