(* The parser reads the tokens of a readable type back. *)
From Coq Require Import Strings.Ascii Strings.String.
From Coq Require Import ZArith List Bool Lia.
From Coq Require Import Floats.SpecFloat.
From Verif Require Import Int64 Utf8 Text TextSpec HMap Data DataProofs Types InstProofs Construct Print Lexer LexerSpec LexerProofs Syntax SyntaxSpec TokenProofs WriteProofs ParserProofs.
Import ListNotations.
Open Scope Z_scope.

Section Read.
Variable E : env.
Notation P := (e_print E).

(* with enough fuel, the call returns x and leaves l' *)
Definition yields (c : call) (l : lexed) (x : ret c) (l' : lexed) : Prop := exists N, forall n, (N <= n)%nat -> run E n c l = POk x l'.
Lemma y_intro c l x l' N : (forall n, (N <= n)%nat -> p_call E (run E n) c l = POk x l') -> yields c l x l'.
Proof. intros H. exists (S N). intros [|n] L; [lia|]. cbn [run]. apply H. lia. Qed.

(* what follows *)
Definition fol (cs : list Z) (l : lexed) : Prop :=
  match l with LTok t _ => existsb (Z.eqb (t_type t)) cs = true | LEnd => True | _ => False end.
Definition nxt (c : Z) (l : lexed) : Prop := exists t, p_peek l = POk t l /\ is_tok c t = false.
Lemma fol_nxt cs l c : fol cs l -> existsb (Z.eqb c) (0 :: cs) = false -> nxt c l.
Proof.
  intros F N. destruct l as [ | | |t l]; try contradiction; cbn [fol] in F.
  - exists end_token. split; [reflexivity|]. cbn [existsb] in N. unfold is_tok. change (t_type end_token) with 0. destruct (Z.eqb_spec 0 c); [subst; discriminate|reflexivity].
  - exists t. split; [reflexivity|]. unfold is_tok. destruct (Z.eqb_spec (t_type t) c); [|reflexivity]. subst c. cbn [existsb] in N. rewrite F in N. destruct (t_type t =? 0); discriminate.
Qed.
Definition F := [41; 125; 93; 44; 58; 63; 124; 38; 94].
Definition F0 := [41; 125; 93; 44; 58; 63].
Lemma fol_weaken cs cs' l : fol cs l -> forallb (fun c => existsb (Z.eqb c) cs') cs = true -> fol cs' l.
Proof.
  intros H S. destruct l as [ | | |t l]; try contradiction; cbn [fol] in *; auto. apply existsb_exists in H as (c & Hc & E1). apply Z.eqb_eq in E1. rewrite forallb_forall in S. specialize (S c Hc). now rewrite E1.
Qed.
Lemma F0_F l : fol F0 l -> fol F l.
Proof. intros H. eapply fol_weaken; [exact H|reflexivity]. Qed.

(* ---------- operators ---------- *)

Lemma and_end v l : nxt 38 l -> yields (CAnd [v]) l v l.
Proof. intros (t & Pk & N). apply (y_intro _ _ _ _ 0). intros n _. cbn [p_call]. unfold p_and. rewrite Pk. cbn [pbind]. rewrite N. reflexivity. Qed.
Lemma xor_end v l : nxt 94 l -> yields (CXor [v]) l v l.
Proof. intros (t & Pk & N). apply (y_intro _ _ _ _ 0). intros n _. cbn [p_call]. unfold p_xor. rewrite Pk. cbn [pbind]. rewrite N. reflexivity. Qed.
Lemma or_end v l : nxt 124 l -> yields (COr [v]) l v l.
Proof. intros (t & Pk & N). apply (y_intro _ _ _ _ 0). intros n _. cbn [p_call]. unfold p_or. rewrite Pk. cbn [pbind]. rewrite N. reflexivity. Qed.

Ltac two H1 H2 f := let N1 := fresh "N" in let N2 := fresh "N" in let n := fresh "n" in let L := fresh "L" in
  destruct H1 as [N1 H1], H2 as [N2 H2]; apply (y_intro _ _ _ _ (N1 + N2)); intros n L; cbn [p_call]; unfold f; rewrite H1 by lia; cbn [pbind]; apply H2; lia.
Lemma all_intro t l v l1 x l2 : yields (CUnary t) l v l1 -> yields (CAnd [v]) l1 x l2 -> yields (CAll t) l x l2.
Proof. intros H1 H2. two H1 H2 p_all. Qed.
Lemma one_intro t l v l1 x l2 : yields (CAll t) l v l1 -> yields (CXor [v]) l1 x l2 -> yields (COne t) l x l2.
Proof. intros H1 H2. two H1 H2 p_one. Qed.
Lemma any_intro t l v l1 x l2 : yields (COne t) l v l1 -> yields (COr [v]) l1 x l2 -> yields (CAny t) l x l2.
Proof. intros H1 H2. two H1 H2 p_any. Qed.

Lemma up_all t l v l' : yields (CUnary t) l v l' -> nxt 38 l' -> yields (CAll t) l v l'.
Proof. intros H N. eapply all_intro; [exact H|]. now apply and_end. Qed.
Lemma up_one t l v l' : yields (CUnary t) l v l' -> nxt 38 l' -> nxt 94 l' -> yields (COne t) l v l'.
Proof. intros H N1 N2. eapply one_intro; [apply up_all; eauto|]. now apply xor_end. Qed.
Lemma up_any t l v l' : yields (CUnary t) l v l' -> fol F0 l' -> yields (CAny t) l v l'.
Proof. intros H N. eapply any_intro; [apply up_one; eauto; eapply fol_nxt; eauto|]. apply or_end. eapply fol_nxt; eauto. Qed.

(* the tokens of an operand, and what they are read as before l *)
Definition parse_u (ts : list pt) (v : pval) (l : lexed) : Prop := exists p ps, ts = p :: ps /\ yields (CUnary (tok p)) (feed ps l) v l.
Definition parse_t (ts : list pt) (v : pval) (l : lexed) : Prop := exists p ps, ts = p :: ps /\ yields (CType (tok p)) (feed ps l) v l.
Definition parse_a (ts : list pt) (v : pval) (l : lexed) : Prop := exists p ps, ts = p :: ps /\ yields (CAny (tok p)) (feed ps l) v l.

Lemma type_bad t l n : existsb (Z.eqb (t_type t)) [123; 40; 91; 60; 1; 2; 3; 4; 5; 6; 7] = false -> run E (S n) (CType t) l = PPanic.
Proof.
  intros H. cbn [run p_call]. unfold p_type. cbn [existsb] in H. repeat (apply orb_false_iff in H; destruct H as [?X H]). unfold is_tok, t_integer, t_float, t_string, t_regexp, t_identifier, t_dotdot, t_dotdotdot.
  repeat match goal with X : (t_type t =? _) = false |- _ => rewrite X; clear X end. reflexivity.
Qed.
Lemma type_start t l v l' : yields (CType t) l v l' -> existsb (Z.eqb (t_type t)) [123; 40; 91; 60; 1; 2; 3; 4; 5; 6; 7] = true.
Proof.
  intros [N H]. destruct (existsb _ _) eqn:X; [reflexivity|]. specialize (H (S N) ltac:(lia)). rewrite type_bad in H by exact X. discriminate.
Qed.
Lemma unary_type t l v l' : yields (CType t) l v l' -> yields (CUnary t) l v l'.
Proof.
  intros H. pose proof (type_start _ _ _ _ H) as S. destruct H as [N H]. apply (y_intro _ _ _ _ N). intros n L. cbn [p_call]. unfold p_unary, p_ci, is_tok.
  destruct (Z.eqb_spec (t_type t) 33) as [X|]; [rewrite X in S; discriminate|]. destruct (Z.eqb_spec (t_type t) 126) as [X|]; [rewrite X in S; discriminate|]. now apply H.
Qed.
Lemma parse_tu ts v l : parse_t ts v l -> parse_u ts v l.
Proof. intros (p & ps & -> & H). exists p, ps. split; [reflexivity|]. now apply unary_type. Qed.
Lemma parse_ua ts v l : fol F0 l -> parse_u ts v l -> parse_a ts v l.
Proof. intros N (p & ps & -> & H). exists p, ps. split; [reflexivity|]. now apply up_any. Qed.

Lemma tjoin_cons c x l : tjoin c (x :: l) = x ++ flat_map (fun ts => PCh c :: ts) l.
Proof.
  revert x. induction l as [|y l IH]; intros x; [cbn; now rewrite app_nil_r|]. change (tjoin c (x :: y :: l)) with (x ++ PCh c :: tjoin c (y :: l)). rewrite IH. reflexivity.
Qed.

Definition operand (ts : list pt) (v : pval) : Prop := forall l, fol F l -> parse_u ts v l.

Lemma as_types_app a b : as_types (a ++ b) = match as_types a, as_types b with Some x, Some y => Some (x ++ y) | _, _ => None end.
Proof.
  induction a as [|v a IH]; cbn [app as_types]; [destruct (as_types b); reflexivity|]. rewrite IH. destruct (as_type v), (as_types a), (as_types b); reflexivity.
Qed.
Lemma operands_types make vs tys l : (2 <= length vs)%nat -> as_types vs = Some tys -> operands make vs l = POk (PT (make tys)) l.
Proof. intros L A. destruct vs as [|v [|v2 vs]]; cbn in L; try lia. unfold operands. rewrite A. reflexivity. Qed.

Lemma and_loop tss vs : Forall2 operand tss vs -> forall done tys l, fol F l -> nxt 38 l -> (2 <= length (done ++ vs))%nat -> as_types (done ++ vs) = Some tys ->
  yields (CAnd done) (feed (flat_map (fun ts => PCh 38 :: ts) tss) l) (PT (all_of_type 0%nat tys)) l.
Proof.
  induction 1 as [|ts v tss vs H HR IH]; intros done tys l Fl N L A; cbn [flat_map feed].
  - destruct N as (t & Pk & N). apply (y_intro _ _ _ _ 0). intros n _. cbn [p_call]. unfold p_and. rewrite Pk. cbn [pbind]. rewrite N. rewrite app_nil_r in *. now apply operands_types.
  - rewrite feed_app. change (done ++ v :: vs) with (done ++ [v] ++ vs) in *. rewrite app_assoc in *. specialize (IH (done ++ [v]) tys l Fl N L A).
    assert (Ff : fol F (feed (flat_map (fun ts => PCh 38 :: ts) tss) l)) by (destruct tss; [exact Fl|reflexivity]). destruct (H _ Ff) as (p & ps & -> & [N1 H1]). destruct IH as [N2 IH].
    apply (y_intro _ _ _ _ (N1 + N2)). intros n Ln. cbn [p_call feed tok]. unfold p_and. cbn [p_peek pbind p_next feed]. change (is_tok 38 (mk_token [] 38)) with true. cbn iota.
    rewrite H1 by lia. cbn [pbind]. apply IH. lia.
Qed.
Lemma xor_loop tss vs : Forall2 operand tss vs -> forall done tys l, fol F l -> nxt 38 l -> nxt 94 l -> (2 <= length (done ++ vs))%nat -> as_types (done ++ vs) = Some tys ->
  yields (CXor done) (feed (flat_map (fun ts => PCh 94 :: ts) tss) l) (PT (one_of_type 0%nat tys)) l.
Proof.
  induction 1 as [|ts v tss vs H HR IH]; intros done tys l Fl N38 N L A; cbn [flat_map feed].
  - destruct N as (t & Pk & N). apply (y_intro _ _ _ _ 0). intros n _. cbn [p_call]. unfold p_xor. rewrite Pk. cbn [pbind]. rewrite N. rewrite app_nil_r in *. now apply operands_types.
  - rewrite feed_app. change (done ++ v :: vs) with (done ++ [v] ++ vs) in *. rewrite app_assoc in *. specialize (IH (done ++ [v]) tys l Fl N38 N L A).
    assert (Ff : fol F (feed (flat_map (fun ts => PCh 94 :: ts) tss) l)) by (destruct tss; [exact Fl|reflexivity]). destruct (H _ Ff) as (p & ps & -> & H1).
    apply up_all in H1; [|destruct tss; [exact N38|eexists; split; reflexivity]]. destruct H1 as [N1 H1]. destruct IH as [N2 IH].
    apply (y_intro _ _ _ _ (N1 + N2)). intros n Ln. cbn [p_call feed tok]. unfold p_xor. cbn [p_peek pbind p_next feed]. change (is_tok 94 (mk_token [] 94)) with true. cbn iota.
    rewrite H1 by lia. cbn [pbind]. apply IH. lia.
Qed.
Lemma or_loop tss vs : Forall2 operand tss vs -> forall done tys l, fol F0 l -> (2 <= length (done ++ vs))%nat -> as_types (done ++ vs) = Some tys ->
  yields (COr done) (feed (flat_map (fun ts => PCh 124 :: ts) tss) l) (PT (any_of_type 0%nat tys)) l.
Proof.
  induction 1 as [|ts v tss vs H HR IH]; intros done tys l Fl L A; cbn [flat_map feed].
  - destruct (fol_nxt F0 l 124 Fl eq_refl) as (t & Pk & N). apply (y_intro _ _ _ _ 0). intros n _. cbn [p_call]. unfold p_or. rewrite Pk. cbn [pbind]. rewrite N. rewrite app_nil_r in *. now apply operands_types.
  - rewrite feed_app. change (done ++ v :: vs) with (done ++ [v] ++ vs) in *. rewrite app_assoc in *. specialize (IH (done ++ [v]) tys l Fl L A).
    assert (Ff : fol (124 :: F0) (feed (flat_map (fun ts => PCh 124 :: ts) tss) l)) by (destruct tss; [eapply fol_weaken; [exact Fl|reflexivity]|reflexivity]).
    destruct (H _ (fol_weaken _ F _ Ff eq_refl)) as (p & ps & -> & H1).
    apply up_one in H1; [|eapply fol_nxt; [exact Ff|reflexivity]|eapply fol_nxt; [exact Ff|reflexivity]]. destruct H1 as [N1 H1]. destruct IH as [N2 IH].
    apply (y_intro _ _ _ _ (N1 + N2)). intros n Ln. cbn [p_call feed tok]. unfold p_or. cbn [p_peek pbind p_next feed]. change (is_tok 124 (mk_token [] 124)) with true. cbn iota.
    rewrite H1 by lia. cbn [pbind]. apply IH. lia.
Qed.

Lemma all_of_any tss vs tys l : Forall2 operand tss vs -> (2 <= length vs)%nat -> as_types vs = Some tys -> fol F0 l -> parse_a (tjoin 38 tss) (PT (all_of_type 0%nat tys)) l.
Proof.
  intros H L A Fl. destruct H as [|ts v tss vs H HR]; [cbn in L; lia|]. rewrite tjoin_cons. destruct HR as [|ts2 v2 tss vs H2 HR]; [cbn in L; lia|].
  destruct (H (feed (flat_map (fun ts => PCh 38 :: ts) (ts2 :: tss)) l)) as (p & ps & -> & H1); [reflexivity|]. exists p, (ps ++ flat_map (fun ts => PCh 38 :: ts) (ts2 :: tss)). split; [reflexivity|]. rewrite feed_app.
  eapply any_intro; [eapply one_intro; [eapply all_intro; [exact H1|]|]|].
  - apply (and_loop (ts2 :: tss) (v2 :: vs)); [now constructor|now apply F0_F|eapply fol_nxt; eauto|exact L|exact A].
  - apply xor_end. eapply fol_nxt; eauto.
  - apply or_end. eapply fol_nxt; eauto.
Qed.
Lemma one_of_any tss vs tys l : Forall2 operand tss vs -> (2 <= length vs)%nat -> as_types vs = Some tys -> fol F0 l -> parse_a (tjoin 94 tss) (PT (one_of_type 0%nat tys)) l.
Proof.
  intros H L A Fl. destruct H as [|ts v tss vs H HR]; [cbn in L; lia|]. rewrite tjoin_cons. destruct HR as [|ts2 v2 tss vs H2 HR]; [cbn in L; lia|].
  destruct (H (feed (flat_map (fun ts => PCh 94 :: ts) (ts2 :: tss)) l)) as (p & ps & -> & H1); [reflexivity|]. exists p, (ps ++ flat_map (fun ts => PCh 94 :: ts) (ts2 :: tss)). split; [reflexivity|]. rewrite feed_app.
  eapply any_intro; [eapply one_intro; [apply up_all; [exact H1|eexists; split; reflexivity]|]|].
  - apply (xor_loop (ts2 :: tss) (v2 :: vs)); [now constructor|now apply F0_F|eapply fol_nxt; eauto|eapply fol_nxt; eauto|exact L|exact A].
  - apply or_end. eapply fol_nxt; eauto.
Qed.
Lemma any_of_any tss vs tys l : Forall2 operand tss vs -> (2 <= length vs)%nat -> as_types vs = Some tys -> fol F0 l -> parse_a (tjoin 124 tss) (PT (any_of_type 0%nat tys)) l.
Proof.
  intros H L A Fl. destruct H as [|ts v tss vs H HR]; [cbn in L; lia|]. rewrite tjoin_cons. destruct HR as [|ts2 v2 tss vs H2 HR]; [cbn in L; lia|].
  destruct (H (feed (flat_map (fun ts => PCh 124 :: ts) (ts2 :: tss)) l)) as (p & ps & -> & H1); [reflexivity|]. exists p, (ps ++ flat_map (fun ts => PCh 124 :: ts) (ts2 :: tss)). split; [reflexivity|]. rewrite feed_app.
  eapply any_intro; [apply up_one; [exact H1|eexists; split; reflexivity|eexists; split; reflexivity]|].
  apply (or_loop (ts2 :: tss) (v2 :: vs)); [now constructor|exact Fl|exact L|exact A].
Qed.

(* ---------- elements and entries ---------- *)

(* the first tokens are not taken for a name *)
Definition unnamed (t : token) (l : lexed) : Prop := exists n, p_peek l = POk n l /\ (is_tok t_identifier t && is_tok 58 n) || is_tok 63 n = false.

Lemma elem_plain t l v l' ex : yields (CAny t) l v l' -> unnamed t l -> nxt 58 l' -> nxt 63 l' -> ex <> 2 -> yields (CElem t ex) l (Some v, 0) l'.
Proof.
  intros [N H] (m & Pk & Nm) (n1 & Pk1 & N1) (n2 & Pk2 & N2) X. apply (y_intro _ _ _ _ N). intros n L. cbn [p_call]. unfold p_elem. rewrite Pk. cbn [pbind]. rewrite Nm. cbn [andb]. rewrite H by lia. cbn [pbind].
  rewrite Pk2. cbn [pbind]. rewrite Pk1 in Pk2. injection Pk2 as <-. rewrite N2. cbn [pbind]. rewrite Pk1. cbn [pbind]. rewrite N1. destruct (Z.eqb_spec ex 2); [contradiction|]. reflexivity.
Qed.
Lemma elem_entry t l k t2 l2 v l' ex : yields (CAny t) l k (LTok (mk_token [] 58) (LTok t2 l2)) -> unnamed t l -> yields (CAny t2) l2 v l' -> ex <> 0 -> yields (CElem t ex) l (Some (PE k v false), 2) l'.
Proof.
  intros [N H] (m & Pk & Nm) [N2 H2] X. apply (y_intro _ _ _ _ (N + N2)). intros n L. cbn [p_call]. unfold p_elem. rewrite Pk. cbn [pbind]. rewrite Nm. cbn [andb]. rewrite H by lia. cbn [pbind p_peek].
  change (is_tok 63 (mk_token [] 58)) with false. cbn [pbind p_peek]. change (is_tok 58 (mk_token [] 58)) with true. destruct (Z.eqb_spec ex 0); [contradiction|]. cbn iota. cbn [p_next pbind]. rewrite H2 by lia. reflexivity.
Qed.
Lemma elem_optional t l k t2 l2 v l' ex : yields (CAny t) l k (LTok (mk_token [] 63) (LTok (mk_token [] 58) (LTok t2 l2))) -> unnamed t l -> yields (CAny t2) l2 v l' -> ex <> 0 -> yields (CElem t ex) l (Some (PE k v true), 2) l'.
Proof.
  intros [N H] (m & Pk & Nm) [N2 H2] X. apply (y_intro _ _ _ _ (N + N2)). intros n L. cbn [p_call]. unfold p_elem. rewrite Pk. cbn [pbind]. rewrite Nm. cbn [andb]. rewrite H by lia. cbn [pbind p_peek].
  change (is_tok 63 (mk_token [] 63)) with true. cbn [p_next pbind p_peek]. change (is_tok 58 (mk_token [] 58)) with true. destruct (Z.eqb_spec ex 0); [contradiction|]. cbn iota. cbn [p_next pbind]. rewrite H2 by lia. reflexivity.
Qed.
Lemma elem_optional_string t t2 l2 v l' ex : yields (CAny t2) l2 v l' -> ex <> 0 ->
  yields (CElem t ex) (LTok (mk_token [] 63) (LTok (mk_token [] 58) (LTok t2 l2))) (Some (PE (PV (VStr (t_value t))) v true), 2) l'.
Proof.
  intros [N2 H2] X. apply (y_intro _ _ _ _ N2). intros n L. cbn [p_call]. unfold p_elem. cbn [pbind p_peek]. change (is_tok 63 (mk_token [] 63)) with true. rewrite orb_true_r. destruct (Z.eqb_spec ex 0); [contradiction|].
  cbn [andb pbind p_peek]. change (is_tok 63 (mk_token [] 63)) with true. cbn [p_next pbind p_peek]. change (is_tok 58 (mk_token [] 58)) with true. cbn iota. cbn [p_next pbind]. rewrite H2 by lia. reflexivity.
Qed.

(* an element of a list in braces: b is 2 for entries and 0 otherwise *)
Definition item (b : Z) (ts : list pt) (v : pval) : Prop := forall l, fol [44; 125] l -> exists p ps, ts = p :: ps /\
  is_tok t_dotdotdot (tok p) = false /\ is_tok 125 (tok p) = false /\ forall ex, ex = 1 \/ ex = b -> yields (CElem (tok p) ex) (feed ps l) (Some v, b) l.

Lemma list_more b tss vs : Forall2 (item b) tss vs -> forall done el ex l r l', ex = 1 \/ ex = b -> yields (CList 125 (done ++ vs) el (if tss then ex else b)) l r l' ->
  yields (CList 125 done el ex) (feed (flat_map (fun ts => ts ++ [PCh 44]) tss) l) r l'.
Proof.
  induction 1 as [|ts v tss vs H HR IH]; intros done el ex l r l' X Y; cbn [flat_map feed].
  - now rewrite app_nil_r in Y.
  - rewrite <- app_assoc, feed_app. change (done ++ v :: vs) with (done ++ [v] ++ vs) in Y. rewrite app_assoc in Y. specialize (IH (done ++ [v]) el b l r l' (or_intror eq_refl)).
    destruct (H (feed ([PCh 44] ++ flat_map (fun ts => ts ++ [PCh 44]) tss) l)) as (p & ps & -> & D & St & H1); [reflexivity|]. specialize (H1 ex X). destruct IH as [N2 IH]; [destruct tss; exact Y|]. destruct H1 as [N1 H1].
    apply (y_intro _ _ _ _ (N1 + N2)). intros n L. cbn [p_call feed]. unfold p_list. cbn [p_next pbind]. rewrite D. unfold p_list_from. rewrite St. rewrite H1 by lia. cbn [pbind fst snd app feed p_next tok].
    change (is_tok 125 (mk_token [] 44)) with false. change (is_tok 44 (mk_token [] 44)) with true. cbn iota. apply IH. lia.
Qed.
Lemma list_last b ts v : item b ts v -> forall done el ex l r, ex = 1 \/ ex = b -> finish_list (done ++ [v]) el b l = POk r l ->
  yields (CList 125 done el ex) (feed (ts ++ [PCh 125]) l) r l.
Proof.
  intros H done el ex l r X Y. rewrite feed_app. destruct (H (feed [PCh 125] l)) as (p & ps & -> & D & St & H1); [reflexivity|]. destruct (H1 ex X) as [N1 H2].
  apply (y_intro _ _ _ _ N1). intros n L. cbn [p_call feed]. unfold p_list. cbn [p_next pbind]. rewrite D. unfold p_list_from. rewrite St. rewrite H2 by lia. cbn [pbind fst snd app feed p_next tok].
  change (is_tok 125 (mk_token [] 125)) with true. cbn iota. exact Y.
Qed.
Lemma tjoin_snoc l x : tjoin 44 (l ++ [x]) = flat_map (fun ts => ts ++ [PCh 44]) l ++ x.
Proof.
  induction l as [|y l IH]; [reflexivity|]. cbn [flat_map]. rewrite <- !app_assoc. cbn [app]. rewrite <- IH. destruct l; reflexivity.
Qed.
Lemma tvariadic_snoc l x : tvariadic (l ++ [x]) = flat_map (fun ts => ts ++ [PCh 44]) l ++ PDots3 :: x.
Proof.
  induction l as [|y l IH]; [reflexivity|]. cbn [flat_map]. rewrite <- !app_assoc. cbn [app]. rewrite <- IH. destruct l; reflexivity.
Qed.

(* a list of items *)
Lemma list_items b tss vs l r : Forall2 (item b) tss vs -> tss <> [] -> finish_list vs false b l = POk r l ->
  yields (CList 125 [] false 1) (feed (tjoin 44 tss ++ [PCh 125]) l) r l.
Proof.
  intros H N Y. destruct (@exists_last _ tss N) as (init & x & ->). apply Forall2_app_inv_l in H as (vi & vl & Hi & Hl & ->). inversion Hl as [|? v ? ? Hx Hn]; subst. inversion Hn; subst.
  rewrite tjoin_snoc, <- app_assoc, feed_app. eapply list_more; [exact Hi|now left|]. cbn [app]. apply (list_last b x v Hx); [destruct init; auto|exact Y].
Qed.
Lemma brace l ps r : yields (CList 125 [] false 1) (feed ps l) r l -> parse_t (PCh 123 :: ps) r l.
Proof.
  intros [N H]. exists (PCh 123), ps. split; [reflexivity|]. apply (y_intro _ _ _ _ N). intros n L. cbn [p_call tok]. unfold p_type. change (is_tok 123 (mk_token [] 123)) with true. cbn iota. apply H, L.
Qed.
End Read.
