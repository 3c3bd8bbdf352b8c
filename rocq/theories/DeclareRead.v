(* What the parser makes of a correct expression, before names are replaced. *)
From Coq Require Import Strings.Ascii Strings.String.
From Coq Require Import ZArith List Bool Lia.
From Coq Require Import Floats.SpecFloat.
From Verif Require Import Int64 Utf8 Text TextSpec HMap Data DataProofs Types InstProofs Construct Print Lexer LexerSpec LexerProofs Syntax SyntaxSpec TokenProofs WriteProofs ParserProofs ReadProofs SyntaxProofs.
From Verif Require Import Graph RecTypes RecTypesSpec Resolve ResolveSpec Declare DeclareSpec.
Import ListNotations.
Open Scope Z_scope.

Section Ex_ind.
Variable P : ex -> Prop.
Hypothesis Hword : forall w, P (XWord w).
Hypothesis Hstr : forall cs, P (XStr cs).
Hypothesis Hint : forall z, P (XInt z).
Hypothesis Hrange : forall lo hi incl, P (XRange lo hi incl).
Hypothesis Hstring : forall sz, P (XString sz).
Hypothesis Hname : forall n, P (XName n).
Hypothesis Href : forall n, P (XRef n).
Hypothesis Hdecl : forall n e, P e -> P (XDecl n e).
Hypothesis Harr : forall sz e, P e -> P (XArr sz e).
Hypothesis Hmap : forall sz k v, P k -> P v -> P (XMap sz k v).
Hypothesis Htuple : forall es, Forall P es -> P (XTuple es).
Hypothesis Hstruct : forall a fs, Forall (fun f => P (snd f)) fs -> P (XStruct a fs).
Hypothesis Hor : forall es, Forall P es -> P (XOr es).
Hypothesis Hxor : forall es, Forall P es -> P (XXor es).
Hypothesis Hand : forall es, Forall P es -> P (XAnd es).
Hypothesis Hnot : forall e, P e -> P (XNot e).
Fixpoint ex_induct (e : ex) : P e :=
  let all := fix all l : Forall P l := match l with [] => Forall_nil P | x :: r => Forall_cons x (ex_induct x) (all r) end in
  match e with
  | XWord w => Hword w | XStr cs => Hstr cs | XInt z => Hint z | XRange lo hi incl => Hrange lo hi incl | XString sz => Hstring sz | XName n => Hname n | XRef n => Href n
  | XDecl n e => Hdecl n e (ex_induct e)
  | XArr sz e => Harr sz e (ex_induct e)
  | XMap sz k v => Hmap sz k v (ex_induct k) (ex_induct v)
  | XTuple es => Htuple es (all es)
  | XStruct a fs => Hstruct a fs ((fix go l : Forall (fun f => P (snd f)) l := match l with [] => Forall_nil _ | x :: r => Forall_cons x (ex_induct (snd x)) (go r) end) fs)
  | XOr es => Hor es (all es) | XXor es => Hxor es (all es) | XAnd es => Hand es (all es)
  | XNot e => Hnot e (ex_induct e)
  end.
End Ex_ind.

Lemma all_forall {A} (P : A -> Prop) l : (fix all l := match l with [] => True | e :: r => P e /\ all r end) l <-> Forall P l.
Proof. induction l as [|x l IH]; [split; constructor|]. rewrite IH. split; [intros [A1 B]; now constructor|intros H; inversion H; auto]. Qed.
Lemma pairs_forall2 {A B} (R : A -> B -> Prop) l m : pairs R l m <-> Forall2 R l m.
Proof.
  revert m. induction l as [|a l IH]; intros [|b m]; cbn [pairs]; try (split; [contradiction|intros H; inversion H]).
  - split; constructor.
  - fold (pairs R l m). rewrite IH. split; [intros [X Y]; now constructor|intros H; inversion H; auto].
Qed.
Lemma F2_impl {A B} (R R' : A -> B -> Prop) l m : (forall a b, R a b -> R' a b) -> Forall2 R l m -> Forall2 R' l m.
Proof. intros H. induction 1; constructor; auto. Qed.
Lemma pairs_mono {A B} (R R' : A -> B -> Prop) l m : Forall (fun a => forall b, R a b -> R' a b) l -> pairs R l m -> pairs R' l m.
Proof. rewrite !pairs_forall2. intros H F. revert H. induction F as [|a b l m X F IH]; intros H; inversion H; subst; constructor; auto. Qed.

Lemma built_mono (T T' : list Z -> nat -> Prop) (h h' : heap) : (forall n p, T n p -> T' n p) -> (forall p n, nth_error h p = Some n -> nth_error h' p = Some n) ->
  forall e p, built T h e p -> built T' h' e p.
Proof.
  intros HT Hh. assert (V : forall q v, is_value h q v -> is_value h' q v) by (intros q v [i X]; exists i; unfold at_leaf in *; auto).
  induction e using ex_induct; intros p; cbn [built]; unfold at_leaf, at_node.
  - intros (t & A & B). eauto.
  - auto.
  - auto.
  - auto.
  - destruct (size_of sz). auto.
  - auto.
  - auto.
  - intros [A B]. auto.
  - intros (q & A & [B|[(B & C & D)|(B & v & C & D)]]); exists q; (split; [auto|]); [left|right; left|right; right]; auto. split; [exact B|]. exists v. auto.
  - intros (q & r & A & B & [C|(C & D & X & Y)]); exists q, r; auto 10.
  - intros (qs & A & B). exists qs. split; [eapply pairs_mono; [|exact A]; exact H|]. destruct B as [B|(vs & B & C)]; [auto|]. right. exists vs. split; [|auto]. eapply pairs_mono; [|exact B]. apply Forall_forall. auto.
  - intros (qs & A & B). exists qs. split; [eapply pairs_mono; [|exact A]; exact H|]. destruct B as [B|(B & C & vs & D & X)]; [auto|]. right. split; [exact B|]. split; [exact C|]. exists vs. split; [|auto]. eapply pairs_mono; [|exact D]. apply Forall_forall. auto.
  - intros (qs & A & B). exists qs. split; [eapply pairs_mono; [|exact A]; exact H|auto].
  - intros (qs & A & B). exists qs. split; [eapply pairs_mono; [|exact A]; exact H|auto].
  - intros (qs & A & B). exists qs. split; [eapply pairs_mono; [|exact A]; exact H|auto].
  - intros (q & A & [B|B]); exists q; auto.
Qed.

(* a solid expression is no reference *)
Lemma solid_node T h e : correct e -> solid e -> forall p, built T h e p -> exists nd, nth_error h p = Some nd /\ ~ is_alias nd.
Proof.
  assert (L : forall p n, nth_error h p = Some (HNode n) -> exists nd, nth_error h p = Some nd /\ ~ is_alias nd) by (intros p n X; eexists; split; [exact X|intros [s Y]; discriminate]).
  induction e using ex_induct; cbn [solid built correct]; unfold at_leaf, at_node; intros K S p B; try contradiction.
  - destruct B as (t & _ & B). eauto.
  - eauto.
  - eauto.
  - eauto.
  - destruct (size_of sz). eauto.
  - destruct K as (_ & _ & K). destruct B as [_ B]. auto.
  - destruct B as (q & _ & [B|[(_ & _ & B)|(_ & v & _ & B)]]); eauto.
  - destruct B as (q & r & _ & _ & [B|(_ & _ & _ & B)]); eauto.
  - destruct B as (q & _ & [B|(vs & _ & B)]); eauto.
  - destruct B as (q & _ & [B|(_ & _ & vs & _ & B)]); eauto.
  - destruct B as (q & _ & B); eauto.
  - destruct B as (q & _ & B); eauto.
  - destruct B as (q & _ & B); eauto.
  - destruct B as (q & B & [C|C]); [eauto|]. exfalso. destruct K as [K N]. destruct e; try discriminate S; try contradiction N; cbn [built] in B; unfold at_leaf, at_node in B.
    + destruct B as (t & _ & B). congruence.
    + congruence.
    + congruence.
    + congruence.
    + destruct (size_of sz). congruence.
    + destruct B as (x & _ & [B|[(_ & _ & B)|(_ & v & _ & B)]]); congruence.
    + destruct B as (x & y & _ & _ & [B|(_ & _ & _ & B)]); congruence.
    + destruct B as (x & _ & [B|(vs & _ & B)]); congruence.
    + destruct B as (x & _ & [B|(_ & _ & vs & _ & B)]); congruence.
    + destruct B as (x & _ & B); congruence.
    + destruct B as (x & _ & B); congruence.
    + destruct B as (x & _ & B); congruence.
Qed.

(* ---------- names ---------- *)

Lemma bytes_same s : bytes_eqb s s = true.
Proof. now apply bytes_eqb_eq. Qed.
Lemma get_put l n p n' : get_name (put_name l n p) n' = if bytes_eqb n' n then Some p else get_name l n'.
Proof.
  induction l as [|[m q] l IH]; cbn [put_name get_name]; [reflexivity|]. destruct (bytes_eqb n m) eqn:A; cbn [get_name].
  - apply bytes_eqb_eq in A. subst m. destruct (bytes_eqb n' n); reflexivity.
  - rewrite IH. destruct (bytes_eqb n' m) eqn:B; [|reflexivity]. destruct (bytes_eqb n' n) eqn:C; [|reflexivity]. apply bytes_eqb_eq in B, C. subst. rewrite bytes_same in A. discriminate.
Qed.
Lemma put_new_names l n p : get_name l n = None -> put_name l n p = l ++ [(n, p)].
Proof.
  induction l as [|[m q] l IH]; cbn [put_name get_name]; [reflexivity|]. destruct (bytes_eqb n m); [discriminate|]. intros H. now rewrite IH.
Qed.
Lemma put_old_names l n p q : get_name l n = Some q -> map fst (put_name l n p) = map fst l.
Proof.
  induction l as [|[m r] l IH]; cbn [put_name get_name]; [discriminate|]. destruct (bytes_eqb n m); [reflexivity|]. intros H. cbn [map fst]. now rewrite IH.
Qed.
Lemma get_in l n p : get_name l n = Some p -> In (n, p) l.
Proof.
  induction l as [|[m q] l IH]; cbn [get_name]; [discriminate|]. destruct (bytes_eqb n m) eqn:A; [|right; auto]. apply bytes_eqb_eq in A. subst. intros [= ->]. now left.
Qed.
Lemma get_none l n : get_name l n = None <-> ~ In n (map fst l).
Proof.
  induction l as [|[m q] l IH]; cbn [get_name map fst]; [split; auto; intros _ []|]. destruct (bytes_eqb n m) eqn:A.
  - apply bytes_eqb_eq in A. subst. split; [discriminate|intros H; destruct H; now left].
  - rewrite IH. split; [|intros H X; apply H; now right]. intros H [X|X]; [subst; rewrite bytes_same in A; discriminate|auto].
Qed.

Lemma reserved_keywords n : reserved n = false <-> ~ In n keywords.
Proof.
  assert (X : forall w, In w (map lit ["any"; "bool"; "int"; "float"; "dgo"; "binary"; "true"; "false"; "nil"; "map"; "type"; "string"; "sensitive"; "func"]%string) <-> In w keywords).
  { intros w. unfold keywords, words. cbn [map fst app In]. tauto. }
  rewrite <- X. unfold reserved. rewrite <- not_true_iff_false, existsb_exists. split; intros H.
  - intros I. apply H. exists n. split; [exact I|apply bytes_same].
  - intros (w & I & Q). apply bytes_eqb_eq in Q. subst. auto.
Qed.
Lemma not_keyword_in n w : ~ In n keywords -> In w keywords -> bytes_eqb n w = false.
Proof. intros H I. destruct (bytes_eqb n w) eqn:A; [|reflexivity]. apply bytes_eqb_eq in A. subst. contradiction. Qed.

Section Read.
Variable E : env.
Variable any : nat.
Variable backing : list Z -> option nat.
Variable named : list Z -> bool.
(* the names that will be known *)
Variable K : list Z -> Prop.
Notation run := (a_run E any backing named).
Notation types s := (get_type backing (ps_names s)).

(* ---------- states ---------- *)

Definition nice (t : ty) : Prop := is_exact t = true -> exists i v, t = TExact i v.
Definition okp (s : pstate) (p : nat) : Prop := (p < length (ps_heap s))%nat /\ forall t, nth_error (ps_heap s) p = Some (HNode (NLeaf t)) -> nice t.
Definition made (n : hnode) : Prop := match n with HAlias n => K n | HNode (NSens _) | HVals _ => False | _ => True end.
Record state_ok (s : pstate) : Prop := {
  s_heap : Forall (node_in_heap (ps_heap s)) (ps_heap s);
  s_any : nth_error (ps_heap s) any = Some (HNode (NLeaf TAny));
  s_names : forall n p, types s n = Some p -> okp s p;
  s_not : forall p r, nth_error (ps_heap s) p = Some (HNode (NNot r)) -> okp s r }.
Definition solid_name (s : pstate) (n : list Z) : Prop := exists p nd, get_name (ps_names s) n = Some p /\ nth_error (ps_heap s) p = Some nd /\ ~ is_alias nd.
Record frame (D : list (list Z)) (s s' : pstate) : Prop := {
  f_heap : exists new, ps_heap s' = ps_heap s ++ new /\ Forall made new;
  f_old : forall n, ~ In n D -> get_name (ps_names s') n = get_name (ps_names s) n;
  f_new : forall n, In n D -> solid_name s' n;
  f_order : map fst (ps_names s') = map fst (ps_names s) ++ D }.
Definition fresh (D : list (list Z)) (s : pstate) : Prop := NoDup D /\ forall n, In n D -> get_name (ps_names s) n = None.
Definition stands (s : pstate) (n : list Z) (p : nat) : Prop := types s n = Some p \/ nth_error (ps_heap s) p = Some (HAlias n).
Definition makes (s : pstate) (e : ex) (p : nat) : Prop := okp s p /\ built (stands s) (ps_heap s) e p.
Definition vb (s : pstate) (e : ex) (x : aval) : Prop :=
  match x with
  | AT p => makes s e p
  | AV v => nice (type_of 0%nat v) /\ forall T h p, nth_error h p = Some (HNode (NLeaf (type_of 0%nat v))) -> built T h e p
  | AE _ _ _ => False
  end.
Definition ext (s s' : pstate) : Prop :=
  (exists new, ps_heap s' = ps_heap s ++ new) /\ forall n p, types s n = Some p -> types s' n = Some p \/ nth_error (ps_heap s) p = Some (HAlias n).

Lemma nth_more {A} (l new : list A) p x : nth_error l p = Some x -> nth_error (l ++ new) p = Some x.
Proof. intros H. rewrite nth_error_app1; [exact H|]. apply nth_error_Some. congruence. Qed.
Lemma okp_more s s' p : (exists new, ps_heap s' = ps_heap s ++ new) -> okp s p -> okp s' p.
Proof.
  intros [new Q] [L N]. unfold okp. rewrite Q. split; [rewrite app_length; lia|]. intros t H. apply N. rewrite nth_error_app1 in H by exact L. exact H.
Qed.
Lemma ext_refl s : ext s s.
Proof. split; [exists []; now rewrite app_nil_r|auto]. Qed.
(* what a reference stands for does not change *)
Lemma stands_ext s s' n p : ext s s' -> stands s n p -> stands s' n p.
Proof.
  intros [[new Q] T] [H|H]; [destruct (T n p H) as [X|X]; [now left|]|]; right; rewrite Q; now apply nth_more.
Qed.
Lemma makes_ext s s' e p : ext s s' -> makes s e p -> makes s' e p.
Proof.
  intros X [O B]. split; [eapply okp_more; [apply X|exact O]|]. eapply built_mono; [| |exact B].
  - intros n q. now apply stands_ext.
  - destruct X as [[new Q] _]. intros q n H. rewrite Q. now apply nth_more.
Qed.
Lemma vb_ext s s' e x : ext s s' -> vb s e x -> vb s' e x.
Proof. intros X. destruct x as [v|p|]; cbn [vb]; auto. now apply makes_ext. Qed.
Lemma frame_ext D s s' : frame D s s' -> fresh D s -> Forall (fun n => backing n = None) D -> ext s s'.
Proof.
  intros F [_ Fr] B. destruct (f_heap _ _ _ F) as (new & Q & _). split; [eauto|]. intros n p H. left. unfold get_type in *. rewrite Forall_forall in B.
  destruct (in_dec (list_eq_dec Z.eq_dec) n D) as [I|I]; [rewrite (Fr n I), (B n I) in H; discriminate|]. now rewrite (f_old _ _ _ F n I).
Qed.
Lemma frame_refl s : frame [] s s.
Proof. split; [exists []; rewrite app_nil_r; auto|auto|intros n []|now rewrite app_nil_r]. Qed.
Lemma frame_trans D D' s1 s2 s3 : frame D s1 s2 -> frame D' s2 s3 -> fresh (D ++ D') s1 -> frame (D ++ D') s1 s3.
Proof.
  intros F G [N Fr]. destruct (f_heap _ _ _ F) as (n1 & Q1 & M1). destruct (f_heap _ _ _ G) as (n2 & Q2 & M2). split.
  - exists (n1 ++ n2). split; [now rewrite Q2, Q1, app_assoc|now apply Forall_app].
  - intros n I. rewrite (f_old _ _ _ G), (f_old _ _ _ F); auto; intros X; apply I, in_app_iff; auto.
  - intros n I. destruct (in_dec (list_eq_dec Z.eq_dec) n D') as [J|J]; [exact (f_new _ _ _ G n J)|]. apply in_app_iff in I as [I|I]; [|contradiction].
    destruct (f_new _ _ _ F n I) as (p & nd & A & B & C). exists p, nd. rewrite (f_old _ _ _ G n J), Q2. auto using nth_more.
  - rewrite (f_order _ _ _ G), (f_order _ _ _ F). now rewrite app_assoc.
Qed.
Lemma fresh_app D D' s1 s2 : fresh (D ++ D') s1 -> frame D s1 s2 -> fresh D s1 /\ fresh D' s2.
Proof.
  intros [N Fr] F. assert (X : NoDup D /\ NoDup D' /\ forall n, In n D -> In n D' -> False).
  { clear Fr F. induction D as [|d D IH]; cbn [app] in N; [split; [constructor|split; [exact N|intros n []]]|]. inversion N as [|? ? A B]; subst. destruct (IH B) as (X & Y & Z1). rewrite in_app_iff in A.
    split; [constructor; tauto|]. split; [exact Y|]. intros n [<-|I] J; [tauto|eauto]. }
  destruct X as (X & Y & Z1). split; (split; [assumption|]); intros n I.
  - apply Fr, in_app_iff. auto.
  - rewrite (f_old _ _ _ F); [apply Fr, in_app_iff; auto|]. intros J. eauto.
Qed.
Lemma fresh_nil s : fresh [] s.
Proof. split; [constructor|intros n []]. Qed.

(* ---------- new objects ---------- *)

Lemma new_frame s nd : made nd -> state_ok s -> node_in_heap (ps_heap s) nd -> (forall r, nd = HNode (NNot r) -> okp s r) -> let s' := {| ps_heap := ps_heap s ++ [nd]; ps_names := ps_names s |} in
  frame [] s s' /\ state_ok s' /\ ext s s'.
Proof.
  intros M S H Hn s'. assert (X : exists new, ps_heap s' = ps_heap s ++ new) by (exists [nd]; reflexivity).
  assert (I : forall n, node_in_heap (ps_heap s) n -> node_in_heap (ps_heap s') n).
  { intros n. unfold node_in_heap. apply Forall_impl. intros q. unfold in_heap. cbn [s' ps_heap]. rewrite app_length. lia. }
  split; [|split].
  - split; [exists [nd]; split; [reflexivity|now repeat constructor]|reflexivity|intros n []|cbn [s' ps_names]; now rewrite app_nil_r].
  - split.
    + cbn [s' ps_heap]. apply Forall_app. split; [eapply Forall_impl; [|exact (s_heap _ S)]; exact I|repeat constructor; now apply I].
    + cbn [s' ps_heap]. apply nth_more, (s_any _ S).
    + intros n p Q. eapply okp_more; [exact X|]. apply (s_names _ S n p Q).
    + intros p r Q. eapply okp_more; [exact X|]. cbn [s' ps_heap] in Q. destruct (Nat.lt_ge_cases p (length (ps_heap s))) as [L|L].
      * rewrite nth_error_app1 in Q by exact L. exact (s_not _ S p r Q).
      * rewrite nth_error_app2 in Q by exact L. destruct (p - length (ps_heap s))%nat as [|k]; [injection Q as ->; now apply Hn|destruct k; discriminate].
  - split; [exact X|auto].
Qed.
Lemma new_at s nd : nth_error (ps_heap s ++ [nd]) (length (ps_heap s)) = Some nd.
Proof. rewrite nth_error_app2, Nat.sub_diag; [reflexivity|lia]. Qed.
Lemma new_ok s nd : (forall t, nd = HNode (NLeaf t) -> nice t) -> okp {| ps_heap := ps_heap s ++ [nd]; ps_names := ps_names s |} (length (ps_heap s)).
Proof.
  intros H. split; cbn [ps_heap]; [rewrite app_length; cbn [length]; lia|]. intros t Q. rewrite new_at in Q. injection Q as ->. auto.
Qed.
(* a function that only makes objects: the address of what e describes *)
Definition gets (m : AM nat) (s : pstate) (Q : nat -> pstate -> Prop) : Prop :=
  exists p s', (forall l, m l s = AOk p l s') /\ frame [] s s' /\ state_ok s' /\ ext s s' /\ okp s' p /\ Q p s'.
Lemma gets_new s nd (Q : nat -> pstate -> Prop) : state_ok s -> made nd -> node_in_heap (ps_heap s) nd -> (forall t, nd = HNode (NLeaf t) -> nice t) -> (forall r, nd = HNode (NNot r) -> okp s r) ->
  (forall s', ext s s' -> nth_error (ps_heap s') (length (ps_heap s)) = Some nd -> Q (length (ps_heap s)) s') -> gets (a_new nd) s Q.
Proof.
  intros S M I N Hn H. destruct (new_frame s nd M S I Hn) as (F & S' & X). eexists _, _. split; [intros l; reflexivity|]. split; [exact F|]. split; [exact S'|]. split; [exact X|]. split; [now apply new_ok|].
  apply H; [exact X|]. apply new_at.
Qed.

Lemma type_gets s e x : state_ok s -> vb s e x -> gets (a_type x) s (fun p s' => built (stands s') (ps_heap s') e p).
Proof.
  intros S V. destruct x as [v|p|]; [| |destruct V].
  - destruct V as [N V]. cbn [a_type]. apply gets_new; auto.
    + exact I.
    + constructor.
    + intros t [= <-]. exact N.
    + intros r [=].
  - destruct V as [O B]. exists p, s. split; [reflexivity|]. split; [apply frame_refl|]. split; [exact S|]. split; [apply ext_refl|]. auto.
Qed.
Lemma ext_trans s1 s2 s3 : ext s1 s2 -> ext s2 s3 -> (forall n p, types s1 n = Some p -> (p < length (ps_heap s1))%nat) -> ext s1 s3.
Proof.
  intros [[n1 Q1] T1] [[n2 Q2] T2] B. split; [exists (n1 ++ n2); now rewrite Q2, Q1, app_assoc|]. intros n p H.
  destruct (T1 n p H) as [X|X]; [|auto]. destruct (T2 n p X) as [Y|Y]; [auto|]. right. rewrite Q1 in Y. rewrite nth_error_app1 in Y by eauto. exact Y.
Qed.
Lemma ext_step s1 s2 s3 : state_ok s1 -> ext s1 s2 -> ext s2 s3 -> ext s1 s3.
Proof. intros S X Y. eapply ext_trans; eauto. intros n p H. apply (s_names _ S n p H). Qed.
Lemma frame_step s1 s2 s3 : frame [] s1 s2 -> frame [] s2 s3 -> frame [] s1 s3.
Proof. intros F G. apply (frame_trans [] [] s1 s2 s3 F G). apply fresh_nil. Qed.

Lemma types_get s es xs : state_ok s -> Forall2 (vb s) es xs -> exists ps s', (forall l, a_types xs l s = AOk ps l s') /\ frame [] s s' /\ state_ok s' /\ ext s s' /\
  Forall2 (makes s') es ps.
Proof.
  intros S V. revert s S V. revert es. induction xs as [|x xs IH]; intros es s S V; inversion V as [|e ? es' ? V1 V2]; subst.
  - exists [], s. split; [reflexivity|]. split; [apply frame_refl|]. split; [exact S|]. split; [apply ext_refl|constructor].
  - destruct (type_gets s e x S V1) as (p & s1 & R1 & F1 & S1 & X1 & O1 & B1).
    destruct (IH es' s1 S1) as (ps & s2 & R2 & F2 & S2 & X2 & B2). { eapply F2_impl; [|exact V2]. intros a b. now apply vb_ext. }
    exists (p :: ps), s2. split; [intros l; cbn [a_types]; unfold a_bind; rewrite R1, R2; reflexivity|]. split; [now apply (frame_step s s1)|]. split; [exact S2|]. split; [now apply (ext_step s s1)|].
    constructor; [|exact B2]. apply (makes_ext s1); [exact X2|]. now split.
Qed.

Lemma leaves_get ps l s : a_leaves ps l s = AOk (map (fun p => leaf_of (nth_error (ps_heap s) p)) ps) l s.
Proof. induction ps as [|p ps IH]; [reflexivity|]. cbn [a_leaves map]. unfold a_bind at 1, a_leaf, a_get, a_bind at 1. unfold a_ret at 1. unfold a_bind. rewrite IH. reflexivity. Qed.
Lemma leaf_at h p t : leaf_of (nth_error h p) = Some t <-> at_leaf h p t.
Proof. unfold at_leaf, leaf_of. destruct (nth_error h p) as [[|[]| |]|]; split; intros H; try discriminate; now injection H as ->. Qed.
Lemma any_at h p : any_leaf (leaf_of (nth_error h p)) = true -> at_leaf h p TAny.
Proof. intros H. apply leaf_at. destruct (leaf_of _) as [t|]; [|discriminate]. destruct t; try discriminate. reflexivity. Qed.
Lemma exact_leaves s ps : Forall (okp s) ps -> forallb exact_leaf (map (fun p => leaf_of (nth_error (ps_heap s) p)) ps) = true ->
  exists vs, leaf_values (map (fun p => leaf_of (nth_error (ps_heap s) p)) ps) = Some vs /\ pairs (is_value (ps_heap s)) ps vs.
Proof.
  induction 1 as [|p ps [_ N] _ IH]; cbn [map forallb]; intros H; [exists []; now split|]. apply andb_true_iff in H as [H1 H2]. destruct (IH H2) as (vs & A & B).
  destruct (leaf_of (nth_error (ps_heap s) p)) as [t|] eqn:L; [|discriminate]. apply leaf_at in L. destruct (N t L H1) as (i & v & ->). exists (v :: vs). cbn [leaf_values exact_value]. rewrite A. split; [reflexivity|].
  cbn [pairs]. split; [now exists i|exact B].
Qed.
Lemma exact_nice i v : nice (TExact i v).
Proof. intros _. eauto. Qed.
Lemma plain_nice t : is_exact t = false -> nice t.
Proof. intros H X. congruence. Qed.

Lemma bound_kept z : 0 <= z -> (if z <? 0 then 0 else z) = z.
Proof. intros H. destruct (Z.ltb_spec z 0); lia. Qed.
Lemma sized_pair sz : size_ok sz -> let (lo, hi) := size_of sz in 0 <= lo <= hi /\ hi <= max_int64.
Proof. intros (_ & A & B). destruct (size_of sz) as [lo hi]. cbn [fst snd] in *. auto. Qed.
Lemma array_gets s sz e q : state_ok s -> size_ok sz -> makes s e q -> gets (a_array q (fst (size_of sz)) (snd (size_of sz))) s (fun p s' => built (stands s') (ps_heap s') (XArr sz e) p).
Proof.
  intros S Z M. apply sized_pair in Z. assert (SP : size_of sz = (fst (size_of sz), snd (size_of sz))) by apply surjective_pairing. destruct (size_of sz) as [lo hi] eqn:SZ. cbn [fst snd] in *. clear SP. destruct Z as [[Z1 Z2] Z3].
  unfold gets, a_array, a_leaf, a_get, a_bind, a_ret. rewrite !bound_kept by lia. destruct (Z.ltb_spec hi lo) as [?|_]; [lia|].
  destruct ((lo =? 0) && (hi =? max_int64) && any_leaf _) eqn:A; [|destruct ((lo =? 1) && (lo =? hi) && exact_leaf _) eqn:B].
  - apply andb_true_iff in A as [A1 A]. apply andb_true_iff in A1 as [A1 A2]. apply Z.eqb_eq in A1, A2. apply any_at in A.
    apply (gets_new s (HNode (NLeaf TArray)) (fun p s' => built (stands s') (ps_heap s') (XArr sz e) p)); [exact S|exact I|constructor|intros t [= <-]; apply plain_nice; reflexivity|intros ? [=]|].
    intros s' X H. cbn [built]. exists q. split; [apply (makes_ext s s' e q X M)|]. right. left. split; [rewrite SZ; congruence|]. split; [|exact H]. destruct X as [[new Q] _]. unfold at_leaf. rewrite Q. now apply nth_more.
  - apply andb_true_iff in B as [B1 B]. apply andb_true_iff in B1 as [B1 B2]. apply Z.eqb_eq in B1, B2. destruct (leaf_of (nth_error (ps_heap s) q)) as [t|] eqn:L; [|discriminate]. apply leaf_at in L.
    destruct (proj2 (proj1 M) t L B) as (i & v & ->). cbn [leaf_values exact_value a_option]. unfold a_ret.
    apply (gets_new s (HNode (NLeaf (TExact 0%nat (VArr [v])))) (fun p s' => built (stands s') (ps_heap s') (XArr sz e) p)); [exact S|exact I|constructor|intros t [= <-]; apply exact_nice|intros ? [=]|].
    intros s' X H. cbn [built]. exists q. split; [apply (makes_ext s s' e q X M)|]. right. right. split; [rewrite SZ; congruence|]. exists v. split; [|exact H]. exists i. destruct X as [[new Q] _]. unfold at_leaf. rewrite Q. now apply nth_more.
  - apply (gets_new s (HNode (NArr q lo hi)) (fun p s' => built (stands s') (ps_heap s') (XArr sz e) p)); [exact S|exact I|repeat constructor; apply M|intros t [=]|intros ? [=]|].
    intros s' X H. cbn [built]. exists q. split; [apply (makes_ext s s' e q X M)|]. left. rewrite SZ. exact H.
Qed.
Lemma map_gets s sz ek ev q r : state_ok s -> size_ok sz -> makes s ek q -> makes s ev r -> gets (a_map q r (fst (size_of sz)) (snd (size_of sz))) s (fun p s' => built (stands s') (ps_heap s') (XMap sz ek ev) p).
Proof.
  intros S Z M M'. apply sized_pair in Z. destruct (size_of sz) as [lo hi] eqn:SZ. cbn [fst snd] in *. destruct Z as [[Z1 Z2] Z3].
  unfold gets, a_map, a_leaf, a_get, a_bind, a_ret. rewrite !bound_kept by lia. destruct (Z.ltb_spec hi lo) as [?|_]; [lia|].
  destruct ((lo =? 0) && (hi =? max_int64) && (any_leaf (leaf_of (nth_error (ps_heap s) q)) && any_leaf (leaf_of (nth_error (ps_heap s) r)))) eqn:A.
  - apply andb_true_iff in A as [A1 A]. apply andb_true_iff in A1 as [A1 A2]. apply Z.eqb_eq in A1, A2. apply andb_true_iff in A as [A B]. apply any_at in A, B.
    apply (gets_new s (HNode (NLeaf TMap)) (fun p s' => built (stands s') (ps_heap s') (XMap sz ek ev) p)); [exact S|exact I|constructor|intros t [= <-]; apply plain_nice; reflexivity|intros ? [=]|].
    intros s' X H. cbn [built]. exists q, r. split; [apply (makes_ext s s' ek q X M)|]. split; [apply (makes_ext s s' ev r X M')|]. right. split; [rewrite SZ; congruence|]. destruct X as [[new Q] _]. unfold at_leaf in *. rewrite Q in *. split; [now apply nth_more|split; [now apply nth_more|exact H]].
  - apply (gets_new s (HNode (NMap q r lo hi)) (fun p s' => built (stands s') (ps_heap s') (XMap sz ek ev) p)); [exact S|exact I|repeat constructor; [apply M|apply M']|intros t [=]|intros ? [=]|].
    intros s' X H. cbn [built]. exists q, r. split; [apply (makes_ext s s' ek q X M)|]. split; [apply (makes_ext s s' ev r X M')|]. left. rewrite SZ. exact H.
Qed.
Lemma makes_built s es ps : Forall2 (makes s) es ps -> pairs (built (stands s) (ps_heap s)) es ps /\ Forall (okp s) ps.
Proof. induction 1 as [|e p es ps [O B] _ [IH1 IH2]]; [split; [exact I|constructor]|]. split; [split; assumption|now constructor]. Qed.
Lemma built_later s s' es ps : ext s s' -> Forall2 (makes s) es ps -> pairs (built (stands s') (ps_heap s')) es ps.
Proof. intros X H. apply makes_built. eapply F2_impl; [|exact H]. intros e p. now apply makes_ext. Qed.
Lemma value_later s s' qs vs : ext s s' -> pairs (is_value (ps_heap s)) qs vs -> pairs (is_value (ps_heap s')) qs vs.
Proof. intros [[new Q] _]. apply pairs_mono, Forall_forall. intros q _ v [i H]. exists i. unfold at_leaf in *. rewrite Q. now apply nth_more. Qed.
Lemma points_okp s ps : Forall (okp s) ps -> Forall (in_heap (ps_heap s)) ps.
Proof. apply Forall_impl. intros p [L _]. exact L. Qed.

Lemma tuple_gets s es qs : state_ok s -> qs <> [] -> Forall2 (makes s) es qs -> gets (a_tuple any qs false) s (fun p s' => built (stands s') (ps_heap s') (XTuple es) p).
Proof.
  intros S N M. destruct (makes_built _ _ _ M) as [_ O]. destruct qs as [|q0 qs0]; [congruence|]. unfold gets, a_tuple, a_bind. set (qs := q0 :: qs0) in *. 
  setoid_rewrite leaves_get. cbn [andb negb].
  destruct (forallb exact_leaf _) eqn:A.
  - destruct (exact_leaves s qs O A) as (vs & -> & V). cbn [a_option].
    apply (gets_new s (HNode (NLeaf (TExact 0%nat (VArr vs)))) (fun p s' => built (stands s') (ps_heap s') (XTuple es) p)); [exact S|exact I|constructor|intros t [= <-]; apply exact_nice|intros ? [=]|].
    intros s' X H. cbn [built]. exists qs. split; [now apply (built_later s)|]. right. exists vs. split; [now apply (value_later s)|exact H].
  - apply (gets_new s (HNode (NTuple qs false)) (fun p s' => built (stands s') (ps_heap s') (XTuple es) p)); [exact S|exact I|now apply points_okp|intros t [=]|intros ? [=]|].
    intros s' X H. cbn [built]. exists qs. split; [now apply (built_later s)|]. now left.
Qed.

(* a struct with the entries *)
Definition entry_of (f : list Z * bool * ex) (x : aval) : aval := AE (AV (VStr (fst (fst f)))) x (negb (snd (fst f))).
Lemma entries_get s fs xs : state_ok s -> Forall2 (fun f => vb s (snd f)) fs xs -> exists ps s',
  (forall l, a_entries (map (fun x => entry_of (fst x) (snd x)) (combine fs xs)) l s = AOk (map (fun x => (VStr (fst (fst (fst x))), snd x, snd (fst (fst x)))) (combine fs ps)) l s') /\
  frame [] s s' /\ state_ok s' /\ ext s s' /\ Forall2 (fun f => makes s' (snd f)) fs ps.
Proof.
  intros S V. revert s S V. revert fs. induction xs as [|x xs IH]; intros es s S V; inversion V as [|e ? es' ? V1 V2]; subst.
  - exists [], s. split; [reflexivity|]. split; [apply frame_refl|]. split; [exact S|]. split; [apply ext_refl|constructor].
  - destruct (type_gets s (snd e) x S V1) as (p & s1 & R1 & F1 & S1 & X1 & O1 & B1).
    destruct (IH es' s1 S1) as (ps & s2 & R2 & F2 & S2 & X2 & B2). { eapply F2_impl; [|exact V2]. intros a b. now apply vb_ext. }
    exists (p :: ps), s2. split. { intros l. cbn [combine map a_entries fst snd]. unfold entry_of at 1. cbn [a_entries]. unfold a_bind. rewrite R1, R2. unfold a_ret. rewrite negb_involutive. reflexivity. }
    split; [now apply (frame_step s s1)|]. split; [exact S2|]. split; [now apply (ext_step s s1)|].
    constructor; [|exact B2]. apply (makes_ext s1); [exact X2|]. now split.
Qed.
Lemma put_all_new l : forall m, NoDup (map fst m ++ map fst l) -> Forall (fun e : value * value => exists s, fst e = VStr s) (m ++ l) -> put_all m l = m ++ l.
Proof.
  induction l as [|[k v] l IH]; intros m N V; cbn [put_all]; [now rewrite app_nil_r|]. rewrite put_new.
  - rewrite IH; [now rewrite <- app_assoc|rewrite map_app, <- app_assoc; exact N|rewrite <- app_assoc; exact V].
  - intros e He. cbn [map fst] in N. apply NoDup_remove_2 in N. destruct (veq k (fst e)) eqn:Q; [|reflexivity]. exfalso. apply N, in_app_iff. left. apply in_map_iff. exists e. split; [|exact He].
    rewrite Forall_forall in V. destruct (V (k, v)) as [a Ka]; [apply in_app_iff; right; now left|]. destruct (V e) as [b Kb]; [apply in_app_iff; now left|]. cbn [fst] in Ka. subst k. rewrite Kb in *.
    cbn [veq] in Q. apply bytes_eqb_eq in Q. now subst.
Qed.
Lemma fst_combine {A B} (l : list A) (m : list B) : length l = length m -> map fst (combine l m) = l.
Proof. revert m. induction l as [|a l IH]; intros [|b m] H; try discriminate; [reflexivity|]. cbn. f_equal. apply IH. now injection H. Qed.
Lemma snd_combine {A B} (l : list A) (m : list B) : length l = length m -> map snd (combine l m) = m.
Proof. revert m. induction l as [|a l IH]; intros [|b m] H; try discriminate; [reflexivity|]. cbn. f_equal. apply IH. now injection H. Qed.

(* the value of a function that only makes objects *)
Definition val (m : AM aval) (s : pstate) (e : ex) : Prop :=
  exists x s', (forall l, m l s = AOk x l s') /\ frame [] s s' /\ state_ok s' /\ ext s s' /\ vb s' e x.
Lemma val_after s s1 e (f : AM aval) m : state_ok s -> frame [] s s1 -> ext s s1 -> (forall l, f l s = (ado p <- m; a_ret (AT p)) l s1) ->
  gets m s1 (fun p s' => built (stands s') (ps_heap s') e p) -> val f s e.
Proof.
  intros S F1 X1 H (p & s' & R & F & S' & X & O & B). exists (AT p), s'. split; [intros l; rewrite H; unfold a_bind; rewrite R; reflexivity|]. split; [now apply (frame_step s s1)|]. split; [exact S'|].
  split; [now apply (ext_step s s1)|now split].
Qed.
Lemma F2_length {A B} (R : A -> B -> Prop) l m : Forall2 R l m -> length l = length m.
Proof. induction 1; cbn; congruence. Qed.
Lemma F2_map {A B C} (R : A -> B -> Prop) (f : C -> A) l m : Forall2 (fun c b => R (f c) b) l m <-> Forall2 R (map f l) m.
Proof. revert m. induction l as [|c l IH]; intros m; split; intros H; inversion H; subst; cbn [map]; constructor; auto; now apply IH. Qed.
Lemma pairs_map {A B C} (R : A -> B -> Prop) (f : C -> A) l m : pairs (fun c b => R (f c) b) l m <-> pairs R (map f l) m.
Proof. rewrite !pairs_forall2. apply F2_map. Qed.

Lemma tuple_val s es xs : state_ok s -> xs <> [] -> Forall2 (vb s) es xs -> val (a_make_tuple any xs false) s (XTuple es).
Proof.
  intros S N V. destruct (types_get s es xs S V) as (ps & s1 & R & F & S1 & X & M). eapply (val_after s s1); eauto; [|apply (tuple_gets s1 es ps S1); [|exact M]].
  - intros l. unfold a_make_tuple. unfold a_bind at 1. rewrite R. reflexivity.
  - apply F2_length in M, V. destruct xs; [congruence|]. destruct ps; cbn in *; congruence.
Qed.
Lemma struct_val s a fs xs : state_ok s -> NoDup (map (fun f => fst (fst f)) fs) -> Forall2 (fun f => vb s (snd f)) fs xs ->
  val (a_make_struct (map (fun x => entry_of (fst x) (snd x)) (combine fs xs)) a) s (XStruct a fs).
Proof.
  intros S N V. destruct (entries_get s fs xs S V) as (ps & s1 & R & F & S1 & X & M). pose proof (F2_length _ _ _ M) as L.
  pose proof M as M'. apply (F2_map (makes s1) snd) in M'. destruct (makes_built _ _ _ M') as [_ O].
  set (es := map (fun x : list Z * bool * ex * nat => (VStr (fst (fst (fst x))), snd x, snd (fst (fst x)))) (combine fs ps)) in *.
  assert (Q1 : map (fun e => snd (fst e)) es = ps). { unfold es. rewrite map_map. cbn [fst snd]. now apply snd_combine. }
  assert (Q2 : map (fun e => fst (fst e)) es = map (fun f => VStr (fst (fst f))) fs).
  { unfold es. rewrite map_map. cbn [fst snd]. rewrite <- (map_map fst (fun f : list Z * bool * ex => VStr (fst (fst f)))). now rewrite fst_combine. }
  assert (Q3 : forallb snd es = forallb (fun f => snd (fst f)) fs).
  { unfold es. clear -L. revert ps L. induction fs as [|f fs IH]; intros [|p ps] L; try discriminate; [reflexivity|]. cbn. f_equal. apply IH. now injection L. }
  destruct (negb a && forallb snd es && forallb exact_leaf (map (fun p => leaf_of (nth_error (ps_heap s1) p)) ps)) eqn:A.
  - apply andb_true_iff in A as [A1 A3]. apply andb_true_iff in A1 as [A1 A2]. destruct (exact_leaves s1 ps O A3) as (vs & Qv & Pv).
    assert (Lv : length (map (fun f : list Z * bool * ex => VStr (fst (fst f))) fs) = length vs). { rewrite map_length. apply pairs_forall2, F2_length in Pv. congruence. }
    eapply (val_after s s1 _ _ (a_new (HNode (NLeaf (TExact 0%nat (VMap (combine (map (fun f => VStr (fst (fst f))) fs) vs))))))); eauto.
    + intros l. unfold a_make_struct. unfold a_bind at 1. rewrite R. rewrite Q1, Q2. unfold a_bind at 1. rewrite leaves_get, A1, A2, A3. cbn [andb]. rewrite Qv. unfold a_bind at 1. cbn [a_option]. unfold a_ret at 1.
      rewrite put_all_new; [reflexivity| |]; cbn [app map].
      * rewrite fst_combine by exact Lv. rewrite <- (map_map (fun f : list Z * bool * ex => fst (fst f)) VStr). apply FinFun.Injective_map_NoDup; [intros x y [= ->]; reflexivity|exact N].
      * apply Forall_forall. intros [k v] Hk. apply in_combine_l, in_map_iff in Hk as (f & <- & _). cbn [fst]. eauto.
    + apply gets_new; [exact S1|exact I|constructor|intros t [= <-]; apply exact_nice|intros ? [=]|]. intros s' X' H. cbn [built]. exists ps. split; [apply (pairs_map (built (stands s') (ps_heap s')) snd); now apply (built_later s1)|].
      right. split; [destruct a; [discriminate|reflexivity]|]. split; [now rewrite <- Q3|]. exists vs. split; [now apply (value_later s1)|exact H].
  - eapply (val_after s s1 _ _ (a_new (HNode (NStruct a es)))); eauto.
    + intros l. unfold a_make_struct. unfold a_bind at 1. rewrite R. rewrite Q1, Q2. unfold a_bind at 1. rewrite leaves_get, A. reflexivity.
    + apply gets_new; [exact S1|exact I| |intros t [=]|intros ? [=]|].
      * unfold node_in_heap. cbn [points_to refers]. rewrite Q1. now apply points_okp.
      * intros s' X' H. cbn [built]. exists ps. split; [apply (pairs_map (built (stands s') (ps_heap s')) snd); now apply (built_later s1)|]. left. exact H.
Qed.
Lemma operands_val s es xs make (X : list ex -> ex) : state_ok s -> (2 <= length xs)%nat -> Forall2 (vb s) es xs ->
  (make = NAny /\ X = XOr \/ make = NOne /\ X = XXor \/ make = NAll /\ X = XAnd) -> val (a_operands make xs) s (X es).
Proof.
  intros S N V C. destruct (types_get s es xs S V) as (ps & s1 & R & F & S1 & X1 & M). destruct (makes_built _ _ _ M) as [_ O].
  eapply (val_after s s1 _ _ (a_new (HNode (make ps)))); eauto.
  - intros l. destruct xs as [|x1 [|x2 xs]]; cbn in N; try lia. unfold a_operands. unfold a_bind at 1. rewrite R. reflexivity.
  - apply gets_new; [exact S1| | | | |].
    + destruct C as [[-> _]|[[-> _]|[-> _]]]; exact I.
    + destruct C as [[-> _]|[[-> _]|[-> _]]]; now apply points_okp.
    + destruct C as [[-> _]|[[-> _]|[-> _]]]; intros t [=].
    + destruct C as [[-> _]|[[-> _]|[-> _]]]; intros t [=].
    + intros s' X' H. destruct C as [[-> ->]|[[-> ->]|[-> ->]]]; cbn [built]; exists ps; (split; [now apply (built_later s1)|exact H]).
Qed.
Lemma not_gets s e q : state_ok s -> makes s e q -> gets (a_not q) s (fun p s' => built (stands s') (ps_heap s') (XNot e) p).
Proof.
  intros S M. assert (D : gets (a_new (HNode (NNot q))) s (fun p s' => built (stands s') (ps_heap s') (XNot e) p)).
  { apply gets_new; [exact S|exact I|repeat constructor; apply M|intros t [=]|intros r [= <-]; apply M|]. intros s' X H. cbn [built]. exists q. split; [apply (makes_ext s s' e q X M)|]. now left. }
  unfold gets, a_not, a_get, a_bind. destruct (nth_error (ps_heap s) q) as [[|nd| |]|] eqn:Q; try exact D. destruct nd; try exact D.
  exists t, s. split; [reflexivity|]. split; [apply frame_refl|]. split; [exact S|]. split; [apply ext_refl|]. split; [exact (s_not _ S q t Q)|]. cbn [built]. exists q. split; [apply M|now right].
Qed.
End Read.
