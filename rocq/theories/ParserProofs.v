(* The parser: more fuel does not change the result, and the fuel of parse_type suffices. *)
From Coq Require Import Strings.Ascii Strings.String.
From Coq Require Import ZArith List Bool Lia.
From Coq Require Import Floats.SpecFloat.
From Verif Require Import Int64 Utf8 Text HMap Data Types Print Lexer LexerSpec LexerProofs Construct Syntax.
Import ListNotations.
Open Scope Z_scope.

(* ---------- more fuel ---------- *)
Definition pleq {A} (m m' : pres A) : Prop := m = PStuck \/ m = m'.
Lemma pleq_refl {A} (m : pres A) : pleq m m. Proof. now right. Qed.
Lemma pleq_bind {A B} (m m' : pres A) (f f' : A -> lexed -> pres B) :
  pleq m m' -> (forall x l, pleq (f x l) (f' x l)) -> pleq (pbind m f) (pbind m' f').
Proof. intros [-> | ->] H; [now left|]. destruct m'; cbn; auto using pleq_refl. Qed.

Section Proofs.
Variable E : env.

Ltac mo R := repeat first
  [ apply pleq_refl | match goal with |- pleq (_ ?c ?l) _ => exact (R c l) end | apply pleq_bind; [|intros]
  | match goal with
    | |- pleq (if ?b then _ else _) _ => destruct b
    | |- pleq (match ?x with _ => _ end) (match ?x with _ => _ end) => destruct x
    | |- pleq (let _ := _ in _) _ => cbv zeta
    end ].

Lemma p_call_mono rec rec' : (forall c l, pleq (rec c l) (rec' c l)) -> forall c l, pleq (p_call E rec c l) (p_call E rec' c l).
Proof.
  intros R [t|vs|t|vs|t|vs|t|t|stop vs el ex|vs|t ex] l; cbn [p_call];
    unfold p_any, p_or, p_one, p_xor, p_all, p_and, p_unary, p_type, p_list, p_params, p_elem.
  1-6: mo R.
  - unfold p_ci. mo R.
  - unfold p_array, p_identifier, p_map, p_meta, p_string, p_sensitive, p_type_of, p_expect. mo R.
  - unfold p_list_from, p_type_of. mo R.
  - mo R.
  - mo R.
Qed.

Lemma run_mono_S n : forall c l, pleq (run E n c l) (run E (S n) c l).
Proof.
  induction n as [|n IH]; intros c l; [now left|].
  change (pleq (p_call E (run E n) c l) (p_call E (run E (S n)) c l)). now apply p_call_mono.
Qed.
Lemma run_mono n m c l : (n <= m)%nat -> run E n c l <> PStuck -> run E m c l = run E n c l.
Proof.
  intros L. induction L as [|m L IH]; intros H; auto. destruct (run_mono_S m c l) as [X|X]; rewrite <- IH; auto.
  rewrite IH in X by auto. congruence.
Qed.

(* ---------- enough fuel ---------- *)
Fixpoint size (l : lexed) : nat := match l with LTok _ l => S (size l) | _ => O end.
Definition wt (t : token) : nat := if is_tok t_end t then 0%nat else 1%nat.
Definition rank (c : call) : nat :=
  match c with
  | COr _ | CXor _ | CAnd _ => 0 | CType _ => 4 | CUnary _ => 5 | CAll _ => 6 | COne _ => 7 | CAny _ => 8
  | CElem _ _ => 9 | CList _ _ _ _ | CParams _ => 10
  end%nat.
Definition cwt (c : call) : nat :=
  match c with CAny t | COne t | CAll t | CUnary t | CType t | CElem t _ => wt t | _ => O end.
Definition weight (c : call) (l : lexed) : nat := (12 * (size l + cwt c) + rank c)%nat.

(* no want of fuel, and at most k tokens are left *)
Definition good {A} (k : nat) (m : pres A) : Prop :=
  match m with POk _ l => (size l <= k)%nat /\ complete l | PStuck => False | _ => True end.

Lemma good_ok {A} k (x : A) l : (size l <= k)%nat -> complete l -> good k (POk x l).
Proof. now split. Qed.
Lemma good_bind {A B} j k (m : pres A) (f : A -> lexed -> pres B) :
  good j m -> (forall x l, (size l <= j)%nat -> complete l -> good k (f x l)) -> good k (pbind m f).
Proof. destruct m; cbn; auto; try contradiction. intros [H1 H2] H; auto. Qed.
Lemma good_next {B} k l (f : token -> lexed -> pres B) :
  complete l -> (forall t l', (size l' + wt t <= size l)%nat -> complete l' -> good k (f t l')) -> good k (pbind (p_next l) f).
Proof.
  intros C H. destruct l as [| | |t l]; cbn [p_next pbind]; [|exact I|contradiction|].
  - apply H; cbn; auto.
  - apply H; [|exact C]. cbn [size]. unfold wt. destruct (is_tok t_end t); lia.
Qed.
Lemma good_peek {B} k l (f : token -> lexed -> pres B) :
  complete l -> (forall t, (wt t <= size l)%nat -> good k (f t l)) -> good k (pbind (p_peek l) f).
Proof.
  intros C H. destruct l as [| | |t l]; cbn [p_peek pbind]; [|exact I|contradiction|].
  - apply H; cbn; auto.
  - apply H. cbn [size]. unfold wt. destruct (is_tok t_end t); lia.
Qed.
Lemma good_skip {A B} k (o : option A) l (f : A -> lexed -> pres B) : (forall x, good k (f x l)) -> good k (pbind (skip_none o l) f).
Proof. intros H. destruct o; [apply H|exact I]. Qed.
Lemma good_panic {A B} k (o : option A) l (f : A -> lexed -> pres B) : (forall x, good k (f x l)) -> good k (pbind (panic_none o l) f).
Proof. intros H. destruct o; [apply H|exact I]. Qed.
Lemma good_le {A} j k (m : pres A) : good j m -> (j <= k)%nat -> good k m.
Proof. destruct m; cbn; auto. intros [H1 H2] H. split; [lia|auto]. Qed.
Lemma wt_1 c t : is_tok c t = true -> c <> 0 -> wt t = 1%nat.
Proof. unfold is_tok, wt, t_end. intros H N. apply Z.eqb_eq in H. unfold is_tok. destruct (Z.eqb_spec (t_type t) 0); congruence. Qed.

Definition stops (c : call) : Prop := match c with CList s _ _ _ => s <> 0 | _ => True end.

Section Step.
Variable n : nat.
Hypothesis IH : forall c l, stops c -> (weight c l < n)%nat -> complete l -> good (size l) (run E n c l).

Lemma good_call c l k : stops c -> (weight c l < n)%nat -> complete l -> (size l <= k)%nat -> good k (run E n c l).
Proof. intros S W C L. eapply good_le; eauto. Qed.

Ltac call := match goal with |- good ?k (run E n ?c ?l) => refine (good_call c l k _ _ _ _) end.
Ltac wts := repeat match goal with
  | H : is_tok ?c ?t = true |- _ => first [ assert (wt t = 1%nat) by (apply (wt_1 c t H); discriminate); clear H | clear H ]
  | H : is_tok ?c ?t = false |- _ => clear H
  end.
Ltac fin := unfold weight in *; cbn [cwt rank size] in *; wts; lia.
Ltac gd := repeat first
  [ exact I
  | apply good_ok; [fin|assumption]
  | call; [first [exact I|assumption|discriminate]|fin|assumption|fin]
  | apply good_next; [assumption|intros]
  | apply good_peek; [assumption|intros]
  | apply good_skip; intros
  | apply good_panic; intros
  | eapply good_bind; [call; [first [exact I|assumption|discriminate]|fin|assumption|apply Nat.le_refl]|intros]
  | match goal with
    | |- good _ (if ?b then _ else _) => destruct b eqn:?
    | |- good _ (match ?x with _ => _ end) => destruct x
    | |- good _ (let _ := _ in _) => cbv zeta
    end ].

Lemma good_operands mk vs l k : complete l -> (size l <= k)%nat -> good k (operands mk vs l).
Proof. intros C L. unfold operands. destruct vs as [|v [|w r]]; gd. Qed.
Lemma good_struct vs a l k : complete l -> (size l <= k)%nat -> good k (make_struct vs a l).
Proof. intros C L. unfold make_struct. gd. Qed.
Lemma good_tuple vs a l k : complete l -> (size l <= k)%nat -> good k (make_tuple vs a l).
Proof. intros C L. unfold make_tuple. gd. Qed.
Lemma good_finish vs a x l k : complete l -> (size l <= k)%nat -> good k (finish_list vs a x l).
Proof. intros C L. unfold finish_list. destruct vs; [destruct (x =? 0); [gd|now apply good_struct]|destruct (x =? 2); [now apply good_struct|now apply good_tuple]]. Qed.
Lemma good_type_of m k : good k m -> good k (p_type_of m).
Proof. intros H. unfold p_type_of. eapply good_bind; [exact H|]. intros x l' L C. destruct (as_type x); [now split|exact I]. Qed.
Lemma good_expect c l k : complete l -> c <> 0 -> (size l <= S k)%nat -> good k (p_expect c l).
Proof.
  intros C N L. unfold p_expect. apply good_next; auto. intros t l' L' C'. destruct (is_tok c t) eqn:X; [|exact I].
  apply good_ok; auto. rewrite (wt_1 c t X N) in L'. lia.
Qed.

Lemma good_elem t ex l : (weight (CElem t ex) l < S n)%nat -> complete l -> good (size l) (p_elem (run E n) t ex l).
Proof.
  intros W C. unfold p_elem. apply good_peek; auto. intros t0 Wt0.
  destruct (_ && _); [exact I|].
  eapply good_bind with (j := size l).
  { destruct (is_tok t_identifier t && is_tok 58 t0 || is_tok 63 t0); [now apply good_ok|call; [first [exact I|assumption|discriminate]|fin|assumption|lia]]. }
  intros key l1 L1 C1. apply good_peek; auto. intros t1 Wt1.
  eapply good_bind with (j := size l1).
  { destruct (is_tok 63 t1); [|now apply good_ok]. destruct l1 as [| | |t2 l2]; cbn in *; try tauto; try (split; [lia|tauto]). }
  intros u l2 L2 C2. gd.
Qed.

Lemma good_list_from stop vs el ex t l k : stop <> 0 -> (12 * (size l + wt t) + 9 < n)%nat -> complete l -> (size l <= k)%nat ->
  good k (p_list_from (run E n) stop vs el ex t l).
Proof.
  intros N W C L. unfold p_list_from. destruct (is_tok stop t) eqn:X; [now apply good_finish|].
  eapply good_bind; [call; [first [exact I|assumption|discriminate]|fin|assumption|apply Nat.le_refl]|]. intros r l1 L1 C1. apply good_next; auto. intros t2 l2 L2 C2.
  destruct (is_tok stop t2); [apply good_finish; auto; lia|]. destruct (is_tok 44 t2) eqn:Y; [|exact I].
  call; auto; fin.
Qed.

Lemma good_step c l : stops c -> (weight c l < S n)%nat -> complete l -> good (size l) (p_call E (run E n) c l).
Proof.
  intros S W C. destruct c as [t|vs|t|vs|t|vs|t|t|stop vs el ex|vs|t ex]; cbn [p_call].
  - unfold p_any. gd.
  - unfold p_or. destruct l as [| | |t l]; [now apply good_operands|exact I|contradiction|]. cbn [p_peek p_next pbind].
    destruct (is_tok 124 t); [|now apply good_operands]. cbn [size complete] in *. unfold weight in W. cbn [size cwt rank] in W. gd.
  - unfold p_one. gd.
  - unfold p_xor. destruct l as [| | |t l]; [now apply good_operands|exact I|contradiction|]. cbn [p_peek p_next pbind].
    destruct (is_tok 94 t); [|now apply good_operands]. cbn [size complete] in *. unfold weight in W. cbn [size cwt rank] in W. gd.
  - unfold p_all. gd.
  - unfold p_and. destruct l as [| | |t l]; [now apply good_operands|exact I|contradiction|]. cbn [p_peek p_next pbind].
    destruct (is_tok 38 t); [|now apply good_operands]. cbn [size complete] in *. unfold weight in W. cbn [size cwt rank] in W. gd.
  - assert (Ci : forall t l k, (12 * (size l + wt t) + 4 < n)%nat -> complete l -> (size l <= k)%nat -> good k (p_ci E (run E n) t l)).
    { intros t0 l0 k W0 C0 L0. unfold p_ci. gd. }
    unfold p_unary. unfold weight in W; cbn [cwt rank] in W. destruct (is_tok 33 t) eqn:X; [|apply Ci; auto; lia].
    rewrite (wt_1 _ _ X) in W by discriminate. apply good_next; auto. intros t1 l1 L1 C1. eapply good_bind; [apply Ci; [lia|assumption|apply Nat.le_refl]|]. intros. gd.
  - unfold weight in W; cbn [cwt rank] in W. unfold p_type.
    destruct (is_tok 123 t) eqn:X1; [gd|]. destruct (is_tok 40 t) eqn:X2.
    { apply good_next; auto. intros. eapply good_bind; [call; [exact I|fin|assumption|apply Nat.le_refl]|]. intros.
      eapply good_bind with (j := size l); [apply good_expect; auto; [discriminate|lia]|]. intros. now apply good_ok. }
    destruct (is_tok 91 t) eqn:X3.
    { unfold p_array. rewrite (wt_1 _ _ X3) in W by discriminate. eapply good_bind; [call; [exact I|fin|assumption|apply Nat.le_refl]|]. intros. apply good_next; auto. intros.
      eapply good_bind with (j := size l); [apply good_type_of; call; [exact I|fin|auto|lia]|]. intros. gd. }
    destruct (is_tok 60 t); [exact I|]. destruct (is_tok t_integer t) eqn:X4; [unfold p_integer; gd|]. destruct (is_tok t_float t) eqn:X5; [unfold p_float; gd|].
    destruct (is_tok t_dotdot t || is_tok t_dotdotdot t); [unfold p_dots; gd|]. destruct (is_tok t_identifier t) eqn:X6; [|gd].
    rewrite (wt_1 _ _ X6) in W by discriminate. apply good_peek; auto. intros t0 _. destruct (is_tok 61 t0); [exact I|].
    unfold p_identifier. destruct (identifier_value (t_value t)); [now apply good_ok|].
    destruct (bytes_eqb _ _).
    { unfold p_map. eapply good_bind with (j := size l); [apply good_expect; auto; discriminate|]. intros. apply good_next; auto. intros.
      eapply good_bind with (j := size l); [apply good_type_of; call; [exact I|fin|auto|lia]|]. intros. apply good_next; auto. intros.
      eapply good_bind with (j := size l); [destruct (is_tok 44 _) eqn:X7; [call; [exact I|fin|auto|lia]|gd]|]. intros. apply good_next; auto. intros.
      eapply good_bind with (j := size l); [apply good_type_of; call; [exact I|fin|auto|lia]|]. intros. gd. }
    destruct (bytes_eqb _ _).
    { unfold p_meta. apply good_peek; auto. intros tt1 Wtt1. destruct (is_tok 91 tt1); [|gd]. apply good_next; auto. intros. apply good_next; auto. intros.
      eapply good_bind with (j := size l); [apply good_type_of; call; [exact I|fin|auto|lia]|]. intros.
      eapply good_bind with (j := size l); [apply good_expect; auto; discriminate|]. intros. gd. }
    destruct (bytes_eqb _ _); [unfold p_string; gd|]. destruct (bytes_eqb _ _); [unfold p_sensitive; gd|]. gd.
  - cbn in S. unfold weight in W; cbn [cwt rank] in W. unfold p_list. apply good_next; auto. intros t1 l1 L1 C1.
    destruct (is_tok t_dotdotdot t1) eqn:X.
    + apply good_next; auto. intros t2 l2 L2 C2. destruct (is_tok stop t2 && _); [apply good_finish; auto; lia|]. destruct (ex =? 2); [exact I|].
      eapply good_bind with (j := size l2); [apply good_type_of; call; [exact I|fin|auto|lia]|]. intros e l3 L3 C3. apply good_next; auto. intros t4 l4 L4 C4.
      apply good_panic. intros a. apply good_list_from; auto; [|lia]. rewrite (wt_1 _ _ X) in L1 by discriminate. lia.
    + apply good_list_from; auto; lia.
  - unfold p_params. unfold weight in W; cbn [cwt rank] in W. gd.
  - now apply good_elem.
Qed.
End Step.

Theorem run_enough n : forall c l, stops c -> (weight c l < n)%nat -> complete l -> good (size l) (run E n c l).
Proof. induction n as [|n IH]; intros c l S W C; [lia|]. change (good (size l) (p_call E (run E n) c l)). now apply good_step. Qed.

Lemma size_lex_all n : forall r, (size (lex_all n r) <= n)%nat.
Proof.
  induction n as [|n IH]; intros r; cbn [lex_all]; [cbn; lia|]. destruct (lex r) as [t r'| |]; try (cbn; lia). destruct (t_type t =? t_end); [cbn; lia|].
  cbn [size]. specialize (IH r'). lia.
Qed.

(* the parser ends on every text *)
Theorem parse_ends s : parse_type E s <> PStuck.
Proof.
  assert (G : good (2 + length s) (parse_type E s)).
  { unfold parse_type. apply good_type_of. unfold parse_tokens. pose proof (tokens_complete s) as C.
    pose proof (size_lex_all (2 + length s) (new_reader s)) as Sz. fold (tokens s) in Sz. apply good_next; auto. intros t l L Cl.
    eapply good_bind; [eapply good_le; [apply run_enough; auto; [exact I|]|apply Nat.le_refl]|].
    - unfold weight, parse_fuel. cbn [cwt rank]. lia.
    - intros v l' L' C'. apply good_next; auto. intros t2 l2 L2 C2. destruct (is_tok t_end t2); [|exact I]. apply good_ok; auto. lia. }
  intros X. rewrite X in G. exact G.
Qed.

(* the result is that of any number of steps that suffice *)
Lemma parse_with s n t : p_type_of (parse_tokens E n (tokens s)) = POk t LEnd -> parse_type E s = POk t LEnd.
Proof.
  intros H. pose proof (parse_ends s) as P. unfold parse_type, p_type_of, parse_tokens in *.
  destruct (p_next (tokens s)) as [t1 l1| | |]; try discriminate H. cbn [pbind] in *.
  destruct (run E n (CAny t1) l1) as [v l2| | |] eqn:R; try discriminate H.
  assert (R' : run E (parse_fuel s) (CAny t1) l1 = POk v l2); [|now rewrite R'].
  destruct (Nat.le_ge_cases n (parse_fuel s)) as [L|L].
  - rewrite (run_mono n) by (auto; rewrite R; discriminate). exact R.
  - rewrite <- R. symmetry. apply run_mono; auto. intros X. apply P. now rewrite X.
Qed.
End Proofs.
