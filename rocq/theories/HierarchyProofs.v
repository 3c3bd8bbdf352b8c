(* Loading through a hierarchy gives what the hierarchy means. *)
From Coq Require Import ZArith List Bool Arith Lia.
From Verif Require Import Data HMap DataProofs Loader LoaderProofs Hierarchy HierarchySpec.
Import ListNotations.

(* a reference into the heap refers to a loader that means t *)
Inductive means (h : heap) : ref -> tree -> Prop :=
| means_map i es g s : nth_error h i = Some (OMap es) -> (forall k, g k = get_key es k) -> (forall n, s n = None) ->
    means h (Obj i) (Tree g s)
| means_loader i es f sp c g s : nth_error h i = Some (OLoader es f sp c) ->
    (forall k, g k = match get_key es k with Some v => non_nil v | None => match f with None => None | Some f => non_nil (f k) end end) ->
    (forall n r, get_key sp n = Some r -> s n <> None) ->
    (forall n r t, get_key sp n = Some r -> s n = Some t -> means h r t) ->
    (forall n, get_key sp n = None ->
       s n = match c with None => None | Some c => match c n with None => None | Some d => Some (described d) end end) ->
    means h (Obj i) (Tree g s)
| means_child own parent p l g s : means h parent p -> means h own l ->
    (forall k, g k = match values p k with Some v => Some v | None => values l k end) ->
    (forall n, s n = match spaces p n with
                     | None => spaces l n
                     | Some p' => match spaces l n with None => Some p' | Some l' => Some (combine_trees p' l') end
                     end) ->
    means h (Child own parent) (Tree g s).

Definition keeps (h h' : heap) : Prop := forall r t, means h r t -> means h' r t.
Lemma keeps_trans h1 h2 h3 : keeps h1 h2 -> keeps h2 h3 -> keeps h1 h3.
Proof. unfold keeps. auto. Qed.

Lemma combine_unfold p l : combine_trees p l =
  Tree (fun k => match values p k with Some v => Some v | None => values l k end)
       (fun n => match spaces p n with
                 | None => spaces l n
                 | Some p' => match spaces l n with None => Some p' | Some l' => Some (combine_trees p' l') end
                 end).
Proof. destruct p. reflexivity. Qed.

Lemma means_combine h own parent p l : means h parent p -> means h own l -> means h (Child own parent) (combine_trees p l).
Proof. intros A B. rewrite combine_unfold. eapply means_child; eauto. Qed.

Lemma keeps_append h l : keeps h (h ++ l).
Proof.
  assert (N : forall i o, nth_error h i = Some o -> nth_error (h ++ l) i = Some o).
  { intros i o H. rewrite nth_error_app1; [exact H|]. apply nth_error_Some. congruence. }
  intros r t H. induction H.
  - eapply means_map; eauto.
  - eapply means_loader; eauto.
  - eapply means_child; eauto.
Qed.

Lemma upd_same {A} (l : list A) i x : (i < length l)%nat -> nth_error (upd l i x) i = Some x.
Proof. revert i. induction l as [|y l IH]; intros [|i] H; cbn in *; try lia; [reflexivity|]. apply IH. lia. Qed.
Lemma upd_other {A} (l : list A) i j x : i <> j -> nth_error (upd l i x) j = nth_error l j.
Proof. revert i j. induction l as [|y l IH]; intros [|i] [|j] H; cbn; try reflexivity; try congruence. apply IH. congruence. Qed.
Lemma present {A} (l : list A) i x : nth_error l i = Some x -> (i < length l)%nat.
Proof. intros H. apply nth_error_Some. congruence. Qed.

(* caching what the finder found *)
Lemma keeps_found h i es f sp c k : nth_error h i = Some (OLoader es (Some f) sp c) -> get_key es k = None ->
  keeps h (upd h i (OLoader (put_key es k (f k)) (Some f) sp c)).
Proof.
  intros Hi N r t H. induction H as [j es' g s Hj Hg Hs|j es' f' sp' c' g s Hj Hg Hs1 Hs2 IH Hs3|own parent p l g s Hp IHp Hl IHl Hg Hs].
  - destruct (Nat.eq_dec i j) as [<-|Nij]; [congruence|]. apply means_map with (es := es'); auto. now rewrite upd_other.
  - destruct (Nat.eq_dec i j) as [<-|Nij].
    + rewrite Hi in Hj. injection Hj as <- <- <- <-.
      eapply means_loader; [apply upd_same, (present _ _ _ Hi)| | | |]; eauto.
      intros k'. rewrite Hg. destruct (list_eq_dec Z.eq_dec k' k) as [->|Nk].
      * now rewrite N, get_put_same.
      * now rewrite get_put_other.
    + eapply means_loader; [now rewrite upd_other by exact Nij; exact Hj| | | |]; eauto.
  - eapply means_child; eauto.
Qed.

(* remembering a namespace *)
Lemma keeps_space h i es f sp c n d r : nth_error h i = Some (OLoader es f sp (Some c)) -> get_key sp n = None -> c n = Some d ->
  means (upd h i (OLoader es f (put_key sp n r) (Some c))) r (described d) -> keeps h (upd h i (OLoader es f (put_key sp n r) (Some c))).
Proof.
  intros Hi N Cn HN r0 t0 H0.
  induction H0 as [j es' g s Hj Hg Hs|j es' f' sp' c' g s Hj Hg Hs1 Hs2 IH Hs3|own parent p l g s Hp IHp Hl IHl Hg Hs].
  - destruct (Nat.eq_dec i j) as [<-|Nij]; [congruence|]. apply means_map with (es := es'); auto. now rewrite upd_other.
  - destruct (Nat.eq_dec i j) as [<-|Nij].
    + rewrite Hi in Hj. injection Hj as <- <- <- <-.
      eapply means_loader; [apply upd_same, (present _ _ _ Hi)| | | |]; eauto.
      * intros m r1 G. destruct (list_eq_dec Z.eq_dec m n) as [->|Nm].
        { rewrite (Hs3 n N), Cn. discriminate. }
        { rewrite get_put_other in G by exact Nm. eauto. }
      * intros m r1 t1 G S. destruct (list_eq_dec Z.eq_dec m n) as [->|Nm].
        { rewrite get_put_same in G. injection G as <-. rewrite (Hs3 n N), Cn in S. injection S as <-. exact HN. }
        { rewrite get_put_other in G by exact Nm. eauto. }
      * intros m G. apply Hs3. destruct (list_eq_dec Z.eq_dec m n) as [->|Nm]; [now rewrite get_put_same in G|].
        now rewrite get_put_other in G.
    + eapply means_loader; [rewrite upd_other by exact Nij; exact Hj| | | |]; eauto.
  - eapply means_child; eauto.
Qed.

(* the objects of a new loader do not refer to those that were there before *)
Lemma create_fresh d : forall h, exists l r, create h d = (h ++ l, r) /\
  forall h0 l2, length h0 = length h -> means (h0 ++ l ++ l2) r (described d).
Proof.
  induction d as [es f c|own IHo parent IHp]; intros h.
  - destruct f as [f|], c as [c|]; cbn [create]; eexists; exists (Obj (length h)); (split; [reflexivity|]); intros h0 l2 L;
      assert (E : forall o, nth_error (h0 ++ [o] ++ l2) (length h) = Some o)
        by (intros o; rewrite nth_error_app2 by lia; now replace (length h - length h0)%nat with 0%nat by lia); cbn [described].
    1-3: eapply means_loader; [apply E|reflexivity|discriminate|discriminate|reflexivity].
    eapply means_map; [apply E| |reflexivity]. intros k. now destruct (get_key es k).
  - destruct (IHp h) as (l1 & p & E1 & M1). destruct (IHo (h ++ l1)) as (l2 & o & E2 & M2).
    exists (l1 ++ l2), (Child o p). split.
    + cbn [create]. rewrite E1, E2. now rewrite app_assoc.
    + intros h0 l3 L. cbn [described]. apply means_combine.
      * rewrite <- app_assoc. now apply M1.
      * rewrite <- app_assoc, app_assoc. apply M2. rewrite !app_length. lia.
Qed.

Lemma upd_app {A} (h l : list A) i x : (i < length h)%nat -> upd (h ++ l) i x = upd h i x ++ l.
Proof. revert i. induction h as [|y h IH]; intros [|i] H; cbn in *; try lia; [reflexivity|]. f_equal. apply IH. lia. Qed.
Lemma upd_len {A} (h : list A) i x : length (upd h i x) = length h.
Proof. revert i. induction h as [|y h IH]; intros [|i]; cbn; auto. Qed.

Theorem create_means h d h' r : create h d = (h', r) -> keeps h h' /\ means h' r (described d).
Proof.
  intros C. destruct (create_fresh d h) as (l & r' & E & M). rewrite E in C. injection C as <- <-. split; [apply keeps_append|].
  specialize (M h [] eq_refl). now rewrite app_nil_r in M.
Qed.

Theorem get_means h r t k h' v : means h r t -> get h r k = (h', v) -> v = values t k /\ keeps h h'.
Proof.
  intros H. revert h' v k. pose proof H as H0. revert H0.
  assert (Q : forall h0, keeps h h0 -> forall h' v k, get h0 r k = (h', v) -> v = values t k /\ keeps h0 h').
  2: { intros _ h' v k. apply Q. now intros ? ?. }
  assert (G : forall r0 t0 h0, means h0 r0 t0 -> forall h' v k, get h0 r0 k = (h', v) -> v = values t0 k /\ keeps h0 h').
  { clear. induction r0 as [i|own IHo parent IHp]; intros t0 h0 M h' v k E; cbn [get] in E.
    - inversion M as [? es g s Hj Hg Hs|? es f sp c g s Hj Hg Hs1 Hs2 Hs3|]; subst; rewrite Hj in E; cbn [values].
      + injection E as <- <-. split; [now rewrite Hg|now intros ? ?].
      + rewrite Hg. destruct (get_key es k) eqn:K.
        * injection E as <- <-. split; [reflexivity|now intros ? ?].
        * destruct f as [f|]; injection E as <- <-; (split; [reflexivity|]); [now apply keeps_found|now intros ? ?].
    - inversion M as [| |? ? p l g s Hp Hl Hg Hs]; subst. cbn [values].
      destruct (get h0 parent k) as [h1 v1] eqn:E1. destruct (IHp _ _ Hp _ _ _ E1) as [-> K1]. rewrite Hg.
      destruct (values p k) eqn:V.
      + injection E as <- <-. auto.
      + destruct (IHo _ _ (K1 _ _ Hl) _ _ _ E) as [-> K2]. split; [reflexivity|]. eapply keeps_trans; eauto. }
  intros h0 K. apply G. auto.
Qed.

Definition same_space (h : heap) (o : option ref) (t : option tree) : Prop :=
  match o, t with Some r, Some t => means h r t | None, None => True | _, _ => False end.

Lemma keeps_same_space h h' o t : keeps h h' -> same_space h o t -> same_space h' o t.
Proof. intros K. destruct o, t; cbn; auto. Qed.

Theorem namespace_means n : n <> [] -> forall r h t h' o, means h r t -> namespace h r n = (h', o) ->
  keeps h h' /\ same_space h' o (spaces t n).
Proof.
  intros Hn. destruct n as [|b n]; [congruence|]. clear Hn.
  induction r as [i|own IHo parent IHp]; intros h t h' o M E; cbn [namespace] in E.
  - inversion M as [? es g s Hj Hg Hs|? es f sp c g s Hj Hg Hs1 Hs2 Hs3|]; subst; rewrite Hj in E; cbn [spaces].
    + injection E as <- <-. split; [now intros ? ?|]. now rewrite Hs.
    + destruct (get_key sp (b :: n)) as [r'|] eqn:K.
      * injection E as <- <-. split; [now intros ? ?|]. cbn. destruct (s (b :: n)) eqn:S; [eapply Hs2; eauto|]. exact (Hs1 _ _ K S).
      * rewrite (Hs3 _ K). destruct c as [c|]; [|injection E as <- <-; split; [now intros ? ?|exact Logic.I]].
        destruct (c (b :: n)) as [d|] eqn:C; [|injection E as <- <-; split; [now intros ? ?|exact Logic.I]].
        destruct (create h d) as [h1 r'] eqn:Cr. injection E as <- <-.
        destruct (create_fresh d h) as (l & r2 & E2 & Mf). rewrite E2 in Cr. injection Cr as <- <-.
        pose proof (present _ _ _ Hj) as L.
        assert (M2 : means (upd (h ++ l) i (OLoader es f (put_key sp (b :: n) r2) (Some c))) r2 (described d)).
        { rewrite upd_app by exact L. specialize (Mf (upd h i (OLoader es f (put_key sp (b :: n) r2) (Some c))) []).
          rewrite app_nil_r in Mf. apply Mf. apply upd_len. }
        split; [|exact M2].
        eapply keeps_trans; [apply keeps_append|]. eapply keeps_space; eauto. now rewrite nth_error_app1.
  - inversion M as [| |? ? p l g s Hp Hl Hg Hs]; subst. cbn [spaces].
    destruct (namespace h parent (b :: n)) as [h1 pv] eqn:E1. destruct (IHp _ _ _ _ Hp E1) as [K1 S1].
    destruct (namespace h1 own (b :: n)) as [h2 v] eqn:E2. destruct (IHo _ _ _ _ (K1 _ _ Hl) E2) as [K2 S2].
    injection E as <- <-. split; [eapply keeps_trans; eauto|]. rewrite Hs. apply (keeps_same_space _ _ _ _ K2) in S1.
    destruct pv as [pv|], (spaces p (b :: n)) as [p'|]; cbn in S1; try contradiction;
      destruct v as [v|], (spaces l (b :: n)) as [l'|]; cbn in S2; try contradiction; cbn; auto. now apply means_combine.
Qed.

Theorem load_parts_means parts : forall h r t h' v, means h r t -> load_parts h r parts = (h', v) ->
  v = value_at t parts /\ keeps h h'.
Proof.
  induction parts as [|n rest IH]; intros h r t h' v M E.
  - cbn in E. injection E as <- <-. split; [reflexivity|now intros ? ?].
  - destruct rest as [|m rest].
    + cbn [load_parts] in E. destruct (get_means _ _ _ _ _ _ M E) as [-> K]. split; [now destruct n|exact K].
    + set (ms := m :: rest) in *. change (load_parts h r (n :: ms)) with
        (let (h1, r1) := namespace h r n in match r1 with None => (h1, None) | Some r1 => load_parts h1 r1 ms end) in E.
      destruct n as [|b n].
      * replace (namespace h r []) with (h, Some r) in E by (now destruct r). cbn in E.
        destruct (IH _ _ _ _ _ M E) as [-> K]. split; [reflexivity|exact K].
      * destruct (namespace h r (b :: n)) as [h1 o] eqn:N. destruct (namespace_means (b :: n) ltac:(discriminate) _ _ _ _ _ M N) as [K S].
        change (value_at t ((b :: n) :: ms)) with (match spaces t (b :: n) with None => None | Some t' => value_at t' ms end).
        destruct o as [r1|], (spaces t (b :: n)) as [t1|]; cbn in S; try contradiction.
        { destruct (IH _ _ _ _ _ S E) as [-> K2]. split; [reflexivity|]. eapply keeps_trans; eauto. }
        { injection E as <- <-. auto. }
Qed.

Theorem load_means h r t s h' v : means h r t -> load h r s = (h', v) -> v = value_at t (split s) /\ keeps h h'.
Proof. apply load_parts_means. Qed.

Lemma keeps_all h h' rs ts : keeps h h' -> Forall2 (means h) rs ts -> Forall2 (means h') rs ts.
Proof. intros K F. induction F; constructor; auto. Qed.
Lemma both_nth {A B} (P : A -> B -> Prop) l m i : Forall2 P l m ->
  match nth_error l i, nth_error m i with Some a, Some b => P a b | None, None => True | _, _ => False end.
Proof. intros F. revert i. induction F; intros [|i]; cbn; auto. apply IHF. Qed.
Lemma both_add {A B} (P : A -> B -> Prop) l m a b : Forall2 P l m -> P a b -> Forall2 P (l ++ [a]) (m ++ [b]).
Proof. intros F H. apply Forall2_app; auto. Qed.

(* any history of calls gives what the loaders mean *)
Theorem calls_answers cs : forall h rs ts, Forall2 (means h) rs ts -> calls h rs cs = answers ts cs.
Proof.
  induction cs as [|c cs IH]; intros h rs ts F; [reflexivity|].
  destruct c as [d|i f c|i n|i k|i s]; cbn [calls answers].
  - destruct (create h d) as [h1 r] eqn:C. destruct (create_means _ _ _ _ C) as [K M]. apply IH. apply both_add; [now apply (keeps_all h)|exact M].
  - pose proof (both_nth _ _ _ i F) as N. destruct (nth_error rs i) as [p|], (nth_error ts i) as [t|]; try contradiction; [|now apply IH].
    unfold new_child. destruct (create h (DNew [] f c)) as [h1 o] eqn:C. destruct (create_means _ _ _ _ C) as [K M].
    apply IH. apply both_add; [now apply (keeps_all h)|]. apply means_combine; auto.
  - pose proof (both_nth _ _ _ i F) as N. destruct (nth_error rs i) as [r|], (nth_error ts i) as [t|]; try contradiction; [|now apply IH].
    destruct n as [|b n].
    + replace (namespace h r []) with (h, Some r) by (now destruct r). cbn. apply IH. now apply both_add.
    + destruct (namespace h r (b :: n)) as [h1 o] eqn:E. destruct (namespace_means (b :: n) ltac:(discriminate) _ _ _ _ _ N E) as [K S].
      pose proof (keeps_all _ _ _ _ K F) as F1.
      destruct o as [r'|], (spaces t (b :: n)) as [t'|]; cbn in S; try contradiction; apply IH; auto. now apply both_add.
  - pose proof (both_nth _ _ _ i F) as N. destruct (nth_error rs i) as [r|], (nth_error ts i) as [t|]; try contradiction; [|now apply IH].
    destruct (get h r k) as [h1 v] eqn:E. destruct (get_means _ _ _ _ _ _ N E) as [-> K]. f_equal. apply IH. now apply (keeps_all h).
  - pose proof (both_nth _ _ _ i F) as N. destruct (nth_error rs i) as [r|], (nth_error ts i) as [t|]; try contradiction; [|now apply IH].
    destruct (load h r s) as [h1 v] eqn:E. destruct (load_means _ _ _ _ _ _ N E) as [-> K]. f_equal. apply IH. now apply (keeps_all h).
Qed.

(* what a tree that combines two has *)
Lemma value_at_none l path : (forall n, spaces l n = None) -> (forall k, values l k = None) -> value_at l path = None.
Proof.
  intros S V. induction path as [|n rest IH]; [reflexivity|]. destruct rest as [|m rest]; [cbn; destruct n; apply V|].
  destruct n as [|b n]; [exact IH|]. cbn. now rewrite S.
Qed.

Theorem value_at_combine path : forall p l, value_at (combine_trees p l) path = first [value_at p path; value_at l path].
Proof.
  assert (F1 : forall o : option value, o = first [o; None]) by (intros [v|]; reflexivity).
  assert (F2 : forall o : option value, o = first [None; o]) by (intros [v|]; reflexivity).
  induction path as [|n rest IH]; intros p l; [reflexivity|].
  destruct rest as [|m rest].
  - rewrite combine_unfold. cbn. destruct n; (destruct (values p _); [reflexivity|]); now destruct (values l _).
  - destruct n as [|b n]; [apply IH|]. set (ms := m :: rest) in *.
    assert (U : forall t, value_at t ((b :: n) :: ms) = match spaces t (b :: n) with None => None | Some t' => value_at t' ms end) by reflexivity.
    rewrite !U. rewrite combine_unfold. cbn [spaces].
    destruct (spaces p (b :: n)) as [p'|], (spaces l (b :: n)) as [l'|]; auto.
Qed.

Lemma first_app {A} (l m : list (option A)) : first (l ++ m) = first [first l; first m].
Proof. induction l as [|[v|] l IH]; cbn; auto. now destruct (first m). Qed.

(* through a chain of child loaders the first ancestor that has a value, the outermost first *)
Theorem chain_first fcs path : forall d0, value_at (described (chain d0 fcs)) path =
  first (value_at (described d0) path :: map (fun fc => value_at (described (DNew [] (fst fc) (snd fc))) path) fcs).
Proof.
  induction fcs as [|fc fcs IH]; intros d0.
  - cbn. now destruct (value_at _ _).
  - cbn [chain map]. rewrite IH. cbn [described]. rewrite value_at_combine. cbn [first].
    destruct (value_at (described d0) path); [reflexivity|]. cbn [described]. now destruct (value_at _ path).
Qed.

Theorem missing_space path k : forall t, value_at t (path ++ [k]) = match space_at t path with None => None | Some t' => values t' k end.
Proof.
  induction path as [|n rest IH]; intros t; [cbn; now destruct k|].
  cbn [app]. assert (exists m ms, rest ++ [k] = m :: ms) as (m & ms & E) by (destruct rest; cbn; eauto).
  rewrite E. destruct n as [|b n].
  - change (value_at t ([] :: m :: ms)) with (value_at t (m :: ms)). rewrite <- E, IH. reflexivity.
  - change (value_at t ((b :: n) :: m :: ms)) with (match spaces t (b :: n) with None => None | Some t' => value_at t' (m :: ms) end).
    cbn [space_at]. destruct (spaces t (b :: n)); [|reflexivity]. rewrite <- E. apply IH.
Qed.

(* names joined by slashes are the path *)
Lemma split_part p s : ~ In 47%Z p -> split (p ++ 47%Z :: s) = p :: split s.
Proof.
  induction p as [|c p IH]; intros N; cbn [app split]; [reflexivity|].
  destruct (Z.eqb_spec c 47) as [->|C]; [exfalso; apply N; now left|]. rewrite IH; [reflexivity|]. intros I. apply N. now right.
Qed.
Lemma split_one p : ~ In 47%Z p -> split p = [p].
Proof.
  induction p as [|c p IH]; intros N; cbn [split]; [reflexivity|].
  destruct (Z.eqb_spec c 47) as [->|C]; [exfalso; apply N; now left|]. rewrite IH; [reflexivity|]. intros I. apply N. now right.
Qed.
Theorem split_join parts : parts <> [] -> Forall (fun p => ~ In 47%Z p) parts -> split (join parts) = parts.
Proof.
  induction parts as [|p [|q r] IH]; intros N F; [congruence| |]; inversion F; subst.
  - now apply split_one.
  - change (join (p :: q :: r)) with (p ++ 47%Z :: join (q :: r)). rewrite split_part by assumption. f_equal. apply IH; [discriminate|assumption].
Qed.
