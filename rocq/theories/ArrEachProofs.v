(* Proofs about iterations of arrays by callbacks that change them. *)
From Coq Require Import ZArith List Bool Lia.
From Verif Require Import HMap HMapBase HMapInv Slices SlicesSpec SlicesProofs ArrEach ArrEachSpec.
Import ListNotations.
Open Scope Z_scope.

Section Proofs.
Variable V : Type.
Variable eqc : V -> option V -> bool.
Variables fz th : V -> V.
Variable grow : nat -> nat -> nat.

Notation cells := (cells V). Notation store := (store V). Notation buf := (buf V). Notation cap := (cap V).
Notation blit := (blit V). Notation alloc := (alloc V). Notation go_append := (go_append V grow).
Notation step := (step V eqc fz th grow). Notation run := (run V eqc fz th grow).
Notation sstep := (sstep V eqc fz th). Notation srun := (srun V eqc fz th).
Notation bufs := (bufs V). Notation arrays := (arrays V). Notation heap := (heap V).
Notation rel := (rel V). Notation fits := (fits V).
Implicit Types (h : list (list (option V))) (s t : slice) (w : heap) (sw : sworld V).

(* ---------- buffers that are not written to ---------- *)
Definition kept (b : nat) h h' : Prop := (length h <= length h')%nat /\ nth b h' [] = nth b h [].
Lemma kept_refl b h : kept b h h.
Proof. split; auto. Qed.
Lemma kept_trans b h1 h2 h3 : kept b h1 h2 -> kept b h2 h3 -> kept b h1 h3.
Proof. intros [A B] [C D]. split; [lia|congruence]. Qed.
Lemma kept_alloc b h xs c : (b < length h)%nat -> kept b h (fst (alloc h xs c)).
Proof. intros H. cbn. split; [rewrite app_length; lia|]. now rewrite app_nth1. Qed.
Lemma kept_store b h s p xs : sbuf s <> b -> kept b h (store h s p xs).
Proof. intros H. split; [now rewrite store_length|]. unfold Slices.store. now rewrite nth_upd_other. Qed.
Lemma kept_append b h s xs : (b < length h)%nat -> sbuf s <> b -> kept b h (fst (go_append h s xs)) /\ sbuf (snd (go_append h s xs)) <> b.
Proof.
  intros L N. unfold Slices.go_append. destruct xs as [|x xs]; [split; [apply kept_refl|exact N]|]. cbn zeta.
  destruct (_ <=? _)%nat; cbn [fst snd sbuf]; [split; [now apply kept_store|exact N]|]. split; [now apply kept_alloc|]. cbn. lia.
Qed.
Lemma kept_select b p keep l : forall h s, (b < length h)%nat -> sbuf s <> b ->
  kept b h (fst (fold_left (fun hs c => if Bool.eqb (p c) keep then go_append (fst hs) (snd hs) [c] else hs) l (h, s))).
Proof.
  induction l as [|x l IH]; intros h s L N; cbn [fold_left]; [apply kept_refl|]. destruct (Bool.eqb (p x) keep); [|now apply IH]. cbn [fst snd].
  destruct (kept_append b h s [x] L N) as [A B]. destruct (go_append h s [x]) as [h1 s1]. cbn [fst snd] in *. eapply kept_trans; [exact A|]. apply IH; [|exact B]. destruct A. lia.
Qed.
Lemma kept_remove b w a x p : sbuf (aslice x) <> b -> kept b (bufs w) (bufs (fst (remove_pos V w a x p))).
Proof. intros N. unfold remove_pos. destruct (_ && _); cbn; [|apply kept_refl]. eapply kept_trans; apply kept_store; exact N. Qed.

Lemma step_frame w o b : list_op V o -> (b < length (bufs w))%nat -> (forall c x, target V o = Some c -> nth_error (arrays w) c = Some x -> afrozen x = false -> sbuf (aslice x) <> b) ->
  kept b (bufs w) (bufs (fst (step w o))).
Proof.
  intros LO L T.
  assert (WA : forall c (k : array -> heap * res V), (forall x, nth_error (arrays w) c = Some x -> kept b (bufs w) (bufs (fst (k x)))) -> kept b (bufs w) (bufs (fst (with_array V w c k)))).
  { intros c k H. unfold with_array. destruct (nth_error (arrays w) c) as [x|]; [auto|apply kept_refl]. }
  assert (NW : forall h x, kept b (bufs w) h -> kept b (bufs w) (bufs (fst (new_array V w h x)))) by (intros; assumption).
  destruct o; cbn [Slices.step] in *; try contradiction; try (apply WA; intros x0 Hx).
  - apply (kept_alloc b (bufs w)). exact L.
  - apply (kept_alloc b (bufs w)). exact L.
  - destruct (in_slice _ _); apply kept_refl.
  - apply kept_refl.
  - apply kept_refl.
  - apply kept_refl.
  - apply kept_refl.
  - destruct (afrozen x0) eqn:Fx; [apply kept_refl|]. destruct (kept_append b (bufs w) (aslice x0) [Some v] L (T _ _ eq_refl Hx Fx)) as [A _]. destruct (go_append _ _ _). exact A.
  - apply WA. intros y0 Hy. destruct (afrozen x0) eqn:Fx; [apply kept_refl|].
    destruct (kept_append b (bufs w) (aslice x0) (cells (bufs w) (aslice y0)) L (T _ _ eq_refl Hx Fx)) as [A _]. destruct (go_append _ _ _). exact A.
  - destruct (afrozen x0) eqn:Fx; [apply kept_refl|]. destruct (kept_append b (bufs w) (aslice x0) (map Some vs) L (T _ _ eq_refl Hx Fx)) as [A _]. destruct (go_append _ _ _). exact A.
  - destruct (afrozen x0) eqn:Fx; [apply kept_refl|]. destruct (in_slice _ _); [|apply kept_refl]. apply (kept_store b (bufs w)). exact (T _ _ eq_refl Hx Fx).
  - destruct (afrozen x0) eqn:Fx; [apply kept_refl|]. destruct (_ && _); [|apply kept_refl].
    pose proof (kept_alloc b (bufs w) (Some v :: skipn (Z.to_nat i) (cells (bufs w) (aslice x0))) 0 L) as A. destruct (alloc _ _ 0) as [h1 t]. cbn [fst] in A.
    assert (L1 : (b < length h1)%nat) by (destruct A; lia).
    destruct (kept_append b h1 (Slice (sbuf (aslice x0)) (soff (aslice x0)) (Z.to_nat i)) (cells h1 t) L1 (T _ _ eq_refl Hx Fx)) as [B _]. destruct (go_append _ _ _). eapply kept_trans; [exact A|exact B].
  - destruct (afrozen x0) eqn:Fx; [apply kept_refl|]. pose proof (kept_remove b w a x0 i (T _ _ eq_refl Hx Fx)) as A. destruct (remove_pos V w a x0 i). exact A.
  - destruct (afrozen x0) eqn:Fx; [apply kept_refl|]. pose proof (kept_remove b w a x0 (index_cells V eqc 0 v (cells (bufs w) (aslice x0))) (T _ _ eq_refl Hx Fx)) as A. destruct (remove_pos V w a x0 _). exact A.
  - destruct (afrozen x0) eqn:Fx; [apply kept_refl|]. destruct (0 <=? _); [|apply kept_refl].
    pose proof (kept_remove b w a x0 (Z.of_nat (slen (aslice x0)) - 1) (T _ _ eq_refl Hx Fx)) as A. destruct (remove_pos V w a x0 _). exact A.
  - apply WA. intros y0 Hy. destruct (cells (bufs w) (aslice y0)) as [|c l] eqn:EL; [apply kept_refl|].
    pose proof (kept_alloc b (bufs w) (map (option_map th) (cells (bufs w) (aslice x0))) (length (map (option_map th) (cells (bufs w) (aslice x0)))) L) as A.
    destruct (alloc _ _ _) as [h1 s1] eqn:EA. cbn [fst] in A. assert (N1 : sbuf s1 <> b) by (unfold Slices.alloc in EA; injection EA as <- <-; cbn; lia).
    assert (L1 : (b < length h1)%nat) by (destruct A; lia). match goal with |- context [go_append h1 s1 ?z] => destruct (kept_append b h1 s1 z L1 N1) as [B _]; destruct (go_append h1 s1 z) end.
    eapply kept_trans; [exact A|exact B].
  - destruct (_ && _); [apply kept_refl|]. apply (kept_alloc b (bufs w)). exact L.
  - apply kept_refl.
  - apply (kept_alloc b (bufs w)). exact L.
  - destruct (alloc (bufs w) [] 0) as [h1 s1] eqn:EA. assert (N1 : sbuf s1 <> b) by (unfold Slices.alloc in EA; injection EA as <- <-; cbn; lia).
    pose proof (kept_alloc b (bufs w) [] 0 L) as A. rewrite EA in A. cbn [fst] in A. assert (L1 : (b < length h1)%nat) by (destruct A; lia).
    pose proof (kept_select b p keep (cells (bufs w) (aslice x0)) h1 s1 L1 N1) as B. destruct (fold_left _ _ _). eapply kept_trans; [exact A|exact B].
Qed.

(* ---------- the slices of other arrays ---------- *)
Lemma upd_same_slice (l : list array) c y a x : nth_error l a = Some x -> (a = c -> aslice y = aslice x) ->
  exists z, nth_error (upd l c y) a = Some z /\ aslice z = aslice x.
Proof.
  intros H E. destruct (Nat.eq_dec a c) as [->|N]; [|exists x; rewrite nth_error_upd_neq by congruence; auto].
  exists y. split; [|auto]. apply nth_error_upd_eq. apply nth_error_Some. congruence.
Qed.
Lemma app_same_slice (l : list array) y a x : nth_error l a = Some x -> exists z, nth_error (l ++ [y]) a = Some z /\ aslice z = aslice x.
Proof. intros H. exists x. rewrite nth_error_app1 by (apply nth_error_Some; congruence). auto. Qed.
Lemma remove_other_slice w c y p a x : nth_error (arrays w) a = Some x -> a <> c ->
  exists z, nth_error (arrays (fst (remove_pos V w c y p))) a = Some z /\ aslice z = aslice x.
Proof. intros H N. unfold remove_pos. destruct (_ && _); cbn; [|eauto]. apply upd_same_slice; [exact H|congruence]. Qed.
Lemma step_slice w o a x : nth_error (arrays w) a = Some x -> target V o <> Some a ->
  exists z, nth_error (arrays (fst (step w o))) a = Some z /\ aslice z = aslice x.
Proof.
  intros H T.
  assert (WA : forall c (k : array -> heap * res V), (forall y, nth_error (arrays w) c = Some y -> exists z, nth_error (arrays (fst (k y))) a = Some z /\ aslice z = aslice x) ->
    exists z, nth_error (arrays (fst (with_array V w c k))) a = Some z /\ aslice z = aslice x).
  { intros c k G. unfold with_array. destruct (nth_error (arrays w) c) as [y|]; [auto|eauto]. }
  destruct o; cbn [Slices.step target] in *; try (apply WA; intros y0 Hy);
    try (apply WA; intros z0 Hz).
  all: repeat match goal with
    | |- context [alloc ?h ?l ?c] => destruct (alloc h l c)
    | |- context [go_append ?h ?s ?l] => destruct (go_append h s l)
    | |- context [fold_left ?f ?l ?z] => destruct (fold_left f l z)
    | |- context [if ?c then _ else _] => destruct c
    | |- context [match ?l with [] => _ | _ => _ end] => destruct l
    end.
  all: try (cbn; eauto; fail).
  all: try (apply app_same_slice; exact H).
  all: try (apply upd_same_slice; [exact H|congruence]).
  - pose proof (remove_other_slice w a0 y0 i a x H ltac:(congruence)) as Q. destruct (remove_pos V w a0 y0 i). exact Q.
  - pose proof (remove_other_slice w a0 y0 (index_cells V eqc 0 v (cells (bufs w) (aslice y0))) a x H ltac:(congruence)) as Q. destruct (remove_pos V w a0 y0 _). exact Q.
  - pose proof (remove_other_slice w a0 y0 (Z.of_nat (slen (aslice y0)) - 1) a x H ltac:(congruence)) as Q. destruct (remove_pos V w a0 y0 _). exact Q.
  - cbn. apply upd_same_slice; [exact H|]. intros <-. rewrite H in Hy. injection Hy as <-. reflexivity.
Qed.

(* ---------- appending while iterating ---------- *)
(* [s] is the slice that is iterated over: it belongs to array [a] or, once that has grown, to no array. *)
Definition owned w (a : nat) s (cs : list (option V)) : Prop :=
  fits (bufs w) s /\ cells (bufs w) s = cs /\
  forall c x, nth_error (arrays w) c = Some x -> afrozen x = false -> sbuf (aslice x) = sbuf s -> c = a /\ soff (aslice x) = soff s /\ (slen s <= slen (aslice x))%nat.

Lemma kept_cells h h' s : fits h s -> kept (sbuf s) h h' -> fits h' s /\ cells h' s = cells h s.
Proof. intros [A B] [C D]. unfold SlicesProofs.fits, Slices.cells, Slices.buf in *. rewrite D. split; [split; [lia|exact B]|reflexivity]. Qed.

Lemma append_moves h s xs : (sbuf (snd (go_append h s xs)) = sbuf s /\ soff (snd (go_append h s xs)) = soff s /\ (slen s <= slen (snd (go_append h s xs)))%nat) \/
  (length h <= sbuf (snd (go_append h s xs)))%nat.
Proof.
  unfold Slices.go_append. destruct xs as [|x xs]; [left; auto|]. cbn zeta. destruct (_ <=? _)%nat; cbn [snd fst]; [left|right].
  - cbn. splits; auto. lia.
  - cbn. lia.
Qed.

(* What can become of the slice of an array in one step: it stays in its buffer or is moved to a new one *)
Definition from_before w (o : op V) (c : nat) (x : array) : Prop :=
  (length (bufs w) <= sbuf (aslice x))%nat \/
  exists y, nth_error (arrays w) c = Some y /\ (afrozen x = false -> afrozen y = false) /\ sbuf (aslice x) = sbuf (aslice y) /\ soff (aslice x) = soff (aslice y) /\
            (appends V c o -> (slen (aslice y) <= slen (aslice x))%nat).
Lemma before_old w o c x : nth_error (arrays w) c = Some x -> from_before w o c x.
Proof. intros H. right. exists x. splits; auto. Qed.
Lemma before_upd w o a z c x : nth_error (upd (arrays w) a z) c = Some x -> (c = a -> x = z -> from_before w o c x) -> from_before w o c x.
Proof.
  intros H G. destruct (Nat.eq_dec c a) as [->|N].
  - assert (L : (a < length (arrays w))%nat) by (rewrite <- (upd_length (arrays w) a z); apply nth_error_Some; congruence).
    rewrite nth_error_upd_eq in H by exact L. injection H as <-. now apply G.
  - rewrite nth_error_upd_neq in H by congruence. now apply before_old.
Qed.
Lemma before_app w o z c x : nth_error (arrays w ++ [z]) c = Some x -> (x = z -> from_before w o c x) -> from_before w o c x.
Proof.
  intros H G. destruct (Nat.lt_ge_cases c (length (arrays w))) as [L|L].
  - rewrite nth_error_app1 in H by exact L. now apply before_old.
  - rewrite nth_error_app2 in H by exact L. destruct (c - length (arrays w))%nat; cbn in H; [|destruct n; discriminate]. injection H as <-. now apply G.
Qed.
Lemma before_remove w o a y p c x : nth_error (arrays w) a = Some y -> (appends V a o -> False) -> nth_error (arrays (fst (remove_pos V w a y p))) c = Some x -> from_before w o c x.
Proof.
  intros Hy NA. unfold remove_pos. destruct (_ && _); cbn [fst arrays set_array]; intros H; [|now apply before_old].
  apply (before_upd _ _ _ _ _ _ H). intros -> ->. right. exists y. cbn. splits; auto. intros Q. now destruct (NA Q).
Qed.
Lemma before_append w o a y xs fr c x : nth_error (arrays w) a = Some y -> afrozen y = fr -> nth_error (upd (arrays w) a (Array (snd (go_append (bufs w) (aslice y) xs)) fr)) c = Some x -> from_before w o c x.
Proof.
  intros Hy <- H. apply (before_upd _ _ _ _ _ _ H). intros -> ->. cbn. destruct (append_moves (bufs w) (aslice y) xs) as [(A & B & C)|A]; [right; exists y; splits; auto|left; exact A].
Qed.

Lemma step_before w o c x : list_op V o -> nth_error (arrays (fst (step w o))) c = Some x -> from_before w o c x.
Proof.
  intros LO.
  assert (WA : forall a (k : array -> heap * res V), (forall y, nth_error (arrays w) a = Some y -> nth_error (arrays (fst (k y))) c = Some x -> from_before w o c x) ->
    nth_error (arrays (fst (with_array V w a k))) c = Some x -> from_before w o c x).
  { intros a k G. unfold with_array. destruct (nth_error (arrays w) a) as [y|] eqn:E; [now apply G|]. apply before_old. }
  assert (AL : forall l cc fr, nth_error (arrays (fst (let (h, s) := alloc (bufs w) l cc in new_array V w h (Array s fr)))) c = Some x -> from_before w o c x).
  { intros l cc fr. unfold Slices.alloc. cbn [new_array fst arrays]. intros H. apply (before_app _ _ _ _ _ H). intros ->. left. cbn. lia. }
  destruct o; cbn [Slices.step] in *; try contradiction.
  - apply AL.
  - apply AL.
  - apply WA. intros y Hy. destruct (in_slice _ _); apply before_old.
  - apply WA. intros y Hy. apply before_old.
  - apply WA. intros y Hy. apply before_old.
  - apply WA. intros y Hy. apply before_old.
  - apply WA. intros y Hy. apply before_old.
  - apply WA. intros y Hy. destruct (afrozen y) eqn:Fy; [apply before_old|]. pose proof (before_append w (OAdd V a v) a y [Some v] false c x Hy Fy) as Q.
    destruct (go_append _ _ _). exact Q.
  - apply WA. intros y Hy. apply WA. intros z Hz. destruct (afrozen y) eqn:Fy; [apply before_old|].
    pose proof (before_append w (OAddAll V a b) a y (cells (bufs w) (aslice z)) false c x Hy Fy) as Q. destruct (go_append _ _ _). exact Q.
  - apply WA. intros y Hy. destruct (afrozen y) eqn:Fy; [apply before_old|]. pose proof (before_append w (OAddValues V a vs) a y (map Some vs) false c x Hy Fy) as Q.
    destruct (go_append _ _ _). exact Q.
  - apply WA. intros y Hy. destruct (afrozen y) eqn:Fy; [apply before_old|]. destruct (in_slice _ _); [|apply before_old]. cbn [fst arrays set_array]. intros H.
    apply (before_upd _ _ _ _ _ _ H). intros -> ->. now apply before_old.
  - apply WA. intros y Hy. destruct (afrozen y) eqn:Fy; [apply before_old|]. destruct (_ && _); [|apply before_old].
    destruct (alloc _ _ 0) as [h1 t] eqn:EA. destruct (go_append h1 _ (cells h1 t)) as [h2 s2] eqn:EG. cbn [fst arrays set_array]. intros H. apply (before_upd _ _ _ _ _ _ H). intros -> ->.
    match type of EG with go_append ?h ?s ?z = _ => pose proof (append_moves h s z) as M end. rewrite EG in M. cbn in M.
    assert (L1 : (length (bufs w) <= length h1)%nat) by (unfold Slices.alloc in EA; injection EA as <- <-; rewrite app_length; lia).
    destruct M as [(A & B & C)|A]; [right; exists y; cbn; splits; auto; intros Q; now destruct Q|left; cbn; lia].
  - apply WA. intros y Hy. destruct (afrozen y) eqn:Fy; [apply before_old|]. pose proof (before_remove w (ORemove V a i) a y i c x Hy ltac:(intros Q; now destruct Q)) as Q.
    destruct (remove_pos V w a y i). exact Q.
  - apply WA. intros y Hy. destruct (afrozen y) eqn:Fy; [apply before_old|].
    pose proof (before_remove w (ORemoveValue V a v) a y (index_cells V eqc 0 v (cells (bufs w) (aslice y))) c x Hy ltac:(intros Q; now destruct Q)) as Q. destruct (remove_pos V w a y _). exact Q.
  - apply WA. intros y Hy. destruct (afrozen y) eqn:Fy; [apply before_old|]. destruct (0 <=? _); [|apply before_old].
    pose proof (before_remove w (OPop V a) a y (Z.of_nat (slen (aslice y)) - 1) c x Hy ltac:(intros Q; now destruct Q)) as Q. destruct (remove_pos V w a y _). exact Q.
  - apply WA. intros y Hy. apply WA. intros z Hz. destruct (cells (bufs w) (aslice z)) as [|cc l]; [apply before_old|].
    destruct (alloc _ _ _) as [h1 s1] eqn:EA. assert (L1 : (length (bufs w) <= length h1)%nat /\ (length (bufs w) <= sbuf s1)%nat) by (unfold Slices.alloc in EA; injection EA as <- <-; rewrite app_length; cbn; lia).
    match goal with |- context [go_append h1 s1 ?q] => pose proof (append_moves h1 s1 q) as M; destruct (go_append h1 s1 q) as [h2 s2] end. cbn [fst snd new_array arrays] in *. intros H.
    apply (before_app _ _ _ _ _ H). intros ->. left. cbn. destruct M as [(A & B & C)|A]; lia.
  - apply WA. intros y Hy. destruct (_ && _); [apply before_old|]. apply AL.
  - apply WA. intros y Hy. cbn [fst arrays set_array]. intros H. apply (before_upd _ _ _ _ _ _ H). intros -> ->. right. exists y. cbn. splits; auto. discriminate.
  - apply WA. intros y Hy. apply AL.
  - apply WA. intros y Hy. destruct (alloc (bufs w) [] 0) as [h1 s1] eqn:EA.
    assert (L1 : (length (bufs w) <= length h1)%nat /\ (length (bufs w) <= sbuf s1)%nat) by (unfold Slices.alloc in EA; injection EA as <- <-; rewrite app_length; cbn; lia).
    assert (FL : forall l h s, (length (bufs w) <= length h)%nat -> (length (bufs w) <= sbuf s)%nat ->
      (length (bufs w) <= sbuf (snd (fold_left (fun hs c => if Bool.eqb (p c) keep then go_append (fst hs) (snd hs) [c] else hs) l (h, s))))%nat).
    { clear - grow. induction l as [|q l IH]; intros h s A B; cbn [fold_left]; [exact B|]. destruct (Bool.eqb (p q) keep); [|now apply IH]. cbn [fst snd].
      pose proof (append_moves h s [q]) as M. assert (G : (length h <= length (fst (go_append h s [q])))%nat).
      { unfold Slices.go_append. cbn zeta. destruct (_ <=? _)%nat; cbn [fst]; [now rewrite store_length|]. cbn. rewrite app_length. lia. }
      destruct (go_append h s [q]) as [h1 s1]. cbn [fst snd] in *. apply IH; lia. }
    specialize (FL (cells (bufs w) (aslice y)) h1 s1 (proj1 L1) (proj2 L1)). destruct (fold_left _ _ _) as [h2 s2]. cbn [fst snd new_array arrays] in *. intros H.
    apply (before_app _ _ _ _ _ H). intros ->. left. exact FL.
Qed.

Lemma append_prefix h s t xs : fits h s -> sbuf t = sbuf s -> soff t = soff s -> (slen s <= slen t)%nat -> fits (fst (go_append h t xs)) s /\ cells (fst (go_append h t xs)) s = cells h s.
Proof.
  intros F E1 E2 E3. unfold Slices.go_append. destruct xs as [|x r] eqn:Ex; [auto|]. rewrite <- Ex. cbn zeta.
  destruct (Nat.leb_spec (slen t + length xs) (cap h t)) as [L|L]; cbn [fst]; [|now apply alloc_keeps].
  unfold Slices.cap in L. destruct F as [F1 F2]. assert (Lx : (0 < length xs)%nat) by (subst xs; cbn; lia).
  assert (EB : buf h t = buf h s) by (unfold Slices.buf; now rewrite E1). rewrite EB in L.
  assert (B : buf (store h t (slen t) xs) s = blit (buf h s) (soff s + slen t) xs) by (rewrite (store_same V h t (slen t) xs s), EB, E2 by congruence; reflexivity).
  unfold SlicesProofs.fits, Slices.cells. rewrite B, store_length, blit_length by lia. split; [auto|]. rewrite skipn_blit by lia. apply firstn_blit_below; [exact E3|]. rewrite skipn_length. lia.
Qed.

Lemma owned_step w o a s cs : list_op V o -> appends V a o -> owned w a s cs -> owned (fst (step w o)) a s cs.
Proof.
  intros LO AP (F & C & W).
  assert (K : fits (bufs (fst (step w o))) s /\ cells (bufs (fst (step w o))) s = cells (bufs w) s).
  { assert (T : target V o = Some a \/ target V o <> Some a) by (destruct (target V o) as [k|]; [destruct (Nat.eq_dec k a); [left; congruence|right; congruence]|right; discriminate]).
    assert (AA : forall xs x, nth_error (arrays w) a = Some x -> afrozen x = false -> fits (fst (go_append (bufs w) (aslice x) xs)) s /\ cells (fst (go_append (bufs w) (aslice x) xs)) s = cells (bufs w) s).
    { intros xs x Hx Fx. destruct (Nat.eq_dec (sbuf (aslice x)) (sbuf s)) as [E|N].
      - destruct (W a x Hx Fx E) as (_ & E2 & E3). now apply append_prefix.
      - destruct (kept_append (sbuf s) (bufs w) (aslice x) xs (proj1 F) N) as [Q _]. now apply kept_cells. }
    destruct T as [T|T].
    - destruct o; cbn in T; try discriminate; injection T as ->; try (now destruct AP); cbn [Slices.step]; unfold with_array; destruct (nth_error (arrays w) a) as [x|] eqn:Hx; auto.
      + destruct (afrozen x) eqn:Fx; [auto|]. specialize (AA [Some v] x eq_refl Fx). destruct (go_append _ _ _). exact AA.
      + destruct (nth_error (arrays w) b) as [y|]; auto. destruct (afrozen x) eqn:Fx; [auto|]. specialize (AA (cells (bufs w) (aslice y)) x eq_refl Fx). destruct (go_append _ _ _). exact AA.
      + destruct (afrozen x) eqn:Fx; [auto|]. specialize (AA (map Some vs) x eq_refl Fx). destruct (go_append _ _ _). exact AA.
    - apply kept_cells; [exact F|]. apply step_frame; [exact LO|exact (proj1 F)|]. intros c x Tc Hx Fx E. destruct (W c x Hx Fx E) as (-> & _). congruence. }
  split; [apply K|]. split; [rewrite (proj2 K); exact C|]. intros c x Hx Fx E. destruct (step_before w o c x LO Hx) as [L|(y & Hy & Fy & E1 & E2 & E3)].
  - exfalso. destruct F. lia.
  - destruct (W c y Hy (Fy Fx) ltac:(congruence)) as (-> & Q1 & Q2). splits; [reflexivity|congruence|]. specialize (E3 AP). lia.
Qed.

Lemma owned_callback a s cs os : forall w w', Forall (fun o => list_op V o /\ appends V a o) os -> owned w a s cs -> callback V eqc fz th grow w os = Some w' -> owned w' a s cs.
Proof.
  induction os as [|o os IH]; intros w w' H O; cbn [callback]; [now intros [= <-]|]. apply Forall_cons_iff in H as [[H1 H2] H]. pose proof (owned_step w o a s cs H1 H2 O) as Q.
  destruct (step w o) as [w1 x]. cbn [fst] in Q. destruct x; try discriminate; apply IH; auto.
Qed.

Lemma each_appends f a s cs : (forall seen, Forall (fun o => list_op V o /\ appends V a o) (f seen)) -> forall n i w seen w' vs, owned w a s cs ->
  each_from V eqc fz th grow n i f s w seen = Some (w', vs) -> vs = rev seen ++ map (fun j => nth j cs None) (seq i n).
Proof.
  intros Hf. induction n as [|n IH]; intros i w seen w' vs O; cbn [each_from].
  - intros [= <- <-]. now rewrite app_nil_r.
  - destruct (callback _ _ _ _ _ w _) as [w1|] eqn:EC; [|discriminate]. intros H. apply IH in H; [|eapply owned_callback; eauto].
    rewrite H. cbn [rev seq map]. rewrite <- app_assoc. cbn. destruct O as (_ & -> & _). reflexivity.
Qed.

Lemma map_nth_seq (A : Type) (d : A) l : map (fun j => nth j l d) (seq 0 (length l)) = l.
Proof. induction l as [|x l IH]; [reflexivity|]. cbn [length seq map nth]. rewrite <- seq_shift, map_map. cbn [nth]. now rewrite IH. Qed.

Lemma each_length f s : forall n i w seen w' vs, each_from V eqc fz th grow n i f s w seen = Some (w', vs) -> length vs = (length seen + n)%nat.
Proof.
  induction n as [|n IH]; intros i w seen w' vs; cbn [each_from].
  - intros [= <- <-]. rewrite rev_length. lia.
  - destruct (callback _ _ _ _ _ _ _); [|discriminate]. intros H. apply IH in H. cbn in H. lia.
Qed.

Lemma owned_start w sw a x : rel w sw -> nth_error (arrays w) a = Some x -> owned w a (aslice x) (cells (bufs w) (aslice x)).
Proof.
  intros (R1 & R2 & R3) H. destruct (R2 a x H) as (l & E & F & C). split; [exact F|]. split; [reflexivity|]. intros c y Hy Fy Eb.
  destruct (Nat.eq_dec c a) as [->|N]; [|destruct (R3 c a y x Hy H N Eb); congruence]. rewrite H in Hy. injection Hy as <-. auto.
Qed.

Lemma appends_visited w sw a f w' vs : rel w sw -> (forall seen, Forall (fun o => list_op V o /\ appends V a o) (f seen)) -> each_array V eqc fz th grow a f w = Some (w', vs) ->
  exists x, nth_error (arrays w) a = Some x /\ vs = cells (bufs w) (aslice x).
Proof.
  intros R Hf. unfold each_array. destruct (nth_error (arrays w) a) as [x|] eqn:Hx; [|discriminate]. intros H. exists x. split; [reflexivity|].
  apply (each_appends f a _ _ Hf _ _ _ _ _ _ (owned_start w sw a x R Hx)) in H. rewrite H. cbn [rev app]. destruct (proj1 (proj2 R) a x Hx) as (l & _ & F & _).
  rewrite <- (cells_length V _ _ F). apply map_nth_seq.
Qed.
End Proofs.
