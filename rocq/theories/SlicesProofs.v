(* Arrays over shared backing arrays refine independent lists, as long as no operation uses the
   spare capacity of an array it does not own. *)
From Coq Require Import ZArith List Bool Lia.
From Verif Require Import HMap HMapBase HMapInv Slices SlicesSpec.
Import ListNotations.
Open Scope Z_scope.

Section Proofs.
Variable V : Type.
Variable eqc : V -> option V -> bool.
Variables fz th : V -> V.
Variable grow : nat -> nat -> nat.

Notation cells := (cells V). Notation store := (store V). Notation buf := (buf V). Notation cap := (cap V).
Notation blit := (blit V). Notation alloc := (alloc V). Notation go_append := (go_append V grow).
Notation step := (step V eqc fz th grow). Notation run := (run V eqc fz th grow).
Notation sstep := (sstep V eqc fz th). Notation srun := (srun V eqc fz th).
Notation bufs := (bufs V). Notation arrays := (arrays V). Notation heap := (heap V).
Implicit Types (h : list (list (option V))) (s t : slice) (w : heap) (sw : sworld V).

Definition fits h s : Prop := (sbuf s < length h)%nat /\ (soff s + slen s <= length (buf h s))%nat.

Lemma cells_length h s : fits h s -> length (cells h s) = slen s.
Proof. intros [_ H]. unfold Slices.cells. rewrite firstn_length, skipn_length. lia. Qed.

(* ---------- lists ---------- *)

Lemma skipn_skipn {A} (l : list A) n m : skipn n (skipn m l) = skipn (m + n) l.
Proof.
  revert l. induction m as [|m IH]; intros l; [reflexivity|]. destruct l; [now rewrite !skipn_nil|]. cbn. apply IH.
Qed.

Lemma blit_length l pos xs : (pos + length xs <= length l)%nat -> length (blit l pos xs) = length l.
Proof. intros H. unfold Slices.blit. rewrite !app_length, firstn_length, skipn_length. lia. Qed.

Lemma skipn_blit l off pos xs : (off + pos <= length l)%nat ->
  skipn off (blit l (off + pos) xs) = blit (skipn off l) pos xs.
Proof.
  intros H. unfold Slices.blit. rewrite skipn_app, firstn_length.
  replace (off - Nat.min (off + pos) (length l))%nat with O by lia. cbn [skipn].
  rewrite skipn_skipn. f_equal.
  - rewrite firstn_skipn_comm. reflexivity.
  - f_equal. f_equal. lia.
Qed.

Lemma firstn_blit l n pos xs : (pos + length xs <= n)%nat -> (n <= length l)%nat ->
  firstn n (blit l pos xs) = firstn pos l ++ xs ++ firstn (n - (pos + length xs)) (skipn (pos + length xs) l).
Proof.
  intros H1 H2. unfold Slices.blit. rewrite !firstn_app, firstn_length, firstn_firstn.
  replace (Nat.min n pos) with pos by lia. f_equal.
  replace (n - Nat.min pos (length l))%nat with (n - pos)%nat by lia.
  rewrite (firstn_all2 xs) by lia. f_equal. f_equal. lia.
Qed.

Lemma firstn_blit_below l n pos xs : (n <= pos)%nat -> (pos <= length l)%nat ->
  firstn n (blit l pos xs) = firstn n l.
Proof.
  intros H1 H2. unfold Slices.blit. rewrite firstn_app, firstn_length, firstn_firstn.
  replace (Nat.min n pos) with n by lia. replace (n - Nat.min pos (length l))%nat with O by lia.
  cbn. apply app_nil_r.
Qed.

(* ---------- store and alloc ---------- *)

Lemma nth_upd_same {A} (l : list A) i x d : (i < length l)%nat -> nth i (upd l i x) d = x.
Proof. intros H. apply nth_error_nth. now apply nth_error_upd_eq. Qed.

Lemma nth_upd_other {A} (l : list A) i j x d : i <> j -> nth j (upd l i x) d = nth j l d.
Proof.
  intros H. destruct (nth_error l j) as [y|] eqn:E.
  - rewrite (nth_error_nth _ _ _ E). apply nth_error_nth. now rewrite nth_error_upd_neq.
  - pose proof E as E'. rewrite <- (nth_error_upd_neq l i j x H) in E'.
    apply nth_error_None in E, E'. rewrite !nth_overflow; auto.
Qed.

Lemma store_length h s pos xs : length (store h s pos xs) = length h.
Proof. unfold Slices.store. apply upd_length. Qed.

Lemma store_other h s pos xs t : sbuf t <> sbuf s ->
  buf (store h s pos xs) t = buf h t.
Proof. intros H. unfold Slices.buf, Slices.store. now rewrite nth_upd_other by congruence. Qed.

Lemma store_same h s pos xs t : (sbuf s < length h)%nat -> sbuf t = sbuf s ->
  buf (store h s pos xs) t = blit (buf h s) (soff s + pos) xs.
Proof. intros H E. unfold Slices.buf at 1, Slices.store. rewrite E. now rewrite nth_upd_same. Qed.

Lemma store_keeps h s pos xs t : fits h t -> sbuf t <> sbuf s ->
  fits (store h s pos xs) t /\ cells (store h s pos xs) t = cells h t.
Proof.
  intros [H1 H2] H. unfold fits, Slices.cells. rewrite store_other by exact H. rewrite store_length. auto.
Qed.

Lemma alloc_keeps h xs c t : fits h t ->
  fits (fst (alloc h xs c)) t /\ cells (fst (alloc h xs c)) t = cells h t.
Proof.
  intros [H1 H2]. cbn. unfold fits, Slices.cells, Slices.buf in *. rewrite app_length, app_nth1 by exact H1.
  split; [split; [cbn; lia|exact H2]|reflexivity].
Qed.

Lemma alloc_new h xs c :
  fits (fst (alloc h xs c)) (snd (alloc h xs c)) /\ cells (fst (alloc h xs c)) (snd (alloc h xs c)) = xs /\
  sbuf (snd (alloc h xs c)) = length h.
Proof.
  cbn. unfold fits, Slices.cells, Slices.buf. cbn. rewrite app_nth2, Nat.sub_diag by lia. cbn.
  splits; [rewrite app_length; cbn; lia|rewrite app_length; lia| |reflexivity].
  rewrite firstn_app, Nat.sub_diag, firstn_all. cbn. apply app_nil_r.
Qed.

Lemma store_cells h s pos xs n : fits h s -> (pos + length xs <= n)%nat -> (soff s + n <= length (buf h s))%nat ->
  let t := Slice (sbuf s) (soff s) n in
  fits (store h s pos xs) t /\
  cells (store h s pos xs) t =
    firstn pos (skipn (soff s) (buf h s)) ++ xs ++
    firstn (n - (pos + length xs)) (skipn (pos + length xs) (skipn (soff s) (buf h s))).
Proof.
  intros [H1 H2] H3 H4 t. unfold fits, Slices.cells.
  rewrite store_same by (auto; reflexivity). cbn. rewrite store_length, blit_length by lia.
  split; [auto|]. rewrite skipn_blit by lia. apply firstn_blit; [lia|]. rewrite skipn_length. lia.
Qed.

(* ---------- append ---------- *)

Lemma append_correct h s xs : fits h s ->
  let h' := fst (go_append h s xs) in let s' := snd (go_append h s xs) in
  fits h' s' /\ cells h' s' = cells h s ++ xs /\
  (sbuf s' = sbuf s \/ sbuf s' = length h) /\
  (forall t, fits h t -> sbuf t <> sbuf s -> fits h' t /\ cells h' t = cells h t) /\
  (xs <> [] -> cap h s = slen s ->
     sbuf s' = length h /\ forall t, fits h t -> fits h' t /\ cells h' t = cells h t).
Proof.
  intros F. unfold Slices.go_append. destruct xs as [|x r] eqn:Ex.
  { cbn. rewrite app_nil_r. splits; auto. congruence. }
  rewrite <- Ex. set (n := (slen s + length xs)%nat). assert (Lx : (0 < length xs)%nat) by (subst xs; cbn; lia).
  destruct (Nat.leb_spec n (cap h s)) as [L|L]; cbn [fst snd].
  - unfold Slices.cap in *. pose proof F as [F1 F2].
    destruct (store_cells h s (slen s) xs n F ltac:(lia) ltac:(lia)) as [G1 G2].
    splits; auto.
    + rewrite G2. subst n. rewrite Nat.sub_diag. cbn. rewrite app_nil_r. reflexivity.
    + intros t Ht Hn. now apply store_keeps.
    + intros _ Hc. exfalso. lia.
  - destruct (alloc_new h (cells h s ++ xs) (Nat.max n (grow (cap h s) n))) as (G1 & G2 & G3).
    splits; auto.
    + intros t Ht Hn. now apply alloc_keeps.
    + intros _ _. split; [exact G3|]. intros t Ht. now apply alloc_keeps.
Qed.

(* ---------- the relation ---------- *)

Definition rel w sw : Prop :=
  length (arrays w) = length sw /\
  (forall a x, nth_error (arrays w) a = Some x ->
     exists l, nth_error sw a = Some (afrozen x, l) /\ fits (bufs w) (aslice x) /\ cells (bufs w) (aslice x) = map Some l) /\
  (forall a b x y, nth_error (arrays w) a = Some x -> nth_error (arrays w) b = Some y -> a <> b ->
     sbuf (aslice x) = sbuf (aslice y) -> afrozen x = true /\ afrozen y = true).

Lemma rel_len w sw a x l : rel w sw -> nth_error (arrays w) a = Some x ->
  nth_error sw a = Some (afrozen x, l) -> slen (aslice x) = length l.
Proof.
  intros (R1 & R2 & R3) H H'. destruct (R2 a x H) as (l' & E & F & C).
  rewrite E in H'. injection H' as <-. rewrite <- (cells_length _ _ F), C. apply map_length.
Qed.

Lemma rel_mut w sw a x h' s' l' :
  rel w sw -> nth_error (arrays w) a = Some x -> afrozen x = false ->
  fits h' s' -> cells h' s' = map Some l' ->
  (sbuf s' = sbuf (aslice x) \/ (length (bufs w) <= sbuf s')%nat) ->
  (forall t, fits (bufs w) t -> sbuf t <> sbuf (aslice x) -> fits h' t /\ cells h' t = cells (bufs w) t) ->
  rel (set_array V w h' a (Array s' false)) (upd sw a (false, l')).
Proof.
  intros (R1 & R2 & R3) H Hf F' C' B' K'.
  assert (La : (a < length (arrays w))%nat) by (apply nth_error_Some; congruence).
  assert (OTHER : forall b y, nth_error (arrays w) b = Some y -> b <> a -> sbuf (aslice y) <> sbuf (aslice x)).
  { intros b y Hb Nb E. destruct (R3 b a y x Hb H Nb E). congruence. }
  unfold set_array. split; [|split]; cbn.
  - now rewrite !upd_length.
  - intros b y Hb. destruct (Nat.eq_dec a b) as [<-|Nb].
    + rewrite nth_error_upd_eq in Hb by exact La. injection Hb as <-. cbn.
      exists l'. rewrite nth_error_upd_eq by lia. auto.
    + rewrite nth_error_upd_neq in Hb by exact Nb. rewrite nth_error_upd_neq by exact Nb.
      destruct (R2 b y Hb) as (l & E & F & C). exists l. split; [exact E|].
      destruct (K' (aslice y) F) as [K1 K2]; [eauto|]. rewrite K2. auto.
  - assert (NEW : forall b y, nth_error (arrays w) b = Some y -> b <> a -> sbuf (aslice y) <> sbuf s').
    { intros b y Hb Nb E. destruct B' as [B'|B'].
      - rewrite B' in E. eapply OTHER; eauto.
      - destruct (R2 b y Hb) as (l & _ & [F _] & _). lia. }
    intros b c y z Hb Hc Nbc E. destruct (Nat.eq_dec a b) as [<-|Nb], (Nat.eq_dec a c) as [<-|Nc]; try congruence.
    + rewrite nth_error_upd_eq in Hb by exact La. injection Hb as <-. cbn in *.
      rewrite nth_error_upd_neq in Hc by exact Nc. exfalso. apply (NEW c z); auto.
    + rewrite nth_error_upd_eq in Hc by exact La. injection Hc as <-. cbn in *.
      rewrite nth_error_upd_neq in Hb by exact Nb. exfalso. apply (NEW b y); auto.
    + rewrite nth_error_upd_neq in Hb by exact Nb. rewrite nth_error_upd_neq in Hc by exact Nc.
      apply (R3 b c); auto.
Qed.

Lemma rel_new w sw h' s' fr l' :
  rel w sw ->
  fits h' s' -> cells h' s' = map Some l' ->
  (forall t, fits (bufs w) t -> fits h' t /\ cells h' t = cells (bufs w) t) ->
  ((length (bufs w) <= sbuf s')%nat \/
   (fr = true /\ forall b y, nth_error (arrays w) b = Some y -> sbuf (aslice y) = sbuf s' -> afrozen y = true)) ->
  rel (fst (new_array V w h' (Array s' fr))) (fst (snew V sw fr l')) /\
  snd (new_array V w h' (Array s' fr)) = snd (snew V sw fr l').
Proof.
  intros (R1 & R2 & R3) F' C' K' B'. cbn. split; [|now rewrite R1].
  split; [|split]; cbn.
  - rewrite !app_length. cbn. lia.
  - intros b y Hb. destruct (lt_dec b (length (arrays w))) as [L|L].
    + rewrite nth_error_app1 in Hb by exact L. rewrite nth_error_app1 by lia.
      destruct (R2 b y Hb) as (l & E & F & C). exists l. destruct (K' _ F) as [K1 K2]. rewrite K2. auto.
    + rewrite nth_error_app2 in Hb by lia. rewrite nth_error_app2 by lia. rewrite <- R1.
      destruct (b - length (arrays w))%nat as [|q]; [|destruct q; discriminate].
      cbn in *. injection Hb as <-. cbn. exists l'. auto.
  - assert (OLD : forall b y, nth_error (arrays w) b = Some y -> sbuf (aslice y) = sbuf s' -> fr = true /\ afrozen y = true).
    { intros b y Hb E. destruct B' as [B'|[B1 B2]].
      - destruct (R2 b y Hb) as (l & _ & [F _] & _). lia.
      - split; [exact B1|eapply B2; eauto]. }
    intros b c y z Hb Hc Nbc E.
    destruct (lt_dec b (length (arrays w))) as [Lb|Lb], (lt_dec c (length (arrays w))) as [Lc|Lc].
    + rewrite nth_error_app1 in Hb, Hc by assumption. eapply R3; eauto.
    + rewrite nth_error_app1 in Hb by assumption. rewrite nth_error_app2 in Hc by lia.
      destruct (c - length (arrays w))%nat as [|q]; [|destruct q; discriminate]. cbn in Hc. injection Hc as <-. cbn in *.
      destruct (OLD b y Hb E). auto.
    + rewrite nth_error_app1 in Hc by assumption. rewrite nth_error_app2 in Hb by lia.
      destruct (b - length (arrays w))%nat as [|q]; [|destruct q; discriminate]. cbn in Hb. injection Hb as <-. cbn in *.
      destruct (OLD c z Hc (eq_sym E)). auto.
    + exfalso. rewrite nth_error_app2 in Hb, Hc by lia.
      destruct (b - length (arrays w))%nat as [|q] eqn:Eb; [|destruct q; discriminate].
      destruct (c - length (arrays w))%nat as [|q] eqn:Ec; [|destruct q; discriminate]. lia.
Qed.

(* ---------- the steps ---------- *)

Lemma rel_none w sw a : rel w sw -> nth_error (arrays w) a = None -> nth_error sw a = None.
Proof. intros (R1 & _) H. apply nth_error_None in H. apply nth_error_None. lia. Qed.

Lemma upd_self {A} (l : list A) i x : nth_error l i = Some x -> upd l i x = l.
Proof.
  revert i. induction l as [|y r IH]; intros [|i] H; cbn in *; try discriminate; f_equal; auto; congruence.
Qed.

Lemma nth_map_some (l : list V) n : nth n (map Some l) None = nth_error l n.
Proof.
  revert n. induction l as [|x r IH]; intros [|n]; cbn; auto.
Qed.

Lemma position_index v (l : list V) i :
  index_cells V eqc i v (map Some l) =
  match position V eqc v l with None => -1 | Some n => i + Z.of_nat n end.
Proof.
  revert i. induction l as [|x r IH]; intros i; cbn; [reflexivity|].
  destruct (eqc v (Some x)); [lia|]. rewrite IH. destruct (position V eqc v r); lia.
Qed.

Lemma position_lt v l n : position V eqc v l = Some n -> (n < length l)%nat.
Proof.
  revert n. induction l as [|x r IH]; intros n; cbn; [discriminate|].
  destruct (eqc v (Some x)); [intros H; injection H as <-; lia|].
  destruct (position V eqc v r) as [m|]; [|discriminate]. intros H. injection H as <-.
  specialize (IH m eq_refl). lia.
Qed.

Lemma remove_rel w sw a x l p : rel w sw -> nth_error (arrays w) a = Some x -> afrozen x = false ->
  nth_error sw a = Some (false, l) -> (p < length l)%nat ->
  rel (fst (remove_pos V w a x (Z.of_nat p))) (upd sw a (false, remove_nth V l p)) /\
  snd (remove_pos V w a x (Z.of_nat p)) = nth_error l p.
Proof.
  intros R H Hf Hl Hp. pose proof (rel_len w sw a x l R H ltac:(now rewrite Hf)) as Len.
  destruct (proj1 (proj2 R) a x H) as (l0 & E & F & C). rewrite Hf, Hl in E. injection E as <-.
  unfold remove_pos. rewrite C.
  destruct (Z.leb_spec 0 (Z.of_nat p)) as [_|]; [|lia].
  destruct (Z.ltb_spec (Z.of_nat p) (Z.of_nat (slen (aslice x)))) as [_|]; [|lia]. cbn [andb fst snd].
  rewrite Nat2Z.id. split; [|now rewrite nth_map_some].
  set (s := aslice x) in *. set (h := bufs w) in *. set (n := (slen s - 1)%nat).
  pose proof F as [F1 F2].
  assert (Ht : length (skipn (S p) (map Some l)) = (n - p)%nat) by (rewrite skipn_length, map_length; lia).
  set (h1 := store h s p (skipn (S p) (map Some l))).
  assert (B1 : buf h1 s = blit (buf h s) (soff s + p) (skipn (S p) (map Some l))) by (apply store_same; auto).
  assert (F1' : fits h1 s).
  { split; [unfold h1; now rewrite store_length|]. rewrite B1, blit_length by lia. exact F2. }
  assert (C1 : firstn n (skipn (soff s) (buf h1 s)) = map Some (remove_nth V l p)).
  { rewrite B1, skipn_blit by lia. rewrite firstn_blit; [|lia|rewrite skipn_length; lia].
    rewrite Ht. replace (n - (p + (n - p)))%nat with O by lia. cbn [firstn]. rewrite app_nil_r.
    unfold remove_nth. rewrite map_app, <- firstn_map, <- skipn_map. f_equal.
    rewrite <- C. unfold Slices.cells. rewrite firstn_firstn. f_equal. lia. }
  rewrite Hf. apply (rel_mut w sw a x); auto.
  - split; cbn; [unfold h1; now rewrite !store_length|].
    rewrite store_same by (auto; apply F1'). rewrite B1, !blit_length; try lia.
    rewrite blit_length by lia. cbn. lia.
  - unfold Slices.cells. cbn [sbuf soff slen]. rewrite store_same by (auto; apply F1').
    rewrite skipn_blit by (rewrite B1, blit_length; lia).
    rewrite firstn_blit_below; [exact C1|lia|]. rewrite skipn_length, B1, blit_length by lia. lia.
  - intros t Ft Nt. destruct (store_keeps h s p (skipn (S p) (map Some l)) t Ft Nt) as [K1 K2].
    destruct (store_keeps h1 s n [None] t K1 Nt) as [K3 K4]. split; [exact K3|]. fold h1 in K2. now rewrite K4, K2.
Qed.

Lemma remove_last (l : list V) : l <> [] -> remove_nth V l (length l - 1) = removelast l.
Proof.
  intros H. destruct (exists_last H) as (r & x & ->). rewrite removelast_last. unfold remove_nth.
  rewrite app_length. cbn [length]. replace (length r + 1 - 1)%nat with (length r) by lia.
  rewrite firstn_app, Nat.sub_diag, firstn_all, skipn_all2 by (rewrite app_length; cbn; lia). cbn.
  now rewrite !app_nil_r.
Qed.

Lemma last_nth (l : list V) : last (map Some l) None = nth_error l (length l - 1).
Proof.
  destruct l as [|y r] using rev_ind; [reflexivity|].
  rewrite map_app. cbn. rewrite last_last, app_length. cbn.
  replace (length r + 1 - 1)%nat with (length r) by lia.
  rewrite nth_error_app2, Nat.sub_diag by lia. reflexivity.
Qed.

Lemma fits_grow h s : fits h s -> (sbuf s < length h)%nat.
Proof. intros [H _]. exact H. Qed.

Lemma select_fold p keep (l : list V) : forall h s, fits h s ->
  let hs := fold_left (fun hs c => if Bool.eqb (p c) keep then go_append (fst hs) (snd hs) [c] else hs) (map Some l) (h, s) in
  fits (fst hs) (snd hs) /\
  cells (fst hs) (snd hs) = cells h s ++ map Some (filter (fun x => Bool.eqb (p (Some x)) keep) l) /\
  (sbuf s <= sbuf (snd hs))%nat /\
  (forall t, fits h t -> (sbuf t < sbuf s)%nat -> fits (fst hs) t /\ cells (fst hs) t = cells h t).
Proof.
  induction l as [|x r IH]; intros h s F; cbn [map fold_left filter].
  - cbn. rewrite app_nil_r. auto.
  - destruct (Bool.eqb (p (Some x)) keep) eqn:E; [|apply IH; exact F].
    cbn [fst snd]. destruct (append_correct h s [Some x] F) as (G1 & G2 & G3 & G4 & _).
    destruct (go_append h s [Some x]) as [h1 s1]. cbn [fst snd] in *.
    destruct (IH h1 s1 G1) as (I1 & I2 & I3 & I4).
    assert (B : (sbuf s <= sbuf s1)%nat) by (destruct F; destruct G3; lia).
    splits; [exact I1| |lia|].
    + rewrite I2, G2, <- app_assoc. reflexivity.
    + intros t Ft Lt. destruct (G4 t Ft ltac:(lia)) as [K1 K2]. destruct (I4 t K1 ltac:(lia)) as [K3 K4].
      split; [exact K3|congruence].
Qed.

Lemma step_rel w sw o : rel w sw -> no_spare V w o ->
  rel (fst (step w o)) (fst (sstep sw o)) /\ snd (step w o) = snd (sstep sw o).
Proof.
  intros R NS.
  assert (BAD : forall a (f : array -> heap * res V) g,
     (forall x l, nth_error (arrays w) a = Some x -> nth_error sw a = Some (afrozen x, l) ->
        fits (bufs w) (aslice x) -> cells (bufs w) (aslice x) = map Some l -> slen (aslice x) = length l ->
        rel (fst (f x)) (fst (g (afrozen x) l)) /\ snd (f x) = snd (g (afrozen x) l)) ->
     rel (fst (with_array V w a f)) (fst (sarr V sw a g)) /\ snd (with_array V w a f) = snd (sarr V sw a g)).
  { intros a f g H. unfold with_array, sarr. destruct (nth_error (arrays w) a) as [x|] eqn:E.
    - destruct (proj1 (proj2 R) a x E) as (l & El & F & C). rewrite El. apply H; auto.
      eapply rel_len; eauto.
    - rewrite (rel_none w sw a R E). cbn. auto. }
  assert (MUT : forall a x l l' h' s' (r : res V), nth_error (arrays w) a = Some x -> afrozen x = false ->
     nth_error sw a = Some (false, l) ->
     fits h' s' -> cells h' s' = map Some l' ->
     (sbuf s' = sbuf (aslice x) \/ sbuf s' = length (bufs w)) ->
     (forall t, fits (bufs w) t -> sbuf t <> sbuf (aslice x) -> fits h' t /\ cells h' t = cells (bufs w) t) ->
     rel (fst (set_array V w h' a (Array s' false), r)) (fst (upd sw a (false, l'), r)) /\ r = r).
  { intros a x l l' h' s' r H Hf Hl F' C' B' K'. cbn. split; [|reflexivity].
    eapply rel_mut; eauto. destruct B'; [auto|right; lia]. }
  assert (NEWA : forall xs c l fr, xs = map Some l ->
     rel (fst (let (h, s) := alloc (bufs w) xs c in new_array V w h (Array s fr))) (fst (snew V sw fr l)) /\
     snd (let (h, s) := alloc (bufs w) xs c in new_array V w h (Array s fr)) = snd (snew V sw fr l)).
  { intros xs c l fr Hx.
    pose proof (alloc_keeps (bufs w) xs c) as K. destruct (alloc_new (bufs w) xs c) as (G1 & G2 & G3).
    destruct (alloc (bufs w) xs c) as [h s]. cbn [fst snd] in *.
    apply rel_new; auto; [congruence|]. left. lia. }
  assert (WITH : forall a x l xs ys, nth_error (arrays w) a = Some x -> nth_error sw a = Some (afrozen x, l) ->
     fits (bufs w) (aslice x) -> cells (bufs w) (aslice x) = map Some l ->
     cap (bufs w) (aslice x) = slen (aslice x) -> xs = map Some ys -> ys <> [] ->
     rel (fst (let (h, s) := go_append (bufs w) (aslice x) xs in new_array V w h (Array s (afrozen x))))
         (fst (snew V sw (afrozen x) (l ++ ys))) /\
     snd (let (h, s) := go_append (bufs w) (aslice x) xs in new_array V w h (Array s (afrozen x))) =
     snd (snew V sw (afrozen x) (l ++ ys))).
  { intros a x l xs ys H Hl F C Hc Hx Hy.
    destruct (append_correct (bufs w) (aslice x) xs F) as (G1 & G2 & _ & _ & G5).
    destruct (go_append (bufs w) (aslice x) xs) as [h s]. cbn [fst snd] in *.
    destruct G5 as [G5 G6]; [subst xs; destruct ys; [congruence|discriminate]|exact Hc|].
    apply rel_new; auto; [|left; lia]. rewrite G2, C, Hx, map_app. reflexivity. }
  assert (APP : forall a x l xs ys (r : res V), nth_error (arrays w) a = Some x -> afrozen x = false ->
     nth_error sw a = Some (false, l) -> fits (bufs w) (aslice x) -> cells (bufs w) (aslice x) = map Some l ->
     xs = map Some ys ->
     rel (fst (let (h, s) := go_append (bufs w) (aslice x) xs in (set_array V w h a (Array s false), r)))
         (fst (upd sw a (false, l ++ ys), r)) /\
     snd (let (h, s) := go_append (bufs w) (aslice x) xs in (set_array V w h a (Array s false), r)) = r).
  { intros a x l xs ys r H Hf Hl F C Hx.
    destruct (append_correct (bufs w) (aslice x) xs F) as (G1 & G2 & G3 & G4 & _).
    destruct (go_append (bufs w) (aslice x) xs) as [h s]. cbn [snd]. cbn [fst snd] in *.
    split; [|reflexivity].
    apply (fun Z => proj1 (MUT a x l (l ++ ys) h s r H Hf Hl G1 Z G3 G4)).
    rewrite G2, C, Hx, map_app. reflexivity. }
  destruct o as [fr vs|c|a i|a|a|a v|a|a v|a b|a vs|a i v|a i v|a i|a v|a|a i j|a v|a vs|a b|a fr|a|a f|a keep p];
    cbn [Slices.step SlicesSpec.sstep no_spare] in *.
  - apply NEWA. destruct fr; [now rewrite map_map|reflexivity].
  - apply NEWA. reflexivity.
  - apply BAD. intros x l H Hl F C Len. unfold in_slice, valid. rewrite Len.
    destruct ((0 <=? i) && (i <? Z.of_nat (length l))); cbn; auto.
    rewrite C, nth_map_some. auto.
  - apply BAD. intros x l H Hl F C Len. cbn. rewrite Len. auto.
  - apply BAD. intros x l H Hl F C Len. cbn. rewrite C. auto.
  - apply BAD. intros x l H Hl F C Len. cbn [fst snd]. rewrite C, position_index.
    split; [exact R|]. f_equal. destruct (position V eqc v l); [lia|reflexivity].
  - apply BAD. intros x l H Hl F C Len. cbn. auto.
  - apply BAD. intros x l H Hl F C Len. destruct (afrozen x) eqn:Hf; [cbn; auto|].
    eapply (APP a x l [Some v] [v]); eauto.
  - (* AddAll: the order of looking up receiver and argument does not matter *)
    unfold smut, sarr, with_array.
    destruct (nth_error (arrays w) a) as [x|] eqn:Ha.
    + destruct (proj1 (proj2 R) a x Ha) as (l & Hl & F & C). rewrite Hl.
      destruct (nth_error (arrays w) b) as [y|] eqn:Hb.
      * destruct (proj1 (proj2 R) b y Hb) as (m & Hm & Fm & Cm). rewrite Hm.
        destruct (afrozen x) eqn:Hf; [cbn; auto|].
        eapply (APP a x l _ m); eauto.
      * rewrite (rel_none w sw b R Hb). cbn. auto.
    + rewrite (rel_none w sw a R Ha). destruct (nth_error sw b) as [[fr m]|]; cbn; auto.
  - apply BAD. intros x l H Hl F C Len. destruct (afrozen x) eqn:Hf; [cbn; auto|].
    eapply (APP a x l _ vs); eauto.
  - (* Set *)
    apply BAD. intros x l H Hl F C Len. destruct (afrozen x) eqn:Hf; [cbn; auto|].
    unfold in_slice, valid. rewrite Len.
    destruct ((0 <=? i) && (i <? Z.of_nat (length l))) eqn:Ei; [|cbn; auto].
    apply andb_prop in Ei as [E1 E2]. apply Z.leb_le in E1. apply Z.ltb_lt in E2.
    set (p := Z.to_nat i). assert (Hp : (p < length l)%nat) by lia. cbn [fst snd]. pose proof F as [F1 F2].
    destruct (store_cells (bufs w) (aslice x) p [Some v] (slen (aslice x)) F) as [G1 G2]; [cbn; lia|lia|].
    assert (Es : Slice (sbuf (aslice x)) (soff (aslice x)) (slen (aslice x)) = aslice x) by (now destruct (aslice x)).
    rewrite Es in *. split; [|now rewrite C, nth_map_some].
    assert (Ex : x = Array (aslice x) false) by (destruct x; cbn in *; congruence).
    rewrite Ex at 2. eapply rel_mut; eauto.
    + rewrite G2. rewrite map_app. cbn [map]. rewrite <- firstn_map, <- skipn_map, <- C. unfold Slices.cells.
      rewrite firstn_firstn. replace (Nat.min p (slen (aslice x))) with p by lia. f_equal. cbn [app length]. f_equal.
      rewrite Nat.add_1_r. now rewrite skipn_firstn_comm.
    + intros t Ft Nt. now apply store_keeps.
  - (* Insert *)
    apply BAD. intros x l H Hl F C Len. destruct (afrozen x) eqn:Hf; [cbn; auto|].
    rewrite Len. destruct ((0 <=? i) && (i <=? Z.of_nat (length l))) eqn:Ei; [|cbn; auto].
    apply andb_prop in Ei as [E1 E2]. apply Z.leb_le in E1. apply Z.leb_le in E2.
    set (p := Z.to_nat i). assert (Hp : (p <= length l)%nat) by lia.
    set (ys := Some v :: skipn p (cells (bufs w) (aslice x))).
    pose proof (alloc_keeps (bufs w) ys 0) as K. destruct (alloc_new (bufs w) ys 0) as (G1 & G2 & G3).
    destruct (alloc (bufs w) ys 0) as [h1 t0]. cbn [fst snd] in *. rewrite G2.
    set (s0 := Slice (sbuf (aslice x)) (soff (aslice x)) p).
    assert (F0 : fits (bufs w) s0) by (destruct F; split; cbn; [auto|unfold Slices.buf in *; cbn; lia]).
    destruct (K s0 F0) as [F1 C1].
    destruct (append_correct h1 s0 ys F1) as (A1 & A2 & A3 & A4 & _).
    destruct (go_append h1 s0 ys) as [h s']. cbn [fst snd] in *. split; [|reflexivity].
    rewrite <- Hf. 
    assert (L1 : (length (bufs w) <= length h1)%nat) by (destruct G1; lia).
    rewrite Hf. eapply (rel_mut w sw a x); eauto.
    + rewrite A2, C1. unfold s0, ys, Slices.cells at 1. cbn. unfold Slices.buf. cbn.
      change (nth (sbuf (aslice x)) (bufs w) []) with (buf (bufs w) (aslice x)).
      rewrite map_app. cbn [map]. rewrite <- firstn_map, <- skipn_map, <- C. unfold Slices.cells.
      rewrite firstn_firstn. do 2 f_equal. lia.
    + destruct A3 as [A3|A3]; [left; exact A3|right; lia].
    + intros t Ft Nt. destruct (K t Ft) as [K1 K2]. destruct (A4 t K1 Nt) as [K3 K4]. split; [exact K3|congruence].
  - (* Remove *)
    apply BAD. intros x l H Hl F C Len. destruct (afrozen x) eqn:Hf; [cbn; auto|].
    unfold valid. destruct ((0 <=? i) && (i <? Z.of_nat (length l))) eqn:Ei.
    + apply andb_prop in Ei as [E1 E2]. apply Z.leb_le in E1. apply Z.ltb_lt in E2.
      destruct (remove_rel w sw a x l (Z.to_nat i) R H Hf Hl ltac:(lia)) as [G1 G2].
      rewrite Z2Nat.id in G1, G2 by lia. destruct (remove_pos V w a x i) as [w' c]. cbn in *. now rewrite G2.
    + unfold remove_pos. rewrite Len, Ei. cbn. rewrite upd_self by exact Hl. auto.
  - (* RemoveValue *)
    apply BAD. intros x l H Hl F C Len. destruct (afrozen x) eqn:Hf; [cbn; auto|].
    rewrite C, position_index. destruct (position V eqc v l) as [n|] eqn:En.
    + pose proof (position_lt v l n En) as Hn. rewrite Z.add_0_l.
      destruct (remove_rel w sw a x l n R H Hf Hl Hn) as [G1 G2].
      destruct (remove_pos V w a x (Z.of_nat n)) as [w' c]. cbn in *. split; [exact G1|].
      rewrite G2. destruct (nth_error l n) eqn:E; [reflexivity|]. apply nth_error_None in E. lia.
    + unfold remove_pos. cbn. rewrite upd_self by exact Hl. auto.
  - (* Pop *)
    apply BAD. intros x l H Hl F C Len. destruct (afrozen x) eqn:Hf; [cbn; auto|].
    rewrite Len. destruct (Z.leb_spec 0 (Z.of_nat (length l) - 1)) as [L|L].
    + assert (E : Z.of_nat (length l) - 1 = Z.of_nat (length l - 1)) by lia. rewrite E.
      destruct (remove_rel w sw a x l (length l - 1) R H Hf Hl ltac:(lia)) as [G1 G2].
      destruct (remove_pos V w a x (Z.of_nat (length l - 1))) as [w' c]. cbn in *.
      rewrite remove_last in G1 by (intros ->; cbn in L; lia). split; [exact G1|].
      now rewrite G2, last_nth.
    + destruct l; [|cbn [length] in L; lia]. cbn. rewrite upd_self by exact Hl. auto.
  - (* Slice *)
    apply BAD. intros x l H Hl F C Len. rewrite Len. specialize (NS x H). rewrite Len in NS.
    destruct (afrozen x && (i =? 0) && (j =? Z.of_nat (length l))) eqn:E0; [cbn; auto|].
    pose proof F as [F1 F2].
    assert (Hcap : (length l <= cap (bufs w) (aslice x))%nat) by (unfold Slices.cap; lia).
    destruct (Z.leb_spec j (Z.of_nat (cap (bufs w) (aslice x)))) as [_|]; [|lia].
    destruct (Z.leb_spec j (Z.of_nat (length l))) as [_|]; [|lia]. rewrite !andb_true_r.
    destruct ((0 <=? i) && (i <=? j)) eqn:Ei; [|cbn; auto].
    apply andb_prop in Ei as [E1 E2]. apply Z.leb_le in E1. apply Z.leb_le in E2.
    set (ss := Slice (sbuf (aslice x)) (soff (aslice x) + Z.to_nat i) (Z.to_nat (j - i))).
    assert (Bss : buf (bufs w) ss = buf (bufs w) (aslice x)) by reflexivity.
    assert (Fss : fits (bufs w) ss) by (split; cbn; [auto|rewrite Bss; lia]).
    assert (Css : cells (bufs w) ss = map Some (firstn (Z.to_nat (j - i)) (skipn (Z.to_nat i) l))).
    { unfold Slices.cells. rewrite Bss. cbn. rewrite <- firstn_map, <- skipn_map, <- C. unfold Slices.cells.
      rewrite skipn_firstn_comm, firstn_firstn, skipn_skipn. f_equal; lia. }
    destruct (afrozen x) eqn:Hf.
    + apply rel_new; auto. right. split; [reflexivity|]. intros b y Hb Eb.
      destruct (Nat.eq_dec b a) as [->|Nb]; [congruence|].
      destruct (proj2 (proj2 R) b a y x Hb H Nb Eb). assumption.
    + apply NEWA. exact Css.
  - (* With *)
    apply BAD. intros x l H Hl F C Len.
    apply (WITH a x l [Some v] [v]); auto. discriminate.
  - (* WithValues *)
    apply BAD. intros x l H Hl F C Len. destruct vs as [|v r] eqn:Ev; [cbn; auto|]. rewrite <- Ev in *.
    apply (WITH a x l); auto.
    + destruct (afrozen x); [now rewrite map_map|reflexivity].
    + subst vs. destruct (afrozen x); discriminate.
  - (* WithAll *)
    apply BAD. intros x l H Hl F C Len. apply BAD. intros y m Hy Hm Fm Cm Lenm.
    rewrite Cm, C.
    assert (NE : m = [] \/ m <> []) by (destruct m; [now left|right; discriminate]).
    destruct NE as [->|NE]; [cbn; auto|].
    assert (G : forall T U (q : list U) (A B : T), q <> [] -> match q with [] => A | _ => B end = B)
      by (intros T U [|? ?] A B Hq; congruence).
    rewrite !(G _ _ m) by exact NE. rewrite (G _ _ (map Some m)) by (destruct m; [congruence|discriminate]).
    clear G.
    set (cl := map (option_map th) (map Some l)).
    pose proof (alloc_keeps (bufs w) cl (length cl)) as K. destruct (alloc_new (bufs w) cl (length cl)) as (G1 & G2 & G3).
    destruct (alloc (bufs w) cl (length cl)) as [h1 s1]. cbn [fst snd] in *.
    set (l' := if afrozen x && negb (afrozen y) then map (option_map fz) (map Some m) else map Some m).
    destruct (append_correct h1 s1 l' G1) as (A1 & A2 & A3 & A4 & _).
    destruct (go_append h1 s1 l') as [h s]. cbn [fst snd] in *.
    assert (L1 : (length (bufs w) < length h1)%nat) by (destruct G1; lia).
    apply rel_new; auto.
    + rewrite A2, G2. unfold cl, l'. rewrite map_app, !map_map. f_equal.
      destruct (afrozen x && negb (afrozen y)); [rewrite !map_map|]; reflexivity.
    + intros t Ft. destruct (K t Ft) as [K1 K2]. destruct (A4 t K1) as [K3 K4]; [destruct Ft; lia|].
      split; [exact K3|congruence].
    + left. lia.
  - (* Copy *)
    apply BAD. intros x l H Hl F C Len. destruct (fr && afrozen x) eqn:E0; [cbn; auto|].
    apply NEWA. rewrite C, !map_map. destruct fr; reflexivity.
  - (* Freeze *)
    apply BAD. intros x l H Hl F C Len. cbn [fst snd]. split; [|reflexivity].
    destruct R as (R1 & R2 & R3). unfold set_array. split; [|split]; cbn.
    + now rewrite !upd_length.
    + intros b y Hb. destruct (Nat.eq_dec a b) as [<-|Nb].
      * rewrite nth_error_upd_eq in Hb by (apply nth_error_Some; congruence). injection Hb as <-. cbn.
        exists l. rewrite nth_error_upd_eq by (apply nth_error_Some; congruence). auto.
      * rewrite nth_error_upd_neq in Hb by exact Nb. rewrite nth_error_upd_neq by exact Nb. apply R2. exact Hb.
    + assert (G : forall b y, nth_error (upd (arrays w) a (Array (aslice x) true)) b = Some y ->
         exists y0, nth_error (arrays w) b = Some y0 /\ aslice y = aslice y0 /\ (afrozen y0 = true -> afrozen y = true)).
      { intros b y Hb. destruct (Nat.eq_dec a b) as [<-|Nb].
        - rewrite nth_error_upd_eq in Hb by (apply nth_error_Some; congruence). injection Hb as <-. exists x. auto.
        - rewrite nth_error_upd_neq in Hb by exact Nb. exists y. auto. }
      intros b c y z Hb Hc Nbc E. destruct (G b y Hb) as (y0 & Y1 & Y2 & Y3). destruct (G c z Hc) as (z0 & Z1 & Z2 & Z3).
      rewrite Y2, Z2 in E. destruct (R3 b c y0 z0 Y1 Z1 Nbc E). auto.
  - (* Map *)
    apply BAD. intros x l H Hl F C Len. apply NEWA. rewrite C, !map_map. reflexivity.
  - (* Select *)
    apply BAD. intros x l H Hl F C Len. rewrite C.
    pose proof (alloc_keeps (bufs w) [] 0) as K. destruct (alloc_new (bufs w) [] 0) as (G1 & G2 & G3).
    destruct (alloc (bufs w) [] 0) as [h1 s1]. cbn [fst snd] in *.
    destruct (select_fold p keep l h1 s1 G1) as (I1 & I2 & I3 & I4).
    destruct (fold_left _ (map Some l) (h1, s1)) as [h s]. cbn [fst snd] in *.
    apply rel_new; auto.
    + rewrite I2, G2. reflexivity.
    + intros t Ft. destruct (K t Ft) as [K1 K2]. destruct (I4 t K1) as [K3 K4]; [destruct Ft; lia|]. split; [exact K3|congruence].
    + left. lia.
Qed.

(* every operation of a history finds no spare capacity to misuse *)
Fixpoint no_spare_run w (os : list (op V)) : Prop :=
  match os with
  | [] => True
  | o :: r => no_spare V w o /\ no_spare_run (fst (step w o)) r
  end.

Lemma run_rel os : forall w sw, rel w sw -> no_spare_run w os ->
  rel (fst (run w os)) (fst (srun sw os)) /\ snd (run w os) = snd (srun sw os).
Proof.
  induction os as [|o r IH]; intros w sw R H; cbn; [auto|]. destruct H as [H1 H2].
  destruct (step_rel w sw o R H1) as [S1 S2].
  destruct (step w o) as [w1 x]. destruct (sstep sw o) as [sw1 x']. cbn in *. subst x'.
  destruct (IH w1 sw1 S1 H2) as [I1 I2].
  destruct (run w1 r) as [w2 xs]. destruct (srun sw1 r) as [sw2 xs']. cbn in *. now subst.
Qed.

Lemma rel_init : rel (init V) [].
Proof. split; [reflexivity|]. split; intros [|]; discriminate. Qed.

Lemma list_op_no_spare w o : list_op V o -> no_spare V w o.
Proof. destruct o; cbn; tauto. Qed.

Lemma list_ops_no_spare os : forall w, Forall (list_op V) os -> no_spare_run w os.
Proof.
  induction os as [|o r IH]; intros w H; cbn; [exact I|]. inversion H; subst.
  split; [now apply list_op_no_spare|auto].
Qed.

Theorem arrays_are_lists os : Forall (list_op V) os ->
  snd (run (init V) os) = snd (srun [] os).
Proof. intros H. apply (run_rel os (init V) [] rel_init). now apply list_ops_no_spare. Qed.

Theorem arrays_are_independent os : no_spare_run (init V) os ->
  snd (run (init V) os) = snd (srun [] os).
Proof. intros H. apply (run_rel os (init V) [] rel_init H). Qed.

(* in the specification only the target changes, and frozen arrays never *)
Lemma sstep_other sw o b fr l : nth_error sw b = Some (fr, l) -> (target V o <> Some b \/ fr = true) ->
  exists fr', nth_error (fst (sstep sw o)) b = Some (fr', l) /\ (fr = true -> fr' = true).
Proof.
  intros Hb Ht.
  assert (NEW : forall fr0 l0, exists fr', nth_error (fst (snew V sw fr0 l0)) b = Some (fr', l) /\ (fr = true -> fr' = true)).
  { intros fr0 l0. exists fr. cbn. rewrite nth_error_app1 by (apply nth_error_Some; congruence). auto. }
  assert (SAME : exists fr', nth_error sw b = Some (fr', l) /\ (fr = true -> fr' = true)) by eauto.
  assert (MUT : forall a f, (Some a <> Some b \/ fr = true) ->
     exists fr', nth_error (fst (smut V sw a f)) b = Some (fr', l) /\ (fr = true -> fr' = true)).
  { intros a f Ha. unfold smut, sarr. destruct (nth_error sw a) as [[fr0 l0]|] eqn:E; [|exact SAME].
    destruct fr0; [exact SAME|]. destruct (f l0) as [[l' r]|]; [|exact SAME]. cbn.
    destruct (Nat.eq_dec a b) as [->|N].
    - destruct Ha as [Ha| ->]; [congruence|]. rewrite Hb in E. discriminate.
    - rewrite nth_error_upd_neq by exact N. exact SAME. }
  destruct o as [fr0 vs|c|a i|a|a|a v|a|a v|a b0|a vs|a i v|a i v|a i|a v|a|a i j|a v|a vs|a b0|a fr0|a|a f|a keep p];
    cbn [SlicesSpec.sstep target] in *; auto;
    try (unfold sarr; destruct (nth_error sw a) as [[fr1 l1]|] eqn:E; [|exact SAME]; cbn [fst]).
  all: try exact SAME.
  all: try (apply NEW).
  - destruct (valid V i l1); exact SAME.
  - unfold sarr. destruct (nth_error sw b0) as [[? ?]|]; [|exact SAME]. apply MUT. exact Ht.
  - destruct (fr1 && (i =? 0) && (j =? Z.of_nat (length l1))); [exact SAME|].
    destruct ((0 <=? i) && (i <=? j) && (j <=? Z.of_nat (length l1))); [apply NEW|exact SAME].
  - destruct vs; [exact SAME|apply NEW].
  - destruct (nth_error sw b0) as [[fr2 m]|]; [|exact SAME]. destruct m; [exact SAME|apply NEW].
  - destruct (fr0 && fr1); [exact SAME|apply NEW].
  - destruct (Nat.eq_dec a b) as [->|N].
    + rewrite nth_error_upd_eq by (apply nth_error_Some; congruence). rewrite Hb in E. injection E as <- <-.
      exists true. auto.
    + rewrite nth_error_upd_neq by exact N. exact SAME.
Qed.

Definition elems w a : option (list (option V)) :=
  match nth_error (arrays w) a with None => None | Some x => Some (cells (bufs w) (aslice x)) end.

Lemma rel_elems w sw a : rel w sw ->
  elems w a = match nth_error sw a with None => None | Some (_, l) => Some (map Some l) end.
Proof.
  intros R. unfold elems. destruct (nth_error (arrays w) a) as [x|] eqn:E.
  - destruct (proj1 (proj2 R) a x E) as (l & -> & F & C). now rewrite C.
  - now rewrite (rel_none w sw a R E).
Qed.

Theorem no_interference os o b : no_spare_run (init V) (os ++ [o]) -> target V o <> Some b ->
  (b < length (arrays (fst (run (init V) os))))%nat ->
  elems (fst (run (init V) (os ++ [o]))) b = elems (fst (run (init V) os)) b.
Proof.
  intros H Ht Hb.
  assert (SPLIT : forall os w, no_spare_run w (os ++ [o]) -> no_spare_run w os /\ no_spare V (fst (run w os)) o /\
     fst (run w (os ++ [o])) = fst (step (fst (run w os)) o)).
  { clear. induction os as [|q r IH]; intros w; cbn.
    - intros [H _]. splits; auto. destruct (step w o). reflexivity.
    - intros [H1 H2]. destruct (step w q) as [w1 x]. cbn in *. destruct (IH w1 H2) as (I1 & I2 & I3).
      destruct (run w1 r) as [w2 xs]. destruct (run w1 (r ++ [o])) as [w3 ys]. cbn in *. auto. }
  destruct (SPLIT os (init V) H) as (H1 & H2 & ->).
  destruct (run_rel os (init V) [] rel_init H1) as [R _].
  destruct (step_rel _ _ o R H2) as [R' _].
  rewrite (rel_elems _ _ b R'), (rel_elems _ _ b R).
  assert (Lb : (b < length (fst (srun [] os)))%nat) by (destruct R as [R1 _]; lia).
  destruct (nth_error (fst (srun [] os)) b) as [[fr l]|] eqn:E; [|apply nth_error_None in E; lia].
  destruct (sstep_other _ o b fr l E ltac:(now left)) as (fr' & -> & _). reflexivity.
Qed.

Theorem frozen_unchanged os os' b : no_spare_run (init V) (os ++ os') ->
  (exists x, nth_error (arrays (fst (run (init V) os))) b = Some x /\ afrozen x = true) ->
  elems (fst (run (init V) (os ++ os'))) b = elems (fst (run (init V) os)) b.
Proof.
  intros H (x & Hx & Hf).
  assert (SPLIT : forall os w, no_spare_run w (os ++ os') -> no_spare_run w os /\ no_spare_run (fst (run w os)) os' /\
     fst (run w (os ++ os')) = fst (run (fst (run w os)) os')).
  { clear. induction os as [|q r IH]; intros w; cbn.
    - auto.
    - intros [H1 H2]. destruct (step w q) as [w1 x]. cbn in *. destruct (IH w1 H2) as (I1 & I2 & I3).
      destruct (run w1 r) as [w2 xs]. destruct (run w1 (r ++ os')) as [w3 ys]. cbn in *. auto. }
  destruct (SPLIT os (init V) H) as (H1 & H2 & ->).
  destruct (run_rel os (init V) [] rel_init H1) as [R _].
  destruct (proj1 (proj2 R) b x Hx) as (l & Hl & _). rewrite Hf in Hl.
  destruct (run_rel os' _ _ R H2) as [R' _].
  rewrite (rel_elems _ _ b R'), (rel_elems _ _ b R), Hl.
  assert (G : forall os sw, nth_error sw b = Some (true, l) -> nth_error (fst (srun sw os)) b = Some (true, l)).
  { clear. induction os as [|o r IH]; intros sw E; cbn; [exact E|].
    destruct (sstep_other sw o b true l E ltac:(now right)) as (fr' & E1 & E2).
    destruct (sstep sw o) as [sw1 x]. cbn in *. rewrite (E2 eq_refl) in E1.
    specialize (IH sw1 E1). destruct (srun sw1 r). exact IH. }
  now rewrite (G os' _ Hl).
Qed.
End Proofs.
