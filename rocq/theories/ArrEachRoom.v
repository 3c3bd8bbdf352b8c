(* Proofs about iterations of arrays by callbacks that change them within their capacity. *)
From Coq Require Import ZArith List Bool Lia.
From Verif Require Import HMap HMapBase HMapInv Slices SlicesSpec SlicesProofs ArrEach ArrEachSpec ArrEachProofs.
Import ListNotations.
Open Scope Z_scope.

Section Room.
Variable V : Type.
Variable eqc : V -> option V -> bool.
Variables fz th : V -> V.
Variable grow : nat -> nat -> nat.

Notation cells := (cells V). Notation store := (store V). Notation buf := (buf V). Notation cap := (cap V).
Notation blit := (blit V). Notation alloc := (alloc V). Notation go_append := (go_append V grow).
Notation step := (step V eqc fz th grow). Notation run := (run V eqc fz th grow).
Notation sstep := (sstep V eqc fz th). Notation srun := (srun V eqc fz th).
Notation bufs := (bufs V). Notation arrays := (arrays V). Notation heap := (heap V).
Notation rel := (rel V). Notation fits := (fits V). Notation kept := (kept V).
Implicit Types (h : list (list (option V))) (s t : slice) (w : heap) (sw : sworld V).

Lemma blit_mid (A B D xs : list (option V)) p : p = length A -> length xs = length B -> blit (A ++ B ++ D) p xs = A ++ xs ++ D.
Proof.
  intros -> E. unfold Slices.blit. rewrite firstn_app, Nat.sub_diag, firstn_all. cbn [firstn]. rewrite app_nil_r. f_equal. f_equal.
  rewrite app_assoc, skipn_app, skipn_all2 by (rewrite app_length; lia). rewrite app_length. replace (length A + length xs - (length A + length B))%nat with O by lia. reflexivity.
Qed.
Lemma nth_skip (A : Type) (d : A) k : forall l j, nth j (skipn k l) d = nth (k + j) l d.
Proof. induction k as [|k IH]; intros l j; [reflexivity|]. destruct l; [destruct j; reflexivity|]. cbn. apply IH. Qed.

(* The cells of a buffer from an offset on *)
Definition wnd h (b off : nat) (L : list (option V)) : Prop := (b < length h)%nat /\ (off <= length (nth b h []))%nat /\ skipn off (nth b h []) = L.
Lemma wnd_kept h h' b off L : wnd h b off L -> kept b h h' -> wnd h' b off L.
Proof. intros (A & B & C) [D E]. unfold wnd. rewrite E. splits; auto. lia. Qed.
Lemma wnd_store h b off n L p xs : wnd h b off L -> (p + length xs <= length L)%nat -> wnd (store h (Slice b off n) p xs) b off (blit L p xs).
Proof.
  intros (A & B & C) H. assert (LL : length L = (length (nth b h []) - off)%nat) by (rewrite <- C; apply skipn_length).
  unfold wnd. rewrite store_length. unfold Slices.store, Slices.buf. cbn [sbuf soff]. rewrite nth_upd_same by exact A. rewrite blit_length by lia. splits; auto.
  rewrite skipn_blit by lia. now rewrite C.
Qed.
Lemma wnd_append h b off p L xs : wnd h b off L -> (p + length xs <= length L)%nat ->
  wnd (fst (go_append h (Slice b off p) xs)) b off (blit L p xs) /\ snd (go_append h (Slice b off p) xs) = Slice b off (p + length xs).
Proof.
  intros W H. pose proof W as (A & B & C). unfold Slices.go_append. destruct xs as [|x r] eqn:Ex.
  - cbn. rewrite Nat.add_0_r. split; [|reflexivity]. unfold Slices.blit. cbn. rewrite Nat.add_0_r, firstn_skipn. exact W.
  - rewrite <- Ex in *. cbn zeta. unfold Slices.cap, Slices.buf. cbn [slen sbuf soff].
    destruct (Nat.leb_spec (p + length xs) (length (nth b h []) - off)) as [Q|Q]; cbn [fst snd]; [split; [now apply wnd_store|reflexivity]|].
    exfalso. rewrite <- C, skipn_length in H. lia.
Qed.

(* An array that stays where it is. The cells between its length and the first [n0] are nil. *)
Definition room w (a b off C n0 : nat) (l : list V) : Prop :=
  exists fr tail, nth_error (arrays w) a = Some (Array (Slice b off (length l)) fr) /\ wnd (bufs w) b off (map Some l ++ tail) /\ (length l + length tail)%nat = C /\
                  forall j, (length l + j < n0)%nat -> nth j tail None = None.

Lemma arr_upd w h a x y : nth_error (arrays w) a = Some y -> nth_error (arrays (set_array V w h a x)) a = Some x.
Proof. intros H. cbn. apply nth_error_upd_eq. apply nth_error_Some. congruence. Qed.

Lemma tail_skip (l xs : list V) (tail : list (option V)) n0 : (forall j, (length l + j < n0)%nat -> nth j tail None = None) ->
  forall j, (length (l ++ xs) + j < n0)%nat -> nth j (skipn (length xs) tail) None = None.
Proof. intros T j H. rewrite nth_skip. apply T. rewrite app_length in H. lia. Qed.

Lemma room_append w a b off C n0 l fr tail (xs : list V) : nth_error (arrays w) a = Some (Array (Slice b off (length l)) fr) -> wnd (bufs w) b off (map Some l ++ tail) ->
  (length l + length tail)%nat = C -> (forall j, (length l + j < n0)%nat -> nth j tail None = None) -> (length (l ++ xs) <= C)%nat ->
  room (let (h, s) := go_append (bufs w) (Slice b off (length l)) (map Some xs) in set_array V w h a (Array s fr)) a b off C n0 (l ++ xs).
Proof.
  intros Hx W EC T L. rewrite app_length in L. destruct (wnd_append (bufs w) b off (length l) _ (map Some xs) W) as [A B]; [rewrite app_length, !map_length; lia|].
  destruct (go_append _ _ _) as [h s]. cbn [fst snd] in *. subst s. rewrite map_length. exists fr, (skipn (length xs) tail). splits.
  - rewrite app_length. eapply arr_upd. exact Hx.
  - cbn [bufs set_array]. rewrite map_app, <- app_assoc. rewrite <- (firstn_skipn (length xs) tail), blit_mid in A; [exact A|now rewrite map_length|rewrite map_length, firstn_length; lia].
  - rewrite app_length, skipn_length. lia.
  - now apply tail_skip.
Qed.

Lemma split_at (l : list V) p : (p < length l)%nat -> exists x, l = firstn p l ++ x :: skipn (S p) l.
Proof.
  revert p. induction l as [|y l IH]; intros p H; [cbn in H; lia|]. destruct p as [|p]; [exists y; reflexivity|]. destruct (IH p ltac:(cbn in H; lia)) as [x E].
  exists x. cbn [firstn skipn app]. f_equal. exact E.
Qed.

Lemma room_remove w a b off C n0 l fr tail p : nth_error (arrays w) a = Some (Array (Slice b off (length l)) fr) -> wnd (bufs w) b off (map Some l ++ tail) ->
  (length l + length tail)%nat = C -> (forall j, (length l + j < n0)%nat -> nth j tail None = None) -> cells (bufs w) (Slice b off (length l)) = map Some l -> (p < length l)%nat ->
  room (fst (remove_pos V w a (Array (Slice b off (length l)) fr) (Z.of_nat p))) a b off C n0 (remove_nth V l p).
Proof.
  intros Hx W EC T EL Hp. unfold remove_pos. cbn [aslice afrozen slen sbuf soff]. rewrite EL, Nat2Z.id.
  destruct (Z.leb_spec 0 (Z.of_nat p)) as [_|]; [|lia]. destruct (Z.ltb_spec (Z.of_nat p) (Z.of_nat (length l))) as [_|]; [|lia]. cbn [andb fst].
  destruct (split_at l p Hp) as [x El]. set (P := firstn p l) in *. set (Q := skipn (S p) l) in *.
  assert (LP : length P = p) by (unfold P; rewrite firstn_length; lia). assert (LL : length l = (p + S (length Q))%nat) by (pose proof (f_equal (@length V) El) as EE; rewrite app_length in EE; cbn [length] in EE; lia).
  destruct (exists_last (l := x :: Q) ltac:(discriminate)) as (B & y & EB). assert (LB : length B = length Q) by (apply (f_equal (@length V)) in EB; rewrite app_length in EB; cbn [length] in EB; lia).
  assert (ES : skipn (S p) (map Some l) = map Some Q) by (unfold Q; apply skipn_map). rewrite ES.
  assert (LR : length (remove_nth V l p) = (length l - 1)%nat) by (unfold remove_nth; fold P; fold Q; rewrite app_length; lia).
  assert (EM : map Some l ++ tail = map Some P ++ map Some B ++ Some y :: tail).
  { pose proof (f_equal (map Some) El) as EE. rewrite map_app, EB, map_app in EE. rewrite EE, <- !app_assoc. reflexivity. }
  assert (W1 : wnd (store (bufs w) (Slice b off (length l)) p (map Some Q)) b off (map Some P ++ map Some Q ++ Some y :: tail)).
  { rewrite EM in W. pose proof (wnd_store (bufs w) b off (length l) _ p (map Some Q) W) as G. rewrite blit_mid in G by (rewrite ?map_length; lia). apply G.
    rewrite !app_length, !map_length. lia. }
  assert (W2 : wnd (store (store (bufs w) (Slice b off (length l)) p (map Some Q)) (Slice b off (length l)) (length l - 1) [None]) b off ((map Some P ++ map Some Q) ++ [None] ++ tail)).
  { rewrite app_assoc in W1. pose proof (wnd_store _ b off (length l) _ (length l - 1) [None] W1) as G.
    change ((map Some P ++ map Some Q) ++ Some y :: tail) with ((map Some P ++ map Some Q) ++ [Some y] ++ tail) in G. rewrite blit_mid in G; [|rewrite app_length, !map_length; lia|reflexivity].
    apply G. rewrite !app_length, !map_length. cbn [length]. lia. }
  exists fr, (None :: tail). splits.
  - rewrite LR. eapply arr_upd. exact Hx.
  - cbn [bufs set_array]. unfold remove_nth. fold P. fold Q. rewrite map_app. exact W2.
  - cbn [length]. lia.
  - intros [|j] H; [reflexivity|]. cbn. apply T. lia.
Qed.

Lemma step_room w sw o a b off C n0 fr l fr' l' : rel w sw -> list_op V o -> nth_error sw a = Some (fr, l) -> room w a b off C n0 l ->
  nth_error (fst (sstep sw o)) a = Some (fr', l') -> (length l' <= C)%nat -> room (fst (step w o)) a b off C n0 l'.
Proof.
  intros R LO Hl (fx & tail & Hx & W & EC & T) Hl' LC.
  destruct (proj1 (proj2 R) a _ Hx) as (l0 & E0 & F0 & C0). cbn [afrozen aslice] in *. rewrite Hl in E0. injection E0 as -> <-.
  assert (OLD : l' = l -> room w a b off C n0 l') by (intros ->; exists fx, tail; auto).
  assert (TD : target V o = Some a \/ target V o <> Some a) by (destruct (target V o) as [k|]; [destruct (Nat.eq_dec k a); [left; congruence|right; congruence]|right; discriminate]).
  destruct TD as [TD|TD].
  - assert (LS : (a < length sw)%nat) by (apply nth_error_Some; congruence).
    assert (WA : forall k, with_array V w a k = k (Array (Slice b off (length l)) fx)) by (intros k; unfold with_array; now rewrite Hx).
    assert (SM : forall f, nth_error (fst (smut V sw a f)) a = Some (fr', l') -> fx = false -> match f l with None => l' = l | Some (m, _) => l' = m end).
    { intros f. unfold smut, sarr. rewrite Hl. intros H ->. destruct (f l) as [[m r]|]; cbn [fst] in H; [|congruence]. rewrite nth_error_upd_eq in H by exact LS. congruence. }
    assert (SF : forall f, nth_error (fst (smut V sw a f)) a = Some (fr', l') -> fx = true -> l' = l).
    { intros f. unfold smut, sarr. rewrite Hl. intros H ->. cbn in H. congruence. }
    destruct o; cbn in TD; try discriminate; injection TD as ->; cbn [Slices.step SlicesSpec.sstep] in *.
    + rewrite WA. cbn [afrozen aslice]. destruct fx; [apply OLD; eapply SF; [exact Hl'|reflexivity]|]. apply SM in Hl'; [|reflexivity]. cbn in Hl'. subst l'.
      pose proof (room_append w a b off C n0 l false tail [v] Hx W EC T LC) as G. cbn [map] in G. destruct (go_append _ _ _). exact G.
    + rewrite WA. unfold with_array. destruct (nth_error (arrays w) b0) as [y|] eqn:Hy.
      2:{ apply OLD. unfold sarr in Hl'. rewrite (rel_none V w sw b0 R Hy) in Hl'. cbn in Hl'. congruence. }
      destruct (proj1 (proj2 R) b0 y Hy) as (m & Em & Fm & Cm). unfold sarr at 1 in Hl'. rewrite Em in Hl'. cbn [afrozen aslice].
      destruct fx; [apply OLD; eapply SF; [exact Hl'|reflexivity]|]. apply SM in Hl'; [|reflexivity]. cbn in Hl'. subst l'. rewrite Cm.
      pose proof (room_append w a b off C n0 l false tail m Hx W EC T LC) as G. destruct (go_append _ _ _). exact G.
    + rewrite WA. cbn [afrozen aslice]. destruct fx; [apply OLD; eapply SF; [exact Hl'|reflexivity]|]. apply SM in Hl'; [|reflexivity]. cbn in Hl'. subst l'.
      pose proof (room_append w a b off C n0 l false tail vs Hx W EC T LC) as G. destruct (go_append _ _ _). exact G.
    + rewrite WA. cbn [afrozen aslice]. destruct fx; [apply OLD; eapply SF; [exact Hl'|reflexivity]|]. apply SM in Hl'; [|reflexivity]. cbn beta in Hl'.
      change (in_slice i {| sbuf := b; soff := off; slen := length l |}) with (valid V i l). destruct (valid V i l) eqn:Vi; [|now apply OLD]. cbn zeta. cbn [fst]. subst l'.
      unfold valid in Vi. apply andb_true_iff in Vi as [V1 V2]. apply Z.leb_le in V1. apply Z.ltb_lt in V2. set (p := Z.to_nat i) in *. assert (Hp : (p < length l)%nat) by lia.
      destruct (split_at l p Hp) as [x El]. assert (LP : length (firstn p l) = p) by (rewrite firstn_length; lia).
      assert (LL : length (firstn p l ++ v :: skipn (S p) l) = length l) by (pose proof (f_equal (@length V) El) as EE; rewrite app_length in EE |- *; cbn [length] in EE |- *; lia).
      assert (EM : map Some l ++ tail = map Some (firstn p l) ++ [Some x] ++ map Some (skipn (S p) l) ++ tail) by (pose proof (f_equal (map Some) El) as EE; rewrite map_app in EE; rewrite EE, <- app_assoc; reflexivity).
      exists false, tail. rewrite LL. splits; auto.
      * eapply arr_upd. exact Hx.
      * cbn [bufs set_array]. pose proof W as W'. rewrite EM in W'. pose proof (wnd_store _ b off (length l) _ p [Some v] W') as G. rewrite blit_mid in G by (rewrite ?map_length; auto).
        rewrite map_app, <- app_assoc. apply G. rewrite <- EM, app_length, map_length. cbn. lia.
    + rewrite WA. cbn [afrozen aslice slen sbuf soff]. destruct fx; [apply OLD; eapply SF; [exact Hl'|reflexivity]|]. apply SM in Hl'; [|reflexivity]. cbn beta in Hl'.
      destruct ((0 <=? i) && (i <=? Z.of_nat (length l))) eqn:Vi; [|now apply OLD]. subst l'.
      apply andb_true_iff in Vi as [V1 V2]. apply Z.leb_le in V1, V2. set (p := Z.to_nat i) in *. assert (Hp : (p <= length l)%nat) by lia. rewrite C0.
      assert (LP : length (firstn p l) = p) by (rewrite firstn_length; lia). assert (LQ : length (skipn p l) = (length l - p)%nat) by apply skipn_length.
      assert (LL : length (firstn p l ++ v :: skipn p l) = S (length l)) by (rewrite app_length; cbn [length]; lia). rewrite LL in LC.
      destruct tail as [|c tail]; [cbn in EC; lia|].
      destruct (alloc_new V (bufs w) (Some v :: skipn p (map Some l)) 0) as (_ & AC & _). pose proof (kept_alloc V b (bufs w) (Some v :: skipn p (map Some l)) 0 (proj1 W)) as KA.
      destruct (alloc (bufs w) (Some v :: skipn p (map Some l)) 0) as [h1 t]. cbn [fst snd] in AC, KA. rewrite AC.
      pose proof (wnd_kept _ _ _ _ _ W KA) as W1.
      assert (EM : map Some l ++ c :: tail = map Some (firstn p l) ++ (map Some (skipn p l) ++ [c]) ++ tail).
      { rewrite <- (firstn_skipn p l) at 1. rewrite map_app, <- !app_assoc. reflexivity. }
      rewrite EM in W1. destruct (wnd_append h1 b off p _ (Some v :: skipn p (map Some l)) W1) as [G1 G2].
      { rewrite <- EM, app_length, map_length. cbn [length]. rewrite skipn_length, map_length. lia. }
      rewrite blit_mid in G1 by (rewrite ?app_length, ?map_length; cbn [length]; rewrite ?skipn_length, ?map_length, ?LQ; lia).
      destruct (go_append _ _ _) as [h2 s2]. cbn [fst snd] in G1, G2. subst s2. exists false, tail. cbn [fst]. splits.
      * rewrite LL. replace (S (length l)) with (p + length (Some v :: skipn p (map Some l)))%nat by (cbn [length]; rewrite skipn_length, map_length; lia). eapply arr_upd. exact Hx.
      * cbn [bufs set_array]. rewrite map_app, <- app_assoc. cbn [map]. rewrite <- skipn_map. exact G1.
      * rewrite LL. cbn [length] in EC. lia.
      * intros j H. rewrite LL in H. apply (T (S j)). lia.
    + rewrite WA. cbn [afrozen aslice]. destruct fx; [apply OLD; eapply SF; [exact Hl'|reflexivity]|]. apply SM in Hl'; [|reflexivity]. cbn beta in Hl'.
      destruct (valid V i l) eqn:Vi; subst l'.
      * unfold valid in Vi. apply andb_true_iff in Vi as [V1 V2]. apply Z.leb_le in V1. apply Z.ltb_lt in V2.
        pose proof (room_remove w a b off C n0 l false tail (Z.to_nat i) Hx W EC T C0 ltac:(lia)) as G. rewrite Z2Nat.id in G by exact V1. destruct (remove_pos _ _ _ _ _). exact G.
      * unfold remove_pos. cbn [slen aslice]. unfold valid in Vi. rewrite Vi. cbn [fst]. now apply OLD.
    + rewrite WA. cbn [afrozen aslice]. destruct fx; [apply OLD; eapply SF; [exact Hl'|reflexivity]|]. apply SM in Hl'; [|reflexivity]. cbn beta in Hl'.
      rewrite C0. rewrite position_index. destruct (position V eqc v l) as [n|] eqn:Ep; subst l'.
      * rewrite Z.add_0_l. pose proof (room_remove w a b off C n0 l false tail n Hx W EC T C0 (position_lt V eqc v l n Ep)) as G. destruct (remove_pos _ _ _ _ _). exact G.
      * unfold remove_pos. cbn. now apply OLD.
    + rewrite WA. cbn [afrozen aslice slen]. destruct fx; [apply OLD; eapply SF; [exact Hl'|reflexivity]|]. apply SM in Hl'; [|reflexivity]. cbn beta in Hl'. subst l'.
      destruct (Z.leb_spec 0 (Z.of_nat (length l) - 1)) as [Q|Q].
      * assert (NE : l <> []) by (intros ->; cbn in Q; lia). rewrite <- (remove_last V l NE).
        pose proof (room_remove w a b off C n0 l false tail (length l - 1) Hx W EC T C0 ltac:(lia)) as G.
        replace (Z.of_nat (length l - 1)) with (Z.of_nat (length l) - 1) in G by lia. destruct (remove_pos _ _ _ _ _). exact G.
      * cbn [fst]. destruct l; [now apply OLD|cbn [length] in Q; lia].
  - assert (l' = l).
    { destruct (step_slice V eqc fz th grow w o a _ Hx TD) as (z & Hz & Ez). destruct (step_rel V eqc fz th grow w sw o R) as [R' _]; [destruct o; try exact I; destruct LO|].
      destruct (proj1 (proj2 R') a z Hz) as (m & Em & Fm & Cm). rewrite Hl' in Em. injection Em as _ <-. rewrite Ez in Cm, Fm. cbn [aslice] in Cm, Fm.
      assert (K : kept b (bufs w) (bufs (fst (step w o)))).
      { apply step_frame; [exact LO|apply W|]. intros c x Tc Hc Fc Eb. assert (c <> a) by congruence. destruct (proj2 (proj2 R) c a x _ Hc Hx H Eb). congruence. }
      destruct (kept_cells V _ _ (Slice b off (length l)) F0 K) as [_ KC]. rewrite KC, C0 in Cm. clear - Cm. revert l' Cm. induction l as [|q l IH]; intros [|q' l'] E; cbn in E; try discriminate; [reflexivity|]. injection E as -> E. f_equal. now apply IH. }
    subst l'. destruct (step_slice V eqc fz th grow w o a _ Hx TD) as (z & Hz & Ez). destruct z as [zs zf]. cbn [aslice] in Ez. subst zs. exists zf, tail. splits; auto.
    apply (wnd_kept (bufs w)); [exact W|]. apply step_frame; [exact LO|apply W|]. intros c x Tc Hc Fc Eb. assert (c <> a) by congruence. destruct (proj2 (proj2 R) c a x _ Hc Hx H Eb). congruence.
Qed.

Lemma list_op_no_spare w o : list_op V o -> no_spare V w o.
Proof. destruct o; intros LO; try exact I; destruct LO. Qed.

Lemma callback_rel a b off C n0 os : forall w sw l fr sw', Forall (list_op V) os -> rel w sw -> nth_error sw a = Some (fr, l) -> room w a b off C n0 l ->
  callback_room V eqc fz th a C sw os = Some sw' ->
  exists w' fr' l', callback V eqc fz th grow w os = Some w' /\ rel w' sw' /\ nth_error sw' a = Some (fr', l') /\ room w' a b off C n0 l'.
Proof.
  induction os as [|o os IH]; intros w sw l fr sw' LO R Hl RM; cbn [callback callback_room].
  - intros [= <-]. eauto 8.
  - apply Forall_cons_iff in LO as [L1 LO]. destruct (step_rel V eqc fz th grow w sw o R (list_op_no_spare w o L1)) as [R1 E1].
    pose proof (fun fr' l' => step_room w sw o a b off C n0 fr l fr' l' R L1 Hl RM) as SR.
    destruct (step w o) as [w1 x1]. destruct (sstep sw o) as [sw1 y1]. cbn [fst snd] in *. subst y1. destruct (nth_error sw1 a) as [[fr1 l1]|] eqn:Hl1; [|destruct x1; discriminate].
    destruct (Nat.leb_spec (length l1) C) as [Q|Q]; [|destruct x1; discriminate]. specialize (SR fr1 l1 eq_refl Q).
    destruct x1; try discriminate; intros H; eapply IH; eauto.
Qed.

Lemma room_visit w a b off C n0 l i : room w a b off C n0 l -> (i < n0)%nat -> nth i (cells (bufs w) (Slice b off n0)) None = nth_error l i.
Proof.
  intros (fr & tail & _ & (W1 & W2 & W3) & EC & T) H. unfold Slices.cells, Slices.buf. cbn [slen soff sbuf]. rewrite W3.
  assert (NF : forall (L : list (option V)) n k, (k < n)%nat -> nth k (firstn n L) None = nth k L None).
  { induction L as [|q L IH]; intros [|n] [|k] Hk; cbn; try lia; auto. apply IH. lia. }
  rewrite NF by exact H. destruct (Nat.lt_ge_cases i (length l)) as [Q|Q].
  - rewrite app_nth1 by (rewrite map_length; exact Q). apply nth_map_some.
  - rewrite app_nth2 by (rewrite map_length; exact Q). rewrite map_length, T by lia. symmetry. now apply nth_error_None.
Qed.

Lemma each_room_rel f a b off C n0 : (forall seen, Forall (list_op V) (f seen)) -> forall n i w sw seen fr l sw' vs, rel w sw -> nth_error sw a = Some (fr, l) -> room w a b off C n0 l -> (i + n <= n0)%nat ->
  each_room V eqc fz th a C n i f sw seen = Some (sw', vs) ->
  exists w', each_from V eqc fz th grow n i f (Slice b off n0) w seen = Some (w', vs) /\ rel w' sw'.
Proof.
  intros Hf. induction n as [|n IH]; intros i w sw seen fr l sw' vs R Hl RM Hi; cbn [each_room each_from].
  - intros [= <- <-]. eauto.
  - rewrite Hl. rewrite (room_visit w a b off C n0 l i RM) by lia. destruct (callback_room _ _ _ _ _ _ _ _) as [sw1|] eqn:EC; [|discriminate]. intros H.
    destruct (callback_rel a b off C n0 _ w sw l fr sw1 (Hf _) R Hl RM EC) as (w1 & fr1 & l1 & E1 & R1 & Hl1 & RM1). rewrite E1.
    eapply IH; eauto. lia.
Qed.

Lemma room_start w sw a x fr l : rel w sw -> nth_error (arrays w) a = Some x -> nth_error sw a = Some (fr, l) -> aslice x = Slice (sbuf (aslice x)) (soff (aslice x)) (length l) /\
  room w a (sbuf (aslice x)) (soff (aslice x)) (cap (bufs w) (aslice x)) (length l) l.
Proof.
  intros R Hx Hl. destruct (proj1 (proj2 R) a x Hx) as (l0 & E & F & Cx). rewrite Hl in E. injection E as -> <-. pose proof (rel_len V w sw a x l R Hx Hl) as L.
  assert (ES : aslice x = Slice (sbuf (aslice x)) (soff (aslice x)) (length l)) by (rewrite <- L; destruct (aslice x); reflexivity). split; [exact ES|].
  destruct x as [[xb xo xl] xf]. cbn [aslice sbuf soff slen afrozen] in *. subst xl. destruct F as [F1 F2]. unfold Slices.buf in F2. cbn [sbuf soff slen] in F1, F2.
  exists xf, (skipn (length l) (skipn xo (nth xb (bufs w) []))). splits; auto.
  - unfold wnd. splits; [exact F1|lia|]. rewrite <- Cx. unfold Slices.cells, Slices.buf. cbn [slen soff sbuf]. symmetry. apply firstn_skipn.
  - unfold Slices.cap, Slices.buf. cbn [sbuf soff]. rewrite !skipn_length. lia.
  - intros j H. lia.
Qed.

Lemma room_visited w sw a x fr l f sw' vs : rel w sw -> nth_error (arrays w) a = Some x -> nth_error sw a = Some (fr, l) -> (forall seen, Forall (list_op V) (f seen)) ->
  each_room V eqc fz th a (cap (bufs w) (aslice x)) (length l) 0 f sw [] = Some (sw', vs) ->
  exists w', each_array V eqc fz th grow a f w = Some (w', vs) /\ rel w' sw'.
Proof.
  intros R Hx Hl Hf H. destruct (room_start w sw a x fr l R Hx Hl) as [ES RM]. unfold each_array. rewrite Hx, ES. cbn [slen].
  eapply (each_room_rel f a _ _ _ (length l) Hf (length l) 0); eauto.
Qed.

(* ---------- arrays that have been moved ---------- *)
Definition unused w (b : nat) : Prop := forall c x, nth_error (arrays w) c = Some x -> afrozen x = false -> sbuf (aslice x) <> b.
(* The slice that is iterated over is used by no mutable array any more *)
Definition gone w (b off n0 : nat) (l : list V) : Prop :=
  (b < length (bufs w))%nat /\ unused w b /\ forall i, (i < n0)%nat -> nth i (cells (bufs w) (Slice b off n0)) None = nth_error l i.

Lemma kept_cells_nth h h' b off n0 i : kept b h h' -> nth i (cells h' (Slice b off n0)) None = nth i (cells h (Slice b off n0)) None.
Proof. intros [_ E]. unfold Slices.cells, Slices.buf. cbn [sbuf soff slen]. now rewrite E. Qed.

Lemma gone_step w o b off n0 l : list_op V o -> gone w b off n0 l -> gone (fst (step w o)) b off n0 l.
Proof.
  intros LO (A & B & C). assert (K : kept b (bufs w) (bufs (fst (step w o)))) by (apply step_frame; auto; intros c x _ Hx Fx; now apply (B c x)).
  split; [destruct K; lia|]. split.
  - intros c x Hx Fx E. destruct (step_before V eqc fz th grow w o c x LO Hx) as [L|(y & Hy & Fy & E1 & _)]; [lia|]. apply (B c y Hy (Fy Fx)). congruence.
  - intros i Hi. rewrite (kept_cells_nth _ _ _ _ _ _ K). now apply C.
Qed.

Lemma append_grows h s xs : (cap h s < slen s + length xs)%nat -> fits h s ->
  (forall b, (b < length h)%nat -> kept b h (fst (go_append h s xs))) /\ sbuf (snd (go_append h s xs)) = length h.
Proof.
  intros H F. unfold Slices.go_append. destruct xs as [|x r] eqn:Ex.
  - exfalso. destruct F. unfold Slices.cap in H. cbn in H. lia.
  - rewrite <- Ex in *. cbn zeta. destruct (Nat.leb_spec (slen s + length xs) (cap h s)) as [Q|Q]; [lia|]. cbn [fst snd]. split; [|reflexivity]. intros b L. now apply kept_alloc.
Qed.

Lemma step_grows w sw o a b off C n0 fr l fr' l' : rel w sw -> list_op V o -> nth_error sw a = Some (fr, l) -> room w a b off C n0 l ->
  nth_error (fst (sstep sw o)) a = Some (fr', l') -> (C < length l')%nat -> gone (fst (step w o)) b off n0 l.
Proof.
  intros R LO Hl RM Hl' LC. pose proof RM as (fx & tail & Hx & W & EC & T).
  destruct (proj1 (proj2 R) a _ Hx) as (l0 & E0 & F0 & C0). cbn [afrozen aslice] in *. rewrite Hl in E0. injection E0 as -> <-.
  assert (ABS : l' = l -> gone (fst (step w o)) b off n0 l) by (intros ->; lia).
  assert (CAP : cap (bufs w) (Slice b off (length l)) = C).
  { unfold Slices.cap, Slices.buf. cbn [sbuf soff]. destruct W as (W1 & W2 & W3). apply (f_equal (@length _)) in W3. rewrite skipn_length, app_length, map_length in W3. lia. }
  (* what has to be shown of the step *)
  assert (FIN : kept b (bufs w) (bufs (fst (step w o))) -> (forall x, nth_error (arrays (fst (step w o))) a = Some x -> sbuf (aslice x) <> b) -> gone (fst (step w o)) b off n0 l).
  { intros K NB. split; [destruct K, W; lia|]. split.
    - intros c x Hc Fc E. destruct (Nat.eq_dec c a) as [->|N]; [exact (NB x Hc E)|].
      destruct (step_before V eqc fz th grow w o c x LO Hc) as [L|(y & Hy & Fy & E1 & _)]; [destruct W; lia|].
      destruct (proj2 (proj2 R) c a y _ Hy Hx N) as [Q _]; [cbn; congruence|]. rewrite (Fy Fc) in Q. discriminate.
    - intros i Hi. rewrite (kept_cells_nth _ _ _ _ _ _ K). now apply (room_visit w a b off C n0 l i RM). }
  assert (TD : target V o = Some a \/ target V o <> Some a) by (destruct (target V o) as [k|]; [destruct (Nat.eq_dec k a); [left; congruence|right; congruence]|right; discriminate]).
  destruct TD as [TD|TD].
  2:{ apply ABS. destruct (sstep_other V eqc fz th sw o a fx l Hl (or_introl TD)) as (f2 & E2 & _). congruence. }
  destruct fx.
  { apply ABS. destruct (sstep_other V eqc fz th sw o a true l Hl (or_intror eq_refl)) as (f2 & E2 & _). congruence. }
  assert (LS : (a < length sw)%nat) by (apply nth_error_Some; congruence).
  assert (WA : forall k, with_array V w a k = k (Array (Slice b off (length l)) false)) by (intros k; unfold with_array; now rewrite Hx).
  assert (SM : forall f, nth_error (fst (smut V sw a f)) a = Some (fr', l') -> match f l with None => l' = l | Some (m, _) => l' = m end).
  { intros f. unfold smut, sarr. rewrite Hl. intros H. destruct (f l) as [[m r]|]; cbn [fst] in H; [|congruence]. rewrite nth_error_upd_eq in H by exact LS. congruence. }
  assert (APP : forall xs h s, go_append (bufs w) (Slice b off (length l)) xs = (h, s) -> (C < length l + length xs)%nat ->
     kept b (bufs w) h /\ (forall x, nth_error (upd (arrays w) a (Array s false)) a = Some x -> sbuf (aslice x) <> b)).
  { intros xs h s EG LX. destruct (append_grows (bufs w) (Slice b off (length l)) xs) as [G1 G2]; [rewrite CAP; exact LX|exact F0|]. rewrite EG in G1, G2. cbn [fst snd] in *.
    split; [apply G1, W|]. intros x Q. rewrite nth_error_upd_eq in Q by (apply nth_error_Some; congruence). injection Q as <-. cbn. destruct W. lia. }
  destruct o; cbn in TD; try discriminate; injection TD as ->; cbn [Slices.step SlicesSpec.sstep] in *.
  - apply SM in Hl'. cbn in Hl'. subst l'. rewrite app_length in LC. rewrite WA in *. cbn [afrozen aslice] in *. destruct (go_append _ _ _) as [h s] eqn:EG. destruct (APP _ _ _ EG LC). now apply FIN.
  - unfold sarr at 1 in Hl'. destruct (nth_error sw b0) as [[f2 m]|] eqn:Hm; [|cbn in Hl'; apply ABS; congruence]. apply SM in Hl'. cbn in Hl'. subst l'. rewrite app_length in LC. rewrite WA in *.
    unfold with_array in *. destruct (nth_error (arrays w) b0) as [y|] eqn:Hy; [|apply (rel_none V w sw b0 R) in Hy; congruence].
    destruct (proj1 (proj2 R) b0 y Hy) as (m' & Em & Fm & Cm). rewrite Hm in Em. injection Em as _ <-. cbn [afrozen aslice] in *. rewrite Cm in *.
    destruct (go_append _ _ _) as [h s] eqn:EG. destruct (APP _ _ _ EG) as [A1 A2]; [now rewrite map_length|]. now apply FIN.
  - apply SM in Hl'. cbn in Hl'. subst l'. rewrite app_length in LC. rewrite WA in *. cbn [afrozen aslice] in *. destruct (go_append _ _ _) as [h s] eqn:EG.
    destruct (APP _ _ _ EG) as [A1 A2]; [now rewrite map_length|]. now apply FIN.
  - exfalso. apply SM in Hl'. cbn beta in Hl'. destruct (valid V i l) eqn:Vi; subst l'; [|lia]. unfold valid in Vi. apply andb_true_iff in Vi as [V1 V2]. apply Z.leb_le in V1. apply Z.ltb_lt in V2.
    rewrite app_length in LC. cbn [length] in LC. rewrite firstn_length, skipn_length in LC. lia.
  - apply SM in Hl'. cbn beta in Hl'. rewrite WA in *. cbn [afrozen aslice slen sbuf soff] in *. destruct ((0 <=? i) && (i <=? Z.of_nat (length l))) eqn:Vi; [|now apply ABS]. subst l'.
    apply andb_true_iff in Vi as [V1 V2]. apply Z.leb_le in V1, V2. set (p := Z.to_nat i) in *. assert (Hp : (p <= length l)%nat) by lia.
    rewrite app_length in LC. cbn [length] in LC. rewrite firstn_length, skipn_length in LC. rewrite C0 in *.
    destruct (alloc_new V (bufs w) (Some v :: skipn p (map Some l)) 0) as (_ & AC & _). pose proof (kept_alloc V b (bufs w) (Some v :: skipn p (map Some l)) 0 (proj1 W)) as KA.
    destruct (alloc (bufs w) (Some v :: skipn p (map Some l)) 0) as [h1 t]. cbn [fst snd] in AC, KA. rewrite AC in *.
    pose proof (wnd_kept _ _ _ _ _ W KA) as W1. pose proof W1 as (U1 & U2 & U3). apply (f_equal (@length _)) in U3. rewrite skipn_length, app_length, map_length in U3.
    destruct (append_grows h1 (Slice b off p) (Some v :: skipn p (map Some l))) as [G1 G2].
    { unfold Slices.cap, Slices.buf. cbn [sbuf soff slen length]. rewrite skipn_length, map_length. lia. }
    { split; cbn [sbuf soff slen]; [exact U1|]. unfold Slices.buf. cbn [sbuf]. lia. }
    destruct (go_append _ _ _) as [h2 s2]. cbn [fst snd] in G1, G2. apply FIN; cbn [fst bufs set_array arrays].
    + eapply kept_trans; [exact KA|]. apply G1. exact U1.
    + intros x Q. rewrite nth_error_upd_eq in Q by (apply nth_error_Some; congruence). injection Q as <-. cbn. lia.
  - exfalso. apply SM in Hl'. cbn beta in Hl'. destruct (valid V i l); subst l'; [|lia]. unfold remove_nth in LC. rewrite app_length, firstn_length, skipn_length in LC. lia.
  - exfalso. apply SM in Hl'. cbn beta in Hl'. destruct (position V eqc v l); subst l'; [|lia]. unfold remove_nth in LC. rewrite app_length, firstn_length, skipn_length in LC. lia.
  - exfalso. apply SM in Hl'. cbn beta in Hl'. subst l'. destruct l as [|q l]; [cbn in LC; lia|]. rewrite <- remove_last in LC by discriminate. unfold remove_nth in LC. rewrite app_length, firstn_length, skipn_length in LC. lia.
Qed.

(* Where the iteration is: in the buffer of the array, or in what was left behind *)
Definition place w sw (a b off C n0 : nat) (behind : option (list V)) : Prop :=
  match behind with
  | None => exists fr l, nth_error sw a = Some (fr, l) /\ room w a b off C n0 l
  | Some l => gone w b off n0 l
  end.

Lemma sstep_some sw o a fr l w : rel w sw -> list_op V o -> nth_error sw a = Some (fr, l) -> exists fr' l', nth_error (fst (sstep sw o)) a = Some (fr', l').
Proof.
  intros R LO H. destruct (step_rel V eqc fz th grow w sw o R (list_op_no_spare w o LO)) as [(R1 & _) _].
  assert (LA : (length (arrays w) <= length (arrays (fst (step w o))))%nat).
  { clear - LO. assert (WA : forall c (k : array -> heap * res V), (forall y, nth_error (arrays w) c = Some y -> (length (arrays w) <= length (arrays (fst (k y))))%nat) -> (length (arrays w) <= length (arrays (fst (with_array V w c k))))%nat).
    { intros c k G. unfold with_array. destruct (nth_error (arrays w) c); [auto|cbn; lia]. }
    assert (RP : forall c y p, (length (arrays w) <= length (arrays (fst (remove_pos V w c y p))))%nat) by (intros; unfold remove_pos; destruct (_ && _); cbn; rewrite ?upd_length; lia).
    destruct o; cbn [Slices.step] in *; try (apply WA; intros y0 Hy); try (apply WA; intros z0 Hz).
    all: repeat match goal with
      | |- context [remove_pos V ?w ?c ?y ?p] => let Q := fresh in pose proof (RP c y p) as Q; destruct (remove_pos V w c y p); cbn [fst] in Q
      | |- context [alloc ?h ?l ?c] => destruct (alloc h l c)
      | |- context [go_append ?h ?s ?l] => destruct (go_append h s l)
      | |- context [fold_left ?f ?l ?z] => destruct (fold_left f l z)
      | |- context [if ?c then _ else _] => destruct c
      | |- context [match ?l with [] => _ | _ => _ end] => destruct l
      end; cbn [fst arrays set_array new_array]; rewrite ?upd_length, ?app_length; cbn [length]; try lia. }
  destruct R as (R0 & _). assert (L : (a < length sw)%nat) by (apply nth_error_Some; congruence).
  destruct (nth_error (fst (sstep sw o)) a) as [[fr' l']|] eqn:E; [eauto|]. apply nth_error_None in E. lia.
Qed.

Lemma callback_exact_ok a b off C n0 os : forall w sw behind, Forall (list_op V) os -> rel w sw -> place w sw a b off C n0 behind ->
  match callback_exact V eqc fz th a C sw behind os with
  | None => callback V eqc fz th grow w os = None
  | Some (sw', behind') => exists w', callback V eqc fz th grow w os = Some w' /\ rel w' sw' /\ place w' sw' a b off C n0 behind'
  end.
Proof.
  induction os as [|o os IH]; intros w sw behind LO R PL; cbn [callback callback_exact].
  - eauto.
  - apply Forall_cons_iff in LO as [L1 LO]. destruct (step_rel V eqc fz th grow w sw o R (list_op_no_spare w o L1)) as [R1 E1].
    set (behind' := match behind, nth_error sw a, nth_error (fst (sstep sw o)) a with None, Some (_, l), Some (_, l') => if Nat.leb (length l') C then None else Some l | _, _, _ => behind end).
    assert (PL' : place (fst (step w o)) (fst (sstep sw o)) a b off C n0 behind').
    { unfold behind'. destruct behind as [l|]; [now apply gone_step|]. destruct PL as (fr & l & Hl & RM). rewrite Hl. destruct (sstep_some sw o a fr l w R L1 Hl) as (fr' & l' & Hl'). rewrite Hl'.
      destruct (Nat.leb_spec (length l') C) as [Q|Q]; cbn [place].
      - exists fr', l'. split; [exact Hl'|]. eapply step_room; eauto.
      - eapply step_grows; eauto. }
    unfold behind' in PL'. clear behind'. destruct (step w o) as [w1 x1]. destruct (sstep sw o) as [sw1 y1]. cbn [fst snd] in *. subst y1. destruct x1; try reflexivity; cbn zeta; apply IH; auto.
Qed.

Lemma each_exact_ok f a b off C n0 : (forall seen, Forall (list_op V) (f seen)) -> forall n i w sw behind seen, rel w sw -> place w sw a b off C n0 behind -> (i + n <= n0)%nat ->
  match each_exact V eqc fz th a C n i f sw behind seen with
  | None => each_from V eqc fz th grow n i f (Slice b off n0) w seen = None
  | Some (sw', vs) => exists w', each_from V eqc fz th grow n i f (Slice b off n0) w seen = Some (w', vs) /\ rel w' sw'
  end.
Proof.
  intros Hf. induction n as [|n IH]; intros i w sw behind seen R PL Hi; cbn [each_exact each_from]; [eauto|]. cbn zeta.
  assert (EV : nth i (cells (bufs w) (Slice b off n0)) None = nth_error (match behind, nth_error sw a with Some l, _ => l | None, Some (_, l) => l | None, None => [] end) i).
  { destruct behind as [l|]; [apply PL; lia|]. destruct PL as (fr & l & Hl & RM). rewrite Hl. apply (room_visit w a b off C n0 l i RM). lia. }
  rewrite EV. set (s1 := nth_error _ i :: seen). pose proof (callback_exact_ok a b off C n0 (f s1) w sw behind (Hf s1) R PL) as CB.
  destruct (callback_exact _ _ _ _ _ _ _ _ _) as [[sw1 behind1]|]; [|now rewrite CB]. destruct CB as (w1 & E1 & R1 & PL1). rewrite E1. apply IH; auto. lia.
Qed.

Lemma exact_visited w sw a x fr l f : rel w sw -> nth_error (arrays w) a = Some x -> nth_error sw a = Some (fr, l) -> (forall seen, Forall (list_op V) (f seen)) ->
  match each_exact V eqc fz th a (cap (bufs w) (aslice x)) (length l) 0 f sw None [] with
  | None => each_array V eqc fz th grow a f w = None
  | Some (sw', vs) => exists w', each_array V eqc fz th grow a f w = Some (w', vs) /\ rel w' sw'
  end.
Proof.
  intros R Hx Hl Hf. destruct (room_start w sw a x fr l R Hx Hl) as [ES RM]. unfold each_array. rewrite Hx. set (C := cap (bufs w) (aslice x)) in *. clearbody C. rewrite ES. cbn [slen].
  apply (each_exact_ok f a _ _ _ (length l) Hf (length l) 0 w sw None []); auto. exists fr, l. auto.
Qed.
End Room.

Section Reached.
Variable V : Type.
Variable eqc : V -> option V -> bool.
Variables fz th : V -> V.
Variable grow : nat -> nat -> nat.
Notation reached os := (fst (run V eqc fz th grow (init V) os)).

Lemma each_ends_ok os a f w' vs : no_spare_run V eqc fz th grow (init V) os -> each_array V eqc fz th grow a f (reached os) = Some (w', vs) ->
  exists cs, elems V (reached os) a = Some cs /\ length vs = length cs.
Proof.
  intros H. destruct (run_rel V eqc fz th grow os (init V) [] (rel_init V) H) as [R _]. unfold each_array, elems. destruct (nth_error _ a) as [x|] eqn:Hx; [|discriminate].
  intros E. eexists. split; [reflexivity|]. apply each_length in E. rewrite E. destruct (proj1 (proj2 R) a x Hx) as (l & _ & F & _). now rewrite (cells_length V _ _ F).
Qed.

Lemma each_appends_ok os a f w' vs : no_spare_run V eqc fz th grow (init V) os -> (forall seen, Forall (fun o => list_op V o /\ appends V a o) (f seen)) ->
  each_array V eqc fz th grow a f (reached os) = Some (w', vs) -> elems V (reached os) a = Some vs.
Proof.
  intros H Hf E. destruct (run_rel V eqc fz th grow os (init V) [] (rel_init V) H) as [R _].
  destruct (appends_visited V eqc fz th grow _ _ a f w' vs R Hf E) as (x & Hx & ->). unfold elems. now rewrite Hx.
Qed.

Lemma each_room_ok os a x fr l f sw' vs : no_spare_run V eqc fz th grow (init V) os -> (forall seen, Forall (list_op V) (f seen)) ->
  nth_error (arrays V (reached os)) a = Some x -> nth_error (fst (srun V eqc fz th [] os)) a = Some (fr, l) ->
  each_room V eqc fz th a (cap V (bufs V (reached os)) (aslice x)) (length l) 0 f (fst (srun V eqc fz th [] os)) [] = Some (sw', vs) ->
  exists w', each_array V eqc fz th grow a f (reached os) = Some (w', vs) /\
    forall c, elems V w' c = match nth_error sw' c with None => None | Some (_, m) => Some (map Some m) end.
Proof.
  intros H Hf Hx Hl E. destruct (run_rel V eqc fz th grow os (init V) [] (rel_init V) H) as [R _].
  destruct (room_visited V eqc fz th grow _ _ a x fr l f sw' vs R Hx Hl Hf E) as (w' & E' & R'). exists w'. split; [exact E'|]. intros c. now apply rel_elems.
Qed.

Lemma each_exact_reached os a x fr l f : no_spare_run V eqc fz th grow (init V) os -> (forall seen, Forall (list_op V) (f seen)) ->
  nth_error (arrays V (reached os)) a = Some x -> nth_error (fst (srun V eqc fz th [] os)) a = Some (fr, l) ->
  match each_exact V eqc fz th a (cap V (bufs V (reached os)) (aslice x)) (length l) 0 f (fst (srun V eqc fz th [] os)) None [] with
  | None => each_array V eqc fz th grow a f (reached os) = None
  | Some (sw', vs) => exists w', each_array V eqc fz th grow a f (reached os) = Some (w', vs) /\
      forall c, elems V w' c = match nth_error sw' c with None => None | Some (_, m) => Some (map Some m) end
  end.
Proof.
  intros H Hf Hx Hl. destruct (run_rel V eqc fz th grow os (init V) [] (rel_init V) H) as [R _].
  pose proof (exact_visited V eqc fz th grow _ _ a x fr l f R Hx Hl Hf) as E. destruct (each_exact _ _ _ _ _ _ _ _ _ _ _ _) as [[sw' vs]|]; [|exact E].
  destruct E as (w' & E' & R'). exists w'. split; [exact E'|]. intros c. now apply rel_elems.
Qed.
End Reached.
