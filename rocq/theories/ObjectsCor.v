(* What Freeze, FrozenCopy and ThawedCopy guarantee in every state that a program can reach. *)
From Coq Require Import ZArith List Bool Arith Lia.
From Verif Require Import HMap Objects ObjectsSpec ObjectsProofs.
Import ListNotations.
Local Open Scope nat_scope.

Definition all : nat -> Prop := fun _ => True.
Notation wf := (base all nobody).
Notation owns := (known all).

Lemma wf_nil : wf [].
Proof. assert (X : forall a (o : obj), nth_error [] a <> Some o) by (intros [|a] o; discriminate). constructor; try (intros; contradiction); try (intros; exfalso; eapply X; eauto; fail). intros; exact Logic.I. Qed.
Lemma sv_all v : sv all v.
Proof. now destruct v. Qed.
Lemma svs_all l : Forall (sv all) l.
Proof. apply Forall_forall. intros; apply sv_all. Qed.
Lemma sound_nil : sound nobody [].
Proof. intros [|a] o E; discriminate. Qed.

(* the states that a program can reach, without entries as values *)
Lemma made_wf n ops h K : history n [] [] ops = Some (h, K) -> Forall no_entries ops -> wf h /\ owns h K.
Proof.
  intros E NE. destruct (history_spec all nobody _ _ _ _ _ _ E NE wf_nil) as [(B & _ & _ & N) _]; [constructor|]. now split.
Qed.
Lemma made_sound n ops h K : history n [] [] ops = Some (h, K) -> Forall no_entries ops -> careful n [] [] ops -> sound nobody h.
Proof.
  intros E NE C. destruct (history_spec all nobody _ _ _ _ _ _ E NE wf_nil) as [_ P]; [constructor|]. apply P; [exact C|apply sound_nil].
Qed.

(* ---------- what is observed depends on what is reached ---------- *)

Scheme denotes_i := Induction for denotes Sort Prop
with denote_all_i := Induction for denote_all Sort Prop
with denote_nodes_i := Induction for denote_nodes Sort Prop.

Definition agree (h h' : heap) (v : val) : Prop := forall a, reach h v a -> nth_error h' a = nth_error h a.
Lemma agree_field h h' a o v : agree h h' (Ptr a) -> nth_error h a = Some o -> In v (fields o) -> agree h h' v.
Proof. intros A E I b R. apply A. eapply reach_next; eauto. Qed.

Lemma denotes_agree h h' v t : denotes h v t -> agree h h' v -> denotes h' v t.
Proof.
  intros D. revert v t D.
  apply (denotes_i h
    (fun v t _ => agree h h' v -> denotes h' v t)
    (fun l ts _ => (forall v, In v l -> agree h h' v) -> denote_all h' l ts)
    (fun ns ts _ => (forall n, In n ns -> agree h h' (Ptr n)) -> denote_nodes h' ns ts)).
  - constructor.
  - intros a f l ts E D IH A. eapply d_arr; [rewrite A by constructor; exact E|]. apply IH. intros v I. eapply agree_field; eauto.
  - intros a f ns ts E D IH A. eapply d_map; [rewrite A by constructor; exact E|]. apply IH. intros n I. eapply agree_field; eauto. now apply in_map.
  - intros a k w tk tw E Dk IHk Dw IHw A. eapply d_node; [rewrite A by constructor; exact E| |].
    + apply IHk. eapply agree_field; eauto. cbn; auto.
    + apply IHw. eapply agree_field; eauto. cbn; auto.
  - intros a w t E D IH A. eapply d_sens; [rewrite A by constructor; exact E|]. apply IH. eapply agree_field; eauto. cbn; auto.
  - intros a f b bs E Eb A. eapply d_bin; [rewrite A by constructor; exact E|]. rewrite A; [exact Eb|]. eapply reach_next; [exact E|cbn; left; reflexivity|constructor].
  - constructor.
  - intros v l t ts D IH Ds IHs A. constructor; [apply IH, A; now left|apply IHs; intros x I; apply A; now right].
  - constructor.
  - intros n ns k w tk tw ts E Dk IHk Dw IHw Ds IHs A. pose proof (A n (or_introl eq_refl)) as An. econstructor.
    + rewrite An by constructor. exact E.
    + apply IHk. eapply agree_field; eauto. cbn; auto.
    + apply IHw. eapply agree_field; eauto. cbn; auto.
    + apply IHs. intros x I. apply A. now right.
Qed.

(* Freeze changes flags only *)
Lemma denotes_freezes h h' v t : freezes h h' -> denotes h v t -> denotes h' v t.
Proof.
  intros F D. revert v t D.
  apply (denotes_i h (fun v t _ => denotes h' v t) (fun l ts _ => denote_all h' l ts) (fun ns ts _ => denote_nodes h' ns ts)).
  - constructor.
  - intros a f l ts E D IH. destruct (F _ _ E) as (o & Eo & [->| ->]); eapply d_arr; eauto.
  - intros a f l ts E D IH. destruct (F _ _ E) as (o & Eo & [->| ->]); eapply d_map; eauto.
  - intros a k w tk tw E Dk IHk Dw IHw. eapply d_node; eauto. eapply freezes_node; eauto.
  - intros a w t E D IH. destruct (F _ _ E) as (o & Eo & ->). eapply d_sens; eauto.
  - intros a f b bs E Eb. destruct (F _ _ E) as (o & Eo & [->|(_ & b' & -> & P)]); eapply d_bin; eauto. eapply freezes_bytes; eauto.
  - constructor.
  - constructor; auto.
  - constructor.
  - intros n ns k w tk tw ts E Dk IHk Dw IHw Ds IHs. econstructor; eauto. eapply freezes_node; eauto.
Qed.
Lemma denotes_app h l v t : denotes h v t -> denotes (h ++ l) v t.
Proof. apply denotes_freezes, freezes_app. Qed.

(* ---------- deep ---------- *)

Definition firm_val (h : heap) (v : val) : Prop :=
  frz h v \/ (exists a k w, v = Ptr a /\ nth_error h a = Some (Node k w) /\ frz h k /\ frz h w) \/ (exists a bs, v = Ptr a /\ nth_error h a = Some (Bytes bs)).

Lemma firm_fields h a o : wf h -> sound nobody h -> firm_val h (Ptr a) -> nth_error h a = Some o -> Forall (firm_val h) (fields o).
Proof.
  intros B S0 F E. pose proof (b_obj _ _ h B _ _ E) as O.
  destruct F as [F|[(b & k & w & Eb & E' & Fk & Fw)|(b & bs & Eb & E')]].
  - inversion F as [|? l E'|? ns E'|? b E'|? w E' Fw]; subst; rewrite E' in E; injection E as <-.
    + pose proof (S0 _ _ E' (fun x => x)) as SO. cbn in *. eapply Forall_impl; [|exact SO]. intros v Hv. now left.
    + pose proof (S0 _ _ E' (fun x => x)) as SO. cbn in *. apply Forall_forall. intros v Iv. apply in_map_iff in Iv as (n & <- & In_).
      rewrite Forall_forall in O. destruct (O _ In_) as (k & w & En). destruct (SO _ _ _ In_ En) as [A A2]. right. left. exists n, k, w. auto.
    + cbn in *. destruct O as (bs & Ebs). constructor; [|constructor]. right. right. eauto.
    + cbn. constructor; [now left|constructor].
  - injection Eb as <-. rewrite E' in E. injection E as <-. cbn. constructor; [now left|]. constructor; [now left|constructor].
  - injection Eb as <-. rewrite E' in E. injection E as <-. constructor.
Qed.
Lemma frz_deep h v : wf h -> sound nobody h -> frz h v -> deep_frozen h v.
Proof.
  intros B S0 F a o R E. assert (FV : firm_val h v) by now left. clear F. revert E.
  induction R as [a|a o1 x b E1 I R IH]; intros E.
  - destruct FV as [F|[(b & k & w & Eb & E' & _)|(b & bs & Eb & E')]].
    + inversion F as [|? l E'|? ns E'|? b E'|? w E' Fw]; subst; rewrite E' in E; injection E as <-; auto.
    + injection Eb as <-. rewrite E' in E. injection E as <-. exact Logic.I.
    + injection Eb as <-. rewrite E' in E. injection E as <-. exact Logic.I.
  - apply IH; [|exact E]. pose proof (firm_fields _ _ _ B S0 FV E1) as FF. rewrite Forall_forall in FF. auto.
Qed.

(* ---------- final ---------- *)

(* the nodes of a map are reached through the map *)
Lemma reach_node h v n k w : wf h -> reach h v n -> nth_error h n = Some (Node k w) ->
  v = Ptr n \/ exists m f ns, reach h v m /\ nth_error h m = Some (Map f ns) /\ In n ns.
Proof.
  intros B R. induction R as [a|a o x b E I R IH]; intros En; [now left|]. right.
  destruct (IH En) as [->|(m & f & ns & Rm & Em & Im)]; [|exists m, f, ns; split; [eapply reach_next; eauto|auto]].
  pose proof (b_obj _ _ h B _ _ E) as O.
  assert (NO : ~ okval h (Ptr b)) by (cbn; now rewrite En).
  destruct o as [f l|f ns|k1 w1|w1|f c|bs]; cbn in I, O.
  - rewrite Forall_forall in O. now destruct NO; apply O.
  - exists a, f, ns. split; [constructor|]. split; [exact E|]. apply in_map_iff in I as (y & Ey & Iy). injection Ey as ->. exact Iy.
  - destruct O as [O1 O2]. destruct I as [->|[->|[]]]; contradiction.
  - destruct O as [O1 _]. destruct I as [->|[]]; contradiction.
  - destruct O as (bs & Eb). destruct I as [I|[]]. injection I as ->. congruence.
  - contradiction.
Qed.

(* nothing outside the heap is reached *)
Lemma reach_in h v a : wf h -> okval h v -> reach h v a -> a < length h.
Proof.
  intros B O R. assert (P : okval h v \/ exists y, v = Ptr y /\ y < length h) by now left. clear O. revert P.
  induction R as [y|y o w b Ey I R IH]; intros P.
  - destruct P as [P|(y' & E' & L)]; [cbn in P|congruence]. destruct (nth_error h y) as [o|] eqn:Ey; [eapply nth_lt; eauto|contradiction].
  - apply IH. pose proof (b_obj _ _ h B _ _ Ey) as Oy. destruct o as [f l|f ns|k1 w1|w1|f c1|bs1]; cbn in I, Oy.
    + rewrite Forall_forall in Oy. left. auto.
    + apply in_map_iff in I as (z & <- & Iz). rewrite Forall_forall in Oy. destruct (Oy _ Iz) as (k & w0 & En). right. exists z. split; [reflexivity|eapply nth_lt; eauto].
    + destruct Oy. left. destruct I as [<-|[<-|[]]]; auto.
    + destruct Oy. left. destruct I as [<-|[]]; auto.
    + destruct I as [<-|[]]. destruct Oy as (bs & Eb). right. exists c1. split; [reflexivity|eapply nth_lt; eauto].
    + contradiction.
Qed.

Section Final.
Variables (h : heap) (v : val).
(* a caller cannot get the byte slice of a frozen binary *)
Definition shown : nat -> Prop := fun a => forall c, nth_error h c <> Some (Bin true a).
Definition part : nat -> Prop := fun a => reach h v a /\ a < length h.

Lemma shown_ok w : wf h -> okval h w -> sv shown w.
Proof.
  intros B O. destruct w as [z|a]; cbn; [exact Logic.I|]. intros c E. destruct (b_obj _ _ h B _ _ E) as (bs & Eb). cbn in O. now rewrite Eb in O.
Qed.
Lemma final_base : wf h -> okval h v -> deep_frozen h v -> base shown part h.
Proof.
  intros B O D. pose proof B as [B1 B2 B3 _ _ _ _ _]. constructor; auto.
  - intros a o Sa E. pose proof (B1 _ _ E) as Oa. destruct o as [f l|f ns|k w|w|f b|bs]; cbn in *.
    + eapply Forall_impl; [|exact Oa]. intros x. now apply shown_ok.
    + apply Forall_forall. intros x Ix. apply in_map_iff in Ix as (n & <- & In_). rewrite Forall_forall in Oa. destruct (Oa _ In_) as (k & w & En).
      intros c Ec. destruct (B1 _ _ Ec) as (bs & Eb). congruence.
    + destruct Oa. constructor; [now apply shown_ok|]. constructor; [now apply shown_ok|constructor].
    + destruct Oa. constructor; [now apply shown_ok|constructor].
    + destruct f; constructor; [|constructor]. intros c Ec. pose proof (B3 _ _ _ _ Ec E). subst c. congruence.
    + constructor.
  - intros a o Sa [Ra La] E M. pose proof (D _ _ Ra E) as F. destruct o as [f l|f ns|k w|w|f b|bs]; cbn in M, F; try congruence; auto.
    (* a byte slice is only reached through a frozen binary *)
    clear M F. assert (Rb : forall x, reach h x a -> x = Ptr a \/ exists c f, reach h x c /\ nth_error h c = Some (Bin f a)).
    { intros x R. induction R as [b|b o y c Eb I R IH]; [now left|]. right.
      destruct (IH Sa Ra La E) as [->|(c0 & f & Rc & Ec)]; [|exists c0, f; split; [eapply reach_next; eauto|exact Ec]].
      pose proof (B1 _ _ Eb) as Ob. assert (NO : ~ okval h (Ptr c)) by (cbn; now rewrite E).
      destruct o as [f l|f ns|k1 w1|w1|f c1|bs1]; cbn in I, Ob.
      - rewrite Forall_forall in Ob. now destruct NO; apply Ob.
      - apply in_map_iff in I as (z & Ez & Iz). injection Ez as ->. rewrite Forall_forall in Ob. destruct (Ob _ Iz) as (k & w & En). congruence.
      - destruct Ob as [O1 O2]. destruct I as [->|[->|[]]]; contradiction.
      - destruct Ob as [O1 _]. destruct I as [->|[]]; contradiction.
      - destruct I as [I|[]]. injection I as ->. exists b, f. split; [constructor|exact Eb].
      - contradiction. }
    destruct (Rb v Ra) as [->|(c & f & Rc & Ec)]; [cbn in O; now rewrite E in O|]. pose proof (D _ _ Rc Ec) as F. cbn in F. subst f. exact (Sa _ Ec).
  - intros m f ns n Em Im [Rn Ln]. split; [|eapply nth_lt; eauto].
    pose proof (B1 _ _ Em) as Om. cbn in Om. rewrite Forall_forall in Om. destruct (Om _ Im) as (k & w & En).
    destruct (reach_node _ _ _ _ _ B Rn En) as [->|(m' & f' & ns' & Rm & Em' & Im')]; [cbn in O; now rewrite En in O|].
    assert (m = m') by (eapply B2; eauto). now subst m'.
  - now intros a [_ L].
  - intros a L c E. destruct (B1 _ _ E) as (bs & Eb). apply nth_lt in Eb. lia.
Qed.
Lemma final_known K : wf h -> owns h K -> known shown h K.
Proof.
  intros B. apply Forall_impl. intros k [_ [O|(b & bs & -> & Eb & N)]]; split; auto.
  - now apply shown_ok.
  - right. eauto.
Qed.

Lemma final n K ops h' K' : wf h -> owns h K -> okval h v -> deep_frozen h v ->
  history n h K ops = Some (h', K') -> Forall no_entries ops -> agree h h' v.
Proof.
  intros B N O D E NE. destruct (history_spec shown part _ _ _ _ _ _ E NE (final_base B O D) (final_known K B N)) as [(_ & KP & _ & _) _].
  intros a R. apply KP. split; [exact R|]. exact (reach_in _ _ _ B O R).
Qed.
End Final.

(* ---------- Freeze ends ---------- *)

Lemma each_ext f g l : (forall h v h', f h v = Some h' -> g h v = Some h') -> forall h h', each f h l = Some h' -> each g h l = Some h'.
Proof. intros F. induction l as [|v l IH]; cbn; intros h h' E; [exact E|]. destruct (f h v) as [h1|] eqn:E1; [|discriminate]. rewrite (F _ _ _ E1). auto. Qed.
Lemma freeze_more n m : n <= m -> forall h v h', freeze n h v = Some h' -> freeze m h v = Some h'.
Proof.
  revert m. induction n as [|n IH]; intros m L h v h' E; [discriminate|]. destruct m as [|m]; [lia|]. cbn [freeze] in *.
  assert (IH' := IH m ltac:(lia)). destruct v as [z|a]; [exact E|]. destruct (nth_error h a) as [[[] l|[] ns|k w|w|[] b|bs]|]; auto; now apply (each_ext (freeze n)).
Qed.
Definition unfrozen (o : obj) : bool := match o with Arr f _ | Map f _ | Bin f _ => negb f | _ => false end.
Definition todo (h : heap) : nat := length (filter unfrozen h).
Lemma todo_upd h a o o' : nth_error h a = Some o -> unfrozen o = true -> unfrozen o' = false -> todo h = S (todo (upd h a o')).
Proof.
  unfold todo. revert a. induction h as [|x h IH]; intros [|a] E U U'; cbn in *; try discriminate.
  - injection E as ->. now rewrite U, U'.
  - specialize (IH _ E U U'). destruct (unfrozen x); cbn; lia.
Qed.
Lemma todo_app h l : todo (h ++ l) = todo h + todo l.
Proof. unfold todo. now rewrite filter_app, app_length. Qed.

Notation frozee := (froze all nobody).
Notation ready := (vok all).
Definition ends (h : heap) (v : val) : Prop := exists n h', freeze n h v = Some h' /\ todo h' <= todo h.

Lemma ready_all h v : okval h v -> ready h v.
Proof. intros O. left. split; [exact O|apply sv_all]. Qed.
Lemma each_ends l : forall h, wf h -> Forall (ready h) l ->
  (forall h1 v, wf h1 -> todo h1 <= todo h -> ready h1 v -> ends h1 v) ->
  exists n h', each (freeze n) h l = Some h' /\ todo h' <= todo h.
Proof.
  induction l as [|v l IH]; intros h B R P; cbn; [exists 0, h; split; auto|]. inversion R as [|? ? R1 R2]; subst.
  destruct (P h v B ltac:(lia) R1) as (n1 & h1 & E1 & L1).
  destruct (freeze_spec all nobody _ _ _ _ E1 B R1) as [(B1 & _ & F1 & M1) _].
  destruct (IH h1 B1) as (n2 & h2 & E2 & L2).
  - eapply Forall_impl; [|exact R2]. intros x. now apply vok_mild.
  - intros h3 w B3 L3 R3. apply P; auto. lia.
  - exists (max n1 n2), h2. rewrite (freeze_more n1 (max n1 n2) ltac:(lia) _ _ _ E1). split; [|lia].
    eapply each_ext; [|exact E2]. intros x y z. apply freeze_more. lia.
Qed.

Lemma freeze_ends_aux k : forall h, todo h <= k -> wf h -> forall v, ready h v -> ends h v.
Proof.
  induction k as [k IH] using (well_founded_induction lt_wf). intros h L B.
  assert (Val : forall m v, (forall a, v = Ptr a -> a < m) -> okval h v -> ends h v).
  { induction m as [|m IHm]; intros v La O.
    - destruct v as [z|a]; [exists 1, h; split; auto|]. specialize (La a eq_refl). lia.
    - destruct v as [z|a]; [exists 1, h; split; auto|]. destruct (nth_error h a) as [o|] eqn:E; [|cbn in O; now rewrite E in O].
      pose proof (b_obj _ _ h B _ _ E) as Oa. destruct o as [[] l|[] ns|x w|w|[] b|bs].
      + exists 1, h. cbn. rewrite E. auto.
      + pose proof (todo_upd _ _ _ (Arr true l) E eq_refl eq_refl) as T.
        assert (M : mild h (upd h a (Arr true l))) by (eapply mild_upd; [exact E|exact Logic.I|discriminate]).
        destruct (each_ends l (upd h a (Arr true l))) as (n & h' & E1 & L1).
        * eapply base_upd; eauto; try discriminate; [exact Logic.I|exact Logic.I|apply svs_all].
        * cbn in Oa. eapply Forall_impl; [|exact Oa]. intros x Ox. apply ready_all. apply (okval_kinds h); [apply M|exact Ox].
        * intros h1 v B1 L1 R1. apply (IH (todo h1)); auto. lia.
        * exists (S n), h'. cbn. rewrite E. split; [exact E1|lia].
      + exists 1, h. cbn. rewrite E. auto.
      + pose proof (todo_upd _ _ _ (Map true ns) E eq_refl eq_refl) as T.
        assert (F : freezes h (upd h a (Map true ns))) by (eapply freezes_upd; [exact E|]; cbn; auto).
        destruct (each_ends (map Ptr ns) (upd h a (Map true ns))) as (n & h' & E1 & L1).
        * eapply base_upd; eauto; try discriminate; [exact Logic.I|exact Logic.I|apply svs_all|].
          intros f ms Em. injection Em as <- <-. exists false, ns. auto.
        * cbn in Oa. rewrite Forall_forall in *. intros x Ix. apply in_map_iff in Ix as (y & <- & Iy). destruct (Oa _ Iy) as (k1 & w1 & Ey).
          right. exists y, k1, w1. split; [reflexivity|]. split; [exact Logic.I|]. eapply freezes_node; eauto.
        * intros h1 v B1 L1 R1. apply (IH (todo h1)); auto. lia.
        * exists (S n), h'. cbn. rewrite E. split; [exact E1|lia].
      + cbn in O. now rewrite E in O.
      + destruct Oa as [Ow Lw]. destruct (IHm w) as (n & h' & E1 & L1); [|exact Ow|].
        * intros b ->. specialize (Lw _ eq_refl). specialize (La _ eq_refl). lia.
        * exists (S n), h'. cbn. rewrite E. auto.
      + exists 1, h. cbn. rewrite E. auto.
      + exists 1. eexists. cbn. rewrite E. split; [reflexivity|]. rewrite todo_app.
        pose proof (todo_upd _ _ _ (Bin true (length h)) E eq_refl eq_refl). change (todo [Bytes (contents h b)]) with 0. lia.
      + cbn in O. now rewrite E in O. }
  assert (Val2 : forall v, okval h v -> ends h v).
  { intros v O. apply (Val (length h)); [|exact O]. intros a ->. cbn in O. destruct (nth_error h a) eqn:E; [eapply nth_lt; eauto|contradiction]. }
  intros v [[O _]|(a & x & w & -> & _ & E)]; [now apply Val2|]. destruct (b_obj _ _ h B _ _ E) as [_ Ow].
  destruct (Val2 w Ow) as (n & h' & E1 & L1). exists (S n), h'. cbn. rewrite E. auto.
Qed.
Lemma freeze_ends h v : wf h -> okval h v -> exists n0 h', forall n, n0 <= n -> freeze n h v = Some h'.
Proof.
  intros B O. destruct (freeze_ends_aux (todo h) h (le_n _) B v (ready_all _ _ O)) as (n0 & h' & E & _). exists n0, h'. intros n L. now apply (freeze_more n0).
Qed.

Lemma freeze_deep n h v h' : wf h -> okval h v -> freeze n h v = Some h' ->
  (sound nobody h -> deep_frozen h' v) /\ (forall w t, denotes h w t -> denotes h' w t) /\ wf h' /\ mild h h' /\ (sound nobody h -> sound nobody h').
Proof.
  intros B O E. destruct (freeze_spec all nobody _ _ _ _ E B (ready_all _ _ O)) as [(B1 & _ & F1 & M1) P].
  assert (PS : sound nobody h -> sound nobody h' /\ frzn h' v) by (intros S0; apply (P nobody); [intros ? []|intros ? ? []|exact S0]).
  split; [|split; [|split; [|split]]]; auto.
  - intros S0. destruct (PS S0) as [S1 [F|(a & k & w & -> & Ea & _)]]; [now apply frz_deep|].
    apply (okval_kinds h h') in O; [|apply M1]. cbn in O. now rewrite Ea in O.
  - intros w t. now apply denotes_freezes.
  - intros S0. now apply PS.
Qed.

(* ---------- copies observe as the original ---------- *)

Notation copies := (copied all nobody).
Lemma all_good h v : okval h v -> good all h v.
Proof. intros O. split; [exact O|apply sv_all]. Qed.
Lemma all_goods h l : Forall (okval h) l -> Forall (good all h) l.
Proof. apply Forall_impl. intros v. apply all_good. Qed.

Definition denote_pairs (h : heap) (kvs : list (val * val)) (ts : list (tree * tree)) : Prop :=
  Forall2 (fun e t => denotes h (fst e) (fst t) /\ denotes h (snd e) (snd t)) kvs ts.
Lemma denote_pairs_app h l kvs ts : denote_pairs h kvs ts -> denote_pairs (h ++ l) kvs ts.
Proof. intros D. induction D as [|e t r rt [A B] D IH]; constructor; auto. split; now apply denotes_app. Qed.
Lemma pairs_denote h ns ts : denote_nodes h ns ts -> denote_pairs h (pairs h ns) ts.
Proof. induction 1 as [|n ns k w tk tw ts E Dk Dw D IH]; cbn; [constructor|]. rewrite E. constructor; [now split|exact IH]. Qed.
Lemma new_nodes h kvs l ts : denote_pairs h kvs ts -> denote_nodes (h ++ nodes_of kvs ++ l) (seq (length h) (length kvs)) ts.
Proof.
  intros D. revert h D. revert ts. induction kvs as [|[k w] r IH]; intros ts h D; inversion D as [|? [tk tw] ? rt [A B] D']; subst; cbn [length seq]; [constructor|].
  unfold nodes_of. cbn [map fst snd]. fold (nodes_of r). cbn [app]. econstructor.
  - rewrite nth_error_app2, Nat.sub_diag by lia. reflexivity.
  - now apply denotes_app.
  - now apply denotes_app.
  - replace (h ++ Node k w :: nodes_of r ++ l) with ((h ++ [Node k w]) ++ nodes_of r ++ l) by now rewrite <- app_assoc.
    specialize (IH rt (h ++ [Node k w])). rewrite app_length in IH. cbn in IH. rewrite Nat.add_1_r in IH. apply IH. now apply denote_pairs_app.
Qed.
Lemma denote_all_app h l vs ts : denote_all h vs ts -> denote_all (h ++ l) vs ts.
Proof. induction 1; constructor; auto. now apply denotes_app. Qed.
Lemma denote_seconds h kvs ts : denote_pairs h kvs ts -> denote_all h (map snd kvs) (map snd ts).
Proof. induction 1 as [|e t r rt [A B] D IH]; cbn; constructor; auto. Qed.
Lemma denote_combine h h' kvs ws ts : copies h h' -> denote_pairs h kvs ts -> denote_all h' ws (map snd ts) -> denote_pairs h' (combine (map fst kvs) ws) ts.
Proof.
  intros (_ & (l & ->) & _) D. revert ws. induction D as [|e t r rt [A B] D IH]; cbn; intros ws W; inversion W; subst; cbn; constructor.
  - cbn. split; [now apply denotes_app|assumption].
  - now apply IH.
Qed.
Lemma copies_denotes h h' v t : copies h h' -> denotes h v t -> denotes h' v t.
Proof. intros (_ & (l & ->) & _). apply denotes_app. Qed.

Definition same_ok (f : heap -> val -> option (heap * val)) : Prop :=
  forall h v h' v' t, f h v = Some (h', v') -> wf h -> okval h v -> denotes h v t -> denotes h' v' t.
Lemma map_each_same R f l : firm R -> copy_ok all nobody R f -> same_ok f -> forall h h' l' ts, map_each f h l = Some (h', l') -> wf h -> Forall (okval h) l ->
  denote_all h l ts -> denote_all h' l' ts.
Proof.
  intros FR F X. induction l as [|v l IH]; cbn; intros h h' l' ts E B O D.
  - injection E as <- <-. inversion D; subst. constructor.
  - destruct (f h v) as [[h1 v1]|] eqn:E1; [|discriminate]. destruct (map_each f h1 l) as [[h2 r]|] eqn:E2; [|discriminate]. injection E as <- <-.
    inversion O as [|? ? O1 O2]; subst. inversion D as [|? ? t ts' D1 D2]; subst.
    destruct (F _ _ _ _ E1 B (all_good _ _ O1)) as (C1 & G1 & _). pose proof (proj1 C1) as B1.
    assert (O3 : Forall (okval h1) l) by (apply (okvals_kinds h); [now apply (copied_kinds all nobody)|exact O2]).
    destruct (map_each_ok all nobody _ _ _ FR F _ _ _ E2 B1 (all_goods _ _ O3)) as (C2 & _ & _).
    constructor.
    + apply (copies_denotes h1); [exact C2|]. eapply X; eauto.
    + eapply IH; eauto. destruct C1 as (_ & (x & ->) & _). now apply denote_all_app.
Qed.
Lemma firm_frz : firm frz.
Proof. intros ? ? ?. apply frz_keep. Qed.
Lemma firm_true : firm (fun _ _ => True).
Proof. intros ? ? ? _ _. exact Logic.I. Qed.
Lemma okvals_pairs h a f ns : wf h -> nth_error h a = Some (Map f ns) -> good_pairs all h (pairs h ns).
Proof. intros B E. apply (good_entries all nobody h a f ns); auto. exact Logic.I. Qed.
Lemma contents_at h b bs : nth_error h b = Some (Bytes bs) -> contents h b = bs.
Proof. unfold contents. now intros ->. Qed.

Lemma new_bin_denotes h f bs : denotes (fst (alloc_bin h f bs)) (Ptr (S (length h))) (TBin bs).
Proof. eapply d_bin; [apply at_bin|]. cbn. rewrite nth_error_app2, Nat.sub_diag by lia. reflexivity. Qed.
Lemma new_map_denotes h f kvs ts : denote_pairs h kvs ts -> denotes (fst (alloc_map h f kvs)) (Ptr (length h + length kvs)) (TMap ts).
Proof. intros D. eapply d_map; [apply at_map|]. now apply new_nodes. Qed.

Lemma frozen_copy_same n : same_ok (frozen_copy n).
Proof.
  induction n as [|n IH]; intros h v h' v' t E B O D; [discriminate|]. cbn [frozen_copy] in E.
  destruct v as [z|a]; [injection E as <- <-; exact D|].
  destruct (nth_error h a) as [o|] eqn:Ea; [|cbn in O; now rewrite Ea in O]. pose proof (b_obj _ _ h B _ _ Ea) as Oa.
  destruct o as [[] l|[] ns|k w|w|[] b|bs]; try (injection E as <- <-; exact D).
  - destruct (map_each (frozen_copy n) h l) as [[h1 l1]|] eqn:E1; [|discriminate]. injection E as <- <-.
    inversion D as [|? f l0 ts E0 D1| | | |]; subst; try congruence; rewrite E0 in Ea; injection Ea as -> ->.
    eapply d_arr; [apply at_new|]. apply denote_all_app. eapply map_each_same; eauto using firm_frz, frozen_copy_spec.
  - destruct (map_each (frozen_copy n) h (map snd (pairs h ns))) as [[h1 ws]|] eqn:E1; [|discriminate].
    pose proof (okvals_pairs _ _ _ _ B Ea) as GP. pose proof (goods_ok _ _ _ (good_seconds _ _ _ GP)) as OS.
    destruct (map_each_ok all nobody _ _ _ firm_frz (frozen_copy_spec all nobody n) _ _ _ E1 B (all_goods _ _ OS)) as (C1 & _ & _).
    inversion D as [| |? f ns0 ts E0 D1| | |]; subst; try congruence; rewrite E0 in Ea; injection Ea as -> ->. injection E as <- <-.
    apply (new_map_denotes h1 true). eapply denote_combine; [exact C1|now apply pairs_denote|].
    eapply map_each_same; eauto using firm_frz, frozen_copy_spec. now apply denote_seconds, pairs_denote.
  - cbn in O. now rewrite Ea in O.
  - destruct Oa as [Ow _]. destruct (frozen n h w) as [[]|] eqn:Ef; [injection E as <- <-; exact D| |discriminate].
    destruct (frozen_copy n h w) as [[h1 w1]|] eqn:E1; [|discriminate]. injection E as <- <-.
    inversion D as [| | | |? w0 t0 E0 D1|]; subst; try congruence; rewrite E0 in Ea; injection Ea as ->.
    eapply d_sens; [apply at_new|]. apply denotes_app. eapply IH; eauto.
  - injection E as <- <-. inversion D as [| | | | |? f b0 bs E0 Eb]; subst; try congruence; rewrite E0 in Ea; injection Ea as -> ->.
    rewrite (contents_at _ _ _ Eb). apply (new_bin_denotes h true).
Qed.

Lemma thawed_copy_same n : same_ok (thawed_copy n).
Proof.
  induction n as [|n IH]; intros h v h' v' t E B O D; [discriminate|]. cbn [thawed_copy] in E.
  destruct v as [z|a]; [injection E as <- <-; exact D|].
  destruct (nth_error h a) as [o|] eqn:Ea; [|cbn in O; now rewrite Ea in O]. pose proof (b_obj _ _ h B _ _ Ea) as Oa.
  destruct o as [f l|f ns|k w|w|f b|bs]; try (injection E as <- <-; exact D).
  - destruct (map_each (thawed_copy n) h l) as [[h1 l1]|] eqn:E1; [|discriminate]. injection E as <- <-.
    inversion D as [|? f0 l0 ts E0 D1| | | |]; subst; try congruence; rewrite E0 in Ea; injection Ea as -> ->.
    eapply d_arr; [apply at_new|]. apply denote_all_app. eapply map_each_same; eauto using firm_true, thawed_copy_spec.
  - destruct (map_each (thawed_copy n) h (map snd (pairs h ns))) as [[h1 ws]|] eqn:E1; [|discriminate].
    pose proof (okvals_pairs _ _ _ _ B Ea) as GP. pose proof (goods_ok _ _ _ (good_seconds _ _ _ GP)) as OS.
    destruct (map_each_ok all nobody _ _ _ firm_true (thawed_copy_spec all nobody n) _ _ _ E1 B (all_goods _ _ OS)) as (C1 & _ & _).
    inversion D as [| |? f0 ns0 ts E0 D1| | |]; subst; try congruence; rewrite E0 in Ea; injection Ea as -> ->. injection E as <- <-.
    apply (new_map_denotes h1 false). eapply denote_combine; [exact C1|now apply pairs_denote|].
    eapply map_each_same; eauto using firm_true, thawed_copy_spec. now apply denote_seconds, pairs_denote.
  - cbn in O. now rewrite Ea in O.
  - destruct Oa as [Ow _]. destruct w as [z|c]; [injection E as <- <-; exact D|].
    destruct (thawed_copy n h (Ptr c)) as [[h1 w1]|] eqn:E1; [|discriminate]. injection E as <- <-.
    inversion D as [| | | |? w0 t0 E0 D1|]; subst; try congruence; rewrite E0 in Ea; injection Ea as ->.
    eapply d_sens; [apply at_new|]. apply denotes_app. eapply IH; eauto.
  - injection E as <- <-. inversion D as [| | | | |? f0 b0 bs E0 Eb]; subst; try congruence; rewrite E0 in Ea; injection Ea as -> ->.
    rewrite (contents_at _ _ _ Eb). apply (new_bin_denotes h false).
Qed.

(* a deeply frozen value is its own frozen copy *)
Lemma frozen_deep n h : forall v b, wf h -> okval h v -> deep_frozen h v -> frozen n h v = Some b -> b = true.
Proof.
  induction n as [|n IH]; intros v b B O D E; [discriminate|]. cbn in E. destruct v as [z|a]; [now injection E as <-|].
  destruct (nth_error h a) as [o|] eqn:Ea; [|now injection E as <-]. pose proof (D a o (reach_here _ _) Ea) as Fa. pose proof (b_obj _ _ h B _ _ Ea) as Oa.
  destruct o as [f l|f ns|k w|w|f c|bs]; cbn in *; try (injection E as <-; assumption || reflexivity).
  - now rewrite Ea in O.
  - apply (IH w); auto; [apply Oa|]. intros x o R. apply D. eapply reach_next; [exact Ea|cbn; left; reflexivity|exact R].
Qed.
Lemma frozen_copy_itself n h v h' v' : wf h -> okval h v -> deep_frozen h v -> frozen_copy n h v = Some (h', v') -> h' = h /\ v' = v.
Proof.
  destruct n as [|n]; intros B O D E; [discriminate|]. cbn [frozen_copy] in E. destruct v as [z|a]; [now injection E as <- <-|].
  destruct (nth_error h a) as [o|] eqn:Ea; [|now injection E as <- <-]. pose proof (D a o (reach_here _ _) Ea) as Fa. pose proof (b_obj _ _ h B _ _ Ea) as Oa.
  destruct o as [f l|f ns|k w|w|f c|bs]; cbn in Fa; try subst f; try (now injection E as <- <-).
  - cbn in O. now rewrite Ea in O.
  - destruct (frozen n h w) as [b|] eqn:Ef; [|discriminate]. assert (b = true).
    { eapply (frozen_deep n h w); eauto; [apply Oa|]. intros x o R. apply D. eapply reach_next; [exact Ea|cbn; left; reflexivity|exact R]. }
    subst b. now injection E as <- <-.
Qed.

(* ---------- copies end when the value is finite ---------- *)

Lemma list_max_in x l m : In x l -> list_max l <= m -> x <= m.
Proof. intros I L. apply list_max_le in L. rewrite Forall_forall in L. auto. Qed.
Lemma depth_elem l m : list_max (map depth l) <= m -> Forall (fun t => depth t <= m) l.
Proof. intros L. apply Forall_forall. intros t I. eapply list_max_in; [apply in_map; exact I|exact L]. Qed.
Lemma depth_value (l : list (tree * tree)) m : list_max (map (fun '(k, w) => depth w) l) <= m -> Forall (fun t => depth t <= m) (map snd l).
Proof.
  intros L. apply Forall_forall. intros t I. apply in_map_iff in I as ([k w] & <- & I). eapply list_max_in; [|exact L]. apply in_map_iff. exists (k, w). auto.
Qed.

Definition ends_ok (f : heap -> val -> option (heap * val)) (m : nat) : Prop :=
  forall h v t, wf h -> okval h v -> denotes h v t -> depth t <= m -> exists r, f h v = Some r.
Lemma map_each_ends R f m l : firm R -> copy_ok all nobody R f -> ends_ok f m -> forall h ts, wf h -> Forall (okval h) l -> denote_all h l ts ->
  Forall (fun t => depth t <= m) ts -> exists r, map_each f h l = Some r.
Proof.
  intros FR F X. induction l as [|v l IH]; cbn; intros h ts B O D L; [eauto|].
  inversion O as [|? ? O1 O2]; subst. inversion D as [|? ? t ts' D1 D2]; subst. inversion L as [|? ? L1 L2]; subst.
  destruct (X _ _ _ B O1 D1 L1) as ([h1 v1] & E1). rewrite E1.
  destruct (F _ _ _ _ E1 B (all_good _ _ O1)) as (C1 & G1 & _). pose proof (proj1 C1) as B1.
  destruct (IH h1 ts' B1) as ([h2 r] & E2).
  - apply (okvals_kinds h); [now apply (copied_kinds all nobody)|exact O2].
  - destruct C1 as (_ & (x & ->) & _). now apply denote_all_app.
  - exact L2.
  - rewrite E2. eauto.
Qed.
Lemma frozen_ends n h : forall v t, denotes h v t -> depth t <= n -> exists b, frozen n h v = Some b.
Proof.
  induction n as [|n IH]; intros v t D L; [destruct t; cbn in L; lia|]. cbn.
  inversion D as [z|a f l ts E D1|a f ns ts E D1|a k w tk tw E Dk Dw|a w t0 E D1|a f b bs E Eb]; subst; [eauto|rewrite E; eauto ..|rewrite E; eauto].
  - apply (IH w tw); auto. cbn in L. lia.
  - apply (IH w t0); auto. cbn in L. lia.
Qed.
Lemma frozen_copy_ends n : ends_ok (frozen_copy n) n.
Proof.
  induction n as [|n IH]; intros h v t B O D L; [destruct t; cbn in L; lia|]. cbn [frozen_copy].
  inversion D as [z|a f l ts E D1|a f ns ts E D1|a k w tk tw E Dk Dw|a w t0 E D1|a f b bs E Eb]; subst; [eauto|rewrite E..].
  - destruct f; [eauto|]. pose proof (b_obj _ _ h B _ _ E) as Oa. cbn in Oa, L.
    destruct (map_each_ends _ _ n l firm_frz (frozen_copy_spec all nobody n) IH h ts B Oa D1) as ([h1 l1] & E1); [apply depth_elem; lia|]. rewrite E1. eauto.
  - destruct f; [eauto|]. pose proof (okvals_pairs _ _ _ _ B E) as GP. pose proof (goods_ok _ _ _ (good_seconds _ _ _ GP)) as OS. cbn in L.
    destruct (map_each_ends _ _ n _ firm_frz (frozen_copy_spec all nobody n) IH h (map snd ts) B OS) as ([h1 l1] & E1);
      [now apply denote_seconds, pairs_denote|apply depth_value; lia|]. rewrite E1. eauto.
  - cbn in O. now rewrite E in O.
  - cbn in L. destruct (frozen_ends n h w t0 D1) as (b & ->); [lia|]. destruct b; [eauto|].
    destruct (b_obj _ _ h B _ _ E) as [Ow _]. destruct (IH h w t0 B Ow D1) as ([h1 w1] & ->); [lia|]. eauto.
  - destruct f; eauto.
Qed.
Lemma thawed_copy_ends n : ends_ok (thawed_copy n) n.
Proof.
  induction n as [|n IH]; intros h v t B O D L; [destruct t; cbn in L; lia|]. cbn [thawed_copy].
  inversion D as [z|a f l ts E D1|a f ns ts E D1|a k w tk tw E Dk Dw|a w t0 E D1|a f b bs E Eb]; subst; [eauto|rewrite E..].
  - pose proof (b_obj _ _ h B _ _ E) as Oa. cbn in Oa, L.
    destruct (map_each_ends _ _ n l firm_true (thawed_copy_spec all nobody n) IH h ts B Oa D1) as ([h1 l1] & E1); [apply depth_elem; lia|]. rewrite E1. eauto.
  - pose proof (okvals_pairs _ _ _ _ B E) as GP. pose proof (goods_ok _ _ _ (good_seconds _ _ _ GP)) as OS. cbn in L.
    destruct (map_each_ends _ _ n _ firm_true (thawed_copy_spec all nobody n) IH h (map snd ts) B OS) as ([h1 l1] & E1);
      [now apply denote_seconds, pairs_denote|apply depth_value; lia|]. rewrite E1. eauto.
  - cbn in O. now rewrite E in O.
  - cbn in L. destruct w as [z|c]; [eauto|].
    destruct (b_obj _ _ h B _ _ E) as [Ow _]. destruct (IH h (Ptr c) t0 B Ow D1) as ([h1 w1] & ->); [lia|]. eauto.
  - eauto.
Qed.

(* ---------- a thawed copy is new ---------- *)

Section Thaw.
Variables (h : heap) (P : val -> Prop).
(* P: what is known of the keys of the maps *)
Definition newval (w : val) : Prop := match w with Imm _ => True | Ptr a => length h <= a \/ exists z, nth_error h a = Some (Sens (Imm z)) end.
Definition newobj (o : obj) : Prop :=
  match o with
  | Arr f l => f = false /\ Forall newval l
  | Map f ns => f = false /\ Forall (fun n => length h <= n) ns
  | Node k w => P k /\ newval w
  | Sens w => newval w
  | Bin f b => f = false /\ length h <= b
  | Bytes _ => True
  end.
Hypothesis B : wf h.
Hypothesis keys : forall a f ns, nth_error h a = Some (Map f ns) -> Forall P (map fst (pairs h ns)).

Definition grown (h0 : heap) : Prop := exists l, h0 = h ++ l /\ Forall newobj l.
Lemma grown_len h0 : grown h0 -> length h <= length h0.
Proof. intros (l & -> & _). rewrite app_length. lia. Qed.
Lemma grown_more h0 l : grown h0 -> Forall newobj l -> grown (h0 ++ l).
Proof. intros (l0 & -> & F) F2. exists (l0 ++ l). rewrite app_assoc. split; [reflexivity|]. apply Forall_app. now split. Qed.
Lemma grown_old h0 a o : grown h0 -> nth_error h a = Some o -> nth_error h0 a = Some o.
Proof. intros (l & -> & _). apply nth_old. Qed.

Definition thaw_ok (f : heap -> val -> option (heap * val)) : Prop :=
  forall h0 v h1 v1, f h0 v = Some (h1, v1) -> grown h0 -> okval h v -> grown h1 /\ newval v1.
Lemma map_each_thaw f l : thaw_ok f -> forall h0 h1 l1, map_each f h0 l = Some (h1, l1) -> grown h0 -> Forall (okval h) l -> grown h1 /\ Forall newval l1.
Proof.
  intros F. induction l as [|v l IH]; cbn; intros h0 h1 l1 E G O.
  - injection E as <- <-. split; [exact G|constructor].
  - destruct (f h0 v) as [[h2 v2]|] eqn:E1; [|discriminate]. destruct (map_each f h2 l) as [[h3 r]|] eqn:E2; [|discriminate]. injection E as <- <-.
    inversion O; subst. destruct (F _ _ _ _ E1 G) as [G1 N1]; [assumption|]. destruct (IH _ _ _ E2 G1) as [G2 N2]; [assumption|]. split; [exact G2|]. constructor; auto.
Qed.
Lemma thaw_new n : thaw_ok (thawed_copy n).
Proof.
  induction n as [|n IH]; intros h0 v h1 v1 E G O; [discriminate|]. cbn [thawed_copy] in E.
  destruct v as [z|a]; [injection E as <- <-; split; [exact G|exact Logic.I]|].
  destruct (nth_error h a) as [o|] eqn:Ea; [|cbn in O; now rewrite Ea in O]. rewrite (grown_old _ _ _ G Ea) in E. pose proof (b_obj _ _ h B _ _ Ea) as Oa.
  destruct o as [f l|f ns|k w|w|f b|bs].
  - destruct (map_each (thawed_copy n) h0 l) as [[h2 l2]|] eqn:E1; [|discriminate]. injection E as <- <-.
    destruct (map_each_thaw _ _ IH _ _ _ E1 G Oa) as [G1 N1]. split; [|left; now apply grown_len].
    apply grown_more; [exact G1|]. constructor; [split; auto|constructor].
  - replace (pairs h0 ns) with (pairs h ns) in E by (destruct G as (x & -> & _); symmetry; now apply (pairs_ext all nobody _ _ _ f a)).
    destruct (map_each (thawed_copy n) h0 (map snd (pairs h ns))) as [[h2 ws]|] eqn:E1; [|discriminate]. injection E as <- <-.
    pose proof (goods_ok _ _ _ (good_seconds _ _ _ (okvals_pairs _ _ _ _ B Ea))) as OS.
    destruct (map_each_thaw _ _ IH _ _ _ E1 G OS) as [G1 N1]. pose proof (grown_len _ G1) as LL. split; [|left; lia].
    cbn. apply grown_more; [exact G1|]. apply Forall_app. split.
    + apply Forall_forall. intros o I. unfold nodes_of in I. apply in_map_iff in I as ([k w] & <- & I). cbn. split.
      * apply in_combine_l in I. pose proof (keys _ _ _ Ea) as FK. rewrite Forall_forall in FK. auto.
      * apply in_combine_r in I. rewrite Forall_forall in N1. auto.
    + constructor; [|constructor]. split; [reflexivity|]. apply Forall_forall. intros m I. apply in_seq in I. lia.
  - cbn in O. now rewrite Ea in O.
  - destruct w as [z|c].
    + injection E as <- <-. split; [exact G|]. right. eauto.
    + destruct (thawed_copy n h0 (Ptr c)) as [[h2 w2]|] eqn:E1; [|discriminate]. injection E as <- <-.
      destruct Oa as [Ow _]. destruct (IH _ _ _ _ E1 G Ow) as [G1 N1]. split; [|left; now apply grown_len].
      apply grown_more; [exact G1|]. constructor; [exact N1|constructor].
  - injection E as <- <-. pose proof (grown_len _ G) as LL. split; [|left; lia]. cbn. apply grown_more; [exact G|]. constructor; [exact Logic.I|]. constructor; [|constructor]. split; auto.
  - cbn in O. now rewrite Ea in O.
Qed.

Lemma grown_new h1 a o : grown h1 -> length h <= a -> nth_error h1 a = Some o -> newobj o.
Proof.
  intros (l & -> & F) L E. rewrite nth_error_app2 in E by exact L. apply nth_error_In in E. rewrite Forall_forall in F. auto.
Qed.
Lemma grown_sens h1 a z o : grown h1 -> nth_error h a = Some (Sens (Imm z)) -> nth_error h1 a = Some o -> o = Sens (Imm z).
Proof. intros G E E1. rewrite (grown_old _ _ _ G E) in E1. congruence. Qed.
Lemma new_thawed h1 v : grown h1 -> newval v -> thawed h1 v.
Proof.
  intros G N a o I E.
  induction I as [a|a f l x b Ea Ix Ib IH|a f ns n k w b Ea In_ En Ib IH|a w b Ea Ib IH].
  - destruct N as [L|(z & Ez)].
    + pose proof (grown_new _ _ _ G L E) as No. destruct o; cbn in No; auto; apply No.
    + rewrite (grown_sens _ _ _ _ G Ez E). exact Logic.I.
  - apply IH; [|exact E]. destruct N as [L|(z & Ez)]; [|pose proof (grown_sens _ _ _ _ G Ez Ea); discriminate].
    destruct (grown_new _ _ _ G L Ea) as [_ F]. rewrite Forall_forall in F. auto.
  - apply IH; [|exact E]. destruct N as [L|(z & Ez)]; [|pose proof (grown_sens _ _ _ _ G Ez Ea); discriminate].
    destruct (grown_new _ _ _ G L Ea) as [_ F]. rewrite Forall_forall in F. specialize (F _ In_). exact (proj2 (grown_new _ _ _ G F En)).
  - apply IH; [|exact E]. destruct N as [L|(z & Ez)]; [exact (grown_new _ _ _ G L Ea)|]. pose proof (grown_sens _ _ _ _ G Ez Ea) as X. injection X as ->. exact Logic.I.
Qed.
End Thaw.

(* what is frozen and what only frozen containers hold *)
Definition held (h : heap) (a : nat) : Prop := frz h (Ptr a) \/ exists m ns, nth_error h m = Some (Map true ns) /\ In a ns.

Lemma grown_low h P h1 a o : grown h P h1 -> nth_error h1 a = Some o -> a < length h -> nth_error h a = Some o.
Proof. intros (l & -> & _) E L. now rewrite nth_error_app1 in E. Qed.

Section Apart.
Variables (h h1 : heap) (v1 : val).
Hypothesis B : wf h.
Hypothesis S0 : sound nobody h.
Hypothesis B1 : wf h1.
Hypothesis G : grown h (frz h) h1.
Hypothesis N : newval h v1.
Hypothesis O1 : okval h1 v1.

Lemma newval_held w : newval h w -> match w with Imm _ => True | Ptr a => length h <= a \/ held h a end.
Proof. destruct w as [z|a]; cbn; [auto|]. intros [L|(z & E)]; [now left|]. right. left. eapply frz_sens; [exact E|constructor]. Qed.
Lemma frz_held w : frz h w -> match w with Imm _ => True | Ptr a => length h <= a \/ held h a end.
Proof. destruct w as [z|a]; cbn; [auto|]. intros F. right. now left. Qed.
Lemma held_fields a o : held h a -> nth_error h a = Some o ->
  forall w, In w (fields o) -> match w with Imm _ => True | Ptr b => held h b \/ exists c, nth_error h c = Some (Bin true b) end.
Proof.
  assert (FH : forall w, frz h w -> match w with Imm _ => True | Ptr b => held h b \/ exists c, nth_error h c = Some (Bin true b) end).
  { intros [z|b] F; [exact Logic.I|]. left. now left. }
  intros [F|(m & ns & Em & Im)] E w I.
  - inversion F as [|? l E'|? ns E'|? b E'|? w0 E' Fw]; subst; rewrite E' in E; injection E as <-; cbn in I.
    + pose proof (S0 _ _ E' (fun x => x)) as SO. cbn in SO. rewrite Forall_forall in SO. apply FH. auto.
    + apply in_map_iff in I as (n & <- & I). left. right. eauto.
    + destruct I as [<-|[]]. right. eauto.
    + destruct I as [<-|[]]. now apply FH.
  - pose proof (S0 _ _ Em (fun x => x)) as SO. cbn in SO. pose proof (b_obj _ _ h B _ _ Em) as Om. cbn in Om. rewrite Forall_forall in Om.
    destruct (Om _ Im) as (k & w0 & En). rewrite E in En. injection En as ->. destruct (SO _ _ _ Im E) as [A A2]. cbn in I. destruct I as [<-|[<-|[]]]; apply FH; auto.
Qed.
Lemma held_still a o : held h a -> nth_error h a = Some o -> ~ mutable o.
Proof.
  intros [F|(m & ns & Em & Im)] E.
  - inversion F as [|? l E'|? ns E'|? b E'|? w0 E' Fw]; subst; rewrite E' in E; injection E as <-; cbn; auto; discriminate.
  - pose proof (b_obj _ _ h B _ _ Em) as Om. cbn in Om. rewrite Forall_forall in Om. destruct (Om _ Im) as (k & w0 & En). rewrite E in En. injection En as ->. auto.
Qed.
Lemma held_low a : held h a -> a < length h.
Proof.
  intros [F|(m & ns & Em & Im)].
  - inversion F as [|? l E'|? ns E'|? b E'|? w0 E' Fw]; subst; eapply nth_lt; eauto.
  - pose proof (b_obj _ _ h B _ _ Em) as Om. cbn in Om. rewrite Forall_forall in Om. destruct (Om _ Im) as (k & w0 & En). eapply nth_lt; eauto.
Qed.

(* who has the copy *)
Definition S1 : nat -> Prop := fun a => length h <= a \/ held h a.
Definition Q1 : nat -> Prop := fun a => a < length h.
Lemma new_S1 o : newobj h (frz h) o -> Forall (sv S1) (acc o).
Proof.
  assert (X : forall w, match w with Imm _ => True | Ptr a => length h <= a \/ held h a end -> sv S1 w) by (intros [z|a]; auto).
  destruct o as [f l|f ns|k w|w|f b|bs]; cbn.
  - intros [_ F]. eapply Forall_impl; [|exact F]. intros w Nw. apply X. now apply newval_held.
  - intros [_ F]. apply Forall_forall. intros x I. apply in_map_iff in I as (n & <- & I). rewrite Forall_forall in F. left. auto.
  - intros [Fk Nw]. constructor; [apply X; now apply frz_held|]. constructor; [apply X; now apply newval_held|constructor].
  - intros Nw. constructor; [apply X; now apply newval_held|constructor].
  - intros [-> L]. constructor; [now left|constructor].
  - constructor.
Qed.
Lemma copy_base : base S1 Q1 h1.
Proof.
  pose proof B1 as [C1 C2 C3 _ _ _ _ _]. constructor; auto.
  - intros a o Sa E. destruct (Nat.lt_ge_cases a (length h)) as [L|L].
    + destruct Sa as [L'|Ha]; [lia|]. pose proof (grown_low _ _ _ _ _ G E L) as Eh.
      assert (Y : forall w, In w (acc o) -> sv S1 w).
      { intros w I. assert (If : In w (fields o)) by (destruct o as [| | | |[]|]; auto; contradiction).
        pose proof (held_fields _ _ Ha Eh w If) as H. destruct w as [z|b]; [exact Logic.I|]. destruct H as [H|(c & Ec)]; [now right|].
        exfalso. destruct (b_obj _ _ h B _ _ Ec) as (bs & Eb).
        (* only a frozen binary refers to the byte slice *)
        pose proof (b_obj _ _ h B _ _ Eh) as Oh. destruct o as [f l|f ns|k1 w1|w1|f c1|bs1]; cbn in I, Oh.
        - rewrite Forall_forall in Oh. specialize (Oh _ I). cbn in Oh. now rewrite Eb in Oh.
        - apply in_map_iff in I as (n & En & I). injection En as ->. rewrite Forall_forall in Oh. destruct (Oh _ I) as (? & ? & ?). congruence.
        - destruct Oh as [Ok Ow]. destruct I as [->|[->|[]]]; cbn in *; [now rewrite Eb in Ok|now rewrite Eb in Ow].
        - destruct Oh as [Ow _]. destruct I as [->|[]]. cbn in Ow. now rewrite Eb in Ow.
        - destruct f; [contradiction|]. apply (held_still _ _ Ha Eh). reflexivity.
        - contradiction. }
      apply Forall_forall. exact Y.
    + apply new_S1. eapply grown_new; eauto.
  - intros a o Sa Qa E. unfold Q1 in Qa. destruct Sa as [L|Ha]; [lia|]. eapply held_still; eauto. now apply (grown_low h (frz h) h1).
  - intros m f ns n E I Qn. unfold Q1 in *. destruct (Nat.lt_ge_cases m (length h)) as [L|L]; [exact L|].
    destruct (grown_new _ _ _ _ _ G L E) as [_ F]. rewrite Forall_forall in F. specialize (F _ I). lia.
  - intros a Qa. unfold Q1 in Qa. pose proof (grown_len _ _ _ G). lia.
  - intros a L. left. pose proof (grown_len _ _ _ G). lia.
Qed.
Lemma copy_known : known S1 h1 [v1].
Proof.
  constructor; [|constructor]. split; [|now left]. pose proof (newval_held _ N) as H. destruct v1; auto.
Qed.

(* what the copy is made of *)
Lemma copy_reach a : reach h1 v1 a -> length h <= a \/ held h a \/ exists c, nth_error h c = Some (Bin true a).
Proof.
  intros R. assert (H : match v1 with Imm _ => True | Ptr a => length h <= a \/ held h a \/ exists c, nth_error h c = Some (Bin true a) end).
  { pose proof (newval_held _ N) as H. destruct v1 as [z|b]; [exact Logic.I|]. tauto. }
  clear N O1. induction R as [a|a o w b E I R IH]; [exact H|]. apply IH. clear IH R.
  destruct (Nat.lt_ge_cases a (length h)) as [L|L].
  - pose proof (grown_low _ _ _ _ _ G E L) as Eh. destruct H as [L'|[Ha|(c & Ec)]]; [lia| |].
    + pose proof (held_fields _ _ Ha Eh w I) as Hw. destruct w; tauto.
    + destruct (b_obj _ _ h B _ _ Ec) as (bs & Eb). rewrite Eh in Eb. injection Eb as ->. contradiction.
  - pose proof (grown_new _ _ _ _ _ G L E) as No. destruct o as [f l|f ns|k1 w1|w1|f c1|bs1]; cbn in I, No.
    + destruct No as [_ F]. rewrite Forall_forall in F. pose proof (newval_held _ (F _ I)) as Hw. destruct w; tauto.
    + destruct No as [_ F]. rewrite Forall_forall in F. apply in_map_iff in I as (n & <- & I). left. auto.
    + destruct No as [Fk Nw]. destruct I as [<-|[<-|[]]]; [pose proof (frz_held _ Fk) as Hw; destruct k1; tauto|pose proof (newval_held _ Nw) as Hw; destruct w1; tauto].
    + destruct I as [<-|[]]. pose proof (newval_held _ No) as Hw; destruct w1; tauto.
    + destruct I as [<-|[]]. left. apply No.
    + contradiction.
Qed.
(* who has the original *)
Definition S2 : nat -> Prop := fun a => (a < length h \/ length h1 <= a) /\ forall c, nth_error h1 c <> Some (Bin true a).
Definition Q2 : nat -> Prop := part h1 v1.
Lemma low_ok w : okval h w -> sv S2 w.
Proof.
  destruct w as [z|a]; cbn; [auto|]. destruct (nth_error h a) as [o|] eqn:E; [|contradiction]. intros O. split; [left; eapply nth_lt; eauto|].
  intros c Ec. destruct (b_obj _ _ h1 B1 _ _ Ec) as (bs & Eb). rewrite (grown_old _ _ _ _ _ G E) in Eb. injection Eb as ->. contradiction.
Qed.
Lemma original_base : base S2 Q2 h1.
Proof.
  pose proof B1 as [C1 C2 C3 _ _ _ _ _]. constructor; auto.
  - intros a o [La Na] E. assert (L : a < length h) by (destruct La as [La|La]; [exact La|apply nth_lt in E; lia]).
    pose proof (grown_low _ _ _ _ _ G E L) as Eh. pose proof (b_obj _ _ h B _ _ Eh) as Oh.
    destruct o as [f l|f ns|k1 w1|w1|f c1|bs1]; cbn in *.
    + eapply Forall_impl; [|exact Oh]. apply low_ok.
    + apply Forall_forall. intros x I. apply in_map_iff in I as (n & <- & I). rewrite Forall_forall in Oh. destruct (Oh _ I) as (k & w & En).
      split; [left; eapply nth_lt; eauto|]. intros c Ec. destruct (C1 _ _ Ec) as (bs & Eb). rewrite (grown_old _ _ _ _ _ G En) in Eb. discriminate.
    + destruct Oh. constructor; [now apply low_ok|]. constructor; [now apply low_ok|constructor].
    + destruct Oh. constructor; [now apply low_ok|constructor].
    + destruct f; constructor; [|constructor]. destruct Oh as (bs & Eb). split; [left; eapply nth_lt; eauto|].
      intros c Ec. pose proof (C3 _ _ _ _ Ec E). subst c. congruence.
    + constructor.
  - intros a o [La Na] [Ra Ra2] E M. assert (L : a < length h) by (destruct La as [La|La]; [exact La|lia]).
    destruct (copy_reach _ Ra) as [L'|[Ha|(c & Ec)]]; [lia| |].
    + eapply held_still; eauto. now apply (grown_low h (frz h) h1).
    + apply (Na c). eapply grown_old; eauto.
  - intros m f ns n Em Im [Rn Ln]. split; [|eapply nth_lt; eauto].
    pose proof (C1 _ _ Em) as Om. cbn in Om. rewrite Forall_forall in Om. destruct (Om _ Im) as (k & w & En).
    destruct (reach_node _ _ _ _ _ B1 Rn En) as [Ev|(m' & f' & ns' & Rm & Em' & Im')]; [pose proof O1 as O; rewrite Ev in O; cbn in O; now rewrite En in O|].
    assert (m = m') by (eapply C2; eauto). now subst m'.
  - now intros a [_ L].
  - intros a L. split; [now right|]. intros c Ec. destruct (C1 _ _ Ec) as (bs & Eb). apply nth_lt in Eb. lia.
Qed.
Lemma original_known K : owns h K -> known S2 h1 K.
Proof.
  apply Forall_impl. intros k [_ [O|(b & bs & -> & Eb & Nb)]]; split.
  - now apply low_ok.
  - left. apply (okval_kinds h); [|exact O]. destruct G as (l & -> & _). apply kinds_app.
  - split; [left; eapply nth_lt; eauto|]. intros c Ec. destruct (Nat.lt_ge_cases c (length h)) as [L|L]; [apply (Nb c); now apply (grown_low h (frz h) h1)|].
    destruct (grown_new _ _ _ _ _ G L Ec) as [? _]. discriminate.
  - right. exists b, bs. split; [reflexivity|]. split; [eapply grown_old; eauto|]. intros c Ec. destruct (Nat.lt_ge_cases c (length h)) as [L|L]; [apply (Nb c); now apply (grown_low h (frz h) h1)|].
    destruct (grown_new _ _ _ _ _ G L Ec) as [? _]. discriminate.
Qed.

Lemma copy_cannot_change n ops h2 K2 : history n h1 [v1] ops = Some (h2, K2) -> Forall no_entries ops ->
  forall w t, okval h w -> denotes h w t -> denotes h2 w t.
Proof.
  intros E NE w t Ow D. destruct (history_spec S1 Q1 _ _ _ _ _ _ E NE copy_base copy_known) as [(_ & KP & _ & _) _].
  apply (denotes_agree h); [exact D|]. intros a R. pose proof (reach_in _ _ _ B Ow R) as L. rewrite (KP a L).
  destruct G as (l & -> & _). now apply nth_error_app1.
Qed.
Lemma original_cannot_change n K ops h2 K2 : owns h K -> history n h1 K ops = Some (h2, K2) -> Forall no_entries ops ->
  forall t, denotes h1 v1 t -> denotes h2 v1 t.
Proof.
  intros NK E NE t D. destruct (history_spec S2 Q2 _ _ _ _ _ _ E NE original_base (original_known K NK)) as [(_ & KP & _ & _) _].
  apply (denotes_agree h1); [exact D|]. intros a R. apply KP. split; [exact R|]. exact (reach_in _ _ _ B1 O1 R).
Qed.
End Apart.

(* ---------- all together ---------- *)

Lemma arg_ok h K i v : owns h K -> arg h K i = Some v -> okval h v.
Proof. intros N E. exact (proj1 (arg_good _ _ _ _ _ N E)). Qed.

Theorem freeze_holds n ops h K i v : history n [] [] ops = Some (h, K) -> Forall no_entries ops -> careful n [] [] ops -> arg h K i = Some v ->
  exists n0 h',
    (forall m, n0 <= m -> freeze m h v = Some h') /\
    deep_frozen h' v /\
    (forall w t, denotes h w t -> denotes h' w t) /\
    forall m ops2 h2 K2, history m h' K ops2 = Some (h2, K2) -> Forall no_entries ops2 ->
      (forall a, reach h' v a -> nth_error h2 a = nth_error h' a) /\ (forall t, denotes h' v t -> denotes h2 v t).
Proof.
  intros E NE C A. destruct (made_wf _ _ _ _ E NE) as [B N]. pose proof (made_sound _ _ _ _ E NE C) as S0. pose proof (arg_ok _ _ _ _ N A) as O.
  destruct (freeze_ends h v B O) as (n0 & h' & F). exists n0, h'. destruct (freeze_deep n0 h v h' B O (F n0 (le_n _))) as (D & T & B' & M & _).
  split; [exact F|]. split; [auto|]. split; [exact T|]. intros m ops2 h2 K2 E2 NE2.
  assert (AG : agree h' h2 v).
  { eapply final; eauto; [now apply (known_mild all h)|apply (okval_kinds h); [apply M|exact O]]. }
  split; [exact AG|]. intros t Dt. now apply (denotes_agree h').
Qed.

Theorem frozen_copy_holds n ops h K i v m h' v' : history n [] [] ops = Some (h, K) -> Forall no_entries ops -> careful n [] [] ops -> arg h K i = Some v ->
  frozen_copy m h v = Some (h', v') ->
  (exists l, h' = h ++ l) /\
  deep_frozen h' v' /\
  (forall t, denotes h v t -> denotes h' v' t) /\
  (deep_frozen h v -> h' = h /\ v' = v) /\
  forall m ops2 h2 K2, history m h' (K ++ [v']) ops2 = Some (h2, K2) -> Forall no_entries ops2 ->
    (forall a, reach h' v' a -> nth_error h2 a = nth_error h' a) /\ (forall t, denotes h' v' t -> denotes h2 v' t).
Proof.
  intros E NE C A F. destruct (made_wf _ _ _ _ E NE) as [B N]. pose proof (made_sound _ _ _ _ E NE C) as S0. pose proof (arg_ok _ _ _ _ N A) as O.
  destruct (frozen_copy_spec all nobody m _ _ _ _ F B (all_good _ _ O)) as (CP & G' & P). pose proof CP as (B' & X & M). destruct (P S0) as [S1 FZ].
  pose proof (frz_deep _ _ B' S1 FZ) as D. split; [exact X|]. split; [exact D|]. split; [intros t; now apply (frozen_copy_same m h v)|].
  split; [intros D0; eapply frozen_copy_itself; eauto|]. intros m2 ops2 h2 K2 E2 NE2.
  assert (AG : agree h' h2 v').
  { eapply final; eauto; [|apply G']. apply known_snoc; [now apply (known_mild all h)|now apply good_known]. }
  split; [exact AG|]. intros t Dt. now apply (denotes_agree h').
Qed.
Theorem frozen_copy_ends_holds n ops h K i v t : history n [] [] ops = Some (h, K) -> Forall no_entries ops -> arg h K i = Some v -> denotes h v t ->
  forall m, depth t <= m -> exists r, frozen_copy m h v = Some r.
Proof.
  intros E NE A D m L. destruct (made_wf _ _ _ _ E NE) as [B N]. eapply (frozen_copy_ends m); eauto. eapply arg_ok; eauto.
Qed.
Theorem thawed_copy_ends_holds n ops h K i v t : history n [] [] ops = Some (h, K) -> Forall no_entries ops -> arg h K i = Some v -> denotes h v t ->
  forall m, depth t <= m -> exists r, thawed_copy m h v = Some r.
Proof.
  intros E NE A D m L. destruct (made_wf _ _ _ _ E NE) as [B N]. eapply (thawed_copy_ends m); eauto. eapply arg_ok; eauto.
Qed.

Theorem thawed_copy_holds n ops h K i v m h' v' : history n [] [] ops = Some (h, K) -> Forall no_entries ops -> careful n [] [] ops -> arg h K i = Some v ->
  thawed_copy m h v = Some (h', v') ->
  (exists l, h' = h ++ l) /\
  thawed h' v' /\
  (forall t, denotes h v t -> denotes h' v' t) /\
  (forall m ops2 h2 K2, history m h' [v'] ops2 = Some (h2, K2) -> Forall no_entries ops2 ->
     forall j w t, arg h K j = Some w -> denotes h w t -> denotes h2 w t) /\
  (forall m ops2 h2 K2, history m h' K ops2 = Some (h2, K2) -> Forall no_entries ops2 ->
     forall t, denotes h' v' t -> denotes h2 v' t).
Proof.
  intros E NE C A F. destruct (made_wf _ _ _ _ E NE) as [B N]. pose proof (made_sound _ _ _ _ E NE C) as S0. pose proof (arg_ok _ _ _ _ N A) as O.
  destruct (thawed_copy_spec all nobody m _ _ _ _ F B (all_good _ _ O)) as (CP & G' & _). pose proof CP as (B' & X & M).
  destruct (thaw_new h (frz h) B (fun a f ns Ea => frz_keys _ _ _ _ S0 Ea) m h v h' v' F) as [GR NV]; [exists []; now rewrite app_nil_r|exact O|].
  split; [exact X|]. split; [eapply new_thawed; eauto|]. split; [intros t; now apply (thawed_copy_same m h v)|]. split.
  - intros m2 ops2 h2 K2 E2 NE2 j w t Aw Dw. eapply (copy_cannot_change h h' v'); eauto; [apply G'|]. eapply arg_ok; eauto.
  - intros m2 ops2 h2 K2 E2 NE2 t Dt. eapply (original_cannot_change h h' v'); eauto. apply G'.
Qed.
