(* Any JSON text is read as the value that it says. *)
From Coq Require Import ZArith List Bool Lia Floats.SpecFloat.
From Verif Require Import Int64 Data DataProofs Graph GraphSpec Stream StreamProofs Json JsonReadSpec.
Import ListNotations.
Open Scope Z_scope.

Section Read.
Variables (to_float : Z -> spec_float) (W : codec) (D : dialect).
Notation sig := (filter significant).

Fixpoint dsize (d : doc) : nat :=
  match d with
  | DArray l => S (fold_right (fun x a => dsize x + a)%nat O l)
  | DObject l => S (fold_right (fun e a => dsize (snd e) + a)%nat O l)
  | _ => 1%nat
  end.
Lemma doc_ind' (P : doc -> Prop) : (forall d, (forall x, (dsize x < dsize d)%nat -> P x) -> P d) -> forall d, P d.
Proof.
  intros H d. remember (dsize d) as n eqn:E. revert d E. induction n as [n IH] using lt_wf_ind. intros d ->. apply H. intros x L. eapply IH; eauto.
Qed.
Lemma in_dsize x l : In x l -> (dsize x < dsize (DArray l))%nat.
Proof. cbn. induction l as [|y l IH]; cbn; [easy|]. intros [<-|I]; [lia|]. specialize (IH I). lia. Qed.
Lemma in_msize e l : In e l -> (dsize (snd e) < dsize (DObject l))%nat.
Proof. cbn. induction l as [|y l IH]; cbn; [easy|]. intros [<-|I]; [lia|]. specialize (IH I). lia. Qed.

Definition scalar (d : doc) : value :=
  match d with
  | DText s => VStr s
  | DInteger z => if in64b z then VInt z else VFloat (to_float z)
  | DNumber f => VFloat f
  | DTruth b => VBool b
  | _ => VNil
  end.
(* the calls *)
Fixpoint event (d : doc) : ev :=
  match d with
  | DArray l => EArr (map event l)
  | DObject l => EMap (flat_map (fun e => [EAdd (VStr (fst e)); event (snd e)]) l)
  | _ => EAdd (scalar d)
  end.

(* ---------- reading ---------- *)

Lemma sig_commas l : sig (commas l) = flat_map (fun x => sig x) l.
Proof.
  induction l as [|x l IH]; [reflexivity|]. destruct l as [|y l].
  - cbn. now rewrite app_nil_r.
  - cbn [commas flat_map]. cbn [commas flat_map] in IH. rewrite filter_app. cbn [filter significant]. now rewrite IH.
Qed.

Definition reads (d : doc) : Prop := exists t r0, sig (doc_tokens d) = t :: r0 /\ closes t = false /\
  forall n r, (length (sig (doc_tokens d)) <= n)%nat -> read_elem to_float (d_ref D) (read_all to_float (d_ref D) n) t (r0 ++ r) = Done (event d, r).

Lemma nested_array l : no_words (d_type D) (d_ref D) (DArray l) -> forall x, In x l -> no_words (d_type D) (d_ref D) x.
Proof. cbn. induction l as [|y l IH]; [easy|]. intros [N R] x [<-|I]; auto. Qed.
Lemma nested_object l : no_words (d_type D) (d_ref D) (DObject l) -> forall e, In e l -> fst e <> d_type D /\ no_words (d_type D) (d_ref D) (snd e).
Proof. cbn. intros [_ H]. induction l as [|[k y] l IH]; [easy|]. destruct H as (K & N & R). intros x [<-|I]; cbn; auto. Qed.

Lemma array_read l : Forall reads l -> forall n r, (length (flat_map (fun x => sig (doc_tokens x)) l) < n)%nat ->
  read_all to_float (d_ref D) n JCloseArray (flat_map (fun x => sig (doc_tokens x)) l ++ JCloseArray :: r) = Done (map event l, r).
Proof.
  induction 1 as [|d l (t & r0 & E & C & R) F IH]; intros [|n] r L; cbn [flat_map] in *; try lia; [reflexivity|].
  rewrite app_length in L. rewrite E in *. cbn [length app read_all] in *. rewrite C, <- app_assoc, R by (rewrite ?E; cbn [length]; lia). cbn [bind].
  rewrite IH by lia. reflexivity.
Qed.
Lemma object_read l : Forall (fun e => reads (snd e)) l -> forall n r, (length (flat_map (fun e => JString (fst e) :: sig (doc_tokens (snd e))) l) < n)%nat ->
  read_all to_float (d_ref D) n JCloseObject (flat_map (fun e => JString (fst e) :: sig (doc_tokens (snd e))) l ++ JCloseObject :: r) =
  Done (flat_map (fun e => [EAdd (VStr (fst e)); event (snd e)]) l, r).
Proof.
  induction 1 as [|d l (t & r0 & E & C & R) F IH]; intros [|n] r L; cbn [flat_map] in *; try lia; [reflexivity|].
  rewrite app_length in L. rewrite E in *. cbn [length app] in L. destruct n as [|n]; [lia|].
  cbn [length app read_all closes read_elem scalar_of bind] in *. rewrite C, <- app_assoc, R by (rewrite ?E; cbn [length]; lia). cbn [bind].
  rewrite IH by lia. reflexivity.
Qed.

Theorem doc_read d : no_words (d_type D) (d_ref D) d -> reads d.
Proof.
  induction d as [d IH] using doc_ind'. intros N. destruct d as [s|z|f|b| |l|l]; try (eexists; eexists; split; [reflexivity|]; split; [reflexivity|]; intros; reflexivity).
  - assert (Forall reads l) as F by (apply Forall_forall; intros x I; apply IH; [now apply in_dsize|exact (nested_array l N x I)]).
    unfold reads. cbn [doc_tokens filter significant]. rewrite filter_app, sig_commas. cbn [filter significant]. rewrite flat_map_concat_map, map_map, <- flat_map_concat_map.
    eexists; eexists. split; [reflexivity|]. split; [reflexivity|]. intros n r L. cbn [length] in L. rewrite app_length in L. cbn [length] in L. cbn [read_elem].
    rewrite <- app_assoc. cbn [app]. rewrite (array_read l F) by lia. reflexivity.
  - assert (Forall (fun e => reads (snd e)) l) as F.
    { apply Forall_forall. intros e I. apply IH; [now apply in_msize|]. now apply (nested_object l N e I). }
    unfold reads. cbn [doc_tokens filter significant]. rewrite filter_app, sig_commas. cbn [filter significant]. rewrite flat_map_concat_map, map_map. cbn [filter significant].
    rewrite <- (flat_map_concat_map (fun e => JString (fst e) :: sig (doc_tokens (snd e)))).
    eexists; eexists. split; [reflexivity|]. split; [reflexivity|]. intros n r L. cbn [length] in L. rewrite app_length in L. cbn [length] in L.
    rewrite <- app_assoc. cbn [app].
    assert (R : read_all to_float (d_ref D) n JCloseObject (flat_map (fun e => JString (fst e) :: sig (doc_tokens (snd e))) l ++ JCloseObject :: r) =
      Done (flat_map (fun e => [EAdd (VStr (fst e)); event (snd e)]) l, r)) by (apply object_read; [assumption|lia]).
    destruct l as [|[k x] l].
    + cbn [flat_map app read_elem] in *. rewrite R. reflexivity.
    + assert (k <> d_ref D) as K by (destruct N as [K _]; exact (K k x l eq_refl)).
      cbn [flat_map app read_elem fst snd] in *. destruct (bytes_eqb k (d_ref D)) eqn:E; [apply bytes_eqb_eq in E; congruence|]. rewrite R. reflexivity.
Qed.

(* ---------- collecting ---------- *)

(* x stands for v, with objects that have been made since b *)
Inductive lives (h : graph) : nat -> gval -> value -> Prop :=
  | lives_leaf b v : flat_value v -> lives h b (GLeaf v) v
  | lives_arr b p l vs : (b <= p)%nat -> nth_error h p = Some (GArr l) -> Forall2 (lives h (S p)) l vs -> lives h b (GRef p) (VArr vs)
  | lives_map b p m ws : (b <= p)%nat -> nth_error h p = Some (GMap m) ->
      Forall2 (fun e w => fst e = fst w /\ lives h (S p) (snd e) (snd w)) m ws -> lives h b (GRef p) (VMap ws).
Lemma lives_keep h h' : forall x v b b', lives h b x v -> (b' <= b)%nat ->
  (forall q n, (b <= q)%nat -> nth_error h q = Some n -> nth_error h' q = Some n) -> lives h' b' x v.
Proof.
  fix IH 5. intros x v b b' L Le K. destruct L as [b v F|b p l vs Lp E F|b p m ws Lp E F].
  - exact (lives_leaf _ _ _ F).
  - apply (lives_arr _ _ p l); [lia|exact (K p _ Lp E)|]. clear E. induction F as [|x v l vs Lx F IHF]; [constructor|]. constructor; [|exact (IHF)].
    apply (IH _ _ _ _ Lx); [lia|]. intros q n Lq. apply K. lia.
  - apply (lives_map _ _ p m); [lia|exact (K p _ Lp E)|]. clear E. induction F as [|x v l vs [Ef Lx] F IHF]; [constructor|]. constructor; [|exact (IHF)].
    split; [exact Ef|]. apply (IH _ _ _ _ Lx); [lia|]. intros q n Lq. apply K. lia.
Qed.
Lemma lives_stands h : forall x v b, lives h b x v -> stands h x v.
Proof.
  fix IH 4. intros x v b L. destruct L as [b v F|b p l vs Lp E F|b p m ws Lp E F].
  - exact (stands_leaf _ _ F).
  - apply (stands_arr _ p l); [exact E|]. clear E. induction F as [|x v l vs Lx F IHF]; [constructor|]. constructor; [exact (IH _ _ _ Lx)|exact IHF].
  - apply (stands_map _ p m); [exact E|]. clear E. induction F as [|x v l vs [Ef Lx] F IHF]; [constructor|]. constructor; [|exact IHF]. split; [exact Ef|exact (IH _ _ _ Lx)].
Qed.

Variable n : nat.
Notation collect := (collect n (decoding W D n)).
Notation collect_all := (collect_all n (decoding W D n)).
Notation value_of := (doc_value to_float).

Definition ready (c : coll) : Prop := content c <> None /\ forall q, top c = Some q -> (q < length (heap c))%nat.
Definition collected (d : doc) : Prop := forall c, ready c ->
  exists c' x, collect (event d) c = Done c' /\ extends c c' [x] /\ lives (heap c') (length (heap c)) x (value_of d).

Lemma ready_extends c c' ys : ready c -> extends c c' ys -> ready c'.
Proof.
  intros [N T] X. split.
  - destruct (x_content _ _ _ X) as (l & _ & E). rewrite E. discriminate.
  - intros q. rewrite (extends_top _ _ _ X). intros E. specialize (T q E). pose proof (x_len _ _ _ X). lia.
Qed.
Lemma lives_extends c c' ys b x v : ready c -> extends c c' ys -> lives (heap c) b x v -> (forall q, top c = Some q -> (q < b)%nat) -> lives (heap c') b x v.
Proof.
  intros [_ T] X L B. apply (lives_keep _ _ _ _ _ _ L); [lia|]. intros q nd Lq E. rewrite (x_heap _ _ _ X); [exact E|now apply nth_lt in E|]. intros Z. specialize (B q Z). lia.
Qed.

Lemma collect_leaf c v : ready c -> flat_value v -> exists c' x, collect (EAdd v) c = Done c' /\ extends c c' [x] /\ lives (heap c') (length (heap c)) x v.
Proof.
  intros [N T] F. destruct (push_extends c (GLeaf v) N T) as (c1 & P & X & V & L & S). cbn [Stream.collect]. unfold add_value. rewrite P. cbn [bind].
  eexists; exists (GLeaf v). split; [reflexivity|]. split; [|now constructor].
  destruct X as [A B C' E (vs & G)]. constructor; try assumption. exists (vs ++ [GLeaf v]). cbn. now rewrite G, app_assoc.
Qed.

(* a new array or map *)
Lemma open_new c x0 : ready c ->
  exists c1, add_value (GRef (length (heap c))) (mk_coll (heap c ++ [x0]) (vals c) (stack c)) = Done c1 /\ extends c c1 [GRef (length (heap c))] /\
    length (heap c1) = S (length (heap c)) /\ nth_error (heap c1) (length (heap c)) = Some x0.
Proof.
  intros [N T]. set (c0 := mk_coll (heap c ++ [x0]) (vals c) (stack c)).
  assert (Ct : content c0 = content c).
  { unfold content, c0. cbn. destruct (stack c) as [|[q|l] r] eqn:S; auto. rewrite nth_error_app1; auto. apply T. unfold top. now rewrite S. }
  destruct (push_extends c0 (GRef (length (heap c)))) as (c1 & P & X & V & L & S).
  - now rewrite Ct.
  - intros q E. specialize (T q E). cbn. rewrite app_length. lia.
  - unfold add_value. fold c0. rewrite P. cbn [bind]. eexists. split; [reflexivity|]. cbn [heap vals stack]. cbn in L. rewrite app_length in L. cbn in L.
    split; [|split; [lia|]].
    + destruct X as [(l & X1 & X1') X2 X3 X4 (vs & X5)]. constructor; cbn.
      * exists l. rewrite <- Ct. auto.
      * exact X2.
      * lia.
      * intros q Q Tq. rewrite X4; cbn; auto; [|rewrite app_length; cbn; lia]. now rewrite nth_error_app1.
      * exists (vs ++ [GRef (length (heap c))]). rewrite X5. cbn. now rewrite app_assoc.
    + rewrite (x_heap _ _ _ X); cbn; [apply nth_app_last|rewrite app_length; cbn; lia|]. intros Z. apply T in Z. lia.
Qed.

Lemma collect_docs l : Forall collected l -> forall c, ready c ->
  exists c' xs, collect_all (map event l) c = Done c' /\ extends c c' xs /\ Forall2 (fun x d => lives (heap c') (length (heap c)) x (value_of d)) xs l.
Proof.
  induction 1 as [|d l Cd F IH]; intros c R.
  - exists c, []. split; [reflexivity|]. split; [apply extends_refl, R|constructor].
  - destruct (Cd c R) as (c1 & x & E & X & L). pose proof (ready_extends _ _ _ R X) as R1. destruct (IH c1 R1) as (c2 & xs & E2 & X2 & F2).
    exists c2, (x :: xs). cbn [map Stream.collect_all]. rewrite E. cbn [bind]. split; [exact E2|]. split; [exact (extends_trans _ _ _ _ _ X X2)|]. constructor.
    + apply (lives_extends _ _ _ _ _ _ R1 X2 L). rewrite (extends_top _ _ _ X). apply R.
    + eapply Forall2_mono; [|exact F2]. intros y d' Ly. apply (lives_keep _ _ _ _ _ _ Ly); auto. apply (x_len _ _ _ X).
Qed.

Lemma collect_members l : Forall (fun e => collected (snd e)) l -> forall c, ready c ->
  exists c' xs, collect_all (flat_map (fun e => [EAdd (VStr (fst e)); event (snd e)]) l) c = Done c' /\ extends c c' (flat_map (fun y => [fst y; snd y]) xs) /\
    Forall2 (fun y e => fst y = GLeaf (VStr (fst e)) /\ lives (heap c') (length (heap c)) (snd y) (value_of (snd e))) xs l.
Proof.
  induction 1 as [|d l Cd F IH]; intros c R.
  - exists c, []. split; [reflexivity|]. split; [apply extends_refl, R|constructor].
  - destruct (push_extends c (GLeaf (VStr (fst d))) (proj1 R) (proj2 R)) as (c0 & P & X0 & V0 & L0 & S0).
    set (c0' := mk_coll (heap c0) (vals c0 ++ [GLeaf (VStr (fst d))]) (stack c0)).
    assert (X0' : extends c c0' [GLeaf (VStr (fst d))]).
    { destruct X0 as [A B C' E (vs & G)]. constructor; try assumption. exists (vs ++ [GLeaf (VStr (fst d))]). cbn. now rewrite G, app_assoc. }
    pose proof (ready_extends _ _ _ R X0') as R0.
    destruct (Cd c0' R0) as (c1 & x & E & X & L). pose proof (ready_extends _ _ _ R0 X) as R1. destruct (IH c1 R1) as (c2 & xs & E2 & X2 & F2).
    exists c2, ((GLeaf (VStr (fst d)), x) :: xs). cbn [flat_map app Stream.collect_all Stream.collect]. unfold add_value. rewrite P. cbn [bind]. fold c0'. rewrite E. cbn [bind]. split; [exact E2|].
    split; [exact (extends_trans _ _ _ _ _ X0' (extends_trans _ _ _ _ _ X X2))|]. change (length (heap c0')) with (length (heap c0)) in L. constructor.
    + split; [reflexivity|]. cbn [snd]. apply (lives_keep (heap c2) _ _ _ (length (heap c0))); [|rewrite L0; lia|auto].
      apply (lives_extends _ _ _ _ _ _ R1 X2 L). rewrite (extends_top _ _ _ X), (extends_top _ _ _ X0'). rewrite L0. apply R.
    + eapply Forall2_mono; [|exact F2]. intros y d' [Ky Ly]. split; [exact Ky|]. apply (lives_keep _ _ _ _ _ _ Ly); auto. pose proof (x_len _ _ _ X) as Le. change (length (heap c0')) with (length (heap c0)) in Le. lia.
Qed.

Definition put_members (l : list (list Z * doc)) (m : list (value * value)) : list (value * value) :=
  (fix members l m := match l with [] => m | e :: r => members r (member m (fst e) (value_of (snd e))) end) l m.
Definition text_keyed {A} (m : list (value * A)) : Prop := Forall (fun e => exists k, fst e = VStr k) m.
Lemma veq_text a b : veq (VStr a) (VStr b) = true <-> a = b.
Proof. cbn. apply bytes_eqb_eq. Qed.
Lemma put_pair_text m k (v : gval) : text_keyed m -> text_keyed (put_pair m (VStr k) v).
Proof.
  induction 1 as [|[k' v'] m (t & E) F IH]; cbn [put_pair]; [repeat constructor; cbn; eauto|]. cbn in E. subst k'.
  destruct (veq (VStr k) (VStr t)); constructor; cbn; eauto.
Qed.
Lemma put_pair_member h b m ws k x v : Forall2 (fun e w => fst e = fst w /\ lives h b (snd e) (snd w)) m ws -> text_keyed m -> lives h b x v ->
  Forall2 (fun e w => fst e = fst w /\ lives h b (snd e) (snd w)) (put_pair m (VStr k) x) (member ws k v).
Proof.
  induction 1 as [|[k1 x1] [k2 v2] m ws [K L] F IH]; intros T Lx; cbn [put_pair member fst snd] in *; [constructor; [split; [reflexivity|assumption]|constructor]|].
  inversion T as [|? ? (t & Et) T']; subst. cbn in Et. subst k2. 
  destruct (veq (VStr k) (VStr t)) eqn:V; destruct (list_eq_dec Z.eq_dec k t) as [E|E].
  - constructor; [split; [reflexivity|assumption]|exact F].
  - apply veq_text in V. congruence.
  - apply veq_text in E. congruence.
  - constructor; [split; [reflexivity|assumption]|now apply IH].
Qed.
Lemma put_all_members h b : (0 < n)%nat -> forall xs l, Forall2 (fun y e => fst y = GLeaf (VStr (fst e)) /\ lives h b (snd y) (value_of (snd e))) xs l ->
  forall m ws, Forall2 (fun e w => fst e = fst w /\ lives h b (snd e) (snd w)) m ws -> text_keyed m ->
  exists m', put_all n h xs m = Done m' /\ Forall2 (fun e w => fst e = fst w /\ lives h b (snd e) (snd w)) m' (put_members l ws) /\ text_keyed m' /\
    (forall e, In e m' -> In (fst e) (map fst m) \/ exists a, In a l /\ fst e = VStr (fst a)).
Proof.
  intros N xs l F. induction F as [|[y1 y2] e xs l [Ky Ly] F IH]; intros m ws M T.
  - exists m. split; [reflexivity|]. split; [exact M|]. split; [exact T|]. intros e I. left. now apply in_map.
  - cbn [fst snd] in *. subst y1. cbn [put_all]. destruct n as [|n']; [lia|]. cbn [freeze bind].
    destruct (IH (put_pair m (VStr (fst e)) y2) (member ws (fst e) (value_of (snd e)))) as (m' & E & M' & T' & K').
    + now apply put_pair_member.
    + now apply put_pair_text.
    + exists m'. split; [exact E|]. split; [exact M'|]. split; [exact T'|]. intros a I. destruct (K' a I) as [I'|(a' & I' & E')]; [|right; exists a'; cbn; auto].
      apply in_map_iff in I' as (a2 & E2 & I2).
      assert (forall m, In a2 (put_pair m (VStr (fst e)) y2) -> fst a2 = VStr (fst e) \/ In (fst a2) (map fst m)) as Q.
      { clear. induction m as [|[k v] m IH]; cbn [put_pair]; [intros [<-|[]]; now left|]. destruct (veq (VStr (fst e)) k) eqn:V; cbn.
        - intros [<-|I]; [right; now left|right; right; now apply in_map].
        - intros [<-|I]; [right; now left|]. destruct (IH I); auto. }
      destruct (Q m I2) as [Z|Z]; [right; exists e; split; [now left|congruence]|left; congruence].
Qed.

Lemma pairs_flat (l : list (gval * gval)) : Stream.pairs (flat_map (fun y => [fst y; snd y]) l) = l.
Proof. induction l as [|[a b] l IH]; cbn; [reflexivity|]. now rewrite IH. Qed.

Lemma no_type m l : (forall e : value * gval, In e m -> In (fst e) (map fst (@nil (value * gval))) \/ exists a : list Z * doc, In a l /\ fst e = VStr (fst a)) ->
  (forall e, In e l -> fst e <> d_type D) -> get_text (d_type D) m = None.
Proof.
  intros K N. unfold get_text, get_with. destruct (find _ m) as [[k x]|] eqn:E; [|reflexivity]. apply find_some in E as [I V]. cbn in V.
  destruct (K _ I) as [[]|(a & Ia & Ea)]. cbn in Ea. subst k. apply veq_text in V. exfalso. now apply (N a Ia).
Qed.

Lemma flat_scalar d : flat_value (scalar d).
Proof. destruct d; cbn; auto. now destruct (in64b z). Qed.

Theorem doc_collected d : (0 < n)%nat -> no_words (d_type D) (d_ref D) d -> collected d.
Proof.
  intros Nn. induction d as [d IH] using doc_ind'. intros N c R. destruct d as [s|z|f|b| |l|l]; try (apply (collect_leaf c _ R); exact I).
  - replace (value_of (DInteger z)) with (scalar (DInteger z)) by reflexivity. apply (collect_leaf c _ R (flat_scalar (DInteger z))).
  - assert (F : Forall collected l) by (apply Forall_forall; intros x I; apply IH; [now apply in_dsize|exact (nested_array l N x I)]).
    destruct (open_new c (GArr []) R) as (c1 & A1 & X1 & L1 & E1). cbn [event]. rewrite collect_arr, A1. cbn [bind].
    set (q0 := length (heap c)) in *. set (c1' := mk_coll (heap c1) (vals c1) (FArr q0 :: stack c1)).
    assert (R1 : ready c1').
    { split; [unfold content, c1'; cbn; rewrite E1; discriminate|]. intros q [= <-]. unfold c1'. cbn. rewrite L1. lia. }
    destruct (collect_docs l F c1' R1) as (c2 & xs & C2 & X2 & F2). rewrite C2. cbn [bind].
    assert (E2 : nth_error (heap c2) q0 = Some (GArr xs)).
    { destruct (x_content _ _ _ X2) as (l' & Cl & Cl'). unfold content, c1' in Cl. cbn in Cl. rewrite E1 in Cl. injection Cl as <-.
      unfold content in Cl'. pose proof (x_stack _ _ _ X2) as St. cbn in St. destruct (stack c2) as [|[q|l2] r]; try easy. destruct St as [<- _].
      destruct (nth_error (heap c2) q0) as [[l2|?|?]|]; try discriminate. cbn in Cl'. congruence. }
    pose proof (popped c c1 c2 (FArr q0) xs (GArr xs) X1 L1 (or_introl eq_refl) (proj2 R) X2) as Pp. fold q0 in Pp. rewrite (set_node_id _ _ _ E2) in Pp.
    exists (pop c2), (GRef q0). split; [reflexivity|]. split; [destruct c2; exact Pp|]. cbn [doc_value]. apply (lives_arr _ _ q0 xs); [lia|exact E2|].
    unfold c1' in F2. cbn [heap] in F2. rewrite L1 in F2. clear - F2. induction F2; constructor; auto.
  - assert (F : Forall (fun e => collected (snd e)) l) by (apply Forall_forall; intros e I; apply IH; [now apply in_msize|apply (nested_object l N e I)]).
    destruct (open_new c (GMap []) R) as (c1 & A1 & X1 & L1 & E1). cbn [event]. rewrite collect_map, A1. cbn [bind].
    set (q0 := length (heap c)) in *. set (c1' := mk_coll (heap c1) (vals c1) (FTemp [] :: stack c1)).
    assert (R1 : ready c1') by (split; [discriminate|intros q [=]]).
    destruct (collect_members l F c1' R1) as (c2 & xs & C2 & X2 & F2). rewrite C2. cbn [bind].
    assert (St : exists r, stack c2 = FTemp (flat_map (fun y => [fst y; snd y]) xs) :: r).
    { destruct (x_content _ _ _ X2) as (l' & Cl & Cl'). unfold content, c1' in Cl. cbn in Cl. injection Cl as <-.
      unfold content in Cl'. pose proof (x_stack _ _ _ X2) as St. cbn in St. destruct (stack c2) as [|[q|l2] r]; try easy. cbn in Cl'. injection Cl' as ->. now exists r. }
    destruct St as (r & St). rewrite St, pairs_flat. unfold c1' in F2. cbn [heap] in F2. rewrite L1 in F2.
    destruct (put_all_members (heap c2) (S q0) Nn xs l F2 [] [] (Forall2_nil _) (Forall_nil _)) as (m' & P & M' & T' & K'). rewrite P. cbn [bind].
    assert (Q2 : (q0 < length (heap c2))%nat) by (pose proof (x_len _ _ _ X2) as Le; cbn in Le; lia).
    unfold decoding at 1. cbn [pop heap]. rewrite set_node_same by assumption.
    rewrite (no_type m' l K') by (intros e I; apply (nested_object l N e I)).
    eexists; exists (GRef q0). split; [reflexivity|].
    pose proof (popped c c1 c2 (FTemp []) _ (GMap m') X1 L1 (or_intror eq_refl) (proj2 R) X2) as Pp. fold q0 in Pp. rewrite St in Pp.
    split; [exact Pp|]. cbn [doc_value heap]. apply (lives_map _ _ q0 m'); [lia|now apply set_node_same|].
    eapply Forall2_mono; [|exact M']. intros e w [Ef Lv]. split; [exact Ef|]. cbn [pop heap]. apply (lives_keep _ _ _ _ _ _ Lv); [lia|]. intros q nd Lq Eq. rewrite set_node_other by lia. exact Eq.
Qed.
End Read.

(* the text may be followed by anything *)
Theorem unmarshal_doc to_float W D d rest n : no_words (d_type D) (d_ref D) d -> (length (doc_tokens d) <= n)%nat ->
  exists h y, unmarshal to_float W D n (doc_tokens d ++ rest) = Done (h, y) /\ stands h y (doc_value to_float d).
Proof.
  intros N L. destruct (doc_read to_float D d N) as (t & r0 & E & C & R).
  assert (Ls : (length (filter significant (doc_tokens d)) <= length (doc_tokens d))%nat).
  { clear. induction (doc_tokens d) as [|x l IH]; cbn; [lia|]. destruct (significant x); cbn; lia. }
  assert (Nn : (0 < n)%nat) by (rewrite E in Ls; cbn in Ls; lia).
  unfold unmarshal. rewrite filter_app, E. cbn [app]. unfold read. rewrite C, R by lia. cbn [bind].
  destruct (doc_collected to_float W D n d Nn N (mk_coll [] [] [FTemp []])) as (c & x & Cc & X & Lv).
  { split; [discriminate|intros q [=]]. }
  unfold collects. rewrite Cc. cbn [bind]. destruct (x_content _ _ _ X) as (l & C1 & C2). cbn in C1. injection C1 as <-.
  pose proof (x_stack _ _ _ X) as S. cbn in S. unfold content in C2. destruct (stack c) as [|[p|l] r]; try easy. subst r. cbn in C2. injection C2 as ->.
  exists (heap c), x. split; [reflexivity|]. exact (lives_stands _ _ _ _ Lv).
Qed.

(* ---------- brackets ---------- *)
Lemma balanced_app a b : balanced a -> balanced b -> balanced (a ++ b).
Proof.
  induction 1 as [|t r N Br IH|l r Bl IHl Br IH|l r Bl IHl Br IH]; intros B; cbn; auto.
  - apply balanced_token; auto.
  - rewrite <- app_assoc. cbn. apply balanced_array; auto.
  - rewrite <- app_assoc. cbn. apply balanced_object; auto.
Qed.
Lemma balanced_filter l : balanced (filter significant l) -> balanced l.
Proof.
  intros B. remember (filter significant l) as s eqn:E. revert l E.
  assert (Hcons : forall t r l, t :: r = filter significant l -> exists a b, l = a ++ t :: b /\ r = filter significant b /\ Forall (fun x => significant x = false) a).
  { intros t r. induction l as [|x l IH]; cbn; [discriminate|]. destruct (significant x) eqn:S; intros E.
    - injection E as -> ->. exists [], l. auto.
    - destruct (IH E) as (a & b & -> & -> & F). exists (x :: a), b. auto. }
  assert (Hno : forall a b, Forall (fun x => significant x = false) a -> balanced b -> balanced (a ++ b)).
  { intros a b F Bb. induction F as [|x a Sx F IH]; cbn; auto. apply balanced_token; auto. destruct x; try discriminate; cbn; intuition discriminate. }
  assert (Happ : forall a b l, a ++ b = filter significant l -> exists a' b', l = a' ++ b' /\ a = filter significant a' /\ b = filter significant b').
  { intros a. induction a as [|t a IH]; intros b l E; [exists [], l; auto|]. cbn in E.
    assert (significant t = true) as St by (assert (In t (t :: a ++ b)) as I by (now left); rewrite E in I; now apply filter_In in I).
    destruct (Hcons _ _ _ E) as (x & y & -> & Ey & Fx).
    destruct (IH b y Ey) as (a' & b' & -> & -> & ->). exists (x ++ t :: a'), b'. rewrite <- app_assoc. split; [reflexivity|]. split; [|reflexivity].
    rewrite filter_app. assert (filter significant x = []) as -> by (clear - Fx; induction Fx as [|q x S F IH]; cbn; [reflexivity|]; now rewrite S).
    cbn. now rewrite St. }
  induction B as [|t r N Br IH|x r Bx IHx Br IH|x r Bx IHx Br IH]; intros l E.
  - rewrite <- (app_nil_r l). apply Hno; [|constructor]. clear - E. induction l as [|x l IH]; [constructor|]. cbn in E. destruct (significant x) eqn:S; [discriminate|]. constructor; auto.
  - destruct (Hcons _ _ _ E) as (a & b & -> & Eb & F). apply Hno; [assumption|]. apply balanced_token; auto.
  - destruct (Hcons _ _ _ E) as (a & b & -> & Eb & F). apply Hno; [assumption|]. destruct (Happ _ _ _ Eb) as (x' & y' & -> & Ex & Ey). destruct (Hcons _ _ _ Ey) as (a2 & b2 & -> & Eb2 & F2).
    rewrite app_assoc. apply balanced_array; auto. apply balanced_app; [auto|]. rewrite <- (app_nil_r a2). apply Hno; [assumption|constructor].
  - destruct (Hcons _ _ _ E) as (a & b & -> & Eb & F). apply Hno; [assumption|]. destruct (Happ _ _ _ Eb) as (x' & y' & -> & Ex & Ey). destruct (Hcons _ _ _ Ey) as (a2 & b2 & -> & Eb2 & F2).
    rewrite app_assoc. apply balanced_object; auto. apply balanced_app; [auto|]. rewrite <- (app_nil_r a2). apply Hno; [assumption|constructor].
Qed.

Section Brackets.
Variables (to_float : Z -> spec_float) (ref_key : list Z).
Definition bracketed (rec : token -> list token -> outcome (list ev * list token)) : Prop :=
  forall close ts es r, close = JCloseArray \/ close = JCloseObject -> rec close ts = Done (es, r) -> exists pre, balanced pre /\ ts = pre ++ close :: r.
Lemma elem_balanced rec t ts e r : bracketed rec -> closes t = false -> read_elem to_float ref_key rec t ts = Done (e, r) -> exists pre, balanced pre /\ t :: ts = pre ++ r /\ pre <> [].
Proof.
  intros B C H.
  assert (A : forall es r', rec JCloseArray ts = Done (es, r') -> exists pre, balanced pre /\ JOpenArray :: ts = pre ++ r' /\ pre <> []).
  { intros es r' E. apply B in E as (pre & Bp & ->); [|now left]. exists (JOpenArray :: pre ++ [JCloseArray]). split; [apply balanced_array; [assumption|constructor]|]. cbn. rewrite <- app_assoc. split; [reflexivity|discriminate]. }
  assert (O : forall es r', rec JCloseObject ts = Done (es, r') -> exists pre, balanced pre /\ JOpenObject :: ts = pre ++ r' /\ pre <> []).
  { intros es r' E. apply B in E as (pre & Bp & ->); [|now right]. exists (JOpenObject :: pre ++ [JCloseObject]). split; [apply balanced_object; [assumption|constructor]|]. cbn. rewrite <- app_assoc. split; [reflexivity|discriminate]. }
  assert (S : ~ In t [JOpenArray; JCloseArray; JOpenObject; JCloseObject] -> r = ts -> exists pre, balanced pre /\ t :: ts = pre ++ r /\ pre <> []).
  { intros Nt ->. exists [t]. split; [constructor; [assumption|constructor]|split; [reflexivity|discriminate]]. }
  destruct t; cbn [read_elem] in H; try discriminate C; try (injection H as <- <-; apply S; [cbn; intuition discriminate|reflexivity]).
  - apply bind_done in H as ([es r'] & E & [= <- <-]). exact (A _ _ E).
  - assert (P : (do (es, r) <- rec JCloseObject ts; Done (EMap es, r)) = Done (e, r) -> exists pre, balanced pre /\ JOpenObject :: ts = pre ++ r /\ pre <> []).
    { intros Q. apply bind_done in Q as ([es r'] & E & [= <- <-]). exact (O _ _ E). }
    destruct ts as [|t0 ts]; [exact (P H)|]. destruct t0; try exact (P H). destruct (bytes_eqb s ref_key); [|exact (P H)].
    destruct ts as [|[] [|[] ts]]; try discriminate. destruct (in64b z); [|discriminate]. injection H as <- <-.
    exists [JOpenObject; JString s; JInt z; JCloseObject]. split; [|split; [reflexivity|discriminate]]. apply (balanced_object [JString s; JInt z] []); [|constructor].
    constructor; [cbn; intuition discriminate|]. constructor; [cbn; intuition discriminate|]. constructor.
Qed.
Lemma all_bracketed n : bracketed (read_all to_float ref_key n).
Proof.
  induction n as [|n IH]; intros close ts es r Cl H; cbn [read_all] in H; [discriminate|]. destruct ts as [|t ts]; [discriminate|].
  destruct (closes t) eqn:C.
  - destruct (token_eqb t close) eqn:E; [|discriminate]. injection H as <- <-. exists []. split; [constructor|]. cbn. f_equal. destruct t; try discriminate C; destruct Cl as [-> | ->]; try discriminate E; reflexivity.
  - apply bind_done in H as ([e r1] & E & H). apply bind_done in H as ([es' r2] & E2 & [= <- <-]).
    destruct (elem_balanced _ _ _ _ _ IH C E) as (p1 & B1 & Q1 & _). destruct (IH close r1 es' r2 Cl E2) as (p2 & B2 & Q2). rewrite Q1, Q2.
    exists (p1 ++ p2). split; [now apply balanced_app|]. now rewrite app_assoc.
Qed.
Lemma read_balanced n ts e : read to_float ref_key n ts = Done e -> exists pre rest, ts = pre ++ rest /\ pre <> [] /\ balanced pre.
Proof.
  unfold read. destruct ts as [|t r]; [discriminate|]. destruct (closes t) eqn:C; [discriminate|]. intros H. apply bind_done in H as ([e' r'] & E & _).
  destruct (elem_balanced _ _ _ _ _ (all_bracketed n) C E) as (pre & B & Q & Nn). exists pre, r'. auto.
Qed.
End Brackets.
Theorem unmarshal_balanced to_float W D n ts h y : unmarshal to_float W D n ts = Done (h, y) -> exists pre rest, ts = pre ++ rest /\ pre <> [] /\ balanced pre.
Proof.
  unfold unmarshal. intros H. apply bind_done in H as (e & E & _). apply read_balanced in E as (pre & rest & Q & Nn & B).
  assert (Happ : forall (a b l : list token), a ++ b = filter significant l -> exists a' b', l = a' ++ b' /\ a = filter significant a').
  { induction a as [|t a IH]; intros b l E; [exists [], l; auto|]. induction l as [|x l IHl]; cbn in E; [discriminate|]. destruct (significant x) eqn:S.
    - injection E as <- E. destruct (IH b l E) as (a' & b' & -> & ->). exists (t :: a'), b'. cbn. now rewrite S.
    - destruct (IHl E) as (a' & b' & -> & Ea). exists (x :: a'), b'. cbn. rewrite S. auto. }
  destruct (Happ pre rest ts (eq_sym Q)) as (a & b & -> & Ea). exists a, b. split; [reflexivity|]. split; [|apply balanced_filter; now rewrite <- Ea].
  intros ->. cbn in Ea. auto.
Qed.
