(* What a streamer sends to a collector is put together again. *)
From Coq Require Import ZArith List Bool Lia Arith.
From Verif Require Import Int64 Data DataSpec DataProofs Graph GraphSpec Stream StreamSpec.
Import ListNotations.
Open Scope nat_scope.

(* ---------- small things ---------- *)

Lemma bind_done {A B} (m : outcome A) (f : A -> outcome B) y : bind m f = Done y -> exists x, m = Done x /\ f x = Done y.
Proof. destruct m; cbn; try discriminate. eauto. Qed.

Ltac undo H :=
  let x := fresh "r" in let H1 := fresh "E" in
  apply bind_done in H as (x & H1 & H); try (destruct x as [? ?]).

Lemma key_eqb_eq a b : key_eqb a b = true <-> a = b.
Proof.
  destruct a as [p|s], b as [q|t]; cbn; try (split; discriminate).
  - rewrite Nat.eqb_eq. split; [now intros ->|now intros [=]].
  - rewrite bytes_eqb_eq. split; [now intros ->|now intros [=]].
Qed.
Lemma lookup_cons k k' i l : lookup k ((k', i) :: l) = if key_eqb k k' then Some i else lookup k l.
Proof. unfold lookup. cbn. now destruct (key_eqb k k'). Qed.
Lemma lookup_same k i l : lookup k ((k, i) :: l) = Some i.
Proof. rewrite lookup_cons. assert (key_eqb k k = true) as -> by now apply key_eqb_eq. reflexivity. Qed.
Lemma lookup_other k k' i l : k <> k' -> lookup k ((k', i) :: l) = lookup k l.
Proof. intros N. rewrite lookup_cons. destruct (key_eqb k k') eqn:E; [|reflexivity]. now apply key_eqb_eq in E. Qed.

Lemma set_node_length h p x : length (set_node h p x) = length h.
Proof. revert p. induction h as [|y h IH]; intros [|p]; cbn; auto. Qed.
Lemma set_node_same h p x : p < length h -> nth_error (set_node h p x) p = Some x.
Proof. revert p. induction h as [|y h IH]; intros [|p] L; cbn in *; try lia; [reflexivity|]. apply IH. lia. Qed.
Lemma set_node_other h p q x : p <> q -> nth_error (set_node h p x) q = nth_error h q.
Proof. revert p q. induction h as [|y h IH]; intros [|p] [|q] N; cbn; auto; congruence. Qed.

Lemma nth_app_some {A} (l t : list A) i x : nth_error l i = Some x -> nth_error (l ++ t) i = Some x.
Proof. intros E. rewrite nth_error_app1; [exact E|]. apply nth_error_Some. congruence. Qed.
Lemma nth_app_last {A} (l : list A) x : nth_error (l ++ [x]) (length l) = Some x.
Proof. rewrite nth_error_app2, Nat.sub_diag by lia. reflexivity. Qed.
Lemma nth_lt {A} (l : list A) i x : nth_error l i = Some x -> i < length l.
Proof. intros E. apply nth_error_Some. congruence. Qed.
Lemma lt_nth {A} (l : list A) i : i < length l -> exists x, nth_error l i = Some x.
Proof. intros L. destruct (nth_error l i) eqn:E; [eauto|]. apply nth_error_None in E. lia. Qed.

Lemma collect_arr n am l c : collect n am (EArr l) c =
  bind (add_value (GRef (length (heap c))) (mk_coll (heap c ++ [GArr []]) (vals c) (stack c)))
    (fun c1 => bind (collect_all n am l (mk_coll (heap c1) (vals c1) (FArr (length (heap c)) :: stack c1))) (fun c2 => Done (pop c2))).
Proof. reflexivity. Qed.
Lemma collect_map n am l c : collect n am (EMap l) c =
  bind (add_value (GRef (length (heap c))) (mk_coll (heap c ++ [GMap []]) (vals c) (stack c)))
    (fun c1 => bind (collect_all n am l (mk_coll (heap c1) (vals c1) (FTemp [] :: stack c1)))
      (fun c2 => match stack c2 with
        | FTemp l :: _ => bind (put_all n (heap c2) (pairs l) [])
            (fun m => am (length (heap c)) (pop (mk_coll (set_node (heap c2) (length (heap c)) (GMap m)) (vals c2) (stack c2))))
        | _ => Panics end)).
Proof. reflexivity. Qed.

(* ---------- what a consumer's frame looks like ---------- *)

Definition content (c : coll) : option (list gval) :=
  match stack c with
  | FArr p :: _ => match nth_error (heap c) p with Some (GArr l) => Some l | _ => None end
  | FTemp l :: _ => Some l
  | [] => None
  end.
Definition top (c : coll) : option nat := match stack c with FArr p :: _ => Some p | _ => None end.
Definition same_stack (s s' : list frame) : Prop :=
  match s, s' with
  | FArr p :: r, FArr p' :: r' => p = p' /\ r = r'
  | FTemp _ :: r, FTemp _ :: r' => r = r'
  | _, _ => False
  end.
(* the ys have been added to the value on top of the stack, and no other value has changed *)
Record extends (c c' : coll) (ys : list gval) : Prop := {
  x_content : exists l, content c = Some l /\ content c' = Some (l ++ ys);
  x_stack : same_stack (stack c) (stack c');
  x_len : length (heap c) <= length (heap c');
  x_heap : forall q, q < length (heap c) -> top c <> Some q -> nth_error (heap c') q = nth_error (heap c) q;
  x_vals : exists vs, vals c' = vals c ++ vs }.

Lemma extends_top c c' ys : extends c c' ys -> top c' = top c.
Proof.
  intros [_ S _ _ _]. unfold top, same_stack in *. destruct (stack c) as [|[p|l] r], (stack c') as [|[p'|l'] r']; try easy.
  destruct S. now subst.
Qed.
Lemma extends_refl c : content c <> None -> extends c c [].
Proof.
  intros N. constructor.
  - destruct (content c) as [l|]; [|easy]. exists l. now rewrite app_nil_r.
  - unfold content in N. unfold same_stack. destruct (stack c) as [|[p|l] r]; auto.
  - lia.
  - auto.
  - exists []. now rewrite app_nil_r.
Qed.
Lemma extends_trans c1 c2 c3 ys zs : extends c1 c2 ys -> extends c2 c3 zs -> extends c1 c3 (ys ++ zs).
Proof.
  intros X Y. pose proof (extends_top _ _ _ X) as T. destruct X as [(l & L1 & L2) S Le H (vs & V)], Y as [(l' & L1' & L2') S' Le' H' (vs' & V')]. constructor.
  - exists l. split; [assumption|]. rewrite L2 in L1'. injection L1' as <-. now rewrite app_assoc.
  - unfold same_stack in *. destruct (stack c1) as [|[p|x] r], (stack c2) as [|[p2|x2] r2], (stack c3) as [|[p3|x3] r3]; try easy; intuition congruence.
  - lia.
  - intros q Q N. rewrite H' by (try lia; now rewrite T). now apply H.
  - exists (vs ++ vs'). now rewrite V', V, app_assoc.
Qed.

(* push does what extends says *)
Lemma push_extends c y : content c <> None -> (forall q, top c = Some q -> q < length (heap c)) ->
  exists c', push y c = Done c' /\ extends c c' [y] /\ vals c' = vals c /\ length (heap c') = length (heap c) /\ tl (stack c') = tl (stack c).
Proof.
  unfold content, push, top. intros N T.
  destruct (stack c) as [|[p|l] r] eqn:S; [easy| |].
  - destruct (nth_error (heap c) p) as [[l|a|m]|] eqn:E; try easy.
    eexists. split; [reflexivity|]. cbn. split; [|rewrite set_node_length; auto].
    specialize (T p eq_refl). constructor; cbn.
    + exists l. unfold content. cbn. rewrite S, E, set_node_same by assumption. auto.
    + now rewrite S.
    + rewrite set_node_length. lia.
    + intros q Q N'. rewrite set_node_other; [reflexivity|]. unfold top in N'. rewrite S in N'. congruence.
    + exists []. now rewrite app_nil_r.
  - eexists. split; [reflexivity|]. cbn. split; [|auto]. constructor; cbn.
    + exists l. unfold content. cbn. rewrite S. auto.
    + now rewrite S.
    + lia.
    + auto.
    + exists []. now rewrite app_nil_r.
Qed.

(* ---------- values ---------- *)

Fixpoint vdepth (v : value) : nat :=
  match v with
  | VArr l => S (fold_right Nat.max 0 (map vdepth l))
  | VSens v => S (vdepth v)
  | VMap m => S (fold_right Nat.max 0 (map (fun e => Nat.max (vdepth (fst e)) (vdepth (snd e))) m))
  | _ => 0
  end.
Lemma max_in l x : In x l -> x <= fold_right Nat.max 0 l.
Proof. induction l as [|y l IH]; cbn; [easy|]. intros [->|H]; [lia|]. specialize (IH H). lia. Qed.

Lemma meaning_ind' (g : objects) (P : sval -> value -> Prop) :
  (forall v, simple v -> P (SVal v) v) ->
  (forall p l vs, nth_error g p = Some (SArr l) -> Forall2 (fun x v => meaning g x v /\ P x v) l vs -> P (SRef p) (VArr vs)) ->
  (forall p m ws, nth_error g p = Some (SMap m) ->
     Forall2 (fun e w => (meaning g (fst e) (fst w) /\ P (fst e) (fst w)) /\ (meaning g (snd e) (snd w) /\ P (snd e) (snd w))) m ws -> P (SRef p) (VMap ws)) ->
  (forall p x v, nth_error g p = Some (SSens x) -> meaning g x v -> P x v -> P (SRef p) (VSens v)) ->
  (forall p b, nth_error g p = Some (SBin b) -> P (SRef p) (VBin b)) ->
  (forall p a b z, nth_error g p = Some (STime a b z) -> P (SRef p) (VTime a b z)) ->
  forall x v, meaning g x v -> P x v.
Proof.
  intros H1 H2 H3 H4 H5 H6. fix IH 3. intros x v M. destruct M as [v S|p l vs E F|p m ws E F|p x v E M|p b E|p a b z E].
  - exact (H1 v S).
  - apply (H2 p l vs E). clear E. induction F as [|a b l vs M F IHF]; constructor; [|exact IHF]. exact (conj M (IH _ _ M)).
  - apply (H3 p m ws E). clear E. induction F as [|a b l vs M F IHF]; constructor; [|exact IHF].
    destruct M as [M1 M2]. exact (conj (conj M1 (IH _ _ M1)) (conj M2 (IH _ _ M2))).
  - exact (H4 p x v E M (IH _ _ M)).
  - exact (H5 p b E).
  - exact (H6 p a b z E).
Qed.

Lemma meaning_fun g x v : meaning g x v -> forall w, meaning g x w -> w = v.
Proof.
  revert x v. apply (meaning_ind' g (fun x v => forall w, meaning g x w -> w = v)).
  - intros v S w M. now inversion M.
  - intros p l vs E F w M. inversion M as [|p' l' vs' E' F'|p' m' ws' E'|p' x' v' E'|p' b' E'|p' a' b' z' E']; subst; try congruence.
    rewrite E in E'. injection E' as <-. f_equal. clear M E. revert vs' F'. induction F as [|x v l vs [_ H] F IH]; intros vs' F'; inversion F'; subst; auto. f_equal; auto.
  - intros p l vs E F w M. inversion M as [|p' l' vs' E' F'|p' m' ws' E' F'|p' x' v' E'|p' b' E'|p' a' b' z' E']; subst; try congruence.
    rewrite E in E'. injection E' as <-. f_equal. clear M E. revert ws' F'. induction F as [|x v l vs [[_ H1] [_ H2]] F IH]; intros vs' F'; inversion F' as [|? [k y] ? ? [M1 M2]]; subst; auto.
    f_equal; auto. destruct v as [k' y']. cbn in *. f_equal; auto.
  - intros p x v E M0 H w M. inversion M as [|p' l' vs' E' F'|p' m' ws' E' F'|p' x' v' E'|p' b' E'|p' a' b' z' E']; subst; try congruence.
    rewrite E in E'. injection E' as <-. f_equal. auto.
  - intros p b E w M. inversion M as [|p' l' vs' E' F'|p' m' ws' E' F'|p' x' v' E'|p' b' E'|p' a' b' z' E']; subst; congruence.
  - intros p a b z E w M. inversion M as [|p' l' vs' E' F'|p' m' ws' E' F'|p' x' v' E'|p' b' E'|p' a' b' z' E']; subst; congruence.
Qed.

Section Stream.
Variable W : codec.
Variable D : dialect.
Variable C : consumer.
Variable op : options.
Variable g : objects.
Variable N : nat.
Variable am : nat -> coll -> outcome coll.
Variable ok : list value -> Prop.
Hypothesis am_ok : forall p c m, nth_error (heap c) p = Some (GMap m) -> ok (map fst m) -> am p c = Done c.
Hypothesis g_plain : Forall (plain ok D C g) g.

(* ---------- going through the source, keys included ---------- *)

Inductive goes : sval -> sval -> Prop :=
  | goes_refl x : goes x x
  | goes_step p n y z : nth_error g p = Some n -> In y (parts n) -> goes y z -> goes (SRef p) z.
Lemma goes_trans x y z : goes x y -> goes y z -> goes x z.
Proof. induction 1; auto. intros. eapply goes_step; eauto. Qed.
(* one step, then any number *)
Definition goes_plus (p : nat) (z : sval) : Prop := exists n y, nth_error g p = Some n /\ In y (parts n) /\ goes y z.
Lemma goes_plus_goes p z : goes_plus p z -> goes (SRef p) z.
Proof. intros (n & y & E & I1 & G). eapply goes_step; eauto. Qed.

Lemma meaning_acyclic : forall x v, meaning g x v -> forall p, goes x (SRef p) -> ~ goes_plus p (SRef p).
Proof.
  (* if some part of x may not be on a circle, then x is not *)
  assert (step : forall p n, nth_error g p = Some n -> (forall y, In y (parts n) -> forall q, goes y (SRef q) -> ~ goes_plus q (SRef q)) ->
    forall q, goes (SRef p) (SRef q) -> ~ goes_plus q (SRef q)).
  { intros p n E A q G P. inversion G as [x E1|p' n' y z E' I' G']; subst.
    - destruct P as (n' & y & E' & I' & G'). rewrite E in E'. injection E' as <-. apply (A y I' q G').
      exists n, y. auto.
    - rewrite E in E'. injection E' as <-. exact (A y I' q G' P). }
  fix IH 3. intros x v M. destruct M as [v S|p l vs E F|p m ws E F|p x v E M|p b E|p a b z E].
  - intros p G. inversion G.
  - apply (step p _ E). cbn. clear E. intros y I1. revert I1. induction F as [|a b l vs M F IHF]; [easy|].
    intros [<-|I1]; [exact (IH _ _ M)|exact (IHF I1)].
  - apply (step p _ E). cbn. clear E. intros y I1. apply in_app_iff in I1. revert I1. induction F as [|a b l vs M F IHF]; [cbn; tauto|].
    destruct M as [M1 M2]. cbn. intros [[<-|I1]|[<-|I1]]; [exact (IH _ _ M1)|exact (IHF (or_introl I1))|exact (IH _ _ M2)|exact (IHF (or_intror I1))].
  - apply (step p _ E). cbn. intros y [<-|[]]. exact (IH _ _ M).
  - apply (step p _ E). easy.
  - apply (step p _ E). easy.
Qed.

(* ---------- what corresponds to what ---------- *)

Definition rel (R : nat -> nat -> Prop) (x : sval) (y : gval) : Prop :=
  match x, y with
  | SVal v, GLeaf w => v = w /\ simple v
  | SRef p, GLeaf w => match nth_error g p with Some (SBin b) => w = VBin b | Some (STime a b z) => w = VTime a b z | _ => False end
  | SRef p, GRef q => R p q
  | _, _ => False
  end.
Definition corr (R : nat -> nat -> Prop) (x : snode) (y : gnode) : Prop :=
  match x, y with
  | SArr l, GArr l' => Forall2 (rel R) l l'
  | SMap m, GMap m' => Forall2 (fun e e' => meaning g (fst e) (fst e') /\ rel R (snd e) (snd e')) m m'
  | _, _ => False
  end.
Definition complete (R : nat -> nat -> Prop) (h : graph) (p q : nat) : Prop :=
  exists x y, nth_error g p = Some x /\ nth_error h q = Some y /\ corr R x y.
Definition from (src : list nat) (p q : nat) : Prop := nth_error src q = Some p.
Definition key_rel (src : list nat) (k : key) (y : gval) : Prop :=
  match k with KText t => y = GLeaf (VStr t) | KPtr p => rel (from src) (SRef p) y end.
(* the object at p was added as the one at q when it was met first *)
Definition first (sn : list (key * nat)) (vs : list gval) (p q : nat) : Prop :=
  exists i, lookup (KPtr p) sn = Some i /\ nth_error vs i = Some (GRef q).

Lemma rel_mono (R R' : nat -> nat -> Prop) x y : (forall p q, R p q -> R' p q) -> rel R x y -> rel R' x y.
Proof. intros S. destruct x, y; cbn; auto. Qed.
Lemma Forall2_mono {A B} (P Q : A -> B -> Prop) l l' : (forall a b, P a b -> Q a b) -> Forall2 P l l' -> Forall2 Q l l'.
Proof. induction 2; constructor; auto. Qed.
Lemma corr_mono (R R' : nat -> nat -> Prop) x y : (forall p q, R p q -> R' p q) -> corr R x y -> corr R' x y.
Proof.
  intros S. destruct x, y; cbn; auto; apply Forall2_mono.
  - intros a b. now apply rel_mono.
  - intros a b [M H]. split; [assumption|]. now apply (rel_mono R).
Qed.
Lemma complete_mono (R R' : nat -> nat -> Prop) h p q : (forall p q, R p q -> R' p q) -> complete R h p q -> complete R' h p q.
Proof. intros S (x & y & E1 & E2 & H). exists x, y. repeat split; auto. now apply (corr_mono R). Qed.
Lemma from_app src t p q : from src p q -> from (src ++ t) p q.
Proof. apply nth_app_some. Qed.

Record inv (A : list nat) (src : list nat) (s : stream) (c : coll) : Prop := {
  i_next : length (vals c) = next s;
  i_src : length src = length (heap c);
  i_seen : forall k i, lookup k (seen s) = Some i -> exists y, nth_error (vals c) i = Some y /\ key_rel src k y;
  i_done : forall p q, from src p q -> In q A \/ complete (from src) (heap c) p q;
  i_first : forall p q, first (seen s) (vals c) p q -> In q A \/ complete (first (seen s) (vals c)) (heap c) p q }.

Lemma key_rel_app src t k y : key_rel src k y -> key_rel (src ++ t) k y.
Proof. destruct k as [p|t']; [|auto]. apply (rel_mono (from src) (from (src ++ t)) (SRef p)). intros; now apply from_app. Qed.

(* the heap has changed in nothing that is complete *)
Lemma inv_heap A src s c h' st' : inv A src s c -> length h' = length (heap c) ->
  (forall q, ~ In q A -> nth_error h' q = nth_error (heap c) q) -> inv A src s (mk_coll h' (vals c) st').
Proof.
  intros [I1 I2 I3 I4 I5] L H. constructor; cbn; auto; [congruence| |].
  - intros p q F. destruct (I4 p q F) as [?|(x & y & E1 & E2 & K)]; auto.
    destruct (in_dec Nat.eq_dec q A); auto. right. exists x, y. rewrite H; auto.
  - intros p q F. destruct (I5 p q F) as [?|(x & y & E1 & E2 & K)]; auto.
    destruct (in_dec Nat.eq_dec q A); auto. right. exists x, y. rewrite H; auto.
Qed.
Lemma inv_stack A src s c st' : inv A src s c -> inv A src s (mk_coll (heap c) (vals c) st').
Proof. intros I1. apply inv_heap; auto. Qed.
Lemma inv_push A src s c c' y : inv A src s c -> (forall q, top c = Some q -> In q A) -> extends c c' [y] ->
  vals c' = vals c -> length (heap c') = length (heap c) -> inv A src s c'.
Proof.
  intros I1 T X V L. destruct c' as [h' v' st']. cbn in *. subst. apply inv_heap; auto.
  intros q Q. destruct (Nat.lt_ge_cases q (length (heap c))) as [Lt|Ge].
  - apply (x_heap _ _ _ X); auto.
  - transitivity (@None gnode); [|symmetry]; apply nth_error_None; lia.
Qed.
(* a value has been counted *)
Lemma inv_count A src s c y sn : inv A src s c ->
  (sn = seen s \/ exists k, sn = (k, next s) :: seen s /\ lookup k (seen s) = None /\ key_rel src k y) ->
  (forall p q, y = GRef q -> sn <> seen s -> lookup (KPtr p) sn = Some (next s) -> In q A) ->
  inv A src (bump (mk_stream sn (next s))) (mk_coll (heap c) (vals c ++ [y]) (stack c)).
Proof.
  intros [I1 I2 I3 I4 I5] K Y.
  assert (mono : forall k i, lookup k (seen s) = Some i -> lookup k sn = Some i).
  { intros k i E. destruct K as [->|(k' & -> & E' & _)]; auto. rewrite lookup_other; auto. congruence. }
  assert (fmono : forall p q, first (seen s) (vals c) p q -> first sn (vals c ++ [y]) p q).
  { intros p q (i & E1 & E2). exists i. split; [auto|now apply nth_app_some]. }
  constructor; cbn.
  - rewrite app_length. cbn. lia.
  - assumption.
  - intros k i E. destruct K as [->|(k' & -> & E' & R)].
    + destruct (I3 k i E) as (z & Z1 & Z2). exists z. split; [now apply nth_app_some|assumption].
    + destruct (key_eqb k k') eqn:Q.
      * apply key_eqb_eq in Q as ->. rewrite lookup_same in E. injection E as <-. exists y. split; [|assumption].
        rewrite <- I1. apply nth_app_last.
      * rewrite lookup_cons, Q in E. destruct (I3 k i E) as (z & Z1 & Z2). exists z. split; [now apply nth_app_some|assumption].
  - assumption.
  - intros p q (i & E1 & E2).
    assert (old : first (seen s) (vals c) p q -> In q A \/ complete (first sn (vals c ++ [y])) (heap c) p q).
    { intros F. destruct (I5 p q F) as [?|F']; auto. right. eapply complete_mono; [|exact F']. exact fmono. }
    assert (lt : forall k i, lookup k (seen s) = Some i -> i < length (vals c)).
    { intros k j E. destruct (I3 k j E) as (z & Z & _). now apply nth_lt in Z. }
    destruct K as [->|(k' & -> & E' & R)].
    + apply old. exists i. split; auto. rewrite nth_error_app1 in E2; eauto.
    + destruct (key_eqb (KPtr p) k') eqn:Q.
      * left. apply key_eqb_eq in Q as <-. rewrite lookup_same in E1. injection E1 as <-.
        rewrite <- I1, nth_app_last in E2. injection E2 as ->. apply (Y p q); auto.
        -- intros Z. apply (f_equal (@length _)) in Z. cbn in Z. lia.
        -- apply lookup_same.
      * rewrite lookup_cons, Q in E1. apply old. exists i. split; auto. rewrite nth_error_app1 in E2; eauto.
Qed.
Lemma inv_open A src s c x p : inv A src s c -> inv (length (heap c) :: A) (src ++ [p]) s (mk_coll (heap c ++ [x]) (vals c) (stack c)).
Proof.
  intros [I1 I2 I3 I4 I5]. constructor; cbn.
  - assumption.
  - rewrite !app_length. cbn. lia.
  - intros k i E. destruct (I3 k i E) as (y & Y & K). exists y. split; auto. now apply key_rel_app.
  - intros p' q F. unfold from in F. destruct (Nat.lt_ge_cases q (length src)) as [L|L].
    + rewrite nth_error_app1 in F by assumption. destruct (I4 p' q F) as [?|(a & b & E1 & E2 & K)]; auto. right.
      exists a, b. repeat split; auto; [now apply nth_app_some|]. eapply corr_mono; [|exact K]. intros. now apply from_app.
    + left. left. apply nth_lt in F. rewrite app_length in F. cbn in F. lia.
  - intros p' q F. destruct (I5 p' q F) as [?|(a & b & E1 & E2 & K)]; auto. right. exists a, b. repeat split; auto. now apply nth_app_some.
Qed.
Lemma inv_close A src s c q x node : inv (q :: A) src s c -> ~ In q A -> q < length (heap c) ->
  (forall p, from src p q -> nth_error g p = Some x) -> corr (from src) x node ->
  (forall p, first (seen s) (vals c) p q -> nth_error g p = Some x /\ corr (first (seen s) (vals c)) x node) ->
  inv A src s (mk_coll (set_node (heap c) q node) (vals c) (stack c)).
Proof.
  intros [I1 I2 I3 I4 I5] N1 L P K Q. constructor; cbn; auto.
  - now rewrite set_node_length.
  - intros p q' F. destruct (Nat.eq_dec q q') as [->|Ne].
    + right. exists x, node. rewrite set_node_same by assumption. auto.
    + destruct (I4 p q' F) as [[?|?]|(a & b & E1 & E2 & Z)]; [congruence|auto|]. right. exists a, b. rewrite set_node_other by assumption. auto.
  - intros p q' F. destruct (Nat.eq_dec q q') as [->|Ne].
    + right. exists x, node. rewrite set_node_same by assumption. destruct (Q p F). auto.
    + destruct (I5 p q' F) as [[?|?]|(a & b & E1 & E2 & Z)]; [congruence|auto|]. right. exists a, b. rewrite set_node_other by assumption. auto.
Qed.


(* ---------- keys are frozen ---------- *)

Lemma done_list_all {A B} (f : A -> outcome B) l l' : Forall2 (fun x y => f x = Done y) l l' -> done_list f l = Done l'.
Proof. induction 1 as [|x y l l' E F IH]; cbn; [reflexivity|]. now rewrite E, IH. Qed.

Lemma freeze_meaning A src s c : inv A src s c -> forall x v, meaning g x v -> forall y, rel (from src) x y ->
  (forall p q, goes x (SRef p) -> from src p q -> ~ In q A) -> forall n, vdepth v < n -> freeze n (heap c) y = Done v.
Proof.
  intros I1. apply (meaning_ind' g (fun x v => forall y, rel (from src) x y ->
    (forall p q, goes x (SRef p) -> from src p q -> ~ In q A) -> forall n, vdepth v < n -> freeze n (heap c) y = Done v)).
  - intros v S [w|q] R _ [|n] L; try easy. destruct R as [-> _]. reflexivity.
  - intros p l vs E F [w|q] R G [|n] L; try easy; [cbn in R; now rewrite E in R|]. cbn [rel] in R.
    destruct (i_done _ _ _ _ I1 p q R) as [Q|(x & y & E1 & E2 & K)]; [exfalso; exact (G p q (goes_refl _) R Q)|].
    rewrite E in E1. injection E1 as <-. destruct y as [l'|a|m']; try easy. cbn [corr] in K. cbn [freeze]. rewrite E2.
    rewrite (done_list_all _ _ vs); [reflexivity|]. cbn [vdepth] in L.
    assert (forall v, In v vs -> vdepth v < n) as Lv by (intros v Iv; apply (in_map vdepth), max_in in Iv; lia).
    assert (forall a, In a l -> forall p' q', goes a (SRef p') -> from src p' q' -> ~ In q' A) as Gl.
    { intros a Ia p' q' Ga. apply G. eapply goes_step; eauto. }
    clear E E2 L R G. revert l' K. induction F as [|a v l vs [_ Ha] F IH]; intros l' K; inversion K as [|? b ? l2 Kb K2]; subst; constructor.
    + apply Ha; auto. * apply Gl. now left. * apply Lv. now left.
    + apply IH; auto. * intros v' Iv. apply Lv. now right. * intros a' Ia. apply Gl. now right.
  - intros p m ws E F [w|q] R G [|n] L; try easy; [cbn in R; now rewrite E in R|]. cbn [rel] in R.
    destruct (i_done _ _ _ _ I1 p q R) as [Q|(x & y & E1 & E2 & K)]; [exfalso; exact (G p q (goes_refl _) R Q)|].
    rewrite E in E1. injection E1 as <-. destruct y as [l'|a|m']; try easy. cbn [corr] in K. cbn [freeze]. rewrite E2.
    rewrite (done_list_all _ _ ws); [reflexivity|]. cbn [vdepth] in L.
    assert (forall w, In w ws -> vdepth (snd w) < n) as Lv.
    { intros v Iv. apply (in_map (fun e => Nat.max (vdepth (fst e)) (vdepth (snd e)))), max_in in Iv. lia. }
    assert (forall a, In a m -> forall p' q', goes (snd a) (SRef p') -> from src p' q' -> ~ In q' A) as Gl.
    { intros a Ia p' q' Ga. apply G. eapply goes_step; eauto. cbn. apply in_or_app. right. now apply in_map. }
    clear E E2 L R G. revert m' K. induction F as [|a v l vs [[Mk _] [_ Ha]] F IH]; intros l' K; inversion K as [|? b ? l2 [Kb1 Kb] K2]; subst; constructor.
    + rewrite (Ha (snd b)); auto.
      * cbn. rewrite (meaning_fun _ _ _ Mk _ Kb1). now destruct v.
      * apply Gl. now left. 
      * apply Lv. now left.
    + apply IH; auto. * intros v' Iv. apply Lv. now right. * intros a' Ia. apply Gl. now right.
  - intros p x v E M H [w|q] R G n L; [cbn in R; now rewrite E in R|]. cbn [rel] in R.
    destruct (i_done _ _ _ _ I1 p q R) as [Q|(x' & y & E1 & E2 & K)]; [exfalso; exact (G p q (goes_refl _) R Q)|].
    rewrite E in E1. injection E1 as <-. destruct y; easy.
  - intros p b E [w|q] R G [|n] L; try easy; [cbn in R; rewrite E in R; now subst|]. cbn [rel] in R.
    destruct (i_done _ _ _ _ I1 p q R) as [Q|(x' & y & E1 & E2 & K)]; [exfalso; exact (G p q (goes_refl _) R Q)|].
    rewrite E in E1. injection E1 as <-. destruct y; easy.
  - intros p a b z E [w|q] R G [|n] L; try easy; [cbn in R; rewrite E in R; now subst|]. cbn [rel] in R.
    destruct (i_done _ _ _ _ I1 p q R) as [Q|(x' & y & E1 & E2 & K)]; [exfalso; exact (G p q (goes_refl _) R Q)|].
    rewrite E in E1. injection E1 as <-. destruct y; easy.
Qed.

(* at the end nothing is incomplete, and the result stands for the same value *)
Lemma rel_stands src s c : inv [] src s c -> forall x v, meaning g x v -> forall y, rel (from src) x y -> stands (heap c) y v.
Proof.
  intros I1. apply (meaning_ind' g (fun x v => forall y, rel (from src) x y -> stands (heap c) y v)).
  - intros v S [w|q] R; [|easy]. destruct R as [-> _]. constructor. now destruct w.
  - intros p l vs E F [w|q] R; [cbn in R; now rewrite E in R|]. cbn [rel] in R.
    destruct (i_done _ _ _ _ I1 p q R) as [[]|(x & y & E1 & E2 & K)].
    rewrite E in E1. injection E1 as <-. destruct y as [l'|a|m']; try easy. cbn [corr] in K.
    apply (stands_arr _ _ _ _ E2). clear E E2 R. revert l' K. induction F as [|a v l vs [_ Ha] F IH]; intros l' K; inversion K; subst; constructor; auto.
  - intros p m ws E F [w|q] R; [cbn in R; now rewrite E in R|]. cbn [rel] in R.
    destruct (i_done _ _ _ _ I1 p q R) as [[]|(x & y & E1 & E2 & K)].
    rewrite E in E1. injection E1 as <-. destruct y as [l'|a|m']; try easy. cbn [corr] in K.
    apply (stands_map _ _ _ _ E2). clear E E2 R. revert m' K. induction F as [|a v l vs [[Mk _] [_ Ha]] F IH]; intros l' K; inversion K as [|? b ? l2 [Kb1 Kb] K2]; subst; constructor; auto.
    split; auto. apply (meaning_fun _ _ _ Mk _ Kb1).
  - intros p x v E M H [w|q] R; [cbn in R; now rewrite E in R|]. cbn [rel] in R.
    destruct (i_done _ _ _ _ I1 p q R) as [[]|(x' & y & E1 & E2 & K)]. rewrite E in E1. injection E1 as <-. destruct y; easy.
  - intros p b E [w|q] R; [cbn in R; rewrite E in R; subst; now constructor|]. cbn [rel] in R.
    destruct (i_done _ _ _ _ I1 p q R) as [[]|(x' & y & E1 & E2 & K)]. rewrite E in E1. injection E1 as <-. destruct y; easy.
  - intros p a b z E [w|q] R; [cbn in R; rewrite E in R; subst; now constructor|]. cbn [rel] in R.
    destruct (i_done _ _ _ _ I1 p q R) as [[]|(x' & y & E1 & E2 & K)]. rewrite E in E1. injection E1 as <-. destruct y; easy.
Qed.

(* ---------- PutAll into an empty map ---------- *)

Lemma put_pair_new m k v : (forall e, In e m -> veq k (fst e) = false) -> put_pair m k v = m ++ [(k, v)].
Proof.
  induction m as [|[k' v'] m IH]; cbn; intros H; [reflexivity|]. pose proof (H (k', v') (or_introl eq_refl)) as H0. cbn in H0. rewrite H0, IH; auto.
Qed.
Lemma put_all_new h ys ks : Forall2 (fun y k => freeze N h (fst y) = Done k) ys ks -> distinct ks ->
  forall acc, (forall k e, In k ks -> In e acc -> veq k (fst e) = false) -> put_all N h ys acc = Done (acc ++ combine ks (map snd ys)).
Proof.
  induction 1 as [|[k' v] k ys ks E F IH]; intros Di acc H; cbn; [now rewrite app_nil_r|]. cbn in E. rewrite E. cbn.
  inversion Di as [|? ? Di1 Di2]; subst.
  rewrite put_pair_new; [|intros e Ie; apply H; auto; now left]. rewrite IH; auto.
  - now rewrite <- app_assoc.
  - intros k1 e Ik Ie. apply in_app_or in Ie as [Ie|[<-|[]]]; [apply H; auto; now right|]. cbn.
    rewrite Forall_forall in Di1. now apply Di1.
Qed.


(* ---------- the streamer and the collector agree ---------- *)

Definition grows (s s' : stream) : Prop := forall k i, lookup k (seen s) = Some i -> lookup k (seen s') = Some i.
Lemma first_grows s s' c c' p q : grows s s' -> (exists vs, vals c' = vals c ++ vs) -> first (seen s) (vals c) p q -> first (seen s') (vals c') p q.
Proof. intros G (vs & ->) (i & E1 & E2). exists i. split; [auto|now apply nth_app_some]. Qed.

Record ready (A src : list nat) (c : coll) (x : sval) : Prop := {
  r_content : content c <> None;
  r_top : forall q, top c = Some q -> In q A;
  r_lt : forall q, In q A -> q < length (heap c);
  r_goes : forall p q, In q A -> from src p q -> goes (SRef p) x }.
Lemma ready_top A src c x : ready A src c x -> forall q, top c = Some q -> q < length (heap c).
Proof. intros R q T. apply (r_lt _ _ _ _ R), (r_top _ _ _ _ R _ T). Qed.

Lemma ready_next A src c x c' ys t y : ready A src c x -> length src = length (heap c) -> extends c c' ys ->
  (forall p, goes (SRef p) x -> goes (SRef p) y) -> ready A (src ++ t) c' y.
Proof.
  intros [R1 R2 R3 R4] L X G. constructor.
  - destruct (x_content _ _ _ X) as (l & _ & ->). discriminate.
  - rewrite (extends_top _ _ _ X). assumption.
  - intros q Q. specialize (R3 q Q). pose proof (x_len _ _ _ X). lia.
  - intros p q Q F. apply G, (R4 p q Q). unfold from in *. rewrite nth_error_app1 in F; auto. specialize (R3 q Q). lia.
Qed.

(* what has been sent is y, which corresponds to x *)
Definition sent (lv : level) (x : sval) (s : stream) (e : ev) (s' : stream) : Prop :=
  forall A src c, inv A src s c -> ready A src c x ->
  exists c' y t, collect N am e c = Done c' /\ extends c c' [y] /\ inv A (src ++ t) s' c' /\ rel (from (src ++ t)) x y /\
    (lv <> NoDedup -> rel (first (seen s') (vals c')) x y) /\ grows s s' /\ (lv = NoDedup -> seen s' = seen s).

(* a value that is added *)
Lemma add_sent A src c s y sn : inv A src s c -> content c <> None -> (forall q, top c = Some q -> In q A) -> (forall q, In q A -> q < length (heap c)) ->
  (sn = seen s \/ exists k, sn = (k, next s) :: seen s /\ lookup k (seen s) = None /\ key_rel src k y) ->
  (forall p q, y = GRef q -> sn <> seen s -> lookup (KPtr p) sn = Some (next s) -> In q A) ->
  exists c', add_value y c = Done c' /\ extends c c' [y] /\ inv A src (bump (mk_stream sn (next s))) c' /\ length (heap c') = length (heap c) /\
    grows s (bump (mk_stream sn (next s))) /\ vals c' = vals c ++ [y].
Proof.
  intros I1 R1 R2 R3 K Y. destruct (push_extends c y R1) as (c1 & P & X & V & L & _); [now auto|].
  unfold add_value. rewrite P. cbn [bind]. eexists. split; [reflexivity|].
  assert (I2 : inv A src s c1) by (eapply inv_push; eauto).
  split; [|split; [|split; [|split]]].
  - destruct X as [X1 X2 X3 X4 _]. constructor; auto. exists [y]. cbn. now rewrite V.
  - apply inv_count; auto.
  - assumption.
  - intros k i E. cbn. destruct K as [->|(k' & -> & E' & _)]; auto. rewrite lookup_other; auto. congruence.
  - cbn. now rewrite V.
Qed.

Lemma add_leaf_sent lv s v : forall sn, simple v -> 
  (sn = seen s \/ exists t, v = VStr t /\ sn = (KText t, next s) :: seen s /\ lookup (KText t) (seen s) = None) -> (lv = NoDedup -> sn = seen s) ->
  sent lv (SVal v) s (EAdd v) (bump (mk_stream sn (next s))).
Proof.
  intros sn S K Nd A src c I1 R.
  destruct (add_sent A src c s (GLeaf v) sn I1) as (c' & E & X & I2 & L & G & _).
  - apply R. 
  - apply R.
  - apply R.
  - destruct K as [->|(t & -> & -> & E)]; auto. right. exists (KText t). repeat split; auto.
  - intros p q Q. discriminate.
  - exists c', (GLeaf v), []. rewrite app_nil_r. cbn [collect]. split; [assumption|]. split; [assumption|]. split; [assumption|].
    split; [now split|]. split; [now split|]. split; [assumption|]. exact Nd.
Qed.

Lemma ref_sent lv x s i k : lookup k (seen s) = Some i -> lv <> NoDedup -> 
  match k with KText t => x = SVal (VStr t) | KPtr p => x = SRef p end -> sent lv x s (ERef (Z.of_nat i)) s.
Proof.
  intros E Nd Kx A src c I1 R. destruct (i_seen _ _ _ _ I1 k i E) as (y & Y & K).
  destruct (push_extends c y) as (c1 & P & X & V & L & _); [apply R|now apply (ready_top _ _ _ _ R)|].
  exists c1, y, []. rewrite app_nil_r. cbn [collect]. unfold add_ref.
  destruct (Z.ltb_spec (Z.of_nat i) 0); [lia|]. rewrite Nat2Z.id, Y. split; [assumption|]. split; [assumption|].
  split; [eapply inv_push; eauto; apply R|]. destruct k as [p|t]; subst x; cbn in K.
  - split; [exact K|]. split; [|split; [easy|easy]]. intros _. destruct y as [w|q]; [exact K|]. exists i. rewrite V. auto.
  - subst y. repeat split; auto. easy.
Qed.

Lemma list_sent lv f l : (forall x, In x l -> forall s e s', f x s = Done (e, s') -> sent lv x s e s') ->
  forall s es s', emit_list f l s = Done (es, s') ->
  forall A src c, inv A src s c -> content c <> None -> (forall x, In x l -> ready A src c x) ->
  exists c' ys t, collect_all N am es c = Done c' /\ extends c c' ys /\ inv A (src ++ t) s' c' /\ Forall2 (rel (from (src ++ t))) l ys /\
    (lv <> NoDedup -> Forall2 (rel (first (seen s') (vals c'))) l ys) /\ grows s s' /\ (lv = NoDedup -> seen s' = seen s).
Proof.
  induction l as [|x l IH]; intros F s es s' E A src c I1 Nc R; cbn in E.
  - injection E as <- <-. exists c, [], []. rewrite app_nil_r. cbn. split; [reflexivity|]. split; [now apply extends_refl|].
    split; [assumption|]. split; [constructor|]. split; [intros _; constructor|]. split; [intros k' i H; exact H|now intros _].
  - undo E. undo E. injection E as <- <-. 
    destruct (F x (or_introl eq_refl) _ _ _ E0 A src c I1 (R x (or_introl eq_refl))) as (c1 & y & t & C1 & X1 & I2 & R1 & D1 & G1 & S1).
    assert (R' : forall a, In a l -> ready A (src ++ t) c1 a).
    { intros a Ia. eapply ready_next; [exact (R a (or_intror Ia))|apply I1|exact X1|auto]. }
    assert (Nc1 : content c1 <> None) by (destruct (x_content _ _ _ X1) as (ll & _ & ->); discriminate).
    destruct (IH (fun a Ia => F a (or_intror Ia)) _ _ _ E1 A (src ++ t) c1 I2 Nc1 R') as (c2 & ys & t' & C2 & X2 & I3 & R2 & D2 & G2 & S2).
    exists c2, (y :: ys), (t ++ t'). rewrite app_assoc. cbn [collect_all]. rewrite C1. cbn [bind].
    split; [assumption|]. split; [exact (extends_trans _ _ _ _ _ X1 X2)|]. split; [assumption|].
    split; [constructor; auto; eapply rel_mono; [|exact R1]; intros; now apply from_app|].
    split; [|split; [intros k i H; auto|intros H; rewrite (S2 H); auto]].
    intros Nd. constructor; auto. eapply rel_mono; [|exact (D1 Nd)]. intros p q. apply first_grows; auto. apply X2.
Qed.

Fixpoint interleave (l : list (gval * gval)) : list gval := match l with [] => [] | (k, v) :: r => k :: v :: interleave r end.
Lemma pairs_interleave l : pairs (interleave l) = l.
Proof. induction l as [|[k v] l IH]; cbn; [reflexivity|]. now rewrite IH. Qed.

Lemma entries_sent lk lv fk fv m : (lv = NoDedup -> lk = NoDedup) ->
  (forall e, In e m -> forall s ev s', fk (fst e) s = Done (ev, s') -> sent lk (fst e) s ev s') ->
  (forall e, In e m -> forall s ev s', fv (snd e) s = Done (ev, s') -> sent lv (snd e) s ev s') ->
  forall s es s', emit_entries fk fv m s = Done (es, s') ->
  forall A src c, inv A src s c -> content c <> None -> (forall e, In e m -> ready A src c (fst e) /\ ready A src c (snd e)) ->
  exists c' ys t, collect_all N am es c = Done c' /\ extends c c' (interleave ys) /\ inv A (src ++ t) s' c' /\
    Forall2 (fun e y => rel (from (src ++ t)) (fst e) (fst y) /\ rel (from (src ++ t)) (snd e) (snd y)) m ys /\
    (lv <> NoDedup -> Forall2 (fun e y => rel (first (seen s') (vals c')) (snd e) (snd y)) m ys) /\ grows s s' /\ (lv = NoDedup -> seen s' = seen s).
Proof.
  intros Lk. induction m as [|[k v] m IH]; intros Fk Fv s es s' E A src c I1 Nc R; cbn in E.
  - injection E as <- <-. exists c, [], []. rewrite app_nil_r. cbn. split; [reflexivity|]. split; [now apply extends_refl|].
    split; [assumption|]. split; [constructor|]. split; [intros _; constructor|]. split; [intros k' i H; exact H|now intros _].
  - undo E. undo E. undo E. injection E as <- <-.
    destruct (R _ (or_introl eq_refl)) as [Rk Rv]. cbn in Rk, Rv.
    destruct (Fk _ (or_introl eq_refl) _ _ _ E0 A src c I1 Rk) as (c1 & y & t & C1 & X1 & I2 & R1 & D1 & G1 & S1).
    assert (Rv' : ready A (src ++ t) c1 v) by (eapply ready_next; [exact Rv|apply I1|exact X1|auto]).
    destruct (Fv _ (or_introl eq_refl) _ _ _ E1 A (src ++ t) c1 I2 Rv') as (c2 & z & t2 & C2 & X2 & I3 & R2 & D2 & G2 & S2).
    assert (X12 : extends c c2 ([y] ++ [z])) by exact (extends_trans _ _ _ _ _ X1 X2).
    assert (R' : forall a, In a m -> ready A ((src ++ t) ++ t2) c2 (fst a) /\ ready A ((src ++ t) ++ t2) c2 (snd a)).
    { intros a Ia. destruct (R a (or_intror Ia)) as [Ra Rb]. rewrite <- app_assoc. split; [apply (ready_next A src c _ c2 ([y] ++ [z]) (t ++ t2) _ Ra)|apply (ready_next A src c _ c2 ([y] ++ [z]) (t ++ t2) _ Rb)]; auto; apply I1. }
    assert (Nc2 : content c2 <> None) by (destruct (x_content _ _ _ X2) as (ll & _ & ->); discriminate).
    destruct (IH (fun a Ia => Fk a (or_intror Ia)) (fun a Ia => Fv a (or_intror Ia)) _ _ _ E2 A _ c2 I3 Nc2 R') as (c3 & ys & t3 & C3 & X3 & I4 & R3 & D3 & G3 & S3).
    exists c3, ((y, z) :: ys), (t ++ t2 ++ t3). rewrite !app_assoc. cbn [collect_all interleave]. rewrite C1. cbn [bind]. rewrite C2. cbn [bind].
    split; [assumption|]. split; [exact (extends_trans _ _ _ _ _ X12 X3)|]. split; [assumption|].
    split; [constructor; auto; cbn; split; [eapply rel_mono; [|exact R1]; intros; now do 2 apply from_app|eapply rel_mono; [|exact R2]; intros; now apply from_app]|].
    split; [|split; [intros k' i H; auto|intros H; rewrite (S3 H), (S2 H); auto]].
    intros Nd. constructor; auto. cbn. eapply rel_mono; [|exact (D2 Nd)]. intros p q. apply first_grows; auto. apply X3.
Qed.

Lemma process_cases lv k doer s e s' : process lv k doer s = Done (e, s') ->
  (exists i, lv <> NoDedup /\ lookup k (seen s) = Some i /\ e = ERef (Z.of_nat i) /\ s' = s) \/
  (exists sn, (sn = seen s \/ sn = (k, next s) :: seen s /\ lookup k (seen s) = None) /\ (lv = NoDedup <-> sn = seen s) /\ doer (mk_stream sn (next s)) = Done (e, s')).
Proof.
  assert (forall x : key * nat, x :: seen s <> seen s) as Ne by (intros x Z; apply (f_equal (@length _)) in Z; cbn in Z; lia).
  unfold process. intros H. destruct lv.
  - right. exists (seen s). destruct s. cbn in *. intuition.
  - destruct (lookup k (seen s)) as [i|] eqn:E.
    + injection H as <- <-. left. exists i. repeat split; auto. discriminate.
    + right. exists ((k, next s) :: seen s). split; auto. split; [split; [discriminate|intros Z; now apply Ne in Z]|assumption].
  - destruct (lookup k (seen s)) as [i|] eqn:E.
    + injection H as <- <-. left. exists i. repeat split; auto. discriminate.
    + right. exists ((k, next s) :: seen s). split; auto. split; [split; [discriminate|intros Z; now apply Ne in Z]|assumption].
Qed.

Lemma string_sent lv t s e s' : emit_string C lv t s = Done (e, s') -> sent lv (SVal (VStr t)) s e s'.
Proof.
  unfold emit_string. destruct (_ <=? _)%Z; intros H.
  - apply process_cases in H as [(i & Nd & L & -> & ->)|(sn & K & Nd & H)].
    + now apply (ref_sent lv _ s i (KText t)).
    + unfold add in H. injection H as <- <-. apply add_leaf_sent; [easy| |apply Nd]. destruct K as [->|[-> K]]; eauto 6.
  - unfold add in H. injection H as <- <-. destruct s as [sn nx]. apply (add_leaf_sent lv (mk_stream sn nx) (VStr t) sn); auto. easy.
Qed.


Lemma set_node_id h q x : nth_error h q = Some x -> set_node h q x = h.
Proof. revert q. induction h as [|y h IH]; intros [|q] E; cbn in *; try discriminate; [congruence|]. now rewrite IH. Qed.

(* a new array or map *)
Lemma opened A src c s p x0 sn : inv A src s c -> ready A src c (SRef p) ->
  (sn = seen s \/ sn = (KPtr p, next s) :: seen s /\ lookup (KPtr p) (seen s) = None) ->
  exists c1, add_value (GRef (length (heap c))) (mk_coll (heap c ++ [x0]) (vals c) (stack c)) = Done c1 /\ extends c c1 [GRef (length (heap c))] /\
    inv (length (heap c) :: A) (src ++ [p]) (bump (mk_stream sn (next s))) c1 /\ length (heap c1) = S (length (heap c)) /\
    nth_error (heap c1) (length (heap c)) = Some x0 /\ grows s (bump (mk_stream sn (next s))) /\ vals c1 = vals c ++ [GRef (length (heap c))].
Proof.
  intros I1 R K. set (c0 := mk_coll (heap c ++ [x0]) (vals c) (stack c)).
  assert (Ct : content c0 = content c).
  { unfold content, c0. cbn. destruct (stack c) as [|[q|l] r] eqn:S; auto.
    rewrite nth_error_app1; auto. apply (ready_top _ _ _ _ R). unfold top. now rewrite S. }
  destruct (add_sent (length (heap c) :: A) (src ++ [p]) c0 s (GRef (length (heap c))) sn) as (c1 & E & X & I2 & L & G & V).
  - now apply inv_open.
  - rewrite Ct. apply R.
  - intros q T. right. now apply (r_top _ _ _ _ R).
  - intros q [<-|Q]; cbn; rewrite app_length; cbn; [lia|]. pose proof (r_lt _ _ _ _ R q Q). lia.
  - destruct K as [->|[-> K]]; auto. right. exists (KPtr p). repeat split; auto. cbn. unfold from. rewrite <- (i_src _ _ _ _ I1). apply nth_app_last.
  - intros p' q [= <-] _ _. now left.
  - exists c1. split; [exact E|]. cbn in L. rewrite app_length in L. cbn in L.
    assert (nth_error (heap c1) (length (heap c)) = Some x0) as E0.
    { rewrite (x_heap _ _ _ X); cbn; [apply nth_app_last|rewrite app_length; cbn; lia|].
      intros T. apply (ready_top _ _ _ _ R) in T. lia. }
    split; [|split; [exact I2|split; [lia|split; [exact E0|split; [exact G|exact V]]]]].
    destruct X as [(l & X1 & X1') X2 X3 X4 X5]. constructor; auto.
    + exists l. rewrite <- Ct. auto.
    + lia.
    + intros q Q T. rewrite X4; cbn; auto; [|rewrite app_length; cbn; lia]. now rewrite nth_error_app1.
Qed.

Lemma popped c c1 c2 fr ys node : extends c c1 [GRef (length (heap c))] -> length (heap c1) = S (length (heap c)) ->
  (fr = FArr (length (heap c)) \/ fr = FTemp []) -> (forall q, top c = Some q -> q < length (heap c)) ->
  extends (mk_coll (heap c1) (vals c1) (fr :: stack c1)) c2 ys ->
  extends c (pop (mk_coll (set_node (heap c2) (length (heap c)) node) (vals c2) (stack c2))) [GRef (length (heap c))].
Proof.
  intros X L Fr T Y. pose proof (extends_top _ _ _ X) as Tp.
  assert (St : tl (stack c2) = stack c1).
  { pose proof (x_stack _ _ _ Y) as S. cbn in S. destruct Fr as [-> | ->]; destruct (stack c2) as [|[q|l] r]; try easy. }
  assert (Hp : forall q, q < length (heap c) -> nth_error (set_node (heap c2) (length (heap c)) node) q = nth_error (heap c1) q).
  { intros q Q. rewrite set_node_other by lia. rewrite (x_heap _ _ _ Y); cbn; auto; [lia|]. destruct Fr as [-> | ->]; cbn; [|discriminate]. intros [= Z]. lia. }
  destruct X as [(l & X1 & X1') X2 X3 X4 (vs & X5)]. destruct (x_vals _ _ _ Y) as (vs' & V). cbn in V. constructor; cbn.
  - exists l. split; [assumption|]. unfold content in *. cbn. rewrite St. destruct (stack c1) as [|[q|l1] r] eqn:S1; auto.
    rewrite Hp; auto. apply T. rewrite <- Tp. unfold top. now rewrite S1.
  - now rewrite St.
  - rewrite set_node_length. pose proof (x_len _ _ _ Y). cbn in *. lia.
  - intros q Q Tq. rewrite Hp by assumption. now apply X4.
  - exists (vs ++ vs'). now rewrite V, X5, app_assoc.
Qed.

(* an object that is new in the collection has been met for the first time only if it was to be remembered *)
Lemma first_new A src s c sn p t s2 c2 : inv A src s c -> (sn = seen s \/ sn = (KPtr p, next s) :: seen s /\ lookup (KPtr p) (seen s) = None) ->
  inv (length (heap c) :: A) ((src ++ [p]) ++ t) s2 c2 -> (exists vs, vals c2 = vals c ++ vs) -> (sn = seen s -> seen s2 = sn) ->
  forall p', first (seen s2) (vals c2) p' (length (heap c)) -> p' = p /\ sn <> seen s.
Proof.
  intros I1 K I2 (vs & V) Sn p' (i & E1 & E2). split.
  - destruct (i_seen _ _ _ _ I2 _ _ E1) as (y & Y & Kr). rewrite Y in E2. injection E2 as ->. cbn in Kr. unfold from in Kr.
    rewrite nth_error_app1 in Kr by (rewrite app_length; cbn; rewrite (i_src _ _ _ _ I1); lia).
    rewrite <- (i_src _ _ _ _ I1), nth_app_last in Kr. congruence.
  - intros Z. rewrite (Sn Z), Z in E1. destruct (i_seen _ _ _ _ I1 _ _ E1) as (y & Y & Kr).
    rewrite V, (nth_app_some _ _ _ _ Y) in E2. injection E2 as ->. cbn in Kr. unfold from in Kr.
    apply nth_lt in Kr. rewrite (i_src _ _ _ _ I1) in Kr. lia.
Qed.

Hypothesis depth_ok : forall p m e k, nth_error g p = Some (SMap m) -> In e m -> meaning g (fst e) k -> vdepth k < N.

Lemma child_ready A src c c1 p n y sn s fr : inv A src s c -> ready A src c (SRef p) -> nth_error g p = Some n -> In y (parts n) ->
  extends c c1 [GRef (length (heap c))] -> length (heap c1) = S (length (heap c)) ->
  inv (length (heap c) :: A) (src ++ [p]) sn c1 ->
  fr = FArr (length (heap c)) /\ nth_error (heap c1) (length (heap c)) = Some (GArr []) \/ fr = FTemp [] ->
  ready (length (heap c) :: A) (src ++ [p]) (mk_coll (heap c1) (vals c1) (fr :: stack c1)) y.
Proof.
  intros I1 R E Iy X L I2 Fr. constructor; cbn.
  - unfold content. cbn. destruct Fr as [[-> ->]| ->]; discriminate.
  - intros q T. unfold top in T. cbn in T. destruct Fr as [[-> _]| ->]; [|discriminate]. injection T as <-. now left.
  - intros q [<-|Q]; [lia|]. pose proof (r_lt _ _ _ _ R q Q). lia.
  - intros p' q Q F. assert (Gy : goes (SRef p) y) by (eapply goes_step; eauto; constructor).
    destruct Q as [<-|Q].
    + unfold from in F. rewrite <- (i_src _ _ _ _ I1), nth_app_last in F. injection F as ->. assumption.
    + apply (goes_trans _ (SRef p)); [|assumption]. apply (r_goes _ _ _ _ R p' q Q). unfold from in *. rewrite nth_error_app1 in F; [assumption|].
      pose proof (r_lt _ _ _ _ R q Q). rewrite (i_src _ _ _ _ I1). lia.
Qed.

Lemma leaf_node_sent lv p s e s' w : process lv (KPtr p) (add w) s = Done (e, s') ->
  match nth_error g p with Some (SBin b) => w = VBin b | Some (STime a b z) => w = VTime a b z | _ => False end -> sent lv (SRef p) s e s'.
Proof.
  intros H Lf. apply process_cases in H as [(i & Nd & L & -> & ->)|(sn & K & Nd & H)].
  - now apply (ref_sent lv _ s i (KPtr p)).
  - unfold add in H. injection H as <- <-. intros A src c I1 R.
    destruct (add_sent A src c s (GLeaf w) sn I1) as (c' & E & X & I2 & L & G & V); try apply R.
    + destruct K as [->|[-> K]]; auto. right. exists (KPtr p). repeat split; auto.
    + discriminate.
    + exists c', (GLeaf w), []. rewrite app_nil_r. cbn [collect]. split; [assumption|]. split; [assumption|]. split; [assumption|].
      split; [exact Lf|]. split; [intros _; exact Lf|]. split; [assumption|]. intros Z. now apply Nd.
Qed.

Lemma array_sent lv f p l s e s' : nth_error g p = Some (SArr l) ->
  (forall x, In x l -> forall s e s', f x s = Done (e, s') -> sent lv x s e s') ->
  process lv (KPtr p) (fun s => do (es, s) <- emit_list f l (bump s); Done (EArr es, s)) s = Done (e, s') -> sent lv (SRef p) s e s'.
Proof.
  intros Ep F H. apply process_cases in H as [(i & Nd & L & -> & ->)|(sn & K & Nd & H)].
  { now apply (ref_sent lv _ s i (KPtr p)). }
  undo H. injection H as <- <-. intros A src c I1 R.
  destruct (opened A src c s p (GArr []) sn I1 R K) as (c1 & A1 & X1 & I2 & L1 & E1 & G1 & V1).
  set (q0 := length (heap c)) in *. set (c1' := mk_coll (heap c1) (vals c1) (FArr q0 :: stack c1)).
  destruct (list_sent lv f l F _ _ _ E (q0 :: A) (src ++ [p]) c1') as (c2 & ys & t & C2 & X2 & I3 & R2 & D2 & G2 & S2).
  - now apply inv_stack.
  - unfold content, c1'. cbn. rewrite E1. discriminate.
  - intros x Ix. eapply child_ready; eauto.
  - rewrite collect_arr. fold q0. rewrite A1. cbn [bind]. fold c1'. rewrite C2. cbn [bind].
    assert (E2 : nth_error (heap c2) q0 = Some (GArr ys)).
    { destruct (x_content _ _ _ X2) as (l' & Cl & Cl'). unfold content, c1' in Cl. cbn in Cl. rewrite E1 in Cl. injection Cl as <-.
      unfold content in Cl'. pose proof (x_stack _ _ _ X2) as St. cbn in St. destruct (stack c2) as [|[q|l2] r]; try easy. destruct St as [<- _].
      destruct (nth_error (heap c2) q0) as [[l2|?|?]|]; try discriminate. cbn in Cl'. congruence. }
    pose proof (popped c c1 c2 (FArr q0) ys (GArr ys) X1 L1 (or_introl eq_refl) (ready_top _ _ _ _ R) X2) as Pp. fold q0 in Pp.
    rewrite (set_node_id _ _ _ E2) in Pp.
    assert (Q0 : nth_error ((src ++ [p]) ++ t) q0 = Some p).
    { rewrite nth_error_app1 by (rewrite app_length; cbn; rewrite (i_src _ _ _ _ I1); unfold q0; lia). unfold q0. rewrite <- (i_src _ _ _ _ I1). apply nth_app_last. }
    exists (pop c2), (GRef q0), ([p] ++ t). rewrite app_assoc. split; [reflexivity|]. split; [destruct c2; exact Pp|].
    assert (Vx : exists vs, vals c2 = vals c ++ vs).
    { destruct (x_vals _ _ _ X2) as (vs & V). exists ([GRef q0] ++ vs). rewrite V. unfold c1'. cbn. now rewrite V1, <- app_assoc. }
    assert (Sq : sn = seen s -> seen s0 = sn) by (intros Z; rewrite S2 by (now apply Nd); reflexivity).
    pose proof (first_new A src s c sn p t s0 c2 I1 K I3 Vx Sq) as Fn. fold q0 in Fn.
    split.
    { unfold pop. apply inv_stack with (c := c2). pose proof (inv_close A _ s0 c2 q0 (SArr l) (GArr ys) I3) as Cl.
      rewrite (set_node_id _ _ _ E2) in Cl. destruct c2 as [h2 v2 st2]. cbn in *. apply Cl; auto.
      - intros Z. apply (r_lt _ _ _ _ R) in Z. unfold q0 in Z. lia.
      - now apply nth_lt in E2.
      - intros p' Z. unfold from in Z. rewrite Q0 in Z. congruence.
      - intros p' Z. destruct (Fn p' Z) as [-> Ns]. split; [assumption|]. apply D2. intros Z'. now apply Ns, Nd. }
    split; [exact Q0|]. split; [|split].
    + intros Nd'. cbn. exists (next s). split.
      * apply G2. cbn. destruct K as [->|[-> _]]; [exfalso; apply Nd'; now apply Nd|]. apply lookup_same.
      * destruct (x_vals _ _ _ X2) as (vs & V). rewrite V. unfold c1'. cbn. rewrite V1, <- (i_next _ _ _ _ I1). apply nth_app_some, nth_app_last.
    + intros k i Z. apply G2, G1, Z.
    + intros Z. rewrite S2 by assumption. cbn. now apply Nd.
Qed.

Lemma map_sent lk lv fk fv p m s e s' : nth_error g p = Some (SMap m) -> (lv = NoDedup -> lk = NoDedup) ->
  (forall e, In e m -> forall s ev s', fk (fst e) s = Done (ev, s') -> sent lk (fst e) s ev s') ->
  (forall e, In e m -> forall s ev s', fv (snd e) s = Done (ev, s') -> sent lv (snd e) s ev s') ->
  process lv (KPtr p) (fun s => do (es, s) <- emit_entries fk fv m (bump s); Done (EMap es, s)) s = Done (e, s') -> sent lv (SRef p) s e s'.
Proof.
  intros Ep Lk Fk Fv H. apply process_cases in H as [(i & Nd & L & -> & ->)|(sn & K & Nd & H)].
  { now apply (ref_sent lv _ s i (KPtr p)). }
  undo H. injection H as <- <-. intros A src c I1 R.
  destruct (opened A src c s p (GMap []) sn I1 R K) as (c1 & A1 & X1 & I2 & L1 & E1 & G1 & V1).
  set (q0 := length (heap c)) in *. set (c1' := mk_coll (heap c1) (vals c1) (FTemp [] :: stack c1)).
  destruct (entries_sent lk lv fk fv m Lk Fk Fv _ _ _ E (q0 :: A) (src ++ [p]) c1') as (c2 & ys & t & C2 & X2 & I3 & R2 & D2 & G2 & S2).
  - now apply inv_stack.
  - unfold content, c1'. cbn. discriminate.
  - intros x Ix. split; eapply child_ready; eauto; cbn; apply in_or_app; [left|right]; now apply in_map.
  - rewrite collect_map. fold q0. rewrite A1. cbn [bind]. fold c1'. rewrite C2. cbn [bind].
    assert (St : exists r, stack c2 = FTemp (interleave ys) :: r).
    { destruct (x_content _ _ _ X2) as (l' & Cl & Cl'). unfold content, c1' in Cl. cbn in Cl. injection Cl as <-.
      unfold content in Cl'. pose proof (x_stack _ _ _ X2) as St. cbn in St. destruct (stack c2) as [|[q|l2] r]; try easy. cbn in Cl'. injection Cl' as ->. now exists r. }
    destruct St as (r & St). rewrite St, pairs_interleave.
    rewrite Forall_forall in g_plain. pose proof (g_plain _ (nth_error_In _ _ Ep)) as Pl. cbn [plain] in Pl.
    destruct Pl as (_ & (ks & Mk & Di & Ok) & _).
    assert (Q0 : nth_error ((src ++ [p]) ++ t) q0 = Some p).
    { rewrite nth_error_app1 by (rewrite app_length; cbn; rewrite (i_src _ _ _ _ I1); unfold q0; lia). unfold q0. rewrite <- (i_src _ _ _ _ I1). apply nth_app_last. }
    assert (Fz : Forall2 (fun y k => freeze N (heap c2) (fst y) = Done k) ys ks).
    { assert (forall e k, In e m -> meaning g (fst e) k -> forall y, rel (from ((src ++ [p]) ++ t)) (fst e) y -> freeze N (heap c2) y = Done k) as Fz.
      { intros e0 k Ie M y Ry. eapply freeze_meaning; eauto.
        intros p' q Gp Fp Q. assert (In (fst e0) (parts (SMap m))) as Ipt by (cbn; apply in_or_app; left; now apply in_map).
        assert (goes (fst e0) (SRef p)) as Gk.
        { destruct Q as [<-|Q]; [unfold from in Fp; rewrite Q0 in Fp; congruence|].
          apply (goes_trans _ _ _ Gp). apply (r_goes _ _ _ _ R p' q Q). pose proof (r_lt _ _ _ _ R q Q). unfold from in *.
          rewrite <- app_assoc, nth_error_app1 in Fp; [assumption|]. rewrite (i_src _ _ _ _ I1). lia. }
        apply (meaning_acyclic _ _ M p Gk). exists (SMap m), (fst e0). auto. }
      clear - Mk R2 Fz. revert ks Mk. induction R2 as [|e0 y m ys [Ra _] R2 IH]; intros ks Mk; inversion Mk; subst; constructor.
      - eapply Fz; eauto. now left.
      - apply IH; auto. intros e1 k Ie. apply Fz. now right. }
    rewrite (put_all_new _ _ _ Fz Di [] ltac:(easy)). cbn [bind app]. set (m' := combine ks (map snd ys)).
    assert (Lk' : length ks = length (map snd ys)).
    { rewrite map_length. symmetry. clear - Fz. induction Fz; cbn; auto. }
    assert (Fst : map fst m' = ks).
    { unfold m'. clear - Lk'. revert Lk'. generalize (map snd ys). induction ks as [|k ks IH]; intros [|y l] L; cbn in *; try discriminate; auto. f_equal. apply IH. lia. }
    assert (Q2 : q0 < length (heap c2)) by (rewrite <- (i_src _ _ _ _ I3); now apply nth_lt in Q0).
    assert (Corr : forall Rr : nat -> nat -> Prop, Forall2 (fun e y => rel Rr (snd e) (snd y)) m ys -> corr Rr (SMap m) (GMap m')).
    { intros Rr. cbn [corr]. unfold m'. clear - Mk. revert ks Mk. intros ks Mk Ry. revert ks Mk. induction Ry as [|e0 y m ys Ra Ry IH]; intros ks Mk; inversion Mk; subst; cbn; constructor; auto. }
    rewrite (am_ok q0 _ m'); [|cbn; now apply set_node_same|now rewrite Fst].
    exists (pop (mk_coll (set_node (heap c2) q0 (GMap m')) (vals c2) (stack c2))), (GRef q0), ([p] ++ t). rewrite app_assoc, St. split; [reflexivity|]. rewrite <- St.
    split; [exact (popped c c1 c2 (FTemp []) _ (GMap m') X1 L1 (or_intror eq_refl) (ready_top _ _ _ _ R) X2)|].
    assert (Vx : exists vs, vals c2 = vals c ++ vs).
    { destruct (x_vals _ _ _ X2) as (vs & V). exists ([GRef q0] ++ vs). rewrite V. unfold c1'. cbn. now rewrite V1, <- app_assoc. }
    assert (Sq : sn = seen s -> seen s0 = sn) by (intros Z; rewrite S2 by (now apply Nd); reflexivity).
    pose proof (first_new A src s c sn p t s0 c2 I1 K I3 Vx Sq) as Fn. fold q0 in Fn.
    split.
    { unfold pop. cbn [heap vals stack]. apply inv_stack with (c := mk_coll (set_node (heap c2) q0 (GMap m')) (vals c2) (stack c2)).
      apply (inv_close A _ s0 c2 q0 (SMap m) (GMap m') I3); auto.
      - intros Z. apply (r_lt _ _ _ _ R) in Z. unfold q0 in Z. lia.
      - intros p' Z. unfold from in Z. rewrite Q0 in Z. congruence.
      - apply Corr. eapply Forall2_mono; [|exact R2]. now intros a b [_ ?].
      - intros p' Z. destruct (Fn p' Z) as [-> Ns]. split; [assumption|]. apply Corr, D2. intros Z'. now apply Ns, Nd. }
    split; [exact Q0|]. split; [|split].
    + intros Nd'. cbn. exists (next s). split.
      * apply G2. cbn. destruct K as [->|[-> _]]; [exfalso; apply Nd'; now apply Nd|]. apply lookup_same.
      * destruct (x_vals _ _ _ X2) as (vs & V). rewrite V. unfold c1'. cbn. rewrite V1, <- (i_next _ _ _ _ I1). apply nth_app_some, nth_app_last.
    + intros k i Z. apply G2, G1, Z.
    + intros Z. rewrite S2 by assumption. cbn. now apply Nd.
Qed.

(* ---------- emitData ---------- *)

Lemma text_keys m : Forall (fun e => exists t, fst e = SVal (VStr t)) m -> string_keys m = true.
Proof. unfold string_keys. induction 1 as [|e m (t & E) F IH]; cbn; [reflexivity|]. now rewrite E. Qed.
Lemma no_ref m : (forall i, m <> [(SVal (VStr (d_ref D)), SVal (VInt i))]) -> ref_of D m = None.
Proof.
  intros H. unfold ref_of. destruct m as [|[[[| | | |k| | | | | |]|] [[| |i| | | | | | | |]|]] [|? ?]]; auto.
  destruct (bytes_eqb k (d_ref D)) eqn:E; [|reflexivity]. apply bytes_eqb_eq in E as ->. now elim (H i).
Qed.

Theorem emit_sent : forall n lv x s e s', valid g x -> emit W D C op g n lv x s = Done (e, s') -> sent lv x s e s'.
Proof.
  induction n as [|n IH]; intros lv x s e s' Vx H; [discriminate|]. cbn [emit] in H. destruct x as [v|p].
  - cbn in Vx. destruct v; try easy; try (unfold add in H; injection H as <- <-; destruct s as [sn nx]; now apply (add_leaf_sent lv (mk_stream sn nx) _ sn); auto).
    now apply string_sent.
  - destruct (nth_error g p) as [x|] eqn:Ep; [|discriminate].
    pose proof g_plain as Gp. rewrite Forall_forall in Gp. pose proof (Gp _ (nth_error_In _ _ Ep)) as Pl. clear Gp.
    destruct x as [l|m|x|b|a b z|tx al]; cbn [plain emit_node] in *.
    + apply (array_sent lv (emit W D C op g n lv) p l s e s' Ep); [|exact H]. intros x Ix s0 e0 s1. apply IH. rewrite Forall_forall in Pl. now apply Pl.
    + destruct Pl as (Vl & _ & Cx & Nr). rewrite (no_ref _ Nr) in H.
      replace (c_complex C || string_keys m) with true in H.
      2:{ destruct Cx as [-> |Tk]; [reflexivity|]. rewrite (text_keys _ Tk). now rewrite orb_true_r. }
      rewrite Forall_forall in Vl. apply (map_sent (key_level lv) lv (emit W D C op g n (key_level lv)) (emit W D C op g n lv) p m s e s' Ep); [| | |exact H].
      * now intros ->.
      * intros e0 Ie. intros s0 e1 s1. apply IH. now apply Vl.
      * intros e0 Ie. intros s0 e1 s1. apply IH. now apply Vl.
    + easy.
    + rewrite Pl in H. eapply leaf_node_sent; [exact H|]. now rewrite Ep.
    + rewrite Pl in H. eapply leaf_node_sent; [exact H|]. now rewrite Ep.
    + easy.
Qed.

End Stream.
