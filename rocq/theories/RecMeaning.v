(* On values that do not contain themselves, types that refer to themselves through arrays, maps or sensitives mean exactly one thing. *)
From Coq Require Import ZArith List Bool Lia Arith.
From Verif Require Import Int64 HMap Data DataSpec Types TypesSpec Graph RecTypes RecTypesSpec RecTypesProofs.
Import ListNotations.
Open Scope Z_scope.

Section Meaning.
Variable W : world.
Variable G : graph.

(* what belongs to a node depends on what belongs to the types that it refers to, for the same value or for what it contains *)
Lemma holds_cong (P Q : nat -> gval -> Prop) nd x : (forall q, In q (same_value nd) -> (P q x <-> Q q x)) ->
  (forall q y, In q (refers nd) -> part G x y -> (P q y <-> Q q y)) -> (holds W G P nd x <-> holds W G Q nd x).
Proof.
  assert (H : forall P Q : nat -> gval -> Prop, (forall q, In q (same_value nd) -> (P q x <-> Q q x)) ->
    (forall q y, In q (refers nd) -> part G x y -> (P q y <-> Q q y)) -> holds W G P nd x -> holds W G Q nd x); [|intros A B; split; apply H; [exact A|exact B|intros q I; symmetry; auto|intros q y I J; symmetry; auto]].
  clear P Q. intros P Q SV PV. destruct nd as [t|e lo hi|ts variadic|k v lo hi|additional es|ts|ts|ts|t|t]; cbn [holds same_value refers] in *; try tauto.
  - intros (l & E & S & F). exists l. split; [exact E|split; [exact S|]]. rewrite Forall_forall in *. intros y I. apply PV; [now left|now apply (part_element G x l)|now apply F].
  - intros (l & E & F). exists l. split; [exact E|]. assert (K : forall us ys, (forall u, In u us -> In u ts) -> (forall y, In y ys -> In y l) -> Forall2 P us ys -> Forall2 Q us ys).
    { intros us ys A B F2. induction F2 as [|u y us ys X F2 IH]; constructor.
      - apply PV; [apply A; now left|apply (part_element G x l); [exact E|apply B; now left]|exact X].
      - apply IH; intros; [apply A|apply B]; now right. }
    destruct variadic; [|now apply K].
    destruct F as (us & t & l1 & l2 & A & B & C & D). exists us, t, l1, l2. split; [exact A|split; [exact B|split]].
    + apply K; [|intros; subst; apply in_or_app; now left|exact C]. intros u I. subst. apply in_or_app. now left.
    + rewrite Forall_forall in *. intros y I. apply PV; [subst; apply in_or_app; right; now left|apply (part_element G x l); [exact E|subst; apply in_or_app; now right]|now apply D].
  - intros (m & E & S & F). exists m. split; [exact E|split; [exact S|]]. rewrite Forall_forall in *. intros [a b] I. destruct (F _ I) as [A B]. split.
    + apply PV; [now left|now apply (part_key G x m a b)|exact A].
    + apply PV; [right; now left|now apply (part_value G x m a b)|exact B].
  - intros (m & E & F & A). exists m. split; [exact E|split; [|exact A]]. rewrite Forall_forall in *. intros e I. destruct (F e I) as [(k & y & J & V & B)|B]; [|now right]. left. exists k, y.
    split; [exact J|split; [exact V|]]. apply PV; [now apply (in_map (fun e => snd (fst e)))|now apply (part_value G x m k y)|exact B].
  - rewrite !Forall_forall. intros F t I. apply SV; auto.
  - rewrite !Exists_exists. intros (t & I & F). exists t. split; [exact I|]. apply SV; auto.
  - intros (l1 & t & l2 & -> & A & B). exists l1, t, l2. split; [reflexivity|]. split; [apply SV; [apply in_or_app; right; now left|exact A]|].
    rewrite Forall_forall in *. intros u I X. apply (B u I). apply SV; [|exact X]. apply in_app_or in I. apply in_or_app. destruct I; [now left|right; now right].
  - intros N X. apply N, SV; [now left|exact X].
  - intros (y & A & B). exists y. split; [exact A|]. apply PV; [now left|now apply part_wrapped|exact B].
Qed.

(* a value contains finitely many values *)
Lemma parts_listed x : exists l, forall y, part G x y <-> In y l.
Proof.
  assert (L : forall l, (forall y, part G x y -> In y l) -> (forall y, In y l -> part G x y) -> exists l, forall y, part G x y <-> In y l) by (intros l A B; exists l; split; auto).
  assert (K : (forall y, ~ part G x y) -> exists l, forall y, part G x y <-> In y l) by (intros H; apply (L []); [intros y P; now destruct (H y)|intros y []]).
  destruct x as [v|p].
  - destruct v as [| | | | | | | |v|l|m]; try (apply K; intros y P; inversion P as [? ? ? H|? ? ? ? H|? ? ? ? H|? ? H]; subst; inversion H; fail).
    + apply (L [GLeaf v]); [|intros y [<-|[]]; apply part_wrapped; constructor]. intros y P. inversion P as [? ? ? H|? ? ? ? H|? ? ? ? H|? ? H]; subst; inversion H; subst; now left.
    + apply (L (map GLeaf l)); [|intros y I; eapply part_element; [constructor|exact I]]. intros y P. inversion P as [? ? ? H I|? ? ? ? H|? ? ? ? H|? ? H]; subst; inversion H; subst; exact I.
    + apply (L (flat_map (fun e => [GLeaf (fst e); GLeaf (snd e)]) m)).
      * intros y P. inversion P as [? ? ? H I|? ? k z H I|? ? k z H I|? ? H]; subst; inversion H; subst; apply in_map_iff in I as ([a b] & [= <- <-] & I); apply in_flat_map; exists (a, b); cbn; auto.
      * intros y I. apply in_flat_map in I as ([a b] & I & [<-|[<-|[]]]); [eapply part_key|eapply part_value]; try constructor; apply in_map_iff; exists (a, b); auto.
  - destruct (nth_error G p) as [[l|z|m]|] eqn:E.
    + apply (L l); [|intros y I; eapply part_element; [constructor; exact E|exact I]]. intros y P. inversion P as [? ? ? H I|? ? ? ? H|? ? ? ? H|? ? H]; subst; inversion H; subst; congruence.
    + apply (L [z]); [|intros y [<-|[]]; apply part_wrapped; now constructor]. intros y P. inversion P as [? ? ? H|? ? ? ? H|? ? ? ? H|? ? H]; subst; inversion H; subst; try congruence. left. congruence.
    + apply (L (flat_map (fun e => [GLeaf (fst e); snd e]) m)).
      * intros y P. inversion P as [? ? ? H I|? ? k w H I|? ? k w H I|? ? H]; subst; inversion H as [? ? Q|]; subst; rewrite E in Q; try discriminate Q; injection Q as <-;
          apply in_flat_map; [exists (k, w)|exists (k, y)]; cbn; auto.
      * intros y I. apply in_flat_map in I as ([a b] & I & [<-|[<-|[]]]); [eapply part_key|eapply part_value]; try (constructor; exact E); exact I.
    + apply K. intros y P. inversion P as [? ? ? H|? ? ? ? H|? ? ? ? H|? ? H]; subst; inversion H; congruence.
Qed.

Variable T : tgraph.
Fixpoint approx (n p : nat) (x : gval) : Prop :=
  match n with
  | O => False
  | S n => match nth_error T p with Some nd => holds W G (approx n) nd x | None => False end
  end.
Definition stable (N : nat) (x : gval) : Prop := forall p n, (N <= n)%nat -> (approx n p x <-> approx N p x).
Lemma stable_more N M x : stable N x -> (N <= M)%nat -> stable M x.
Proof. intros H L p n K. rewrite (H p n), (H p M) by lia. reflexivity. Qed.
Lemma stable_list l : (forall y, In y l -> exists N, stable N y) -> exists N, forall y, In y l -> stable N y.
Proof.
  induction l as [|y l IH]; intros H; [exists 0%nat; intros y []|]. destruct IH as [N HN]; [intros z I; apply H; now right|]. destruct (H y) as [M HM]; [now left|].
  exists (N + M)%nat. intros z [->|I]; [apply (stable_more M); [exact HM|lia]|apply (stable_more N); [now apply HN|lia]].
Qed.
Lemma rank_bound (rank : nat -> nat) : exists K, forall p, (p < length T)%nat -> (rank p < K)%nat.
Proof.
  induction (length T) as [|n [K H]]; [exists 0%nat; intros p L; lia|]. exists (K + rank n + 1)%nat. intros p L. destruct (Nat.eq_dec p n) as [->|D]; [lia|]. pose proof (H p ltac:(lia)). lia.
Qed.

Lemma stable_parts x : (forall y, part G x y -> exists N, stable N y) -> exists N, forall y, part G x y -> stable N y.
Proof. intros H. destruct (parts_listed x) as [l L]. destruct (stable_list l) as [N HN]; [intros y I; apply H; now apply L|]. exists N. intros y P. apply HN. now apply L. Qed.

Lemma finite_stable : contractive T -> forall x, finite G x -> exists N, stable N x.
Proof.
  intros [rank R] x F. induction F as [x F IH]. destruct (stable_parts x IH) as [M HM]. destruct (rank_bound rank) as [K HK].
  assert (C : forall k p, (rank p < k)%nat -> forall n m, (M + k <= n)%nat -> (M + k <= m)%nat -> (approx n p x <-> approx m p x)).
  { induction k as [|k IHk]; intros p L n m Ln Lm; [lia|]. destruct n as [|n]; [lia|]. destruct m as [|m]; [lia|]. cbn [approx]. destruct (nth_error T p) as [nd|] eqn:E; [|reflexivity].
    apply holds_cong.
    - intros q I. apply IHk; try lia. pose proof (R p nd q E I). lia.
    - intros q y _ P. rewrite (HM y P q n), (HM y P q m) by lia. reflexivity. }
  exists (M + K + 1)%nat. intros p n L. destruct (Nat.lt_ge_cases p (length T)) as [Lp|Lp]; [apply (C K); [now apply HK|lia..]|].
  apply nth_error_None in Lp. destruct n as [|n]; [lia|]. replace (M + K + 1)%nat with (S (M + K)) by lia. cbn [approx]. rewrite Lp. reflexivity.
Qed.

Definition limit (p : nat) (x : gval) : Prop := exists N, forall n, (N <= n)%nat -> approx n p x.
Lemma limit_stable N p x : stable N x -> (limit p x <-> approx N p x).
Proof.
  intros H. split.
  - intros [M HM]. apply (H p (N + M)%nat); [lia|]. apply HM. lia.
  - intros A. exists N. intros n L. now apply H.
Qed.
Theorem limit_meaning : contractive T -> meaning W T G (finite G) limit.
Proof.
  intros C p nd x F E. destruct (finite_stable C x F) as [N HN].
  destruct (stable_parts x) as [M HM]; [intros y P; apply finite_stable; [exact C|]; destruct F as [x F]; now apply F|].
  assert (S1 : stable (N + M) x) by (apply (stable_more N); [exact HN|lia]). assert (S2 : stable (S (N + M)) x) by (apply (stable_more N); [exact HN|lia]).
  rewrite (limit_stable _ p x S2). cbn [approx]. rewrite E. apply holds_cong.
  - intros q _. symmetry. now apply limit_stable.
  - intros q y _ P. symmetry. apply limit_stable. apply (stable_more M); [now apply HM|lia].
Qed.
Theorem one_meaning P Q : types_ok T -> contractive T -> meaning W T G (finite G) P -> meaning W T G (finite G) Q ->
  forall x, finite G x -> forall p, (p < length T)%nat -> (P p x <-> Q p x).
Proof.
  intros TO [rank R] MP MQ x F. induction F as [x F IH]. assert (Fx : finite G x) by now constructor.
  assert (C : forall k p, (rank p < k)%nat -> (p < length T)%nat -> (P p x <-> Q p x)).
  { induction k as [|k IHk]; intros p L Lp; [lia|]. destruct (nth_error T p) as [nd|] eqn:E; [|apply nth_error_None in E; lia].
    rewrite (MP p nd x Fx E), (MQ p nd x Fx E). unfold types_ok in TO. rewrite Forall_forall in TO. destruct (TO nd) as [K _]; [now apply nth_error_In in E|]. rewrite Forall_forall in K.
    apply holds_cong.
    - intros q I. apply IHk; [pose proof (R p nd q E I); lia|]. apply K. destruct nd; cbn in *; tauto.
    - intros q y I Py. apply IH; [exact Py|now apply K]. }
  intros p Lp. apply (C (S (rank p)) p); [lia|exact Lp].
Qed.
Theorem finite_meaning : types_ok T -> contractive T -> exists P, meaning W T G (finite G) P /\
  forall Q, meaning W T G (finite G) Q -> forall p x, (p < length T)%nat -> finite G x -> (P p x <-> Q p x).
Proof.
  intros TO C. exists limit. split; [now apply limit_meaning|]. intros Q MQ p x L F. exact (one_meaning limit Q TO C (limit_meaning C) MQ x F p L).
Qed.
(* types that do not refer to themselves mean something on all values *)
Lemma approx_plain rank : (forall p nd q, nth_error T p = Some nd -> In q (refers nd) -> (rank q < rank p)%nat) ->
  forall k p n m x, (rank p < k)%nat -> (k <= n)%nat -> (k <= m)%nat -> (approx n p x <-> approx m p x).
Proof.
  intros R. induction k as [|k IH]; intros p n m x L Ln Lm; [lia|]. destruct n as [|n]; [lia|]. destruct m as [|m]; [lia|]. cbn [approx]. destruct (nth_error T p) as [nd|] eqn:E; [|reflexivity].
  apply holds_cong.
  - intros q I. assert (J : In q (refers nd)) by (destruct nd; cbn in *; tauto). apply IH; try lia. pose proof (R p nd q E J). lia.
  - intros q y J _. apply IH; try lia. pose proof (R p nd q E J). lia.
Qed.
Theorem plain_meaning : not_recursive T -> exists P, meaning W T G (fun _ => True) P.
Proof.
  intros [rank R]. exists (fun p x => approx (S (rank p)) p x). intros p nd x _ E.
  assert (X : approx (S (rank p)) p x <-> holds W G (approx (rank p)) nd x) by (cbn [approx]; rewrite E; reflexivity). rewrite X. apply holds_cong.
  - intros q I. assert (J : In q (refers nd)) by (destruct nd; cbn in *; tauto). pose proof (R p nd q E J). apply (approx_plain rank R (S (rank q))); lia.
  - intros q y J _. pose proof (R p nd q E J). apply (approx_plain rank R (S (rank q))); lia.
Qed.
End Meaning.
