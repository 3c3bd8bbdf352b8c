(* That Instance of recursive types returns, and that such types mean something. *)
From Coq Require Import ZArith List Bool Lia.
From Verif Require Import Int64 HMap Data DataSpec DataProofs Types TypesSpec InstProofs SemProofs RegistryProofs Assign Graph RecTypes RecTypesSpec RecTypesProofs.
Import ListNotations.
Open Scope Z_scope.

Definition tot (J : option rguard -> Prop) (m : RM bool) : Prop := forall s, J s -> exists r s', m s = Some (r, s') /\ J s'.

Section Tot.
Variable J : option rguard -> Prop.
Notation tot := (tot J).

Lemma tot_ret b : tot (r_ret b).
Proof. intros s Js. exists b, s. auto. Qed.
Lemma tot_bind m f : tot m -> (forall b, tot (f b)) -> tot (r_bind m f).
Proof. intros H Hf s Js. destruct (H s Js) as (b & s1 & E & J1). unfold r_bind. rewrite E. now apply Hf. Qed.
Lemma tot_and m n : tot m -> tot n -> tot (r_and m n).
Proof. intros H H2. apply tot_bind; [exact H|]. intros []; [exact H2|apply tot_ret]. Qed.
Lemma tot_all {A} (f : A -> RM bool) l : (forall x, In x l -> tot (f x)) -> tot (r_all f l).
Proof.
  induction l as [|x l IH]; intros H; cbn [r_all]; [apply tot_ret|]. apply tot_and; [apply H; now left|]. apply IH. intros. apply H. now right.
Qed.
Lemma tot_any {A} (f : A -> RM bool) l : (forall x, In x l -> tot (f x)) -> tot (r_any f l).
Proof.
  induction l as [|x l IH]; intros H; cbn [r_any]; [apply tot_ret|]. apply tot_bind; [apply H; now left|].
  intros []; [apply tot_ret|]. apply IH. intros. apply H. now right.
Qed.
Lemma tot_one {A} (f : A -> RM bool) l : (forall x, In x l -> tot (f x)) -> forall b, tot (r_one f b l).
Proof.
  induction l as [|x l IH]; intros H b; cbn [r_one]; [apply tot_ret|]. apply tot_bind; [apply H; now left|].
  assert (IH' : forall b, tot (r_one f b l)) by (apply IH; intros; apply H; now right).
  intros []; [|apply IH']. destruct b; [apply tot_ret|apply IH'].
Qed.
Lemma tot_zip {A B} (f : A -> B -> RM bool) l : forall l', (length l <= length l')%nat -> (forall x y, In x l -> In y l' -> tot (f x y)) -> tot (r_zip f l l').
Proof.
  induction l as [|x l IH]; intros [|y l'] L H; cbn [r_zip length] in *; try apply tot_ret; [lia|].
  apply tot_and; [apply H; now left|]. apply IH; [lia|]. intros. apply H; now right.
Qed.
Lemma tot_tuple f ts variadic l : (variadic = true -> ts <> []) -> (forall t x, In t ts -> In x l -> tot (f t x)) -> tot (r_tuple f ts variadic l).
Proof.
  intros NE H. unfold r_tuple. destruct variadic.
  - destruct (_ <? _)%nat eqn:L; [apply tot_ret|]. apply Nat.ltb_ge in L.
    destruct (nth_error ts (Nat.pred (length ts))) as [vt|] eqn:E.
    + apply tot_and.
      * apply tot_zip; [rewrite firstn_length; lia|]. intros x y Hx. apply H. rewrite <- (firstn_skipn (Nat.pred (length ts)) ts). apply in_or_app. now left.
      * apply tot_all. intros y Hy. apply H; [now apply nth_error_In in E|now apply SemProofs.In_skipn in Hy].
    + apply nth_error_None in E. exfalso. destruct ts; [now apply NE|cbn in E; lia].
  - destruct (Nat.eqb _ _) eqn:L; [|apply tot_ret]. apply Nat.eqb_eq in L. apply tot_zip; [lia|exact H].
Qed.
Lemma tot_struct f additional m es : (forall e k y, In e es -> In (k, y) m -> tot (f (snd (fst e)) y)) -> forall oc, tot (r_struct f additional es m oc).
Proof.
  induction es as [|[[k t] b] es IH]; intros H oc; cbn [r_struct]; [apply tot_ret|].
  assert (IH' : forall oc, tot (r_struct f additional es m oc)) by (apply IH; intros e k' y He; apply H; now right).
  destruct (get_with (veq k) m) as [y|] eqn:GW.
  - apply get_with_some in GW as (k' & Hk & _). apply tot_bind; [apply (H (k, t, b) k' y); auto; now left|]. intros []; [apply IH'|apply tot_ret].
  - destruct b; [apply tot_ret|apply IH'].
Qed.
Lemma tot_with g m : (exists r s', m g = Some (r, s')) -> tot (with_rguard g m).
Proof. intros (r & s' & E) s Js. unfold with_rguard. rewrite E. eauto. Qed.
End Tot.

Section Graphs.
Variable W : world.
Variable T : tgraph.
Variable G : graph.
Notation view := (view G).
Notation part := (part G).
Notation rinst := (rinst W T G).
Notation r_step := (r_step W T G).

Lemma val_view x : val_ok G x -> exists w, view x = Some w.
Proof.
  destruct x as [v|p]; cbn; intros V.
  - destruct v; eauto.
  - destruct (nth_error G p) eqn:E; [cbn; eauto|]. apply nth_error_None in E. lia.
Qed.

(* whether a node uses the function Instance rather than the method *)
Definition guarded (nd : rnode) : bool := match nd with NNot _ | NSens _ => false | _ => true end.
(* the call R of a node with a value; keys of maps may be asked with either *)
Lemma step_tot J R nd x : val_ok G x -> type_node_ok T nd ->
  (forall b q y, child G nd x q y -> (b = guarded nd \/ exists k, y = GLeaf k) -> tot J (R b q y)) ->
  tot J (r_step R nd x).
Proof.
  intros V [_ O] H. unfold r_step. destruct (val_view x V) as [w E]. rewrite E.
  assert (Ht : guarded nd = true -> forall q y, child G nd x q y -> tot J (R true q y)) by (intros; apply H; [assumption|left; congruence]).
  destruct nd as [t|e lo hi|ts variadic|k v lo hi|additional es|ts|ts|ts|t|t].
  - apply tot_ret.
  - destruct w as [|[l|y|m]]; try apply tot_ret. apply view_arr in E. destruct (size_in _ _ _); [|apply tot_ret]. destruct (node_any T e); [apply tot_ret|].
    apply tot_all. intros y Hy. apply Ht; [reflexivity|]. split; [now left|]. left. now apply (part_element G x l).
  - destruct w as [|[l|y|m]]; try apply tot_ret. apply view_arr in E. apply tot_tuple; [intros ->; exact O|].
    intros t y Hq Hy. apply Ht; [reflexivity|]. split; [exact Hq|]. left. now apply (part_element G x l).
  - destruct w as [|[l|y|m]]; try apply tot_ret. apply view_map in E. destruct (size_in _ _ _); [|apply tot_ret].
    assert (Pk : forall e, In e m -> part x (GLeaf (fst e))) by (intros [a b] I; now apply (part_key G x m a b)).
    assert (Pv : forall e, In e m -> part x (snd e)) by (intros [a b] I; now apply (part_value G x m a b)).
    assert (Hk : forall b e, In e m -> tot J (R b k (GLeaf (fst e)))) by (intros; apply H; [split; [now left|left; auto]|eauto]).
    assert (Hv : forall e, In e m -> tot J (R true v (snd e))) by (intros; apply Ht; [reflexivity|]; split; [right; now left|left; auto]).
    destruct (node_any T k), (node_any T v); try apply tot_ret; apply tot_all; auto. intros e He. apply tot_and; auto.
  - destruct w as [|[l|y|m]]; try apply tot_ret. apply view_map in E. apply tot_struct.
    intros e k y He I. apply Ht; [reflexivity|]. split; [cbn [refers]; apply in_map_iff; now exists e|]. left. now apply (part_value G x m k y).
  - apply tot_all. intros. apply Ht; [reflexivity|]. split; [assumption|]. right. auto.
  - apply tot_any. intros. apply Ht; [reflexivity|]. split; [assumption|]. right. auto.
  - apply tot_one. intros. apply Ht; [reflexivity|]. split; [assumption|]. right. auto.
  - apply tot_bind; [|intros; apply tot_ret]. apply H; [|now left]. split; [now left|right; split; [now left|reflexivity]].
  - destruct w as [|[l|y|m]]; try apply tot_ret. apply view_sens in E. apply H; [|now left]. split; [now left|]. left. now apply part_wrapped.
Qed.

(* what a value contains, in a list *)
Definition kids (x : gval) : list gval :=
  match view x with
  | Some (inr (GArr l)) => l
  | Some (inr (GMap m)) => map (fun e => GLeaf (fst e)) m ++ map snd m
  | Some (inr (GSens y)) => [y]
  | _ => []
  end.
Lemma part_kids x y : part x y <-> In y (kids x).
Proof.
  unfold kids. split.
  - intros [x0 l y0 E I|x0 m k y0 E I|x0 m k y0 E I|x0 y0 E].
    + apply view_arr in E. now rewrite E.
    + apply view_map in E. rewrite E. apply in_or_app. left. apply in_map_iff. now exists (k, y0).
    + apply view_map in E. rewrite E. apply in_or_app. right. apply in_map_iff. now exists (k, y0).
    + apply view_sens in E. rewrite E. now left.
  - destruct (view x) as [[v|[l|z|m]]|] eqn:E; try (intros []).
    + apply view_arr in E. intros I. now apply (part_element G x l).
    + apply view_sens in E. subst. now apply part_wrapped.
    + destruct H.
    + apply view_map in E. intros I. apply in_app_iff in I as [I|I]; apply in_map_iff in I as ([k v] & <- & I).
      * now apply (part_key G x m k v).
      * now apply (part_value G x m k v).
Qed.

Lemma enough {A} (Q : nat -> A -> Prop) l : (forall z, In z l -> exists N, forall n, (N <= n)%nat -> Q n z) -> exists N, forall n, (N <= n)%nat -> forall z, In z l -> Q n z.
Proof.
  induction l as [|z l IH]; intros H; [exists O; intros n _ z []|].
  destruct IH as [N HN]; [intros; apply H; now right|]. destruct (H z (or_introl eq_refl)) as [M HM]. exists (Nat.max N M). intros n Hn w [<-|I].
  - apply HM. lia.
  - apply HN; [lia|exact I].
Qed.


(* every call returns *)
Definition ends (p : nat) (x : gval) : Prop := exists N, forall n, (N <= n)%nat -> forall fn, tot anything (rinst n fn p x).

Lemma call_tot n p x nd fn : nth_error T p = Some nd -> tot anything (r_step (rinst n) nd x) -> (fn = false -> deep_node nd = true -> tot anything (rinst n true p x)) -> tot anything (rinst (S n) fn p x).
Proof.
  intros E H H2. cbn [RecTypes.rinst]. rewrite E.
  assert (H' : forall g, exists r s', r_step (rinst n) nd x g = Some (r, s')) by (intros g; destruct (H g I) as (r & s' & A & _); eauto).
  destruct (deep_node nd); [destruct fn|].
  - intros s _. unfold r_enter. destruct (deep_gval G x); [|exact (H s I)]. destruct s as [g|].
    + destruct (r_append g p x) as [g' c]. destruct (r_hit c); [exists true, (Some g'); split; [reflexivity|exact I]|]. apply (tot_with anything); [apply H'|exact I].
    + apply (tot_with anything); [apply H'|exact I].
  - apply tot_with. destruct (H2 eq_refl eq_refl None I) as (r & s' & A & _). eauto.
  - apply tot_with. apply H'.
Qed.

Theorem ends_finite : types_ok T -> values_ok G -> contractive T -> forall x, finite G x -> val_ok G x -> forall p, (p < length T)%nat -> ends p x.
Proof.
  intros TG VG [rank Rk] x F. induction F as [x _ IHx]. intros V.
  assert (K : forall r p, (rank p < r)%nat -> (p < length T)%nat -> ends p x).
  { induction r as [|r IHr]; intros p Hr Hp; [lia|].
    destruct (nth_error T p) as [nd|] eqn:E; [|apply nth_error_None in E; lia].
    pose proof (node_ok T p nd TG E) as O. pose proof (proj1 O) as O1. rewrite Forall_forall in O1.
    destruct (enough (fun n (z : nat * gval) => forall fn, tot anything (rinst n fn (fst z) (snd z)))
      (list_prod (refers nd) (kids x) ++ map (fun q => (q, x)) (same_value nd))) as [N HN].
    { intros [q y] I. cbn [fst snd]. apply in_app_iff in I as [I|I].
      - apply in_prod_iff in I as [Hq Hy]. apply part_kids in Hy. apply (IHx y Hy); auto. now apply (part_ok G x).
      - apply in_map_iff in I as (q' & [= <- <-] & Hq). apply IHr.
        + specialize (Rk p nd q' E Hq). lia.
        + apply O1. destruct nd; auto; destruct Hq. }
    assert (S1 : forall n, (N <= n)%nat -> tot anything (r_step (rinst n) nd x)).
    { intros n Hn. apply step_tot; auto. intros b q y [Hq Ch] _. apply (HN n Hn (q, y)). apply in_or_app. destruct Ch as [Pt|[Sv ->]].
      - left. apply in_prod; [exact Hq|]. now apply part_kids.
      - right. apply in_map_iff. eauto. }
    assert (S2 : forall n, (S N <= n)%nat -> tot anything (rinst n true p x)).
    { intros [|n] Hn; [lia|]. apply (call_tot n p x nd true E); [apply S1; lia|discriminate]. }
    exists (S (S N)). intros [|n] Hn fn; [lia|]. apply (call_tot n p x nd fn E); [apply S1; lia|]. intros _ _. apply S2. lia. }
  intros p Hp. apply (K (S (rank p))); [lia|exact Hp].
Qed.

(* ---------- calls keep the guard, and only raise its flags ---------- *)

Definition keeps (s s' : option rguard) : Prop :=
  match s, s' with
  | None, None => True
  | Some g, Some g' => a_seen g' = a_seen g /\ b_seen g' = b_seen g /\ (in_a g = true -> in_a g' = true) /\ (in_b g = true -> in_b g' = true)
  | _, _ => False
  end.
Lemma keeps_refl s : keeps s s.
Proof. destruct s; cbn; auto. Qed.
Lemma keeps_trans s s1 s2 : keeps s s1 -> keeps s1 s2 -> keeps s s2.
Proof. destruct s, s1, s2; cbn; try tauto. intros (A & B & C & D) (A' & B' & C' & D'). repeat split; try congruence; auto. Qed.
Definition kept (m : RM bool) : Prop := forall s r s', m s = Some (r, s') -> keeps s s'.

Lemma k_ret b : kept (r_ret b).
Proof. intros s r s' [= <- <-]. apply keeps_refl. Qed.
Lemma k_fail : kept r_fail.
Proof. intros s r s' [=]. Qed.
Lemma k_bind m f : kept m -> (forall b, kept (f b)) -> kept (r_bind m f).
Proof. intros H Hf s r s' E. unfold r_bind in E. destruct (m s) as [[b s1]|] eqn:M; [|discriminate]. apply (keeps_trans _ s1); [eapply H; eauto|eapply Hf; eauto]. Qed.
Lemma k_and m n : kept m -> kept n -> kept (r_and m n).
Proof. intros. apply k_bind; [assumption|]. intros []; [assumption|apply k_ret]. Qed.
Lemma k_all {A} (f : A -> RM bool) l : (forall x, kept (f x)) -> kept (r_all f l).
Proof. intros H. induction l; cbn [r_all]; [apply k_ret|now apply k_and]. Qed.
Lemma k_any {A} (f : A -> RM bool) l : (forall x, kept (f x)) -> kept (r_any f l).
Proof. intros H. induction l; cbn [r_any]; [apply k_ret|]. apply k_bind; [apply H|]. intros []; [apply k_ret|assumption]. Qed.
Lemma k_one {A} (f : A -> RM bool) l : (forall x, kept (f x)) -> forall b, kept (r_one f b l).
Proof. intros H. induction l; intros b; cbn [r_one]; [apply k_ret|]. apply k_bind; [apply H|]. intros []; [|apply IHl]. destruct b; [apply k_ret|apply IHl]. Qed.
Lemma k_zip {A B} (f : A -> B -> RM bool) l : (forall x y, kept (f x y)) -> forall l', kept (r_zip f l l').
Proof. intros H. induction l; intros [|y l']; cbn [r_zip]; try apply k_ret; [apply k_fail|]. now apply k_and. Qed.
Lemma k_struct f additional m es : (forall t y, kept (f t y)) -> forall oc, kept (r_struct f additional es m oc).
Proof.
  intros H. induction es as [|[[k t] b] es IH]; intros oc; cbn [r_struct]; [apply k_ret|]. destruct (get_with _ _) as [y|].
  - apply k_bind; [apply H|]. intros []; [apply IH|apply k_ret].
  - destruct b; [apply k_ret|apply IH].
Qed.
Lemma k_with g m : kept (with_rguard g m).
Proof. intros s r s' E. unfold with_rguard in E. destruct (m g) as [[? ?]|]; [|discriminate]. injection E as <- <-. apply keeps_refl. Qed.
Lemma k_step R nd x : (forall b q y, kept (R b q y)) -> kept (r_step R nd x).
Proof.
  intros H. unfold r_step. destruct (view x) as [w|]; [|apply k_fail].
  destruct nd as [t|e lo hi|ts variadic|k v lo hi|additional es|ts|ts|ts|t|t]; try apply k_ret.
  - destruct w as [|[]]; try apply k_ret. destruct (size_in _ _ _); [|apply k_ret]. destruct (node_any T e); [apply k_ret|now apply k_all].
  - destruct w as [|[]]; try apply k_ret. unfold r_tuple. destruct variadic.
    + destruct (_ <? _)%nat; [apply k_ret|]. destruct (nth_error ts _); [|apply k_fail]. apply k_and; [now apply k_zip|now apply k_all].
    + destruct (Nat.eqb _ _); [now apply k_zip|apply k_ret].
  - destruct w as [|[]]; try apply k_ret. destruct (size_in _ _ _); [|apply k_ret].
    destruct (node_any T k), (node_any T v); try apply k_ret; apply k_all; auto. intros. now apply k_and.
  - destruct w as [|[]]; try apply k_ret. now apply k_struct.
  - now apply k_all.
  - now apply k_any.
  - now apply k_one.
  - apply k_bind; [apply H|]. intros. apply k_ret.
  - destruct w as [|[]]; try apply k_ret. apply H.
Qed.
Lemma k_append g p x : keeps (Some g) (Some (fst (r_append g p x))).
Proof. cbn. split; [reflexivity|split; [reflexivity|split]]; intros ->; reflexivity. Qed.
Lemma call_keeps n : forall fn p x, kept (rinst n fn p x).
Proof.
  induction n as [|n IH]; intros fn p x; [apply k_fail|]. cbn [RecTypes.rinst]. destruct (nth_error T p) as [nd|]; [|apply k_fail].
  destruct (deep_node nd); [destruct fn|]; try apply k_with. intros s r s' E. unfold r_enter in E. destruct (deep_gval G x).
  - destruct s as [g|]; [|now apply k_with in E]. destruct (r_append g p x) as [g' c] eqn:A.
    assert (keeps (Some g) (Some g')).
    { unfold r_append in A. injection A as <- _. cbn. split; [reflexivity|split; [reflexivity|split]]; intros ->; reflexivity. }
    destruct (r_hit c); [injection E as <- <-; assumption|]. apply k_with in E. now apply (keeps_trans _ (Some g')).
  - now apply (k_step (rinst n) nd x) in E.
Qed.
Lemma tot_keeps (J : option rguard -> Prop) n fn p x : (forall s s', J s -> keeps s s' -> J s') -> tot anything (rinst n fn p x) -> tot J (rinst n fn p x).
Proof. intros H A s Js. destruct (A s I) as (r & s' & E & _). exists r, s'. split; [exact E|]. apply (H s); [exact Js|]. now apply call_keeps in E. Qed.

(* ---------- values that contain themselves ---------- *)

Lemma finite_leaf v : finite G (GLeaf v).
Proof.
  induction v as [ | | | | | | | |v IHv|l IHl|m IHm] using value_ind'; constructor; intros y Hy; apply part_kids in Hy; unfold kids in Hy; cbn in Hy; try contradiction.
  - destruct Hy as [<-|[]]. exact IHv.
  - apply in_map_iff in Hy as (v & <- & Hv). rewrite Forall_forall in IHl. auto.
  - rewrite Forall_forall in IHm. apply in_app_iff in Hy as [Hy|Hy].
    + apply in_map_iff in Hy as (e & <- & He). apply in_map_iff in He as (e' & <- & He). apply (IHm _ He).
    + apply in_map_iff in Hy as (e & <- & He). apply in_map_iff in He as (e' & <- & He). apply (IHm _ He).
Qed.

(* the guard can still grow this much *)
Definition room (g : rguard) : nat :=
  ((if in_a g then 0 else S (length T) - length (a_seen g)) + (if in_b g then 0 else S (length G) - length (b_seen g)))%nat.
Definition good_guard (g : rguard) : Prop :=
  NoDup (a_seen g) /\ Forall (fun p => (p < length T)%nat) (a_seen g) /\
  NoDup (b_seen g) /\ Forall (fun y => exists q, y = GRef q /\ (q < length G)%nat) (b_seen g).
Definition within (k : nat) (s : option rguard) : Prop :=
  match s with None => (length T + length G < k)%nat | Some g => good_guard g /\ (room g <= k)%nat end.

Lemma within_keeps k s s' : within k s -> keeps s s' -> within k s'.
Proof.
  destruct s as [g|], s' as [g'|]; cbn; try tauto. intros [H R] (A & B & C & D). unfold good_guard in *. rewrite A, B. split; [exact H|].
  unfold room in *. rewrite A, B. destruct (in_a g); [rewrite C by reflexivity|]; destruct (in_b g); try rewrite D by reflexivity; try lia; destruct (in_a g'), (in_b g'); lia.
Qed.
Lemma nodup_bound (l : list nat) n : NoDup l -> Forall (fun p => (p < n)%nat) l -> (length l <= n)%nat.
Proof.
  intros N F. rewrite <- (seq_length n 0). apply NoDup_incl_length; [exact N|]. intros p Hp. rewrite Forall_forall in F. specialize (F p Hp). apply in_seq. lia.
Qed.
Lemma nodup_refs (l : list gval) n : NoDup l -> Forall (fun y => exists q, y = GRef q /\ (q < n)%nat) l -> (length l <= n)%nat.
Proof.
  intros N F. rewrite <- (seq_length n 0), <- (map_length GRef). apply NoDup_incl_length; [exact N|]. intros y Hy. rewrite Forall_forall in F. destruct (F y Hy) as (q & -> & L).
  apply in_map. apply in_seq. lia.
Qed.
Lemma enter_room k g p q : within k (Some g) -> (p < length T)%nat -> (q < length G)%nat ->
  r_hit (snd (r_append g p (GRef q))) = false -> exists k', k = S k' /\ within k' (Some (snd (r_append g p (GRef q)))).
Proof.
  intros [(N1 & F1 & N2 & F2) R] Hp Hq Hit. unfold r_append in *. cbn [snd] in *. unfold r_hit in Hit. cbn [in_a in_b] in Hit.
  pose proof (nodup_bound _ _ N1 F1) as L1. pose proof (nodup_refs _ _ N2 F2) as L2.
  unfold room in R.
  assert (A : forall b, existsb (Nat.eqb p) (a_seen g) = b -> b = false -> ~ In p (a_seen g)).
  { intros b E -> I. rewrite <- not_true_iff_false in E. apply E. apply existsb_exists. exists p. split; [exact I|apply Nat.eqb_refl]. }
  assert (B : forall b, existsb (same_val (GRef q)) (b_seen g) = b -> b = false -> ~ In (GRef q) (b_seen g)).
  { intros b E -> I. rewrite <- not_true_iff_false in E. apply E. apply existsb_exists. exists (GRef q). split; [exact I|now apply same_val_eq]. }
  set (ea := existsb (Nat.eqb p) (a_seen g)) in *. set (eb := existsb (same_val (GRef q)) (b_seen g)) in *.
  specialize (A ea eq_refl). specialize (B eb eq_refl).
  assert (S1 : forall (l : list nat) z, NoDup l -> ~ In z l -> NoDup (l ++ [z])) by (intros; now apply NoDup_app_comm_one).
  assert (S2 : forall (l : list gval) z, NoDup l -> ~ In z l -> NoDup (l ++ [z])) by (intros; now apply NoDup_app_comm_one).
  assert (C1 : forall l : list nat, length (l ++ [p]) = S (length l)) by (intros; rewrite app_length; cbn; lia).
  assert (C2 : forall l : list gval, length (l ++ [GRef q]) = S (length l)) by (intros; rewrite app_length; cbn; lia).
  assert (D1 : Forall (fun p => (p < length T)%nat) (a_seen g ++ [p])) by (apply Forall_app; split; [exact F1|now repeat constructor]).
  assert (D2 : Forall (fun y => exists q, y = GRef q /\ (q < length G)%nat) (b_seen g ++ [GRef q])) by (apply Forall_app; split; [exact F2|constructor; eauto]).
  destruct k as [|k].
  - exfalso. destruct (in_a g), (in_b g); cbn [orb andb] in *; try discriminate Hit; lia.
  - exists k. split; [reflexivity|]. cbn [within]. unfold good_guard, room. cbn [a_seen b_seen in_a in_b].
    destruct (in_a g), (in_b g); cbn [orb andb] in *; try discriminate Hit; destruct ea, eb; cbn [andb] in Hit; try discriminate Hit; rewrite ?C1, ?C2; (split; [repeat split; auto|lia]).
Qed.

(* the method returns *)
Definition method_ends (p : nat) (x : gval) : Prop := exists N, forall n, (N <= n)%nat -> tot anything (rinst n false p x).


(* what the nodes without a guard need: that the methods return *)
Lemma leaf_ends : types_ok T -> values_ok G -> contractive T -> forall p x v, x = GLeaf v -> val_ok G x -> (p < length T)%nat -> ends p x.
Proof. intros TG VG CT p x v -> V Hp. apply ends_finite; auto. apply finite_leaf. Qed.

Lemma children_enough (Q : nat -> bool -> nat -> gval -> Prop) nd x :
  (forall b q y, child G nd x q y -> (b = guarded nd \/ exists k, y = GLeaf k) -> exists N, forall n, (N <= n)%nat -> Q n b q y) ->
  exists N, forall n, (N <= n)%nat -> forall b q y, child G nd x q y -> (b = guarded nd \/ exists k, y = GLeaf k) -> Q n b q y.
Proof.
  intros H.
  destruct (enough (fun n (z : bool * (nat * gval)) => child G nd x (fst (snd z)) (snd (snd z)) -> (fst z = guarded nd \/ exists k, snd (snd z) = GLeaf k) -> Q n (fst z) (fst (snd z)) (snd (snd z)))
    (list_prod [true; false] (list_prod (refers nd) (x :: kids x)))) as [N HN].
  - intros (b & q & y) I. cbn [fst snd]. apply in_prod_iff in I as [_ I]. apply in_prod_iff in I as [Hq Hy].
    assert (D : (exists k, y = GLeaf k) \/ (exists p, y = GRef p)) by (destruct y; eauto).
    assert (D2 : child G nd x q y \/ ~ child G nd x q y).
    { unfold child. destruct Hy as [<-|Hy]; [|apply part_kids in Hy; auto].
      destruct (in_dec gval_eq_dec x (kids x)) as [I|I]; [left; split; [exact Hq|]; left; now apply part_kids|].
      destruct (in_dec Nat.eq_dec q (same_value nd)) as [I'|I']; [left; auto|]. right. intros [_ [P|[P _]]]; [now apply part_kids in P|auto]. }
    destruct D2 as [C|C]; [|exists O; intros; contradiction].
    destruct (bool_dec b (guarded nd)) as [Hb|Hb].
    + destruct (H b q y C (or_introl Hb)) as [N HN]. exists N. auto.
    + destruct D as [D|[p ->]].
      * destruct (H b q y C (or_intror D)) as [N HN]. exists N. auto.
      * exists O. intros n _ _ [A|[k A]]; [contradiction|discriminate A].
  - exists N. intros n Hn b q y C Hb. apply (HN n Hn (b, (q, y))); auto. apply in_prod; [destruct b; [now left|right; now left]|].
    apply in_prod; [apply C|]. destruct C as [_ [P|[_ ->]]]; [right; now apply part_kids|now left].
Qed.

Theorem ends_always : types_ok T -> values_ok G -> contractive T -> no_restart T -> forall x, val_ok G x -> forall p, (p < length T)%nat -> method_ends p x.
Proof.
  intros TG VG CT [rank Rk].
  (* by the rank of the type, then by the room of the guard *)
  assert (K : forall r p x, (rank p < r)%nat -> (p < length T)%nat -> val_ok G x -> method_ends p x).
  { induction r as [|r IHr]; intros p0 x0 Hr0 Hp0 V0; [lia|].
    assert (ND : forall p x nd, (rank p < S r)%nat -> val_ok G x -> nth_error T p = Some nd -> deep_node nd = false -> exists N, forall n, (N <= n)%nat -> forall fn, tot anything (rinst n fn p x)).
    { intros p x nd Hr V E Dn. pose proof (node_ok T p nd TG E) as O. pose proof (proj1 O) as O1. rewrite Forall_forall in O1.
      destruct (children_enough (fun n b q y => tot anything (rinst n b q y)) nd x) as [N HN].
      - intros b q y C Hb. pose proof (child_ok G nd x q y VG V C) as Vy. destruct Hb as [->|[k Hk]].
        + assert (guarded nd = false /\ (rank q < rank p)%nat) as [-> R].
          { pose proof (Rk p nd q E (proj1 C)) as [_ R]. destruct nd; try discriminate Dn; [destruct C as [[] _]|auto|auto]. }
          apply IHr; [lia|apply O1, C|exact Vy].
        + destruct (leaf_ends TG VG CT q y k Hk Vy) as [N HN]; [apply O1, C|]. exists N. auto.
      - exists (S N). intros [|n] Hn fn; [lia|]. apply (call_tot n p x nd fn E); [|congruence]. apply step_tot; auto. intros. apply HN; auto. lia. }
    assert (K1 : forall k p x, (rank p < S r)%nat -> (p < length T)%nat -> val_ok G x -> exists N, forall n, (N <= n)%nat -> tot (within k) (rinst n true p x)).
    { intros k. induction k as [|k IHk]; intros p x Hr Hp V;
        (destruct x as [v|q0]; [destruct (leaf_ends TG VG CT p (GLeaf v) v eq_refl V Hp) as [N HN]; exists N; intros n Hn; apply tot_keeps; [apply within_keeps|now apply HN]|]);
        (destruct (nth_error T p) as [nd|] eqn:E; [|apply nth_error_None in E; lia]);
        (destruct (deep_node nd) eqn:Dn; [|destruct (ND p (GRef q0) nd Hr V E Dn) as [N HN]; exists N; intros n Hn; apply tot_keeps; [apply within_keeps|now apply HN]]);
        (assert (Dg : deep_gval G (GRef q0) = true) by (unfold deep_gval; cbn in V |- *; destruct (nth_error G q0) eqn:Eq; [reflexivity|apply nth_error_None in Eq; lia])).
      - exists 1%nat. intros [|n] Hn; [lia|]. cbn [RecTypes.rinst]. rewrite E, Dn. intros s Js. unfold r_enter. rewrite Dg.
        destruct s as [g|]; [|cbn in Js; lia]. pose proof (enter_room 0 g p q0 Js Hp V) as ER. pose proof (k_append g p (GRef q0)) as KA.
        destruct (r_append g p (GRef q0)) as [g' c]. cbn [fst snd] in *. destruct (r_hit c); [|destruct (ER eq_refl) as (? & [=] & _)].
        exists true, (Some g'). split; [reflexivity|]. now apply (within_keeps _ (Some g)).
      - pose proof (node_ok T p nd TG E) as O. pose proof (proj1 O) as O1. rewrite Forall_forall in O1.
        assert (Gd : guarded nd = true) by (destruct nd; try discriminate Dn; reflexivity).
        destruct (children_enough (fun n b q y => tot (within k) (rinst n b q y)) nd (GRef q0)) as [N HN].
        { intros b q y C Hb. pose proof (child_ok G nd _ q y VG V C) as Vy. destruct Hb as [->|[k0 Hk]].
          - rewrite Gd. apply IHk; [|apply O1, C|exact Vy]. pose proof (Rk p nd q E (proj1 C)) as [R _]. lia.
          - destruct (leaf_ends TG VG CT q y k0 Hk Vy) as [N HN]; [apply O1, C|]. exists N. intros n Hn. apply tot_keeps; [apply within_keeps|auto]. }
        exists (S N). intros [|n] Hn; [lia|]. cbn [RecTypes.rinst]. rewrite E, Dn. intros s Js. unfold r_enter. rewrite Dg.
        assert (St : tot (within k) (r_step (rinst n) nd (GRef q0))) by (apply step_tot; auto; intros; apply HN; auto; lia).
        destruct s as [g|].
        + pose proof (enter_room (S k) g p q0 Js Hp V) as ER. pose proof (k_append g p (GRef q0)) as KA.
          destruct (r_append g p (GRef q0)) as [g' c]. cbn [fst snd] in *. destruct (r_hit c).
          * exists true, (Some g'). split; [reflexivity|]. now apply (within_keeps _ (Some g)).
          * destruct (ER eq_refl) as (k' & [= <-] & Wc). apply (tot_with (within (S k))); [|now apply (within_keeps _ (Some g))].
            destruct (St (Some c) Wc) as (r1 & s1 & A & _). eauto.
        + apply (tot_with (within (S k))); [|exact Js]. cbn in V.
          assert (W0 : within k (Some {| a_seen := [p]; b_seen := [GRef q0]; in_a := false; in_b := false |})).
          { cbn [within] in Js |- *. unfold good_guard, room. cbn [a_seen b_seen in_a in_b length]. split; [|lia].
            split; [repeat constructor; intros []|split; [now repeat constructor|split; [repeat constructor; intros []|constructor; eauto]]]. }
          destruct (St _ W0) as (r1 & s1 & A & _). eauto. }
    destruct (nth_error T p0) as [nd|] eqn:E; [|apply nth_error_None in E; lia].
    destruct (deep_node nd) eqn:Dn.
    - destruct (K1 (S (length T + length G)) p0 x0 Hr0 Hp0 V0) as [N HN]. exists (S N). intros [|n] Hn; [lia|]. cbn [RecTypes.rinst]. rewrite E, Dn.
      apply tot_with. destruct (HN n ltac:(lia) None) as (r1 & s1 & A & _); [cbn; lia|eauto].
    - destruct (ND p0 x0 nd Hr0 V0 E Dn) as [N HN]. exists N. intros n Hn. now apply HN. }
  intros x V p Hp. apply (K (S (rank p))); [lia|exact Hp|exact V].
Qed.

(* ---------- a meaning ---------- *)

Lemma holds_mono (P Q : nat -> gval -> Prop) nd x : match nd with NOne _ | NNot _ => False | _ => True end -> (forall p y, P p y -> Q p y) -> holds W G P nd x -> holds W G Q nd x.
Proof.
  intros Pos H. destruct nd as [t|e lo hi|ts variadic|k v lo hi|additional es|ts|ts|ts|t|t]; cbn [holds]; try contradiction; try tauto.
  - intros (l & E & S & F). exists l. split; [exact E|split; [exact S|]]. eapply Forall_impl; [|exact F]. apply H.
  - intros (l & E & F). exists l. split; [exact E|]. destruct variadic.
    + destruct F as (us & t & l1 & l2 & A & B & C & D). exists us, t, l1, l2. split; [exact A|split; [exact B|split]].
      * clear - C H. induction C; constructor; auto.
      * eapply Forall_impl; [|exact D]. apply H.
    + clear - F H. induction F; constructor; auto.
  - intros (m & E & S & F). exists m. split; [exact E|split; [exact S|]]. eapply Forall_impl; [|exact F]. intros e [A B]. split; apply H; assumption.
  - intros (m & E & F & A). exists m. split; [exact E|split; [|exact A]]. eapply Forall_impl; [|exact F]. intros e [(k & y & I & V & B)|B]; [|now right]. left. exists k, y. auto.
  - intros F. eapply Forall_impl; [|exact F]. intros t. apply H.
  - intros F. eapply Exists_impl; [|exact F]. intros t. apply H.
  - intros (y & A & B). exists y. auto.
Qed.
Definition greatest (p : nat) (x : gval) : Prop := exists P, consistent W T G P /\ P p x.
Theorem greatest_meaning : positive T -> meaning W T G (fun _ => True) greatest.
Proof.
  intros Pos. assert (C : consistent W T G greatest).
  { intros p nd x E (P & C & Px). apply (holds_mono P); [exact (Pos p nd E)| |exact (C p nd x E Px)]. intros q y Pq. exists P. auto. }
  intros p nd x _ E. split; [now apply C|]. intros H. exists (fun q y => greatest q y \/ (q = p /\ y = x)). split; [|auto].
  intros q nq y Eq [A|[-> ->]].
  - apply (holds_mono greatest); [exact (Pos q nq Eq)|auto|]. exact (C q nq y Eq A).
  - assert (nq = nd) as -> by congruence. apply (holds_mono greatest); [exact (Pos p nd E)|auto|exact H].
Qed.

(* ---------- a larger bound gives the same result ---------- *)

Definition ext {A} (m m' : RM A) : Prop := forall s v, m s = Some v -> m' s = Some v.
Lemma e_refl {A} (m : RM A) : ext m m.
Proof. intros s v E. exact E. Qed.
Lemma e_bind {A B} (m m' : RM A) (f f' : A -> RM B) : ext m m' -> (forall b, ext (f b) (f' b)) -> ext (r_bind m f) (r_bind m' f').
Proof. intros H Hf s v E. unfold r_bind in *. destruct (m s) as [[b s1]|] eqn:M; [|discriminate]. rewrite (H _ _ M). now apply Hf. Qed.
Lemma e_and m m' n n' : ext m m' -> ext n n' -> ext (r_and m n) (r_and m' n').
Proof. intros. apply e_bind; [assumption|]. intros []; [assumption|apply e_refl]. Qed.
Lemma e_all {A} (f f' : A -> RM bool) l : (forall x, ext (f x) (f' x)) -> ext (r_all f l) (r_all f' l).
Proof. intros H. induction l; cbn [r_all]; [apply e_refl|now apply e_and]. Qed.
Lemma e_any {A} (f f' : A -> RM bool) l : (forall x, ext (f x) (f' x)) -> ext (r_any f l) (r_any f' l).
Proof. intros H. induction l; cbn [r_any]; [apply e_refl|]. apply e_bind; [apply H|]. intros []; [apply e_refl|assumption]. Qed.
Lemma e_one {A} (f f' : A -> RM bool) l : (forall x, ext (f x) (f' x)) -> forall b, ext (r_one f b l) (r_one f' b l).
Proof. intros H. induction l; intros b; cbn [r_one]; [apply e_refl|]. apply e_bind; [apply H|]. intros []; [|apply IHl]. destruct b; [apply e_refl|apply IHl]. Qed.
Lemma e_zip {A B} (f f' : A -> B -> RM bool) l : (forall x y, ext (f x y) (f' x y)) -> forall l', ext (r_zip f l l') (r_zip f' l l').
Proof. intros H. induction l; intros [|y l']; cbn [r_zip]; try apply e_refl. now apply e_and. Qed.
Lemma e_struct f f' additional m es : (forall t y, ext (f t y) (f' t y)) -> forall oc, ext (r_struct f additional es m oc) (r_struct f' additional es m oc).
Proof.
  intros H. induction es as [|[[k t] b] es IH]; intros oc; cbn [r_struct]; [apply e_refl|]. destruct (get_with _ _) as [y|].
  - apply e_bind; [apply H|]. intros []; [apply IH|apply e_refl].
  - destruct b; [apply e_refl|apply IH].
Qed.
Lemma e_with {A} g (m m' : RM A) : ext m m' -> ext (with_rguard g m) (with_rguard g m').
Proof. intros H s v E. unfold with_rguard in *. destruct (m g) as [[b s1]|] eqn:M; [|discriminate]. now rewrite (H _ _ M). Qed.
Lemma e_step R R' nd x : (forall b q y, ext (R b q y) (R' b q y)) -> ext (r_step R nd x) (r_step R' nd x).
Proof.
  intros H. unfold r_step. destruct (view x) as [w|]; [|apply e_refl].
  destruct nd as [t|e lo hi|ts variadic|k v lo hi|additional es|ts|ts|ts|t|t]; try apply e_refl.
  - destruct w as [|[]]; try apply e_refl. destruct (size_in _ _ _); [|apply e_refl]. destruct (node_any T e); [apply e_refl|now apply e_all].
  - destruct w as [|[]]; try apply e_refl. unfold r_tuple. destruct variadic.
    + destruct (_ <? _)%nat; [apply e_refl|]. destruct (nth_error ts _); [|apply e_refl]. apply e_and; [now apply e_zip|now apply e_all].
    + destruct (Nat.eqb _ _); [now apply e_zip|apply e_refl].
  - destruct w as [|[]]; try apply e_refl. destruct (size_in _ _ _); [|apply e_refl].
    destruct (node_any T k), (node_any T v); try apply e_refl; apply e_all; auto. intros. now apply e_and.
  - destruct w as [|[]]; try apply e_refl. now apply e_struct.
  - now apply e_all.
  - now apply e_any.
  - now apply e_one.
  - apply e_bind; [apply H|]. intros. apply e_refl.
  - destruct w as [|[]]; try apply e_refl. apply H.
Qed.
Lemma call_more n : forall n', (n <= n')%nat -> forall fn p x, ext (rinst n fn p x) (rinst n' fn p x).
Proof.
  induction n as [|n IH]; intros n' L fn p x; [intros s v E; discriminate E|]. destruct n' as [|n']; [lia|]. cbn [RecTypes.rinst].
  assert (IH' : forall fn p x, ext (rinst n fn p x) (rinst n' fn p x)) by (apply IH; lia).
  destruct (nth_error T p) as [nd|]; [|apply e_refl]. pose proof (e_step _ _ nd x IH') as Hs.
  destruct (deep_node nd); [destruct fn|]; try now apply e_with.
  intros s v E. unfold r_enter in *. destruct (deep_gval G x); [|now apply Hs].
  destruct s as [g|]; [|now apply (e_with _ _ _ Hs)]. destruct (r_append g p x) as [g' c]. destruct (r_hit c); [exact E|now apply (e_with _ _ _ Hs)].
Qed.
End Graphs.

(* ---------- the statements for rec_instance ---------- *)

Section Statements.
Variable W : world.
Variable T : tgraph.
Variable G : graph.

Lemma rec_instance_inv n p x r : rec_instance W T G n p x = Some r -> exists s', rinst W T G n false p x None = Some (r, s').
Proof. unfold rec_instance. destruct (rinst W T G n false p x None) as [[r' s']|]; [|discriminate]. intros [= <-]. eauto. Qed.

Lemma rec_accepts P p x n r : types_ok T -> values_ok G -> positive T -> consistent W T G P -> val_ok G x -> P p x ->
  rec_instance W T G n p x = Some r -> r = true.
Proof. intros TG VG Pos C V Px E. apply rec_instance_inv in E as [s' E]. exact (accepted W T G P TG VG Pos C n false p x V Px None r s' E). Qed.
Lemma rec_exact_finite P p x n r : types_ok T -> values_ok G -> flat_alternatives T -> meaning W T G (finite G) P -> val_ok G x -> finite G x ->
  rec_instance W T G n p x = Some r -> (r = true <-> P p x).
Proof.
  intros TG VG F M V Fx E. apply rec_instance_inv in E as [s' E].
  destruct (exact_finite W T G P TG VG F M n false p x None V Fx I None r s' I E) as [[A B] _]. split; auto.
Qed.
Lemma rec_exact_plain P p x n r : types_ok T -> values_ok G -> not_recursive T -> meaning W T G (fun _ => True) P -> val_ok G x ->
  rec_instance W T G n p x = Some r -> (r = true <-> P p x).
Proof.
  intros TG VG [rank Rk] M V E. apply rec_instance_inv in E as [s' E].
  destruct (exact_plain W T G P rank TG VG Rk M n false p x None V I None r s' I E) as [[A B] _]. split; auto.
Qed.
Lemma rec_returns_finite p x : types_ok T -> values_ok G -> contractive T -> val_ok G x -> finite G x -> (p < length T)%nat ->
  exists N, forall n, (N <= n)%nat -> exists r, rec_instance W T G n p x = Some r.
Proof.
  intros TG VG C V F Hp. destruct (ends_finite W T G TG VG C x F V p Hp) as [N HN]. exists N. intros n Hn.
  destruct (HN n Hn false None I) as (r & s' & E & _). exists r. unfold rec_instance. now rewrite E.
Qed.
Lemma rec_returns p x : types_ok T -> values_ok G -> contractive T -> no_restart T -> val_ok G x -> (p < length T)%nat ->
  exists N, forall n, (N <= n)%nat -> exists r, rec_instance W T G n p x = Some r.
Proof.
  intros TG VG C NR V Hp. destruct (ends_always W T G TG VG C NR x V p Hp) as [N HN]. exists N. intros n Hn.
  destruct (HN n Hn None I) as (r & s' & E & _). exists r. unfold rec_instance. now rewrite E.
Qed.
Lemma rec_more n n' p x r : (n <= n')%nat -> rec_instance W T G n p x = Some r -> rec_instance W T G n' p x = Some r.
Proof. intros L E. apply rec_instance_inv in E as [s' E]. unfold rec_instance. now rewrite (call_more W T G n n' L false p x None _ E). Qed.
Lemma rec_meaning : positive T -> exists P, meaning W T G (fun _ => True) P /\ forall Q, consistent W T G Q -> forall p x, Q p x -> P p x.
Proof. intros Pos. exists (greatest W T G). split; [now apply greatest_meaning|]. intros Q C p x H. exists Q. auto. Qed.
End Statements.
