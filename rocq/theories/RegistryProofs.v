(* Proofs about named types and aliases. *)
From Coq Require Import ZArith List Bool Arith Lia.
From Verif Require Import Data DataProofs Loader LoaderProofs Registry RegistrySpec.
Import ListNotations.

Lemma delete_other {A} (m : list (name * A)) n k : k <> n -> get_key (delete_key m n) k = get_key m k.
Proof.
  intros N. induction m as [|[k' v] m IH]; cbn [delete_key get_key]; [reflexivity|].
  destruct (bytes_eqb k' n) eqn:E.
  - apply bytes_eqb_eq in E as ->. destruct (bytes_eqb n k) eqn:E2; [apply bytes_eqb_eq in E2; congruence|reflexivity].
  - cbn. now rewrite IH.
Qed.

(* ---------- named types ---------- *)

Definition addr_of (p : rpc) : option nat := match p with RStored t false => Some (n_addr t) | _ => None end.
Definition made_addr (e : revent) : list nat := match e with EMade _ t => [n_addr t] | _ => [] end.
Definition made_addrs (log : list revent) : list nat := flat_map made_addr log.

Record addrs_ok (s : rstate) : Prop := {
  ok_pc : forall i a, addr_of (r_pc s i) = Some a -> (a < r_next s)%nat /\ ~ In a (made_addrs (r_log s));
  ok_pcs : forall i j a, addr_of (r_pc s i) = Some a -> addr_of (r_pc s j) = Some a -> i = j;
  ok_log : Forall (fun a => (a < r_next s)%nat) (made_addrs (r_log s));
  ok_nodup : NoDup (made_addrs (r_log s))
}.

Lemma addrs_init : addrs_ok rinit.
Proof. constructor; cbn; try discriminate; constructor. Qed.

Lemma goto_plain s i p : addrs_ok s -> addr_of p = None -> addrs_ok (rgoto s i p).
Proof.
  intros [A B C D] N. constructor; cbn; auto.
  - intros j a. destruct (Nat.eqb j i); [congruence|]. apply A.
  - intros j k a. destruct (Nat.eqb j i), (Nat.eqb k i); try congruence. apply B.
Qed.
Lemma emit_plain s i e : addrs_ok s -> made_addr e = [] -> addrs_ok (remit s i e).
Proof.
  intros O N. unfold remit. apply goto_plain; [|reflexivity]. destruct O as [A B C D].
  constructor; cbn; try rewrite N; cbn; auto.
Qed.
Lemma types_plain s ty : addrs_ok s -> addrs_ok (mk_rstate ty (r_next s) (r_pc s) (r_log s)).
Proof. intros [A B C D]. constructor; cbn; auto. Qed.
Lemma next_plain s ty : addrs_ok s -> addrs_ok (mk_rstate ty (S (r_next s)) (r_pc s) (r_log s)).
Proof.
  intros [A B C D]. constructor; cbn; auto.
  - intros i a H. destruct (A i a H). split; [lia|auto].
  - eapply Forall_impl; [|exact C]. cbn. lia.
Qed.

Lemma rstep_addrs s a s' : addrs_ok s -> rstep s a = Some s' -> addrs_ok s'.
Proof.
  intros O H. destruct a as [i n impl|i n|i n|i impl order|i]; cbn [rstep] in H.
  1-3: destruct (r_pc s i); try discriminate; injection H as <-; now apply goto_plain.
  { destruct (r_pc s i); try discriminate. destruct (an_order s order); try discriminate. injection H as <-. now apply emit_plain. }
  unfold rstep_at in H. destruct (r_pc s i) as [|n impl|t loaded|n|n t|n] eqn:P; try discriminate.
  - destruct (get_key (r_types s) n).
    + injection H as <-. apply goto_plain; [now apply next_plain|reflexivity].
    + injection H as <-. pose proof (next_plain s (put_key (r_types s) n (mk_named n impl (r_next s))) O) as [A B C D].
      destruct O as [A0 B0 C0 D0]. constructor; cbn in *; auto.
      * intros j a. destruct (Nat.eqb j i); [|apply A]. cbn. intros E. injection E as <-. split; [lia|].
        intros I. rewrite Forall_forall in C0. specialize (C0 _ I). lia.
      * intros j k a. destruct (Nat.eqb_spec j i) as [->|Ji], (Nat.eqb_spec k i) as [->|Ki]; auto; cbn.
        { intros E1 E2. injection E1 as <-. destruct (A0 k _ E2). lia. }
        { intros E1 E2. injection E2 as <-. destruct (A0 j _ E1). lia. }
        { apply B. }
  - injection H as <-. destruct loaded; [now apply emit_plain|].
    destruct O as [A B C D]. assert (Pi : addr_of (r_pc s i) = Some (n_addr t)) by now rewrite P. destruct (A i _ Pi) as [L N].
    constructor; cbn.
    + intros j a. destruct (Nat.eqb_spec j i) as [->|Ji]; [discriminate|]. intros E. destruct (A j a E) as [L2 N2]. split; [exact L2|].
      intros [<-|I]; [|now apply N2]. apply Ji. exact (B _ _ _ E Pi).
    + intros j k a. destruct (Nat.eqb j i), (Nat.eqb k i); try discriminate. apply B.
    + constructor; auto.
    + constructor; auto.
  - injection H as <-. now apply goto_plain.
  - injection H as <-. now apply emit_plain.
  - injection H as <-. apply emit_plain; [now apply types_plain|reflexivity].
Qed.

Definition keyed (m : list (name * named)) : Prop := Forall (fun e => n_name (snd e) = fst e) m.
Lemma keyed_get m k t : keyed m -> get_key m k = Some t -> n_name t = k.
Proof.
  intros F. induction F as [|[k' v] m E F IH]; cbn; [discriminate|]. destruct (bytes_eqb k' k) eqn:B; [|exact IH].
  intros H. injection H as <-. apply bytes_eqb_eq in B. cbn in E. congruence.
Qed.
Lemma keyed_put m k t : keyed m -> n_name t = k -> keyed (put_key m k t).
Proof.
  intros F N. induction F as [|[k' v] m E F IH]; cbn; [constructor; auto|]. destruct (bytes_eqb k' k) eqn:B; constructor; auto.
  apply bytes_eqb_eq in B. cbn. congruence.
Qed.
Lemma keyed_delete m k : keyed m -> keyed (delete_key m k).
Proof. intros F. induction F as [|[k' v] m E F IH]; cbn; [constructor|]. destruct (bytes_eqb k' k); [exact F|]. constructor; auto. Qed.

Section Name.
Variable n : name.

Definition pc_ok (s : rstate) (p : rpc) : Prop :=
  match p with
  | RStored t _ => n_name t = n -> get_key (r_types s) n = Some t
  | RLoaded m (Some t) => m = n -> get_key (r_types s) n = Some t
  | RRemove m => m <> n
  | _ => True
  end.
Definition ev_ok (s : rstate) (e : revent) : Prop :=
  match e with
  | EMade _ t => n_name t = n -> get_key (r_types s) n = Some t
  | ERedefined _ m => m = n -> get_key (r_types s) n <> None
  | ENamed _ m (Some t) => m = n -> get_key (r_types s) n = Some t
  | _ => True
  end.
Record name_ok (s : rstate) : Prop := {
  nk_keys : keyed (r_types s);
  nk_pc : forall i, pc_ok s (r_pc s i);
  nk_log : Forall (ev_ok s) (r_log s);
  nk_made : forall t, get_key (r_types s) n = Some t -> (exists i, In (EMade i t) (r_log s)) \/ exists i, r_pc s i = RStored t false
}.

Lemma name_init : name_ok rinit.
Proof. constructor; cbn; try discriminate; auto. constructor. Qed.

(* what is registered for n only grows *)
Definition grown (s s' : rstate) : Prop := forall t, get_key (r_types s) n = Some t -> get_key (r_types s') n = Some t.
Lemma pc_grown s s' p : grown s s' -> pc_ok s p -> pc_ok s' p.
Proof. intros G. destruct p as [| |t ?| |m [t|]|]; cbn; auto. Qed.
Lemma ev_grown s s' e : grown s s' -> ev_ok s e -> ev_ok s' e.
Proof.
  intros G. destruct e as [? t|? m|? m [t|]|? ?|? ? ?]; cbn; auto. intros H E. specialize (H E).
  destruct (get_key (r_types s) n) eqn:K; [|congruence]. rewrite (G _ K). discriminate.
Qed.
Lemma log_grown s s' : grown s s' -> Forall (ev_ok s) (r_log s) -> Forall (ev_ok s') (r_log s).
Proof. intros G. apply Forall_impl. intros e. now apply ev_grown. Qed.

Lemma goto_ok s i p : name_ok s -> pc_ok s p -> addr_of (r_pc s i) = None -> name_ok (rgoto s i p).
Proof.
  intros [A B C D] P N. constructor; cbn; auto.
  - intros j. destruct (Nat.eqb j i); [exact P|apply B].
  - intros t E. destruct (D t E) as [M|[j M]]; [now left|]. right. exists j.
    destruct (Nat.eqb_spec j i) as [->|]; [|exact M]. rewrite M in N. discriminate.
Qed.
Lemma emit_ok s i e : name_ok s -> ev_ok s e -> (forall t, r_pc s i = RStored t false -> e = EMade i t) -> name_ok (remit s i e).
Proof.
  intros [A B C D] P N. constructor; cbn; [exact A| | |].
  - intros j. destruct (Nat.eqb j i); [exact Logic.I|apply B].
  - constructor; [exact P|exact C].
  - intros t E. destruct (D t E) as [[j M]|[j M]]; [left; exists j; now right|].
    destruct (Nat.eqb_spec j i) as [->|Ji].
    + left. exists i. left. now apply N.
    + right. exists j. destruct (Nat.eqb_spec j i); [contradiction|exact M].
Qed.

Lemma rstep_name s a s' : name_ok s -> not_removed n a -> rstep s a = Some s' -> name_ok s' /\ grown s s'.
Proof.
  intros O NR H. assert (GI : grown s s) by now intros t.
  destruct a as [i m impl|i m|i m|i impl order|i]; cbn [rstep] in H.
  1-3: destruct (r_pc s i) eqn:P; try discriminate; injection H as <-; (split; [apply goto_ok; [exact O|exact Logic.I||exact NR|now rewrite P]|exact GI]).
  { destruct (r_pc s i) eqn:P; try discriminate. destruct (an_order s order); try discriminate. injection H as <-.
    split; [|exact GI]. apply emit_ok; [exact O|exact Logic.I|rewrite P; discriminate]. }
  unfold rstep_at in H. destruct (r_pc s i) as [|m impl|t loaded|m|m t|m] eqn:P; try discriminate.
  - destruct (get_key (r_types s) m) as [old|] eqn:K.
    + injection H as <-. split; [|exact GI]. apply (goto_ok (mk_rstate (r_types s) (S (r_next s)) (r_pc s) (r_log s))); cbn.
      * destruct O as [A B C D]. constructor; cbn; auto.
      * intros E. rewrite (keyed_get _ _ _ (nk_keys s O) K) in E. now subst.
      * now rewrite P.
    + injection H as <-. set (t := mk_named m impl (r_next s)).
      assert (G : grown s (mk_rstate (put_key (r_types s) m t) (S (r_next s)) (r_pc s) (r_log s))).
      { intros u E. cbn. rewrite get_put_other; [exact E|]. intros ->. congruence. }
      split; [|exact G]. destruct O as [A B C D]. constructor; cbn.
      * now apply keyed_put.
      * intros j. destruct (Nat.eqb j i); [|eapply (pc_grown s); [exact G|apply B]]. cbn. intros ->. now rewrite get_put_same.
      * eapply log_grown; [exact G|exact C].
      * intros u. destruct (list_eq_dec Z.eq_dec n m) as [->|Nm].
        { rewrite get_put_same. intros E. injection E as <-. right. exists i. now rewrite Nat.eqb_refl. }
        { rewrite get_put_other by exact Nm. intros E. destruct (D u E) as [M|[j M]]; [now left|]. right. exists j.
          destruct (Nat.eqb_spec j i) as [->|]; [congruence|exact M]. }
  - injection H as <-. split; [|exact GI]. pose proof (nk_pc s O i) as Pi. rewrite P in Pi. cbn in Pi.
    apply emit_ok; auto.
    + destruct loaded; cbn; [|exact Pi]. intros E. rewrite (Pi E). discriminate.
    + rewrite P. intros u E. injection E as <- ->. reflexivity.
  - injection H as <-. split; [|exact GI]. apply goto_ok; [exact O| |now rewrite P]. cbn. destruct (get_key (r_types s) m) eqn:K; [|exact Logic.I]. now intros <-.
  - injection H as <-. split; [|exact GI]. pose proof (nk_pc s O i) as Pi. rewrite P in Pi.
    apply emit_ok; auto. rewrite P. discriminate.
  - injection H as <-. pose proof (nk_pc s O i) as Pi. rewrite P in Pi. cbn in Pi.
    assert (G : forall k, k <> m -> get_key (delete_key (r_types s) m) k = get_key (r_types s) k) by (intros; now apply delete_other).
    assert (GR : grown s (mk_rstate (delete_key (r_types s) m) (r_next s) (r_pc s) (r_log s))).
    { intros u E. cbn. rewrite G; auto. }
    split; [|exact GR]. apply emit_ok; [|exact Logic.I|cbn; rewrite P; discriminate].
    destruct O as [A B C D]. constructor; cbn.
    + now apply keyed_delete.
    + intros j. eapply (pc_grown s); [exact GR|apply B].
    + eapply log_grown; [exact GR|exact C].
    + intros u. rewrite G by auto. apply D.
Qed.

Lemma rrun_name acts : forall s s', name_ok s -> Forall (not_removed n) acts -> rrun s acts = Some s' -> name_ok s' /\ grown s s'.
Proof.
  induction acts as [|a acts IH]; intros s s' O F H; cbn [rrun] in H.
  - injection H as <-. split; [exact O|now intros t].
  - inversion F; subst. destruct (rstep s a) as [s1|] eqn:E; [|discriminate]. destruct (rstep_name s a s1 O) as [O1 G1]; auto.
    destruct (IH s1 s' O1) as [O2 G2]; auto. split; [exact O2|]. intros t K. auto.
Qed.
Lemma rrun_addrs acts : forall s s', addrs_ok s -> rrun s acts = Some s' -> addrs_ok s'.
Proof.
  induction acts as [|a acts IH]; intros s s' O H; cbn [rrun] in H; [congruence|].
  destruct (rstep s a) as [s1|] eqn:E; [|discriminate]. eapply IH; [|exact H]. now apply (rstep_addrs s a).
Qed.

Lemma made_in e log : In e (made n log) -> exists i t, e = EMade i t /\ In e log /\ n_name t = n.
Proof.
  unfold made. intros H. apply filter_In in H as [H M]. destruct e as [i t| | | |]; try discriminate. exists i, t.
  split; [reflexivity|]. split; [exact H|]. now apply bytes_eqb_eq.
Qed.
Lemma made_once log : NoDup (made_addrs log) -> (forall i t j u, In (EMade i t) log -> In (EMade j u) log -> n_name t = n -> n_name u = n -> t = u) ->
  (length (made n log) <= 1)%nat.
Proof.
  unfold made. induction log as [|e log IH]; intros N U; [cbn; lia|].
  assert (IH' : (length (filter (makes n) log) <= 1)%nat).
  { apply IH; [destruct e; cbn in N; auto; now inversion N|]. intros i t j u A B. apply (U i t j u); now right. }
  cbn [filter]. destruct e as [i t| | | |]; cbn [makes]; try exact IH'.
  destruct (bytes_eqb (n_name t) n) eqn:B; [|exact IH']. apply bytes_eqb_eq in B.
  destruct (filter (makes n) log) as [|e2 l] eqn:F; [cbn; lia|]. exfalso.
  assert (I2 : In e2 (made n log)) by (unfold made; rewrite F; now left).
  apply made_in in I2 as (j & u & -> & I2 & Nu).
  assert (t = u) as -> by (apply (U i t j u); auto; [now left|now right]).
  cbn in N. inversion N as [|? ? Hn _]; subst. apply Hn. unfold made_addrs. apply in_flat_map. exists (EMade j u). split; [exact I2|now left].
Qed.

(* at most one registration succeeds *)
Theorem named_once acts s : Forall (not_removed n) acts -> rrun rinit acts = Some s -> (length (made n (r_log s)) <= 1)%nat.
Proof.
  intros F H. destruct (rrun_name acts _ _ name_init F H) as [O _]. pose proof (rrun_addrs acts _ _ addrs_init H) as A.
  apply made_once; [apply A|]. intros i t j u It Iu Et Eu.
  pose proof (proj1 (Forall_forall _ _) (nk_log s O) _ It Et). pose proof (proj1 (Forall_forall _ _) (nk_log s O) _ Iu Eu). congruence.
Qed.

(* when no call is in progress and one has been made then one succeeded *)
Theorem named_one_succeeds acts s : Forall (not_removed n) acts -> rrun rinit acts = Some s -> (forall i, r_pc s i = RIdle) ->
  (exists e, In e (r_log s) /\ tried n e) ->
  exists i t, made n (r_log s) = [EMade i t] /\ n_name t = n /\ get_key (r_types s) n = Some t.
Proof.
  intros F H Q (e & He & T). destruct (rrun_name acts _ _ name_init F H) as [O _]. pose proof (named_once acts s F H) as L.
  assert (exists t, get_key (r_types s) n = Some t) as [t K].
  { pose proof (proj1 (Forall_forall _ _) (nk_log s O) _ He) as Ev. destruct e as [i t|i m| | |]; cbn in T; try contradiction; cbn in Ev.
    - eauto.
    - specialize (Ev T). destruct (get_key (r_types s) n); [eauto|congruence]. }
  destruct (nk_made s O t K) as [[i M]|[i M]]; [|rewrite Q in M; discriminate].
  assert (Nt : n_name t = n) by exact (keyed_get _ _ _ (nk_keys s O) K).
  exists i, t. split; [|auto].
  assert (I : In (EMade i t) (made n (r_log s))) by (unfold made; apply filter_In; split; [exact M|cbn; now apply bytes_eqb_eq]).
  destruct (made n (r_log s)) as [|x [|y l]]; cbn in *; [contradiction|destruct I as [->|[]]; reflexivity|lia].
Qed.

(* a call that lost panicked *)
Theorem named_never_other acts s : Forall (not_removed n) acts -> rrun rinit acts = Some s ->
  forall i t j o, In (EMade i t) (r_log s) -> n_name t = n -> In (ENamed j n (Some o)) (r_log s) -> o = t.
Proof.
  intros F H i t j o A E B. destruct (rrun_name acts _ _ name_init F H) as [O _].
  pose proof (proj1 (Forall_forall _ _) (nk_log s O) _ A E). pose proof (proj1 (Forall_forall _ _) (nk_log s O) _ B eq_refl). congruence.
Qed.

(* calls that start after the registration return the type *)
Definition after_pc (t : named) (p : rpc) : Prop := match p with RLoaded m o => m = n -> o = Some t | _ => True end.
Definition after_ev (t : named) (j : nat) (e : revent) : Prop := match e with ENamed k m o => k = j -> m = n -> o = Some t | _ => True end.

Lemma after_step s a s' t j : name_ok s -> not_removed n a -> get_key (r_types s) n = Some t -> after_pc t (r_pc s j) -> rstep s a = Some s' ->
  after_pc t (r_pc s' j) /\ exists new, r_log s' = new ++ r_log s /\ Forall (after_ev t j) new.
Proof.
  intros O NR K P H.
  destruct a as [i m impl|i m|i m|i impl order|i]; cbn [rstep] in H.
  1-3: destruct (r_pc s i) eqn:E; try discriminate; injection H as <-; cbn; (split; [destruct (Nat.eqb j i); [exact Logic.I|exact P]|exists []; split; [reflexivity|constructor]]).
  { destruct (r_pc s i) eqn:E; try discriminate. destruct (an_order s order); try discriminate. injection H as <-. cbn.
    split; [destruct (Nat.eqb j i); [exact Logic.I|exact P]|]. eexists [_]. split; [reflexivity|]. repeat constructor. }
  unfold rstep_at in H. destruct (r_pc s i) as [|m impl|u loaded|m|m u|m] eqn:E; try discriminate.
  - destruct (get_key (r_types s) m); injection H as <-; cbn; (split; [destruct (Nat.eqb j i); [exact Logic.I|exact P]|exists []; split; [reflexivity|constructor]]).
  - injection H as <-. cbn. split; [destruct (Nat.eqb j i); [exact Logic.I|exact P]|]. eexists [_]. split; [reflexivity|]. repeat constructor. now destruct loaded.
  - injection H as <-. cbn. split; [destruct (Nat.eqb j i); [cbn; now intros ->|exact P]|exists []; split; [reflexivity|constructor]].
  - injection H as <-. cbn. split; [destruct (Nat.eqb j i); [exact Logic.I|exact P]|]. eexists [_]. split; [reflexivity|]. repeat constructor.
    cbn. intros ->. rewrite E in P. exact P.
  - injection H as <-. cbn. split; [destruct (Nat.eqb j i); [exact Logic.I|exact P]|]. eexists [_]. split; [reflexivity|]. repeat constructor.
Qed.

Theorem named_after acts s acts' s' : Forall (not_removed n) (acts ++ acts') -> rrun rinit acts = Some s -> rrun s acts' = Some s' ->
  forall i t j, In (EMade i t) (r_log s) -> n_name t = n -> r_pc s j = RIdle ->
  exists new, r_log s' = new ++ r_log s /\ forall o, In (ENamed j n o) new -> o = Some t.
Proof.
  intros F H H' i t j M E Q. apply Forall_app in F as [F F']. destruct (rrun_name acts _ _ name_init F H) as [O _].
  assert (K : get_key (r_types s) n = Some t) by exact (proj1 (Forall_forall _ _) (nk_log s O) _ M E).
  assert (P : after_pc t (r_pc s j)) by now rewrite Q.
  clear M Q F H acts. revert s O K P H'. induction acts' as [|a acts' IH]; intros s O K P H'; cbn [rrun] in H'.
  - injection H' as <-. exists []. split; [reflexivity|]. intros o [].
  - inversion F' as [|? ? Fa Fr]; subst. destruct (rstep s a) as [s1|] eqn:S; [|discriminate].
    destruct (rstep_name s a s1 O Fa S) as [O1 G1]. destruct (after_step s a s1 t j O Fa K P S) as (P1 & new1 & L1 & A1).
    destruct (IH Fr s1 O1 (G1 _ K) P1 H') as (new & L & A). exists (new ++ new1). split; [rewrite L, L1; now rewrite app_assoc|].
    intros o I. apply in_app_or in I as [I|I]; [now apply A|]. exact (proj1 (Forall_forall _ _) A1 _ I eq_refl eq_refl).
Qed.
End Name.

(* ---------- NamedTypeFromReflected ---------- *)

Lemma find_impl_some order impl t : find_impl order impl = Some t -> In t order /\ n_impl t = impl.
Proof.
  induction order as [|u r IH]; cbn; [discriminate|]. destruct (Z.eqb_spec impl (n_impl u)) as [->|N].
  - intros E. injection E as <-. auto.
  - intros E. destruct (IH E). auto.
Qed.
Lemma find_impl_none order impl : find_impl order impl = None -> forall t, In t order -> n_impl t <> impl.
Proof.
  induction order as [|u r IH]; cbn; [now intros _ t []|]. destruct (Z.eqb_spec impl (n_impl u)) as [->|N]; [discriminate|].
  intros E t [<-|I]; [congruence|now apply IH].
Qed.

Lemma rstep_keyed s a s' : keyed (r_types s) -> rstep s a = Some s' -> keyed (r_types s').
Proof.
  intros K H. destruct a as [i m impl|i m|i m|i impl order|i]; cbn [rstep] in H.
  1-3: destruct (r_pc s i); try discriminate; injection H as <-; exact K.
  { destruct (r_pc s i); try discriminate. destruct (an_order s order); try discriminate. injection H as <-. exact K. }
  unfold rstep_at in H. destruct (r_pc s i) as [|m impl|u loaded|m|m u|m]; try discriminate; try (injection H as <-; exact K).
  - destruct (get_key (r_types s) m); injection H as <-; [exact K|]. cbn. now apply keyed_put.
  - injection H as <-. cbn. now apply keyed_delete.
Qed.
Lemma rrun_keyed acts : forall s s', keyed (r_types s) -> rrun s acts = Some s' -> keyed (r_types s').
Proof.
  induction acts as [|a acts IH]; intros s s' K H; cbn [rrun] in H; [congruence|].
  destruct (rstep s a) as [s1|] eqn:E; [|discriminate]. eapply IH; [|exact H]. now apply (rstep_keyed s a).
Qed.

Lemma order_registered s order : keyed (r_types s) -> an_order s order = true ->
  (forall t, In t order -> registered s t) /\ (forall t, registered s t -> In t order).
Proof.
  intros K A. unfold an_order in A. apply andb_prop in A as [A C]. apply andb_prop in A as [_ B].
  rewrite forallb_forall in B, C.
  assert (R : forall t, In t order -> registered s t).
  { intros t I. specialize (C t I). unfold registered. destruct (get_key (r_types s) (n_name t)) as [u|] eqn:G; [|discriminate].
    pose proof (keyed_get _ _ _ K G) as N. apply andb_prop in C as [C1 C2]. apply Nat.eqb_eq in C1. apply Z.eqb_eq in C2.
    destruct t as [a b c], u as [a' b' c']. cbn in *. now subst. }
  split; [exact R|]. intros t G. unfold registered in G.
  assert (I : exists k, In (k, t) (r_types s)).
  { clear -G. revert G. generalize (n_name t). intros k. induction (r_types s) as [|[k' v] l IH]; cbn; [discriminate|].
    destruct (bytes_eqb k' k); [intros E; injection E as ->; exists k'; now left|]. intros E. destruct (IH E) as [k0 I]. exists k0. now right. }
  destruct I as [k I]. specialize (B _ I). apply existsb_exists in B as (u & Iu & E). apply bytes_eqb_eq in E. cbn in E.
  pose proof (R u Iu) as Ru. unfold registered in Ru. rewrite E in Ru. assert (u = t) as -> by congruence. exact Iu.
Qed.

(* the result is a registered type with the implementation type, whatever the order, if there is one *)
Theorem reflected_registered acts s i impl order s' : rrun rinit acts = Some s -> rstep s (RReflected i impl order) = Some s' ->
  exists o, r_log s' = EReflected i impl o :: r_log s /\
    match o with
    | Some t => registered s t /\ n_impl t = impl
    | None => forall t, registered s t -> n_impl t <> impl
    end.
Proof.
  intros H S. assert (K : keyed (r_types s)) by (eapply rrun_keyed; [|exact H]; constructor).
  cbn [rstep] in S. destruct (r_pc s i); try discriminate. destruct (an_order s order) eqn:A; try discriminate. injection S as <-.
  exists (find_impl order impl). split; [reflexivity|]. destruct (order_registered s order K A) as [R1 R2].
  destruct (find_impl order impl) as [t|] eqn:F.
  - apply find_impl_some in F as [I E]. auto.
  - intros t R. apply (find_impl_none _ _ F). auto.
Qed.

(* it is the one that was registered with it if no other was *)
Theorem reflected_unique acts s i impl order s' t : rrun rinit acts = Some s -> rstep s (RReflected i impl order) = Some s' ->
  registered s t -> n_impl t = impl -> (forall u, registered s u -> n_impl u = impl -> u = t) ->
  r_log s' = EReflected i impl (Some t) :: r_log s.
Proof.
  intros H S R E U. destruct (reflected_registered acts s i impl order s' H S) as ([u|] & L & P).
  - destruct P as [Ru Eu]. now rewrite L, (U u Ru Eu).
  - exfalso. exact (P t R E).
Qed.

(* ---------- aliases ---------- *)

Definition holds (p : apc) : bool := match p with PRead _ _ | PWrite _ _ | PUnlock _ => true | _ => false end.

Lemma replace_all_get todo added backing rs : replace_all todo added backing = Some rs -> forall n,
  match get_key todo n with
  | None => get_key rs n = None
  | Some (AType x _) => get_key rs n = Some (AType x [])
  | Some (ARef _) => exists t, get_key rs n = Some t
  end.
Proof.
  revert rs. induction todo as [|[k t] r IH]; intros rs H n; cbn [replace_all] in H.
  - injection H as <-. reflexivity.
  - destruct (alias_replace added backing t) as [t'|] eqn:R; [|discriminate]. destruct (replace_all r added backing) as [r'|] eqn:E; [|discriminate].
    injection H as <-. cbn [get_key]. destruct (bytes_eqb k n); [|apply IH; reflexivity].
    destruct t as [m|x refs]; [eauto|]. cbn in R. destruct (forallb _ refs); [congruence|discriminate].
Qed.
Lemma replace_all_keys todo added backing rs : replace_all todo added backing = Some rs -> map fst rs = map fst todo.
Proof.
  revert rs. induction todo as [|[k t] r IH]; intros rs H; cbn [replace_all] in H; [now injection H as <-|].
  destruct (alias_replace added backing t); [|discriminate]. destruct (replace_all r added backing) eqn:E; [|discriminate].
  injection H as <-. cbn. f_equal. now apply IH.
Qed.

Lemma get_key_in {A} (m : list (name * A)) k : get_key m k <> None <-> In k (map fst m).
Proof.
  induction m as [|[k' v] m IH]; cbn; [split; [congruence|contradiction]|].
  destruct (bytes_eqb k' k) eqn:E.
  - apply bytes_eqb_eq in E. split; [now left|discriminate].
  - rewrite IH. split; [now right|]. intros [<-|I]; [|exact I]. exfalso. assert (bytes_eqb k' k' = true) by now apply bytes_eqb_eq. congruence.
Qed.
Lemma put_all_get rs : NoDup (map fst rs) -> forall m n, alias_type (put_all m rs) n = match get_key rs n with Some t => Some t | None => alias_type m n end.
Proof.
  induction rs as [|[k t] r IH]; intros N m n; [reflexivity|]. cbn [map fst] in N. inversion N as [|? ? Nk Nr]; subst.
  cbn [put_all get_key]. rewrite IH by exact Nr. unfold alias_type. cbn [named_types].
  destruct (bytes_eqb k n) eqn:E.
  - apply bytes_eqb_eq in E as ->. assert (G : get_key r n = None).
    { destruct (get_key r n) eqn:G; [|reflexivity]. exfalso. apply Nk. apply get_key_in. congruence. }
    now rewrite G, get_put_same.
  - rewrite get_put_other; [reflexivity|]. intros ->. assert (bytes_eqb k k = true) by now apply bytes_eqb_eq. congruence.
Qed.
Lemma NoDup_app_comm_one {A} (l : list A) x : NoDup l -> ~ In x l -> NoDup (l ++ [x]).
Proof.
  intros N I. induction N as [|y l Ny N IH]; cbn; [repeat constructor; auto|]. constructor.
  - intros J. apply in_app_or in J as [J|[->|[]]]; [contradiction|]. apply I. now left.
  - apply IH. intros J. apply I. now right.
Qed.
Lemma put_key_nodup {A} (m : list (name * A)) k v : NoDup (map fst m) -> NoDup (map fst (put_key m k v)).
Proof.
  intros N. destruct (get_key m k) as [w|] eqn:G.
  - replace (map fst (put_key m k v)) with (map fst m); [exact N|]. clear N. induction m as [|[k' v'] m IH]; cbn in *; [discriminate|].
    destruct (bytes_eqb k' k); cbn; [reflexivity|]. f_equal. now apply IH.
  - replace (map fst (put_key m k v)) with (map fst m ++ [k]).
    + apply NoDup_app_comm_one; auto. intros I. apply get_key_in in I. congruence.
    + clear N. induction m as [|[k' v'] m IH]; cbn in *; [reflexivity|]. destruct (bytes_eqb k' k); [discriminate|]. cbn. f_equal. now apply IH.
Qed.

Lemma add_all_nodup adds : forall m : list (name * atype), NoDup (map fst m) -> NoDup (map fst (add_all m adds)).
Proof. induction adds as [|[n t] r IH]; intros m N; cbn; [exact N|]. apply IH. now apply put_key_nodup. Qed.
Lemma add_all_present adds : forall m n, (get_key m n <> None \/ In n (map fst adds)) -> get_key (add_all m adds) n <> None.
Proof.
  induction adds as [|[k t] r IH]; intros m n H; cbn.
  - destruct H as [H|[]]. exact H.
  - apply IH. cbn in H. destruct (list_eq_dec Z.eq_dec n k) as [->|N].
    + left. rewrite get_put_same. discriminate.
    + rewrite get_put_other by exact N. destruct H as [H|[H|H]]; [now left|congruence|now right].
Qed.

(* what an update does to the meaning of a name *)
Lemma update_expected m added b m' : NoDup (map fst added) -> resolved m -> alias_update m added b = Some m' ->
  resolved m' /\ forall n, expected (alias_type m n) (get_key added n) (alias_type m' n).
Proof.
  intros N R U. unfold alias_update in U. destruct (replace_all added added b) as [rs|] eqn:E; [|discriminate].
  destruct (freezable rs) eqn:F; [|discriminate]. injection U as <-.
  assert (Nr : NoDup (map fst rs)) by now rewrite (replace_all_keys _ _ _ _ E).
  assert (Fr : forall n t, get_key rs n = Some t -> is_type t).
  { intros n t. unfold freezable in F. rewrite forallb_forall in F. clear -F. induction rs as [|[k u] rs IH]; cbn; [discriminate|].
    destruct (bytes_eqb k n).
    - intros H. injection H as <-. specialize (F (k, u) (or_introl eq_refl)). now destruct u.
    - intros H. apply IH; auto. intros x I. apply F. now right. }
  split.
  - intros n t. rewrite put_all_get by exact Nr. destruct (get_key rs n) eqn:G; [intros H; injection H as <-; eauto|apply R].
  - intros n. rewrite put_all_get by exact Nr. pose proof (replace_all_get _ _ _ _ E n) as P.
    destruct (get_key added n) as [[k|x refs]|]; cbn.
    + destruct P as [t P]. rewrite P. exists t. split; [reflexivity|]. eauto.
    + rewrite P. exists (AType x []). split; reflexivity.
    + now rewrite P.
Qed.

Lemma expected_present before last now : expected before last now -> before <> None -> now <> None.
Proof. destruct last as [[k|x r]|]; cbn; [intros (t & -> & _)|intros (t & -> & _)|intros ->]; congruence. Qed.
Lemma expected_added before last now : expected before last now -> last <> None -> now <> None.
Proof. destruct last as [[k|x r]|]; cbn; [intros (t & -> & _)|intros (t & -> & _)|]; congruence. Qed.

(* the update that was written and has not returned yet *)
Definition pending (s : astate) : list aevent :=
  match a_lock s with
  | Some i => match a_pc s i with PUnlock (Some added) => [EAdded i added] | _ => [] end
  | None => []
  end.

Section From.
Variable m0 : alias_map.
Hypothesis m0_resolved : resolved m0.

Definition apc_ok (s : astate) (p : apc) : Prop :=
  match p with
  | PLock _ added | PRead _ added => NoDup (map fst added)
  | PWrite m added => resolved m /\ NoDup (map fst added) /\ forall n, expected (alias_type (a_map s) n) (get_key added n) (alias_type m n)
  | _ => True
  end.
Record alias_ok (s : astate) : Prop := {
  ak_lock : forall i, a_lock s = Some i <-> holds (a_pc s i) = true;
  ak_pc : forall i, apc_ok s (a_pc s i);
  ak_resolved : resolved (a_map s);
  ak_map : forall n, expected (alias_type m0 n) (latest n (pending s ++ a_log s)) (alias_type (a_map s) n)
}.

Lemma alias_init : alias_ok (ainit m0).
Proof. constructor; cbn; auto; try (intros; split; discriminate). Qed.

(* a step that touches neither the variable nor the lock *)
Lemma agoto_ok s i p : alias_ok s -> holds p = holds (a_pc s i) -> apc_ok s p ->
  (match p, a_pc s i with PUnlock (Some _), _ => False | _, PUnlock (Some _) => False | _, _ => True end) -> alias_ok (agoto s i p).
Proof.
  intros [A B C D] Hp P N. constructor; cbn; auto.
  - intros j. rewrite A. destruct (Nat.eqb_spec j i) as [->|]; [now rewrite Hp|reflexivity].
  - intros j. destruct (Nat.eqb j i); [exact P|apply B].
  - intros n. specialize (D n). unfold pending in *. cbn. destruct (a_lock s) as [j|]; [|exact D].
    destruct (Nat.eqb_spec j i) as [->|]; [|exact D].
    destruct p as [| | | | | |[u|]], (a_pc s i) as [| | | | | |[v|]]; try contradiction; exact D.
Qed.

Lemma astep_ok s a s' : alias_ok s -> astep s a = Some s' -> alias_ok s' /\ (forall n, alias_type (a_map s) n <> None -> alias_type (a_map s') n <> None).
Proof.
  intros O H. destruct a as [i|i adds|i]; cbn [astep] in H.
  - destruct (a_pc s i) eqn:P; try discriminate. injection H as <-. split; [|auto]. apply agoto_ok; auto; rewrite ?P; cbn; auto.
  - destruct (a_pc s i) as [| |b| | | |] eqn:P; try discriminate.
    assert (U : forall e, (forall n log, latest n (e :: log) = latest n log) -> alias_ok (aemit s i e)).
    { intros e L. assert (O2 : alias_ok (agoto s i PIdle)) by (apply agoto_ok; rewrite ?P; cbn; auto).
      assert (W : forall n l, latest n (l ++ e :: a_log s) = latest n (l ++ a_log s)).
      { intros n. induction l as [|x l IH]; cbn [app]; [apply L|]. destruct x as [k ad|k]; cbn [latest]; [destruct (get_key ad n); auto|exact IH]. }
      destruct O2 as [A B C D]. constructor; auto. intros n. specialize (D n).
      change (pending (aemit s i e)) with (pending (agoto s i PIdle)). change (a_log (aemit s i e)) with (e :: a_log s). rewrite W. exact D. }
    destruct adds as [adds|].
    + destruct (add_all [] adds) as [|x r] eqn:E; injection H as <-; (split; [|auto]); [apply U; reflexivity|].
      apply agoto_ok; auto; rewrite ?P; cbn -[map]; auto. rewrite <- E. apply add_all_nodup. constructor.
    + injection H as <-. split; [|auto]. apply U. reflexivity.
  - unfold astep_at in H. destruct (a_pc s i) as [| |b|b added|b added|m added|[added|]] eqn:P; try discriminate.
    + injection H as <-. split; [|auto]. apply agoto_ok; auto; rewrite ?P; cbn; auto.
    + destruct (a_lock s) as [j|] eqn:L; [discriminate|]. injection H as <-. split; [|auto].
      pose proof (ak_pc s O i) as Pi. rewrite P in Pi. destruct O as [A B C D]. constructor; cbn; auto.
      * intros j. destruct (Nat.eqb_spec j i) as [->|Nj]; [cbn; tauto|]. split; [intros E; congruence|]. intros Hj. apply A in Hj. congruence.
      * intros j. destruct (Nat.eqb j i); [exact Pi|]. apply B.
      * intros n. specialize (D n). unfold pending in *. cbn. rewrite Nat.eqb_refl. rewrite L in D. exact D.
    + pose proof (ak_pc s O i) as Pi. rewrite P in Pi. cbn in Pi.
      destruct (alias_update (a_map s) added b) as [m|] eqn:E; injection H as <-; (split; [|auto]).
      * apply agoto_ok; auto; rewrite ?P; cbn; auto. destruct (update_expected _ _ _ _ Pi (ak_resolved s O) E). auto.
      * apply agoto_ok; auto; rewrite ?P; cbn; auto.
    + pose proof (ak_pc s O i) as Pi. rewrite P in Pi. cbn in Pi. destruct Pi as (Rm & Nm & Em). injection H as <-.
      assert (Li : a_lock s = Some i) by (apply (ak_lock s O); now rewrite P).
      split; [|intros n; apply (expected_present _ _ _ (Em n))].
      destruct O as [A B C D]. constructor; cbn; auto.
      * intros j. rewrite A. destruct (Nat.eqb_spec j i) as [->|]; [rewrite P; cbn; tauto|reflexivity].
      * intros j. destruct (Nat.eqb_spec j i) as [->|Nj]; [exact Logic.I|]. specialize (B j). destruct (a_pc s j) as [| | | | |m' a'|] eqn:Pj; cbn; auto.
        exfalso. apply Nj. assert (a_lock s = Some j) by (apply A; now rewrite Pj). congruence.
      * intros n. specialize (D n). specialize (Em n). unfold pending in *. cbn. rewrite Li, P in D. cbn in D.
        rewrite Li. rewrite Nat.eqb_refl. cbn. destruct (get_key added n) as [[k|x refs]|]; cbn in *; auto. now rewrite Em.
    + injection H as <-. split; [|auto]. assert (Li : a_lock s = Some i) by (apply (ak_lock s O); now rewrite P).
      destruct O as [A B C D]. constructor; cbn; auto.
      * intros j. destruct (Nat.eqb_spec j i) as [->|Nj]; [cbn; split; discriminate|]. split; [discriminate|]. intros Hj. apply A in Hj. congruence.
      * intros j. destruct (Nat.eqb j i); [exact Logic.I|]. apply B.
      * intros n. specialize (D n). unfold pending in *. cbn. rewrite Li, P in D. exact D.
    + injection H as <-. split; [|auto]. assert (Li : a_lock s = Some i) by (apply (ak_lock s O); now rewrite P).
      destruct O as [A B C D]. constructor; cbn; auto.
      * intros j. destruct (Nat.eqb_spec j i) as [->|Nj]; [cbn; split; discriminate|]. split; [discriminate|]. intros Hj. apply A in Hj. congruence.
      * intros j. destruct (Nat.eqb j i); [exact Logic.I|]. apply B.
      * intros n. specialize (D n). unfold pending in *. cbn. rewrite Li, P in D. exact D.
Qed.
Lemma arun_ok acts : forall s s', alias_ok s -> arun s acts = Some s' -> alias_ok s' /\ (forall n, alias_type (a_map s) n <> None -> alias_type (a_map s') n <> None).
Proof.
  induction acts as [|a acts IH]; intros s s' O H; cbn [arun] in H; [injection H as <-; auto|].
  destruct (astep s a) as [s1|] eqn:E; [|discriminate]. destruct (astep_ok s a s1 O E) as [O1 G1]. destruct (IH _ _ O1 H) as [O2 G2]. auto.
Qed.

(* when nobody is in the middle of an update the aliases are those of the calls that returned, in the order in
   which they did *)
Theorem aliases_latest acts s : arun (ainit m0) acts = Some s -> a_lock s = None ->
  forall n, expected (alias_type m0 n) (latest n (a_log s)) (alias_type (a_map s) n).
Proof.
  intros H L n. destruct (arun_ok acts _ _ alias_init H) as [O _]. pose proof (ak_map s O n) as D. unfold pending in D. rewrite L in D. exact D.
Qed.

(* no alias ever disappears *)
Theorem aliases_kept acts s acts' s' : arun (ainit m0) acts = Some s -> arun s acts' = Some s' ->
  forall n, alias_type (a_map s) n <> None -> alias_type (a_map s') n <> None.
Proof. intros H H'. destruct (arun_ok acts _ _ alias_init H) as [O _]. now destruct (arun_ok acts' _ _ O H'). Qed.

(* what a function added is there when all calls have returned, unless one of them panicked *)
Definition in_flight (p : apc) : list (name * atype) := match p with PLock _ added | PRead _ added | PWrite _ added => added | _ => [] end.
Definition promised (s : astate) (n : name) : Prop :=
  alias_type (a_map s) n <> None \/ (exists j, get_key (in_flight (a_pc s j)) n <> None) \/
  (exists j, a_pc s j = PUnlock None) \/ (exists j, In (EAddPanic j) (a_log s)).

Lemma promised_goto s i p n : promised s n -> (forall m, get_key (in_flight (a_pc s i)) m <> None -> get_key (in_flight p) m <> None) ->
  a_pc s i <> PUnlock None -> promised (agoto s i p) n.
Proof.
  intros [H|[[j H]|[[j H]|[j H]]]] F U; [now left| | |].
  - right. left. exists j. cbn. destruct (Nat.eqb_spec j i) as [->|]; auto.
  - right. right. left. exists j. cbn. destruct (Nat.eqb_spec j i) as [->|]; [contradiction|exact H].
  - right. right. right. exists j. exact H.
Qed.
Lemma promised_panic s i e n : e = EAddPanic i -> promised (aemit s i e) n.
Proof. intros ->. right. right. right. exists i. now left. Qed.
Lemma promised_step s a s' n : alias_ok s -> astep s a = Some s' -> promised s n -> promised s' n.
Proof.
  intros O H Q. destruct a as [i|i adds|i]; cbn [astep] in H.
  - destruct (a_pc s i) eqn:P; try discriminate. injection H as <-. apply promised_goto; auto; rewrite P; [cbn; auto|discriminate].
  - destruct (a_pc s i) as [| |b| | | |] eqn:P; try discriminate.
    assert (E : forall e, promised (aemit s i e) n).
    { intros e. unfold aemit. apply promised_goto; cbn; rewrite ?P; try discriminate; [|cbn; auto].
      destruct Q as [Q|[Q|[Q|[j Q]]]]; [now left|right; now left|right; right; now left|]. right. right. right. exists j. now right. }
    destruct adds as [adds|]; [|injection H as <-; apply E].
    destruct (add_all [] adds) as [|x r] eqn:A; injection H as <-; [apply E|]. apply promised_goto; auto; rewrite P; [cbn; congruence|discriminate].
  - unfold astep_at in H. destruct (a_pc s i) as [| |b|b added|b added|m added|[added|]] eqn:P; try discriminate.
    + injection H as <-. apply promised_goto; auto; rewrite P; [cbn; auto|discriminate].
    + destruct (a_lock s); [discriminate|]. injection H as <-.
      apply (promised_goto (aset_lock s (Some i))); [exact Q| |]; cbn; rewrite P; [auto|discriminate].
    + destruct (alias_update (a_map s) added b) as [m|] eqn:E; injection H as <-.
      * apply promised_goto; auto; rewrite P; [auto|discriminate].
      * right. right. left. exists i. cbn. now rewrite Nat.eqb_refl.
    + injection H as <-. pose proof (ak_pc s O i) as Pi. rewrite P in Pi. cbn in Pi. destruct Pi as (_ & _ & Em). specialize (Em n).
      destruct Q as [Q|[[j Q]|[[j Q]|[j Q]]]].
      * left. cbn. exact (expected_present _ _ _ Em Q).
      * destruct (Nat.eq_dec j i) as [->|N].
        { left. cbn. rewrite P in Q. exact (expected_added _ _ _ Em Q). }
        { right. left. exists j. cbn. destruct (Nat.eqb_spec j i); [contradiction|exact Q]. }
      * right. right. left. exists j. cbn. destruct (Nat.eqb_spec j i) as [->|]; [congruence|exact Q].
      * right. right. right. exists j. exact Q.
    + injection H as <-. unfold aemit. apply promised_goto; cbn; rewrite ?P; try discriminate; [|cbn; auto].
      destruct Q as [Q|[Q|[Q|[j Q]]]]; [now left|right; now left|right; right; now left|]. right. right. right. exists j. now right.
    + injection H as <-. now apply promised_panic.
Qed.

Lemma promised_run acts : forall s s' n, alias_ok s -> arun s acts = Some s' ->
  (promised s n \/ exists i adds, In (AAdder i (Some adds)) acts /\ In n (map fst adds)) -> promised s' n.
Proof.
  induction acts as [|a acts IH]; intros s s' n O H Q; cbn [arun] in H.
  - injection H as <-. destruct Q as [Q|(i & adds & [] & _)]. exact Q.
  - destruct (astep s a) as [s1|] eqn:E; [|discriminate]. destruct (astep_ok s a s1 O E) as [O1 _]. apply (IH s1 s' n O1 H).
    destruct Q as [Q|(i & adds & [->|I] & N)]; [left; now apply (promised_step s a)| |right; eauto].
    left. cbn [astep] in E. destruct (a_pc s i) as [| |b| | | |] eqn:P; try discriminate.
    assert (F : get_key (add_all [] adds) n <> None) by (apply add_all_present; now right).
    destruct (add_all [] adds) as [|x r]; [now cbn in F|]. injection E as <-. right. left. exists i. cbn. now rewrite Nat.eqb_refl.
Qed.

Theorem added_present acts s : arun (ainit m0) acts = Some s -> (forall i, a_pc s i = PIdle) -> (forall i, ~ In (EAddPanic i) (a_log s)) ->
  forall i adds n, In (AAdder i (Some adds)) acts -> In n (map fst adds) -> exists t, alias_type (a_map s) n = Some t /\ is_type t.
Proof.
  intros H Q N i adds n I J. destruct (arun_ok acts _ _ alias_init H) as [O _].
  assert (P : promised s n) by (apply (promised_run acts _ _ n alias_init H); right; eauto).
  destruct P as [P|[[j P]|[[j P]|[j P]]]].
  - destruct (alias_type (a_map s) n) as [t|] eqn:E; [|congruence]. exists t. split; [reflexivity|]. exact (ak_resolved s O n t E).
  - rewrite Q in P. now cbn in P.
  - rewrite Q in P. discriminate.
  - exfalso. exact (N j P).
Qed.

(* some goroutine can always go on *)
Theorem alias_no_deadlock acts s : arun (ainit m0) acts = Some s -> (exists i, a_pc s i <> PIdle) -> exists a s', goes_on a /\ astep s a = Some s'.
Proof.
  intros H [i Hi]. destruct (arun_ok acts _ _ alias_init H) as [O _].
  assert (M : forall j, holds (a_pc s j) = true -> exists a s', goes_on a /\ astep s a = Some s').
  { intros j Hj. exists (AGo j). cbn [astep]. unfold astep_at. destruct (a_pc s j) as [| |b|b added|b added|m added|[added|]]; try discriminate.
    - destruct (alias_update (a_map s) added b); eexists; split; cbn; eauto.
    - eexists. split; cbn; eauto.
    - eexists. split; cbn; eauto.
    - eexists. split; cbn; eauto. }
  destruct (a_lock s) as [j|] eqn:L; [apply (M j), (ak_lock s O), L|].
  destruct (a_pc s i) as [| |b|b added|b added|m added|o] eqn:P; [congruence| | | | | |].
  - exists (AGo i). eexists. split; [exact Logic.I|]. cbn. unfold astep_at. now rewrite P.
  - exists (AAdder i None). eexists. split; [exact Logic.I|]. cbn. now rewrite P.
  - exists (AGo i). eexists. split; [exact Logic.I|]. cbn. unfold astep_at. now rewrite P, L.
  - apply (M i). now rewrite P.
  - apply (M i). now rewrite P.
  - apply (M i). now rewrite P.
Qed.

(* an update that panics changes nothing and gives the lock back *)
Theorem alias_panic_harmless s i s' : a_pc s i = PUnlock None -> astep s (AGo i) = Some s' ->
  a_map s' = a_map s /\ a_lock s' = None /\ a_log s' = EAddPanic i :: a_log s.
Proof. intros P H. cbn in H. unfold astep_at in H. rewrite P in H. injection H as <-. auto. Qed.
End From.
