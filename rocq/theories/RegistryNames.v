(* The names of types in alias maps: /repo/internal/alias.go:159-188. *)
From Coq Require Import ZArith List Bool Lia.
From Verif Require Import Data DataProofs Loader LoaderProofs Registry RegistrySpec RegistryProofs.
Import ListNotations.

Lemma atype_eqb_refl t : atype_eqb t t = true.
Proof. destruct t; cbn; [now apply bytes_eqb_eq|apply Z.eqb_refl]. Qed.
Lemma atype_eqb_trans a b c : atype_eqb a b = true -> atype_eqb a c = atype_eqb b c.
Proof.
  destruct a, b, c; cbn; try discriminate; try reflexivity; intros H.
  - apply bytes_eqb_eq in H. now subst.
  - apply Z.eqb_eq in H. now subst.
Qed.
Lemma atype_eqb_sym a b : atype_eqb a b = atype_eqb b a.
Proof.
  destruct (atype_eqb a b) eqn:E; symmetry.
  - rewrite <- (atype_eqb_trans _ _ a E). apply atype_eqb_refl.
  - destruct (atype_eqb b a) eqn:F; [|reflexivity]. rewrite <- (atype_eqb_trans _ _ b F), atype_eqb_refl in E. discriminate.
Qed.
Lemma get_put {A} (m : list (atype * A)) t v t' : get_type (put_type m t v) t' = if atype_eqb t t' then Some v else get_type m t'.
Proof.
  induction m as [|[k x] m IH]; cbn [put_type get_type]; [reflexivity|]. destruct (atype_eqb k t) eqn:E; cbn [get_type].
  - rewrite (atype_eqb_trans _ _ t' E). now destruct (atype_eqb t t').
  - rewrite IH. destruct (atype_eqb k t') eqn:K; [|reflexivity]. destruct (atype_eqb t t') eqn:T; [|reflexivity].
    rewrite (atype_eqb_trans _ _ t K), atype_eqb_sym, T in E. discriminate.
Qed.
Lemma type_alike a b : atype_eqb a b = true -> is_type a -> is_type b.
Proof. destruct a, b; cbn; auto; discriminate. Qed.
Lemma key_put_keeps {A} (m : list (name * A)) k v n : get_key m n <> None -> get_key (put_key m k v) n <> None.
Proof.
  intros H. destruct (bytes_eqb n k) eqn:E.
  - apply bytes_eqb_eq in E as ->. rewrite get_put_same. discriminate.
  - rewrite get_put_other; [assumption|]. intros ->. rewrite (proj2 (bytes_eqb_eq k k) eq_refl) in E. discriminate.
Qed.
Lemma put_named rs : Forall (fun e => is_type (snd e)) rs -> forall m, named_both_ways m -> named_both_ways (put_all m rs).
Proof.
  induction 1 as [|[n t] rs Ht F IH]; intros m [A B]; cbn [put_all]; [now split|]. cbn [snd] in Ht. apply IH. split; unfold alias_name, alias_type in *; cbn [type_names named_types].
  - intros n0 t0 E. destruct (bytes_eqb n0 n) eqn:N.
    + apply bytes_eqb_eq in N as ->. rewrite get_put_same in E. injection E as <-. rewrite get_put, atype_eqb_refl. eauto.
    + rewrite get_put_other in E by (intros ->; rewrite (proj2 (bytes_eqb_eq n n) eq_refl) in N; discriminate). rewrite get_put. destruct (atype_eqb t t0); eauto.
  - intros t0 n0 E. rewrite get_put in E. destruct (atype_eqb t t0) eqn:T.
    + injection E as <-. split; [exact (type_alike _ _ T Ht)|]. rewrite get_put_same. discriminate.
    + destruct (B t0 n0 E) as [Ti K]. split; [exact Ti|now apply key_put_keeps].
Qed.
Lemma update_named m added b m' : named_both_ways m -> alias_update m added b = Some m' -> named_both_ways m'.
Proof.
  intros N. unfold alias_update. destruct (replace_all added added b) as [rs|]; [|discriminate]. destruct (freezable rs) eqn:F; [|discriminate]. intros [= <-].
  apply put_named; [|exact N]. unfold freezable in F. rewrite forallb_forall in F. apply Forall_forall. intros [n t] I. specialize (F _ I). cbn in *. destruct t; [discriminate|exact Logic.I].
Qed.
Definition names_ok (s : astate) : Prop := named_both_ways (a_map s) /\ forall i m added, a_pc s i = PWrite m added -> named_both_ways m.
Lemma step_names s a s' : names_ok s -> astep s a = Some s' -> names_ok s'.
Proof.
  intros [M P] H.
  assert (G : forall s1 i p, a_map s1 = a_map s -> a_pc s1 = a_pc s -> (forall m added, p = PWrite m added -> named_both_ways m) -> names_ok (agoto s1 i p)).
  { intros s1 i p E1 E2 Q. split; cbn; [now rewrite E1|]. intros j m added. rewrite E2. destruct (Nat.eqb j i); [apply Q|apply P]. }
  destruct a as [i|i adds|i]; cbn [astep] in H.
  - destruct (a_pc s i); try discriminate. injection H as <-. apply G; easy.
  - destruct (a_pc s i); try discriminate. destruct adds as [adds|]; [|injection H as <-; apply G; easy]. destruct (add_all [] adds); injection H as <-; apply G; easy.
  - unfold astep_at in H. destruct (a_pc s i) as [| |b|b added|b added|m added|[added|]] eqn:Pi; try discriminate.
    + injection H as <-. apply G; easy.
    + destruct (a_lock s); [discriminate|]. injection H as <-. apply G; easy.
    + destruct (alias_update (a_map s) added b) as [m|] eqn:E; injection H as <-; apply G; try easy. intros m' added' [= <- <-]. exact (update_named _ _ _ _ M E).
    + injection H as <-. split; cbn; [exact (P i m added Pi)|]. intros j m' added'. destruct (Nat.eqb j i); [discriminate|apply P].
    + injection H as <-. apply G; easy.
    + injection H as <-. apply G; easy.
Qed.
Theorem alias_names m0 : named_both_ways m0 -> forall acts s, arun (ainit m0) acts = Some s -> named_both_ways (a_map s).
Proof.
  intros N acts. assert (names_ok (ainit m0)) as O by (split; [exact N|discriminate]). revert O. generalize (ainit m0). induction acts as [|a acts IH]; intros s0 O s H; cbn [arun] in H.
  - injection H as <-. apply O.
  - destruct (astep s0 a) as [s1|] eqn:E; [|discriminate]. exact (IH s1 (step_names _ _ _ O E) s H).
Qed.
