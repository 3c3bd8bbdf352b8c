(* Proofs about equality of entries. *)
From Coq Require Import ZArith List Bool Lia.
From Verif Require Import Int64 HMap MutKeysProofs EntryEq EntryEqSpec.
Import ListNotations.
Open Scope Z_scope.

Section P.
Variables (L : Type) (leq : L -> L -> bool) (lhash : L -> Z).
Notation eq := (equals L leq).

Lemma equals_means a : forall b, eq a b = true <-> means L leq a b.
Proof.
  induction a as [x|k IHk v IHv|r k IHk v IHv]; intros b.
  - destruct b; cbn; split; intros H; try discriminate; try (now constructor); now inversion H.
  - destruct b as [y|k' v'|r' k' v']; cbn [equals as_entry].
    + split; intros H; [discriminate|inversion H].
    + rewrite andb_true_iff, IHk, IHv. split; [intros []; now constructor|intros H; inversion H; auto].
    + rewrite andb_true_iff, IHk, IHv. split; [intros []; now constructor|intros H; inversion H; auto].
  - destruct b as [y|k' v'|r' k' v']; cbn [equals as_struct_entry]; try (split; intros H; [discriminate|inversion H]).
    rewrite !andb_true_iff, IHk, IHv, eqb_true_iff. split; [intros [[-> ] ]; now constructor|intros H; inversion H; auto].
Qed.
Lemma equals_refl : (forall x, leq x x = true) -> forall a, eq a a = true.
Proof. intros R. induction a as [x|k IHk v IHv|r k IHk v IHv]; cbn; rewrite ?IHk, ?IHv, ?eqb_reflx; auto. Qed.
Lemma means_trans : (forall x y z, leq x y = true -> leq y z = true -> leq x z = true) -> forall a b, means L leq a b -> forall c, means L leq b c -> means L leq a c.
Proof. intros T a b H. induction H; intros c Hc; inversion Hc; subst; constructor; eauto. Qed.
Lemma equals_trans : (forall x y z, leq x y = true -> leq y z = true -> leq x z = true) -> forall a b c, eq a b = true -> eq b c = true -> eq a c = true.
Proof. intros T a b c. rewrite !equals_means. intros H1 H2. eapply means_trans; eauto. Qed.
Lemma means_hash : (forall x y, leq x y = true -> lhash x = lhash y) -> forall a b, means L leq a b -> hash_code L lhash a = hash_code L lhash b.
Proof. intros C a b H. induction H; cbn; try congruence. auto. Qed.
Lemma equals_hash : (forall x y, leq x y = true -> lhash x = lhash y) -> forall a b, eq a b = true -> hash_code L lhash a = hash_code L lhash b.
Proof. intros C a b. rewrite equals_means. now apply means_hash. Qed.
Lemma means_sym : (forall x y, leq x y = true -> leq y x = true) -> forall a b, means L leq a b -> (means L leq b a <-> same_kinds L a b).
Proof.
  intros S0 a b H. induction H as [x y E|k v k' v' H1 I1 H2 I2|k v r k' v' H1 I1 H2 I2|r k v k' v' H1 I1 H2 I2]; split; intros Q; inversion Q; subst; try (constructor; tauto).
  - constructor. auto.
Qed.
Lemma equals_sym : (forall x y, leq x y = true -> leq y x = true) -> forall a b, eq a b = true -> (eq b a = true <-> same_kinds L a b).
Proof. intros S0 a b. rewrite !equals_means. now apply means_sym. Qed.

Variables (lfrozen : L -> bool) (lcopy : L -> L).
Notation copy := (frozen_copy L lfrozen lcopy).
Lemma copy_equals : (forall x, leq x x = true) -> (forall x, leq (lcopy x) x = true) -> forall a, eq (copy a) a = true.
Proof.
  intros R C. induction a as [x|k IHk v IHv|r k IHk v IHv]; cbn [frozen_copy equals as_entry].
  - destruct (lfrozen x); auto.
  - rewrite (equals_refl R k). destruct (frozen L lfrozen v); [now rewrite (equals_refl R v)|now rewrite IHv].
  - rewrite (equals_refl R k). destruct (frozen L lfrozen v); [now rewrite (equals_refl R v)|now rewrite IHv].
Qed.
Lemma equals_copy : (forall x, leq x x = true) -> (forall x, leq x (lcopy x) = true) -> forall a, plain L a -> eq a (copy a) = true.
Proof.
  intros R C. induction a as [x|k IHk v IHv|r k IHk v IHv]; cbn [frozen_copy equals as_entry plain]; intros Pl; [| |contradiction].
  - destruct (lfrozen x); auto.
  - rewrite (equals_refl R k). destruct (frozen L lfrozen v); [now rewrite (equals_refl R v)|now rewrite IHv].
Qed.
Lemma copy_frozen : (forall x, lfrozen (lcopy x) = true) -> forall a, frozen L lfrozen (copy a) = true.
Proof.
  intros F. induction a as [x|k IHk v IHv|r k IHk v IHv]; cbn [frozen_copy frozen].
  - destruct (lfrozen x) eqn:E; auto.
  - destruct (frozen L lfrozen v) eqn:E; auto.
  - destruct (frozen L lfrozen v) eqn:E; auto.
Qed.
Lemma frozen_constant a : constant_keys L lfrozen a -> (frozen L lfrozen a = true <-> constant L lfrozen a).
Proof. induction a as [x|k IHk v IHv|r k IHk v IHv]; cbn; [intros _; reflexivity| |]; intros [Hk Hv]; specialize (IHv Hv); clear -Hk IHv; tauto. Qed.
Lemma copy_constant : (forall x, lfrozen (lcopy x) = true) -> forall a, constant_keys L lfrozen a -> constant L lfrozen (copy a).
Proof.
  intros F. induction a as [x|k IHk v IHv|r k IHk v IHv]; cbn [constant_keys frozen_copy constant]; intros K.
  - destruct (lfrozen x) eqn:E; auto.
  - destruct K as [Hk Hv]. split; [exact Hk|]. destruct (frozen L lfrozen v) eqn:E; [now apply frozen_constant|auto].
  - destruct K as [Hk Hv]. split; [exact Hk|]. destruct (frozen L lfrozen v) eqn:E; [now apply frozen_constant|auto].
Qed.
Lemma struct_copy r k v a : eq (StructE r k v) (copy a) = false.
Proof. destruct a; reflexivity. Qed.

Variable V : Type.
Notation node := (node (value L) V).
Definition copied (k : value L) : Prop := exists a, k = copy a.
Notation putE := (put L leq lhash lfrozen lcopy V).
Notation putsE := (puts L leq lhash lfrozen lcopy V).
Notation hc := (hash_code L lhash).
Lemma put_keys s g k v s' g' o : keys_of (value L) V copied s -> putE s g k v = Some (s', g', o) -> keys_of (value L) V copied s'.
Proof.
  intros H E. unfold put in E. cbv zeta in E. set (g1 := match htbl g with [] => _ | _ => g end) in E. destruct (nth_error (htbl g1) _) as [e|]; [|discriminate].
  destruct (find_chain _ _ _ _ _ _ _) as [[i|]|]; [| |discriminate].
  - destruct (nth_error s i) as [nd|] eqn:N; [|discriminate]. injection E as <- _ _. apply upd_keys; [exact H|]. exact (nth_key _ _ copied s i nd H N).
  - destruct (over_load _ _).
    + destruct (hresize (value L) V hc s g1 g1 1) as [[s1 g2]|] eqn:Z1; [|discriminate]. destruct (append_node _ _ _ _ _ _ _) as [[s2 g3]|] eqn:A; [|discriminate]. injection E as <- _ _.
      eapply (append_keys _ _ hc copied); [|exists k; reflexivity|exact A]. eapply (hresize_same _ _ hc hc copied (fun _ _ => eq_refl)); [exact H|exact Z1].
    + destruct (append_node _ _ _ _ _ _ _) as [[s2 g3]|] eqn:A; [|discriminate]. injection E as <- _ _. eapply (append_keys _ _ hc copied); [exact H|exists k; reflexivity|exact A].
Qed.
Lemma puts_keys l : forall s g s' g', keys_of (value L) V copied s -> putsE s g l = Some (s', g') -> keys_of (value L) V copied s'.
Proof.
  induction l as [|[k v] l IH]; intros s g s' g' H E; cbn [puts] in E; [now injection E as <- _|]. destruct (putE s g k v) as [[[s1 g1] o]|] eqn:P1; [|discriminate]. eapply IH; [|exact E]. eapply put_keys; eauto.
Qed.
Lemma find_struct s r k v : keys_of (value L) V copied s -> forall fuel e i, find_chain (value L) V eq fuel s (StructE r k v) e <> Some (Some i).
Proof.
  intros H. induction fuel as [|fuel IH]; intros [j|] i; cbn [find_chain]; try discriminate. destruct (nth_error s j) as [nd|] eqn:N; [|discriminate]. destruct (nth_key _ _ copied s j nd H N) as [a ->]. rewrite struct_copy. apply IH.
Qed.
Lemma get_struct l cap s g : putsE [] (new_with_capacity cap) l = Some (s, g) -> forall r k v x, hget (value L) V eq hc s g (StructE r k v) <> Some (Some x).
Proof.
  intros E r k v x. apply puts_keys in E; [|constructor]. unfold hget. destruct (htbl g); [discriminate|]. destruct (nth_error _ _); [|discriminate]. pose proof (find_struct s r k v E (fuel_of s) o0) as N. destruct (find_chain _ _ _ _ _ _ _) as [[i|]|]; [|discriminate|discriminate]. now destruct (N i).
Qed.
Lemma put_struct l cap s g : putsE [] (new_with_capacity cap) l = Some (s, g) -> forall r k v x s' g' o, putE s g (StructE r k v) x = Some (s', g', o) -> o = None.
Proof.
  intros E r k v x s' g' o P1. apply puts_keys in E; [|constructor]. unfold put in P1. cbv zeta in P1. set (g1 := match htbl g with [] => _ | _ => g end) in P1. destruct (nth_error (htbl g1) _) as [e|]; [|discriminate].
  pose proof (find_struct s r k v E (fuel_of s) e) as N. destruct (find_chain _ _ _ _ _ _ _) as [[i|]|]; [now destruct (N i)| |discriminate].
  destruct (if over_load _ _ then _ else _) as [[s1 g2]|]; [|discriminate]. destruct (append_node _ _ _ _ _ _ _) as [[s2 g3]|]; [|discriminate]. now injection P1 as _ _ <-.
Qed.
End P.
