(* Proofs about struct types made from maps. *)
From Coq Require Import ZArith List Bool Lia.
From Verif Require Import Int64 HMap HMapBase HMapInv Data DataSpec DataProofs Types TypesSpec Construct ConstructSpec ConstructProofs StructFrom StructFromSpec.
Import ListNotations.
Open Scope Z_scope.

Section Proofs.
Variable parses : list Z -> bool.
Variable parse : list Z -> parsed.

Lemma source_gives q d : is_source parses d = true -> gives parses parse q d (as_type parse q d).
Proof.
  destruct d as [s|t|fs|v]; cbn; try discriminate; [|intros _; constructor]. intros H. apply andb_true_iff in H as [H1 H2].
  assert (s <> []) by (intros ->; discriminate). destruct (parse s) eqn:E; [now apply GivesText|now apply GivesValue].
Qed.
Lemma gives_source q d t : gives parses parse q d t -> is_source parses d = true /\ as_type parse q d = t.
Proof. intros H. destruct H as [t|s t H1 H2 H3|s v H1 H2 H3]; cbn; auto; rewrite H2, H3; destruct s; cbn; auto; now destruct H1. Qed.

Lemma field_some fs k d : field fs k = Some d <-> entry_is fs k d.
Proof.
  induction fs as [|[k' d'] r IH]; cbn [field]; split.
  - discriminate.
  - intros (a & b & E & _). destruct a; discriminate.
  - destruct (bytes_eqb k' k) eqn:B.
    + apply bytes_eqb_eq in B. intros [= ->]. subst k'. exists [], r. split; [reflexivity|intros []].
    + intros H. apply IH in H as (a & b & -> & N). exists ((k', d') :: a), b. split; [reflexivity|]. cbn. intros [<-|I']; [|auto].
      assert (bytes_eqb k' k' = true) by now apply bytes_eqb_eq. congruence.
  - intros (a & b & E & N). destruct a as [|x a]; cbn [app] in E; injection E as Ex Er.
    + inversion Ex; subst. assert (B : bytes_eqb k k = true) by now apply bytes_eqb_eq. now rewrite B.
    + subst x. cbn in N. destruct (bytes_eqb k' k) eqn:B; [apply bytes_eqb_eq in B; now destruct N; left|]. apply IH. exists a, b. auto.
Qed.
Lemma field_none fs k : field fs k = None <-> no_entry fs k.
Proof.
  unfold no_entry. induction fs as [|[k' d'] r IH]; cbn; [intuition|]. destruct (bytes_eqb k' k) eqn:B.
  - apply bytes_eqb_eq in B. split; [discriminate|]. intros N. now destruct N; left.
  - rewrite IH. assert (k' <> k) by (intros ->; assert (bytes_eqb k k = true) by (now apply bytes_eqb_eq); congruence). intuition.
Qed.
Lemma key_type : k_type = type_key. Proof. reflexivity. Qed.
Lemma key_required : k_required = required_key. Proof. reflexivity. Qed.

Lemma legal_described q e : legal_entry parses e = true <-> exists x, entry_described parses parse q e x.
Proof.
  destruct e as [k d]. unfold legal_entry. cbn [fst snd]. split.
  - destruct k; try discriminate. intros H. apply orb_true_iff in H as [H|H].
    + eexists. constructor. constructor. now apply source_gives.
    + destruct d as [| |fs|]; try discriminate. cbn in H. destruct (field fs type_key) as [d|] eqn:E1; [|discriminate]. apply andb_true_iff in H as [H1 H2]. apply (source_gives q) in H1.
      destruct (field fs required_key) as [[| | |[]]|] eqn:E2; try discriminate; eexists; constructor; [eapply DescRequired|eapply DescMap]; rewrite ?key_type, ?key_required; rewrite <- ?field_some, <- ?field_none; eauto.
  - intros [x H]. inversion H as [s d' t r D]; subst. destruct D as [d t G|fs d t E G R|fs d t b E G R]; apply gives_source in G as [G _]; rewrite ?key_type, ?key_required, <- ?field_some, <- ?field_none in *.
    + now rewrite G.
    + cbn [is_source is_spec]. rewrite E, G, R. reflexivity.
    + cbn [is_source is_spec]. rewrite E, G, R. reflexivity.
Qed.

Lemma from_entry_given q e x exact : entry_described parses parse q e x ->
  from_entry parse q e exact = (exact && (snd x && is_exact (snd (fst x))), given q x).
Proof.
  intros H. destruct H as [s d t r D]. unfold from_entry, given. cbn [fst snd].
  assert (KE : is_exact (type_of q (VStr s)) = true) by reflexivity.
  destruct D as [d t G|fs d t E G R|fs d t b E G R]; pose proof (gives_source q d t G) as [G1 G2]; rewrite ?key_type, ?key_required, <- ?field_some, <- ?field_none in *.
  - destruct d; try discriminate; rewrite G2, KE; destruct exact, (is_exact t); reflexivity.
  - rewrite E, R, G2, KE; destruct exact, (is_exact t); reflexivity.
  - rewrite E, R, G2, KE; destruct exact, b, (is_exact t); reflexivity.
Qed.
Lemma from_entries_given q es xs : Forall2 (entry_described parses parse q) es xs -> forall exact,
  from_entries parse q es exact = (exact && forallb (fun x : value * ty * bool => snd x && is_exact (snd (fst x))) xs, map (given q) xs).
Proof.
  induction 1 as [|e x es xs H _ IH]; intros exact; cbn [from_entries forallb map]; [now rewrite andb_true_r|].
  rewrite (from_entry_given q e x exact H), IH. f_equal. symmetry. apply andb_assoc.
Qed.

Lemma given_string q e x : entry_described parses parse q e x -> is_exact (fst (fst (given q x))) = true.
Proof. intros H. destruct H. reflexivity. Qed.
Lemma given_exact q es xs : Forall2 (entry_described parses parse q) es xs ->
  forallb (fun e : ty * ty * bool => snd e && is_exact (fst (fst e)) && is_exact (snd (fst e))) (map (given q) xs) = forallb (fun x : value * ty * bool => snd x && is_exact (snd (fst x))) xs.
Proof.
  induction 1 as [|e x es xs H _ IH]; [reflexivity|]. cbn [map forallb]. rewrite IH. f_equal. destruct H as [s d t r D]. cbn. now rewrite andb_true_r.
Qed.

Lemma from_map_is_struct p q additional es xs : Forall2 (entry_described parses parse q) es xs ->
  struct_from_map parses parse p q additional es = match struct_map_type p additional (map (given q) xs) with Some t => FType t | None => FBroken end.
Proof.
  intros H. unfold struct_from_map, struct_map_type.
  assert (L : forallb (legal_entry parses) es = true).
  { apply forallb_forall. intros e Ie. apply (legal_described q). clear - H Ie. induction H; [destruct Ie|]. destruct Ie as [->|Ie]; eauto. }
  rewrite L. cbn [negb]. rewrite (from_entries_given q es xs H). rewrite (given_exact q es xs H). destruct (negb additional && _).
  - destruct (exact_map _ _); reflexivity.
  - destruct (forallb _ (map (given q) xs)); [|reflexivity]. destruct (exact_values _); reflexivity.
Qed.

Lemma struct_from_illegal p q additional es : struct_from_map parses parse p q additional es = FIllegal <-> ~ exists xs, Forall2 (entry_described parses parse q) es xs.
Proof.
  assert (L : forallb (legal_entry parses) es = true <-> exists xs, Forall2 (entry_described parses parse q) es xs).
  { induction es as [|e es IH]; cbn [forallb]; [split; eauto|]. rewrite andb_true_iff, IH, (legal_described q). split.
    - intros [[x H1] [xs H2]]. eauto.
    - intros [xs H]. inversion H; subst. eauto. }
  split.
  - intros E [xs H]. rewrite (from_map_is_struct p q additional es xs H) in E. destruct (struct_map_type _ _ _); discriminate.
  - intros N. unfold struct_from_map. destruct (forallb (legal_entry parses) es) eqn:E; [|reflexivity]. destruct N; now apply L.
Qed.

Lemma exact_not_nil t : is_exact t = true -> t <> TNil -> exists q v, t = TExact q v.
Proof. destruct t; intros H N; try (vm_compute in H; discriminate); [now destruct N|eauto]. Qed.
Lemma exact_map_some q es xs : Forall2 (entry_described parses parse q) es xs -> forallb (fun x : value * ty * bool => snd x && is_exact (snd (fst x))) xs = true ->
  Forall (fun x : value * ty * bool => snd (fst x) <> TNil) xs -> forall m, exact_map (map (given q) xs) m <> None.
Proof.
  induction 1 as [|e x es xs H _ IH]; intros E N m; cbn [map exact_map]; [discriminate|]. cbn [forallb] in E. apply andb_true_iff in E as [E1 E]. apply Forall_cons_iff in N as [N1 N].
  destruct H as [s d t r D]. cbn [fst snd given] in *. apply andb_true_iff in E1 as [_ E1]. destruct (exact_not_nil t E1 N1) as (q' & v & ->). cbn. now apply IH.
Qed.
Lemma exact_map_none q es xs : Forall2 (entry_described parses parse q) es xs -> Exists (fun x : value * ty * bool => snd (fst x) = TNil) xs -> forall m, exact_map (map (given q) xs) m = None.
Proof.
  induction 1 as [|e x es xs H _ IH]; intros N m; cbn [map exact_map]; [inversion N|]. destruct H as [s d t r D]. cbn [given fst snd type_of exact_value]. apply Exists_cons in N as [N|N].
  - cbn in N. subst t. reflexivity.
  - destruct (exact_value t); [now apply IH|reflexivity].
Qed.
Lemma string_keys q es xs : Forall2 (entry_described parses parse q) es xs -> forallb (fun e : ty * ty * bool => is_exact (fst (fst e))) (map (given q) xs) = true /\
  exact_values (map (fun e : ty * ty * bool => fst (fst e)) (map (given q) xs)) <> None.
Proof.
  induction 1 as [|e x es xs H _ [IH1 IH2]]; [split; [reflexivity|discriminate]|]. destruct H as [s d t r D]. cbn [map forallb given fst snd type_of exact_values exact_value].
  split; [rewrite IH1; reflexivity|]. destruct (exact_values _); [discriminate|congruence].
Qed.

Lemma struct_from_broken p q additional es xs : Forall2 (entry_described parses parse q) es xs ->
  struct_from_map parses parse p q additional es = FBroken <-> nil_constant additional xs.
Proof.
  intros H. rewrite (from_map_is_struct p q additional es xs H). unfold struct_map_type. rewrite (given_exact q es xs H).
  destruct (string_keys q es xs H) as [K1 K2]. rewrite K1.
  assert (EX : forallb (fun x : value * ty * bool => snd x && is_exact (snd (fst x))) xs = true <-> Forall (fun x : value * ty * bool => snd x = true /\ is_exact (snd (fst x)) = true) xs).
  { rewrite forallb_forall, Forall_forall. split; intros G x Ix; specialize (G x Ix); now apply andb_true_iff. }
  unfold nil_constant. rewrite <- EX. destruct (forallb (fun x : value * ty * bool => snd x && is_exact (snd (fst x))) xs) eqn:E.
  - destruct additional; cbn [negb andb].
    + destruct (exact_values _); [split; [discriminate|intros [? _]; discriminate]|congruence].
    + destruct (Exists_dec (fun x : value * ty * bool => snd (fst x) = TNil) xs) as [N|N].
      { intros [[k t] r]. cbn. destruct t; (now left) || (right; discriminate). }
      * rewrite (exact_map_none q es xs H N). split; auto.
      * assert (N' : Forall (fun x : value * ty * bool => snd (fst x) <> TNil) xs) by (apply Forall_Exists_neg in N; exact N).
        pose proof (exact_map_some q es xs H E N' []) as S. destruct (exact_map _ []); [|congruence]. split; [discriminate|]. intros (_ & _ & X). now destruct N.
  - rewrite andb_false_r. destruct (exact_values _); [split; [discriminate|intros (_ & ? & _); discriminate]|congruence].
Qed.

Lemma keys_wf q es xs : Forall2 (entry_described parses parse q) es xs -> Forall (fun x : value * ty * bool => type_ok (snd (fst x))) xs ->
  Forall (fun x : value * ty * bool => wf (fst (fst x)) /\ type_ok (snd (fst x))) xs.
Proof.
  induction 1 as [|e x es xs H _ IH]; intros T; [constructor|]. apply Forall_cons_iff in T as [T1 T]. constructor; [|auto]. split; [|exact T1]. destruct H. cbn. constructor.
Qed.
Lemma keys_different q es xs : Forall2 (entry_described parses parse q) es xs -> NoDup (map fst es) -> ForallOrdPairs (fun e e' : value * ty * bool => veq (fst (fst e)) (fst (fst e')) = false) xs.
Proof.
  induction 1 as [|e x es xs H HF IH]; intros N; [constructor|]. cbn [map] in N. apply NoDup_cons_iff in N as [N1 N]. constructor; [|auto].
  clear IH N. apply Forall_forall. intros y Iy. destruct H as [s d t r D]. cbn [fst snd] in *. 
  assert (Q : exists e', In e' es /\ fst e' = fst (fst y) /\ exists s', fst e' = VStr s').
  { clear - HF Iy. induction HF as [|e' y' es xs H HF IH]; [destruct Iy|]. destruct Iy as [->|Iy].
    - exists e'. split; [now left|]. destruct H. cbn. eauto.
    - destruct (IH Iy) as (e1 & I1 & E1). exists e1. split; [now right|exact E1]. }
  destruct Q as (e' & I' & E' & s' & E''). rewrite <- E', E''. cbn. destruct (bytes_eqb s s') eqn:B; [|reflexivity]. apply bytes_eqb_eq in B. subst s'. destruct N1. apply in_map_iff. exists e'. auto.
Qed.

Lemma struct_from_accepts W p q additional es xs : Forall2 (entry_described parses parse q) es xs -> NoDup (map fst es) -> Forall (fun x : value * ty * bool => type_ok (snd (fst x))) xs ->
  ~ nil_constant additional xs ->
  exists t, struct_from_map parses parse p q additional es = FType t /\
  accepts W t (fun v => exists m, v = VMap m /\
   Forall (fun x : value * ty * bool => match assoc veq m (fst (fst x)) with Some y => has_type W (snd (fst x)) y | None => snd x = false end) xs /\
   (additional = true \/ forall k y, In (k, y) m -> exists x, In x xs /\ veq (fst (fst x)) k = true)).
Proof.
  intros H ND T NC. pose proof (struct_from_broken p q additional es xs H) as B. rewrite (from_map_is_struct p q additional es xs H) in *.
  destruct (struct_map_type p additional (map (given q) xs)) as [t|] eqn:E; [|destruct NC; now apply B].
  exists t. split; [reflexivity|]. eapply struct_map_type_accepts; [eapply keys_wf; eauto|eapply keys_different; eauto|exact E].
Qed.
End Proofs.
