(* Go structs as maps. *)
From Coq Require Import ZArith List Bool Arith Lia.
From Coq Require Import Sorting.Permutation.
From Verif Require Import Int64 InstProofs Data DataSpec DataProofs Reflect ReflectSpec ReflectProofs Struct StructSpec.
Import ListNotations.

Lemma vstr_eq a b : veq (VStr a) (VStr b) = true <-> a = b.
Proof. cbn. apply bytes_eqb_eq. Qed.
Lemma vstr_neq a b : a <> b -> veq (VStr a) (VStr b) = false.
Proof. intros N. destruct (veq (VStr a) (VStr b)) eqn:E; [|reflexivity]. now apply vstr_eq in E. Qed.
Lemma bytes_refl s : bytes_eqb s s = true. Proof. now apply bytes_eqb_eq. Qed.

(* ---------- index ---------- *)

Lemma index_some {A} (p : A -> bool) l i : index p l = Some i -> exists x, nth_error l i = Some x /\ p x = true.
Proof.
  revert i. induction l as [|x l IH]; intros i H; cbn in H; [discriminate|]. destruct (p x) eqn:E; [injection H as <-; exists x; auto|].
  destruct (index p l) as [j|]; [|discriminate]. injection H as <-. cbn. eauto.
Qed.
Lemma index_none {A} (p : A -> bool) l : index p l = None -> Forall (fun x => p x = false) l.
Proof. induction l as [|x l IH]; intros H; [constructor|]. cbn in H. destruct (p x) eqn:E; [discriminate|]. destruct (index p l); [discriminate|]. auto. Qed.
Lemma index_name fs n : index (fun f => bytes_eqb n (name_of f)) fs = match find (fun f => bytes_eqb n (name_of f)) fs with Some _ => index (fun f => bytes_eqb n (name_of f)) fs | None => None end.
Proof.
  destruct (find _ _) eqn:F; [reflexivity|]. destruct (index _ _) eqn:E; [|reflexivity]. apply index_some in E as (x & Hx & Ex). apply nth_error_In in Hx. apply (find_none _ _ F) in Hx. congruence.
Qed.
Lemma promoted_flat fs n i : flat fs -> promoted n i fs = [].
Proof.
  intros [F _]. revert i. induction F as [|f fs Hf F IH]; intros i; [reflexivity|]. destruct f as [p|m ps]; [|contradiction]. cbn. apply IH.
Qed.
Lemma nth_unique {A B} (f : A -> B) l i j x y : NoDup (map f l) -> nth_error l i = Some x -> nth_error l j = Some y -> f x = f y -> i = j.
Proof.
  intros N Hi Hj E. rewrite NoDup_nth_error in N. apply N.
  - rewrite map_length. apply nth_error_Some. congruence.
  - now rewrite (map_nth_error f _ _ Hi), (map_nth_error f _ _ Hj), E.
Qed.

Section Proofs.
Variable arrange : list (value * value) -> list (value * value).
Notation value_at := (value_at arrange).
Notation field_value := (field_value arrange).
Notation entries := (entries arrange).
Notation get := (get arrange).

(* finding a field of a flat struct *)
Lemma by_name_flat fs n : flat fs ->
  (exists i f, field_by_name fs n = Some (Top i) /\ nth_error fs i = Some f /\ name_of f = n) \/ (field_by_name fs n = None /\ ~ In n (map name_of fs)).
Proof.
  intros F. unfold field_by_name. destruct (index _ fs) as [i|] eqn:E.
  - left. apply index_some in E as (f & Hf & E). apply bytes_eqb_eq in E. exists i, f. auto.
  - right. rewrite (promoted_flat fs n 0 F). split; [reflexivity|]. apply index_none in E. intros H. apply in_map_iff in H as (f & <- & Hf). rewrite Forall_forall in E. specialize (E _ Hf). cbn in E. rewrite bytes_refl in E. discriminate.
Qed.
Lemma by_name_found fs i f : flat fs -> nth_error fs i = Some f -> field_by_name fs (name_of f) = Some (Top i).
Proof.
  intros F H. destruct (by_name_flat fs (name_of f) F) as [(j & g & E & Hj & N)|[_ N]]; [|exfalso; apply N, in_map; eapply nth_error_In; eauto].
  rewrite E. do 2 f_equal. eapply nth_unique; eauto. apply F.
Qed.

Theorem lookup_entries s k : flat (fields s) ->
  (contains_key s k = true <-> In k (keys s)) /\ (forall r, get s k = Some r <-> In (k, r) (entries s)) /\ map fst (entries s) = keys s /\ length (keys s) = len s /\ NoDup (keys s).
Proof.
  intros F. assert (Ek : map fst (entries s) = keys s) by (unfold Struct.entries, keys; rewrite map_map; reflexivity).
  assert (K : forall n, In (VStr n) (keys s) <-> In n (map name_of (fields s))).
  { intros n. unfold keys. split; intros H; apply in_map_iff in H as (f & E & Hf); [injection E as <-; now apply in_map|subst n; apply (in_map (fun f => VStr (name_of f))); exact Hf]. }
  split; [|split; [|split; [exact Ek|split; [unfold keys, len; apply map_length|]]]].
  - unfold contains_key. destruct k as [ |b|z|f0|n|b|s0 s1 s2|b|u|l0|l0]; cbn [string_key]; try (split; [discriminate|unfold keys; intros H; apply in_map_iff in H as (f & E & _); discriminate]).
    destruct (by_name_flat (fields s) n F) as [(i & f & E & Hi & N)|[E N]]; rewrite E; rewrite K.
    + split; [intros _|reflexivity]. subst n. apply in_map. eapply nth_error_In; eauto.
    + split; [discriminate|contradiction].
  - intros r. unfold Struct.get. destruct k as [ |b|z|f0|n|b|s0 s1 s2|b|u|l0|l0]; cbn [string_key]; try (split; [discriminate|unfold Struct.entries; intros H; apply in_map_iff in H as (f & E & _); discriminate]).
    destruct (by_name_flat (fields s) n F) as [(i & f & E & Hi & N)|[E N]]; rewrite E.
    + cbn [Struct.value_at]. rewrite Hi. split.
      * intros [= <-]. unfold Struct.entries. rewrite <- N. apply (in_map (fun f => (VStr (name_of f), field_value f))). eapply nth_error_In; eauto.
      * intros H. unfold Struct.entries in H. apply in_map_iff in H as (g & [= E1 <-] & Hg). apply In_nth_error in Hg as (j & Hj). assert (i = j) by (eapply nth_unique; eauto; [apply F|congruence]). subst j. congruence.
    + split; [discriminate|]. intros H. exfalso. apply N, K. rewrite <- Ek. apply (in_map fst) in H. exact H.
  - unfold keys. rewrite <- (map_map name_of VStr). apply FinFun.Injective_map_NoDup; [intros a b [=]; auto|apply F].
Qed.

(* ---------- Put ---------- *)

Lemma set_nth_same {A} (l : list A) i x y : nth_error l i = Some y -> nth_error (set_nth l i x) i = Some x.
Proof. revert i. induction l as [|z l IH]; intros [|i] H; try discriminate; [reflexivity|]. cbn in *. eauto. Qed.
Lemma set_nth_other {A} (l : list A) i j x : i <> j -> nth_error (set_nth l i x) j = nth_error l j.
Proof. revert i j. induction l as [|z l IH]; intros [|i] [|j] H; try reflexivity; [congruence|]. cbn. apply IH. congruence. Qed.
Lemma set_nth_map {A B} (f : A -> B) l i x y : nth_error l i = Some y -> f x = f y -> map f (set_nth l i x) = map f l.
Proof. revert i. induction l as [|z l IH]; intros [|i] H E; try discriminate; cbn in *; [injection H as ->; congruence|f_equal; eauto]. Qed.
Lemma set_field_name f v f' : set_field f v = Some f' -> name_of f' = name_of f.
Proof. destruct f as [p|n ps]; cbn; [|destruct v; intros [= <-]; reflexivity]. unfold set_plain. destruct (to_go _ _); cbn; intros [= <-]. reflexivity. Qed.
Lemma set_field_flat f v f' : set_field f v = Some f' -> (match f with Plain _ => True | Embed _ _ => False end) -> match f' with Plain _ => True | Embed _ _ => False end.
Proof. destruct f as [p|n ps]; cbn; [|contradiction]. unfold set_plain. destruct (to_go _ _); cbn; intros [= <-]; auto. Qed.
Lemma set_nth_flat fs i f f' v : flat fs -> nth_error fs i = Some f -> set_field f v = Some f' -> flat (set_nth fs i f').
Proof.
  intros [F N] H E. split; [|rewrite (set_nth_map name_of _ _ _ _ H); auto; eapply set_field_name; eauto].
  assert (P : match f' with Plain _ => True | Embed _ _ => False end). { eapply set_field_flat; eauto. rewrite Forall_forall in F. apply F. eapply nth_error_In; eauto. }
  clear N E. revert i H. induction F as [|g fs Hg F IH]; intros [|i] H; try discriminate; cbn in *; constructor; eauto.
Qed.

(* what Put does to a flat struct *)
Lemma put_inv s k v s' : flat (fields s) -> put arrange s k v = Some s' ->
  exists i n t x y, k = VStr n /\ nth_error (fields s) i = Some (Plain (n, (t, x))) /\ to_go v t = Done y /\
    s' = Struct (set_nth (fields s) i (Plain (n, (t, y)))) true false /\ frozen s = false /\ settable s = true /\ flat (fields s').
Proof.
  intros F H. unfold put in H. destruct (frozen s) eqn:Ef; [discriminate|]. destruct k as [ |b|z|f0|n|b|s0 s1 s2|b|u|l0|l0]; cbn [string_key] in H; try discriminate.
  destruct (by_name_flat (fields s) n F) as [(i & f & E & Hi & N)|[E N]]; rewrite E in H; [|discriminate].
  destruct f as [[m [t x]]|m ps]; [|destruct F as [F _]; rewrite Forall_forall in F; now apply nth_error_In, F in Hi].
  cbn in N. subst m. cbn [Struct.value_at set_at] in H. rewrite Hi in H. assert (H1 : (if settable s then option_map (fun fs => Struct fs true false) (option_map (set_nth (fields s) i) (set_field (Plain (n, (t, x))) v)) else None) = Some s') by (destruct (field_value _); [exact H|discriminate|exact H]).
  destruct (settable s) eqn:Es; [|discriminate]. cbn [set_field] in H1. unfold set_plain in H1. cbn [fst snd] in H1. destruct (to_go v t) as [y| | ] eqn:Et; cbn in H1; try discriminate. injection H1 as <-.
  exists i, n, t, x, y. do 3 (split; [first [reflexivity|assumption]|]). split; [reflexivity|]. do 2 (split; [reflexivity|]). cbn [fields]. eapply (set_nth_flat _ _ _ _ v); eauto. cbn. unfold set_plain. cbn. now rewrite Et.
Qed.
Lemma get_at s i f : flat (fields s) -> nth_error (fields s) i = Some f -> get s (VStr (name_of f)) = Some (field_value f).
Proof. intros F H. unfold Struct.get. cbn [string_key]. rewrite (by_name_found _ _ _ F H). cbn [Struct.value_at]. now rewrite H. Qed.

Theorem put_frame s k v s' : flat (fields s) -> put arrange s k v = Some s' ->
  flat (fields s') /\ keys s' = keys s /\ (forall k', k' <> k -> get s' k' = get s k') /\ (exists t, field_type (fields s) k t /\ exists y, to_go v t = Done y /\ get s' k = Some (from_go arrange t y)).
Proof.
  intros F H. destruct (put_inv s k v s' F H) as (i & n & t & x & y & -> & Hi & Et & -> & _ & _ & F'). split; [exact F'|]. cbn [fields] in *.
  assert (En : map name_of (set_nth (fields s) i (Plain (n, (t, y)))) = map name_of (fields s)) by (eapply set_nth_map; eauto).
  split; [unfold keys; cbn [fields]; rewrite <- !(map_map name_of VStr), En; reflexivity|]. split.
  - intros k' Nk. unfold Struct.get. cbn [fields]. destruct k' as [ |b|z|f0|n'|b|s0 s1 s2|b|u|l0|l0]; cbn [string_key]; try reflexivity. assert (Nn : n' <> n) by congruence.
    destruct (by_name_flat (fields s) n' F) as [(j & f & E & Hj & N)|[E N]].
    + assert (i <> j) by (intros ->; rewrite Hj in Hi; injection Hi as ->; cbn in N; congruence).
      rewrite E. assert (Hj' : nth_error (set_nth (fields s) i (Plain (n, (t, y)))) j = Some f) by (rewrite set_nth_other; auto).
      pose proof (by_name_found _ _ _ F' Hj') as E'. rewrite N in E'. rewrite E'. cbn [Struct.value_at]. now rewrite Hj', Hj.
    + rewrite E. rewrite <- En in N. destruct (by_name_flat _ n' F') as [(j & f & E' & Hj & N')|[E' _]]; [|now rewrite E']. exfalso. apply N. rewrite <- N'. apply in_map. eapply nth_error_In; eauto.
  - exists t. split; [exists n, x; split; [reflexivity|eapply nth_error_In; eauto]|]. exists y. split; [exact Et|]. refine (get_at (Struct _ true false) i (Plain (n, (t, y))) F' _). cbn [fields]. eapply set_nth_same; eauto.
Qed.
Hypothesis arrange_perm : forall l, Permutation (arrange l) l.
Lemma type_unique fs k t t' : flat fs -> field_type fs k t -> field_type fs k t' -> t = t'.
Proof.
  intros [_ N] (n & x & -> & H) (n' & x' & [= <-] & H'). apply In_nth_error in H as (i & Hi). apply In_nth_error in H' as (j & Hj). assert (i = j) by (eapply nth_unique; eauto). subst j. congruence.
Qed.
Theorem put_value s k v s' t : flat (fields s) -> put arrange s k v = Some s' -> field_type (fields s) k t -> portable v -> wide t = true -> suits t v ->
  exists w, get s' k = Some (Done w) /\ rearranged v w.
Proof.
  intros F H Ht P W S. destruct (put_frame s k v s' F H) as (_ & _ & _ & t' & Ht' & y & Ey & G). rewrite (type_unique _ _ _ _ F Ht' Ht) in *. destruct (dgo_round_trip arrange arrange_perm v t y P W S Ey) as (w & Ew & R). exists w. split; [congruence|exact R].
Qed.
(* a call of Put that fits succeeds *)
Theorem put_works s k v t : flat (fields s) -> frozen s = false -> settable s = true -> field_type (fields s) k t -> (forall r, get s k = Some r -> r <> Panic) -> (exists y, to_go v t = Done y) -> exists s', put arrange s k v = Some s'.
Proof.
  intros F Ef Es (n & x & -> & H) Np (y & Ey). apply In_nth_error in H as (i & Hi). unfold put. rewrite Ef. cbn [string_key]. pose proof (by_name_found _ _ _ F Hi) as B. cbn [name_of fst] in B. rewrite B, Es.
  pose proof (get_at s i _ F Hi) as G. cbn [name_of fst] in G. specialize (Np _ G). cbn [Struct.value_at set_at]. rewrite Hi. cbn [set_field]. unfold set_plain. cbn [fst snd]. rewrite Ey. cbn. cbn in Np. unfold plain_value in Np. cbn in Np. destruct (from_go _ _ _); [eauto|contradiction|eauto].
Qed.

(* ---------- frozen structs ---------- *)

Theorem frozen_put s k v : frozen s = true -> put arrange s k v = None.
Proof. intros F. unfold put. now rewrite F. Qed.
Theorem frozen_call s c : frozen s = true -> call_struct arrange s c = s.
Proof.
  intros F. destruct c as [k v|l| ]; cbn [call_struct].
  - now rewrite frozen_put.
  - destruct l as [|[k v] l]; cbn [put_all]; [reflexivity|]. now rewrite frozen_put.
  - unfold freeze. now rewrite F.
Qed.
Theorem frozen_calls s l : frozen s = true -> fold_left (call_struct arrange) l s = s.
Proof. intros F. induction l as [|c l IH]; cbn [fold_left]; [reflexivity|]. now rewrite frozen_call. Qed.

(* ---------- copies ---------- *)

Lemma lasting_value f : lasting f -> exists v, field_value f = Done v /\ exists f', set_field f v = Some f' /\ same_field f f'.
Proof.
  destruct f as [[n [t x]]|n ps]; [|contradiction]. intros (K & T & P). destruct (go_round_trip arrange arrange_perm t x K T P) as (v & x' & E & E' & S). exists v. split; [exact E|]. exists (Plain (n, (t, x'))). split; [|cbn; auto].
  cbn [set_field]. unfold set_plain. cbn [fst snd]. now rewrite E'.
Qed.
Lemma same_go_refl x : forall t, typed t x -> same_go x x.
Proof.
  induction x as [ | | | | | | |l IH|m IH|x IH|t0 x IH| ] using gval_ind'; intros t T; try (apply same_leaf; exact I).
  - destruct t; try contradiction. apply same_slice. cbn in T. apply fold_and in T. induction l as [|y l IHl]; constructor; inversion T; inversion IH; subst; eauto.
  - destruct t as [ | | | | | | | |k e| | | | ]; try contradiction. destruct T as [T _]. apply (same_map m m m); [|apply Permutation_refl]. apply fold_and in T. induction m as [|p m IHm]; constructor; inversion T as [|? ? T1 T2]; inversion IH as [|? ? H1 H2]; subst; eauto. destruct T1 as [T1 T3]. split; [reflexivity|]. eapply H1; eauto.
  - destruct t; try contradiction. apply same_ptr. eapply IH; eauto.
Qed.
Lemma lasting_same f : lasting f -> same_field f f.
Proof. destruct f as [[n [t x]]|n ps]; [|contradiction]. intros (_ & T & _). cbn. split; [reflexivity|]. split; [reflexivity|]. eapply same_go_refl; eauto. Qed.
Theorem thawed s : Forall lasting (fields s) ->
  exists s', thawed_copy arrange s = Some s' /\ Forall2 same_field (fields s) (fields s') /\ frozen s' = false /\ settable s' = true.
Proof.
  intros L. assert (H : exists fs, thaw_fields arrange (fields s) = Some fs /\ Forall2 same_field (fields s) fs).
  { induction L as [|f fs Lf L (fs' & E & S)]; [exists []; split; constructor|]. cbn [thaw_fields]. destruct (lasting_value f Lf) as (v & Ev & f' & E' & S'). unfold thaw_field. rewrite Ev, E.
    destruct (freezable v); [rewrite E'; exists (f' :: fs'); split; [reflexivity|constructor; auto]|exists (f :: fs'); split; [reflexivity|constructor; auto; now apply lasting_same]]. }
  destruct H as (fs & E & S). exists (Struct fs true false). unfold thawed_copy. rewrite E. auto.
Qed.
Theorem frozen_copied s : Forall lasting (fields s) ->
  exists s', frozen_copy arrange s = Some s' /\ fields s' = fields s /\ frozen s' = true /\ snd (freeze arrange s) = true /\ fields (fst (freeze arrange s)) = fields s /\ frozen (fst (freeze arrange s)) = true.
Proof.
  intros L. unfold frozen_copy, freeze. destruct (frozen s) eqn:F; [exists s; auto 7|].
  assert (E : forallb (fun f => match field_value f with Done _ => true | _ => false end) (fields s) = true).
  { apply forallb_forall. intros f Hf. rewrite Forall_forall in L. destruct (lasting_value f (L f Hf)) as (v & -> & _). reflexivity. }
  rewrite E. exists (Struct (fields s) true true). auto 7.
Qed.

(* ---------- a new struct is filled from the entries ---------- *)

Lemma view_exists s : Forall lasting (fields s) -> exists es, view arrange s es.
Proof.
  unfold view, Struct.entries. intros L. induction L as [|f fs Lf L (es & IH)]; [exists []; constructor|]. destruct (lasting_value f Lf) as (v & Ev & _). exists ((VStr (name_of f), v) :: es). cbn [map]. constructor; [cbn; auto|exact IH].
Qed.
Lemma view_fields fs es : Forall2 (fun e e' => fst e = fst e' /\ snd e = Done (snd e')) (map (fun f => (VStr (name_of f), field_value f)) fs) es -> Forall2 (fun f e => fst e = VStr (name_of f) /\ field_value f = Done (snd e)) fs es.
Proof. revert es. induction fs as [|f fs IH]; intros es H; inversion H as [|? e' ? es' [A B] H']; subst; constructor; [cbn in *; auto|auto]. Qed.
Lemma zero_reads t : kept_type t = true -> from_go arrange t (zero t) <> Panic.
Proof. destruct t as [ |[]| | | | | | | | | | | ]; intros H C; try discriminate H; vm_compute in C; try discriminate C; destruct t; discriminate C. Qed.
Lemma same_fields_names fs fs' : Forall2 same_field fs fs' -> map name_of fs = map name_of fs'.
Proof. induction 1 as [|[[n [t x]]|n ps] [[n' [t' x']]|n' ps'] fs fs' H _ IH]; cbn in *; try contradiction; [reflexivity|]. destruct H as (-> & _). now f_equal. Qed.
(* the fields before are filled, those after are still zero *)
Lemma fill pre pre' fs es : Forall2 (fun f e => fst e = VStr (name_of f) /\ field_value f = Done (snd e)) fs es -> Forall lasting fs ->
  flat (pre' ++ map zero_field fs) -> Forall2 same_field pre pre' ->
  exists fs', put_all arrange (Struct (pre' ++ map zero_field fs) true false) es = (Struct fs' true false, true) /\ Forall2 same_field (pre ++ fs) fs'.
Proof.
  intros H. revert pre pre'. induction H as [|f e fs es [A B] H IH]; intros pre pre' L F S.
  - exists (pre' ++ []). split; [reflexivity|]. now rewrite !app_nil_r.
  - destruct f as [[n [t x]]|n ps]; [|inversion L; contradiction]. destruct e as [k v]. cbn [fst snd name_of] in A, B. subst k. inversion L as [|? ? Lf Lr]; subst. destruct Lf as (K & T & P).
    destruct (go_round_trip arrange arrange_perm t x K T P) as (v1 & y & E1 & E2 & S1). cbn in B. unfold plain_value in B. cbn in B. assert (v1 = v) by congruence. subst v1.
    set (fs0 := pre' ++ map zero_field (Plain (n, (t, x)) :: fs)) in *.
    assert (Hi : nth_error fs0 (length pre') = Some (Plain (n, (t, zero t)))) by (unfold fs0; rewrite nth_error_app2, Nat.sub_diag by auto; reflexivity).
    assert (Ep : put arrange (Struct fs0 true false) (VStr n) v = Some (Struct (set_nth fs0 (length pre') (Plain (n, (t, y)))) true false)).
    { unfold put. cbn [Struct.frozen string_key fields settable]. pose proof (by_name_found _ _ _ F Hi) as Bn. cbn [name_of fst] in Bn. rewrite Bn. cbn [Struct.value_at set_at]. rewrite Hi. cbn [set_field Struct.field_value plain_value fst snd]. unfold set_plain, plain_value. cbn [fst snd]. rewrite E2. cbn.
      pose proof (zero_reads t K) as Z. destruct (from_go arrange t (zero t)); [reflexivity|contradiction|reflexivity]. }
    assert (Es : set_nth fs0 (length pre') (Plain (n, (t, y))) = (pre' ++ [Plain (n, (t, y))]) ++ map zero_field fs).
    { unfold fs0. clear. induction pre' as [|g pre' IH]; cbn; [reflexivity|now f_equal]. }
    cbn [put_all]. rewrite Ep, Es. destruct (IH (pre ++ [Plain (n, (t, x))]) (pre' ++ [Plain (n, (t, y))]) Lr) as (fs' & E & R).
    + rewrite <- Es. eapply (set_nth_flat _ _ _ _ v); eauto. cbn [set_field]. unfold set_plain. cbn [fst snd]. now rewrite E2.
    + apply Forall2_app; [exact S|]. constructor; [cbn; auto|constructor].
    + exists fs'. split; [exact E|]. now rewrite <- app_assoc in R.
Qed.
Theorem refill s es : flat (fields s) -> Forall lasting (fields s) -> view arrange s es ->
  exists s', put_all arrange (Struct (map zero_field (fields s)) true false) es = (s', true) /\ Forall2 same_field (fields s) (fields s').
Proof.
  intros F L V. apply view_fields in V. destruct (fill [] [] (fields s) es V L) as (fs' & E & S).
  - cbn. destruct F as [F N]. split.
    + rewrite Forall_forall in *. intros g Hg. apply in_map_iff in Hg as (f & <- & Hf). specialize (F f Hf). destruct f as [[n [t x]]|]; [exact I|contradiction].
    + rewrite map_map. replace (map (fun f => name_of (zero_field f)) (fields s)) with (map name_of (fields s)); [exact N|]. apply map_ext. intros [[n [t x]]|]; reflexivity.
  - constructor.
  - exists (Struct fs' true false). auto.
Qed.

(* ---------- maps made from a struct ---------- *)

Lemma hput_new m k v : Forall (fun e => veq k (fst e) = false) m -> hput m k v = m ++ [(k, v)].
Proof. induction 1 as [|[k' v'] m E _ IH]; [reflexivity|]. cbn in *. now rewrite E, IH. Qed.
Lemma hput_all_new l : forall m, NoDup (map fst (m ++ l)) -> Forall (fun e => exists n, fst e = VStr n) (m ++ l) -> hput_all m l = m ++ l.
Proof.
  induction l as [|[k v] l IH]; intros m N S; [symmetry; apply app_nil_r|]. change (hput_all (hput m k v) l = m ++ (k, v) :: l). rewrite hput_new.
  - rewrite IH; rewrite <- app_assoc; auto.
  - apply Forall_forall. intros [k' v'] He. cbn. rewrite map_app in N. cbn in N. apply NoDup_remove_2 in N. rewrite Forall_forall in S.
    destruct (S (k, v)) as (n & En); [apply in_or_app; right; now left|]. destruct (S (k', v')) as (n' & En'); [apply in_or_app; now left|]. cbn in En, En'. subst k k'. apply vstr_neq. intros ->. apply N, in_or_app. left. apply (in_map fst) in He. exact He.
Qed.
Lemma view_names s es : view arrange s es -> map fst es = keys s.
Proof.
  unfold view, Struct.entries, keys. generalize (fields s). intros fs. revert es. induction fs as [|f fs IH]; intros es H; inversion H as [|? e' ? es' [A _] H']; subst; [reflexivity|]. cbn in *. now rewrite <- A, (IH es').
Qed.
Lemma keys_strings s k : In k (keys s) -> exists n, k = VStr n.
Proof. unfold keys. intros H. apply in_map_iff in H as (f & <- & _). eauto. Qed.
Lemma to_hash_map_view s es : flat (fields s) -> view arrange s es -> to_hash_map arrange s = Done es.
Proof.
  intros F V. unfold to_hash_map. assert (E : rlist (map (fun e => rbind (snd e) (fun v => Done (fst e, v))) (entries s)) = Done es).
  { apply rlist_forall2. eapply forall2_impl; [|exact V]. intros a [k v] _ [A B]. cbn in *. now rewrite B, A. }
  rewrite E. cbn [rbind]. f_equal. rewrite hput_all_new; [reflexivity| |]; cbn [app].
  - rewrite (view_names s es V). exact (proj2 (proj2 (proj2 (proj2 (lookup_entries s VNil F))))).
  - apply Forall_forall. intros e He. apply (keys_strings s). rewrite <- (view_names s es V). now apply in_map.
Qed.
Lemma view_get s es k : flat (fields s) -> view arrange s es -> get s k = option_map Done (assoc veq es k).
Proof.
  intros F V. destruct (lookup_entries s k F) as (_ & G & _ & _ & N). rewrite <- (view_names s es V) in N.
  assert (St : forall e, In e es -> exists n, fst e = VStr n) by (intros e He; apply (keys_strings s); rewrite <- (view_names s es V); now apply in_map).
  destruct (assoc veq es k) as [v|] eqn:E; cbn [option_map].
  - apply G. apply assoc_some in E as (k' & Hin & E). destruct (St _ Hin) as (n & En). cbn in En. subst k'. destruct k; try discriminate E. apply vstr_eq in E. subst.
    destruct (DataProofs.Forall2_in_r _ _ _ _ V Hin) as ([k1 r] & H1 & A & B). cbn in *. now subst.
  - destruct (get s k) as [r|] eqn:Eg; [|reflexivity]. exfalso. pose proof (proj1 (G r) eq_refl) as Eg'. clear Eg. rename Eg' into Eg. destruct (DataProofs.Forall2_in_l _ _ _ _ V Eg) as ([k1 v1] & H1 & A & B). cbn in A, B. subst k1. pose proof (assoc_none _ _ E _ _ H1) as C.
    destruct (St _ H1) as (n & En). cbn in En. subst k. cbn in C. rewrite bytes_refl in C. discriminate.
Qed.

(* lookups in the results, for keys that are strings; other keys cannot be found in a struct *)
Lemma assoc_hput m k v k' : wf k -> wf k' -> Forall (fun e => wf (fst e)) m -> assoc veq (hput m k v) k' = if veq k' k then Some v else assoc veq m k'.
Proof.
  intros Wk Wk' Wm. induction Wm as [|[k1 v1] m W1 Wm IH]; [reflexivity|]. cbn [hput]. cbn in W1. destruct (veq k k1) eqn:E; cbn [assoc].
  - destruct (veq k' k) eqn:E'.
    + now rewrite (veq_trans k' k k1) by auto.
    + destruct (veq k' k1) eqn:E1; [|reflexivity]. assert (veq k' k = true); [|congruence]. apply (veq_trans k' k1 k); auto. apply veq_sym; auto.
  - destruct (veq k' k1) eqn:E1.
    + destruct (veq k' k) eqn:E'; [|reflexivity]. assert (veq k k1 = true); [|congruence]. apply (veq_trans k k' k1); auto. apply veq_sym; auto.
    + rewrite IH. reflexivity.
Qed.
Lemma assoc_hremove m k k' : wf k -> wf k' -> Forall (fun e => wf (fst e)) m -> assoc veq (hremove m k) k' = if veq k' k then None else assoc veq m k'.
Proof.
  intros Wk Wk' Wm. induction Wm as [|[k1 v1] m W1 Wm IH]; [cbn; now destruct (veq k' k)|]. cbn [hremove filter fst]. cbn in W1. destruct (veq k k1) eqn:E; cbn [negb assoc].
  - unfold hremove in IH. rewrite IH. destruct (veq k' k) eqn:E'; [reflexivity|]. destruct (veq k' k1) eqn:E1; [|reflexivity]. assert (veq k' k = true); [|congruence]. apply (veq_trans k' k1 k); auto. apply veq_sym; auto.
  - destruct (veq k' k1) eqn:E1; [|exact IH]. destruct (veq k' k) eqn:E'; [|reflexivity]. assert (veq k k1 = true); [|congruence]. apply (veq_trans k k' k1); auto. apply veq_sym; auto.
Qed.
Lemma wf_hput m k v : wf k -> Forall (fun e => wf (fst e)) m -> Forall (fun e : value * value => wf (fst e)) (hput m k v).
Proof. intros Wk Wm. induction Wm as [|[k1 v1] m W1 Wm IH]; cbn; [constructor; auto|]. destruct (veq k k1); constructor; auto. Qed.
Lemma view_wf s es : view arrange s es -> Forall (fun e => wf (fst e)) es.
Proof. intros V. apply Forall_forall. intros e He. destruct (keys_strings s (fst e)) as (n & ->); [rewrite <- (view_names s es V); now apply in_map|constructor]. Qed.

Theorem with_get s es k v : flat (fields s) -> view arrange s es -> data veq k ->
  exists m, with_ arrange s k v = Done m /\ forall k', data veq k' -> option_map Done (assoc veq m k') = if veq k' k then Some (Done v) else get s k'.
Proof.
  intros F V Wk. unfold with_. rewrite (to_hash_map_view s es F V). exists (hput es k v). split; [reflexivity|]. intros k' Wk'. rewrite assoc_hput; auto; [|eapply view_wf; eauto]. destruct (veq k' k); [reflexivity|]. symmetry. now apply view_get.
Qed.
Theorem without_get s es k : flat (fields s) -> view arrange s es -> data veq k ->
  match without arrange s k with
  | inl s' => s' = s /\ get s k = None
  | inr r => exists m, r = Done m /\ forall k', data veq k' -> option_map Done (assoc veq m k') = if veq k' k then None else get s k'
  end.
Proof.
  intros F V Wk. unfold without. destruct (get s k) as [r|] eqn:E; [|auto]. rewrite (to_hash_map_view s es F V). exists (hremove es k). split; [reflexivity|]. intros k' Wk'. rewrite assoc_hremove; auto; [|eapply view_wf; eauto]. destruct (veq k' k); [reflexivity|]. symmetry. now apply view_get.
Qed.
Lemma assoc_none_intro m k : (forall k' v, In (k', v) m -> veq k k' = false) -> assoc veq m k = None.
Proof. induction m as [|[k1 v1] m IH]; intros H; cbn; [reflexivity|]. rewrite (H k1 v1 (or_introl eq_refl)). apply IH. intros. eapply H. right. eauto. Qed.
Lemma assoc_hput_all l : forall m k', Forall (fun e => wf (fst e)) m -> ForallOrdPairs (keys_differ veq) l -> Forall (fun e => wf (fst e)) l -> wf k' ->
  assoc veq (hput_all m l) k' = match assoc veq l k' with Some v => Some v | None => assoc veq m k' end.
Proof.
  induction l as [|[k v] l IH]; intros m k' Wm D Wl Wk'; [reflexivity|]. inversion D as [|? ? D1 D2]; inversion Wl as [|? ? W1 W2]; subst. cbn in W1. cbn [hput_all fold_left assoc fst snd]. change (assoc veq (hput_all (hput m k v) l) k' = match (if veq k' k then Some v else assoc veq l k') with Some v => Some v | None => assoc veq m k' end).
  rewrite IH; auto; [|now apply wf_hput]. rewrite assoc_hput by auto. destruct (veq k' k) eqn:E; [|reflexivity].
  rewrite (assoc_none_intro l k'); [reflexivity|]. intros k1 v1 Hin. rewrite Forall_forall in D1, W2. specialize (D1 _ Hin). specialize (W2 _ Hin). unfold keys_differ in D1. cbn in D1, W2. destruct (veq k' k1) eqn:E1; [|reflexivity]. assert (veq k k1 = true); [|congruence]. apply (veq_trans k k' k1); auto. apply veq_sym; auto.
Qed.
Theorem merge_get s es l : flat (fields s) -> view arrange s es -> data veq (VMap l) ->
  match merge arrange s l with
  | inl s' => s' = s /\ l = []
  | inr r => exists m, r = Done m /\ forall k', data veq k' -> option_map Done (assoc veq m k') = match assoc veq l k' with Some v => Some (Done v) | None => get s k' end
  end.
Proof.
  intros F V W. apply data_map_inv in W as [W D]. unfold merge. destruct l as [|e l]; [auto|]. rewrite (to_hash_map_view s es F V). cbn [rbind]. exists (hput_all es (e :: l)). split; [reflexivity|]. intros k' Wk'.
  rewrite assoc_hput_all; auto; [|eapply view_wf; eauto|eapply Forall_impl; [|exact W]; intros a []; auto]. destruct (assoc veq (e :: l) k'); [reflexivity|]. symmetry. now apply view_get.
Qed.

(* ---------- equality, hash code ---------- *)

Lemma all_equal_done l get : (forall k, exists o : option value, get k = option_map Done o) -> forall es, Forall2 (fun e e' => fst e = fst e' /\ snd e = Done (snd e')) l es ->
  all_equal l get = Done (forallb (fun e => match get (fst e) with Some (Done v) => veq (snd e) v | _ => false end) es).
Proof.
  intros G es V. induction V as [|[k r] [k' v] l es [A B] V IH]; [reflexivity|]. cbn in A, B. subst k' r. cbn [all_equal forallb fst snd]. destruct (G k) as (o & ->). destruct o as [w|]; cbn; [|reflexivity]. destruct (veq v w); cbn; [exact IH|reflexivity].
Qed.
Lemma equal_veq m m' : veq (VMap m) (VMap m') = Nat.eqb (length m) (length m') && forallb (fun e => match assoc veq m' (fst e) with Some v => veq (snd e) v | None => false end) m.
Proof. rewrite veq_map. f_equal. induction m as [|[k v] m IH]; cbn [forallb]; [reflexivity|]. unfold entry_found at 1. rewrite get_with_assoc. now f_equal. Qed.
Lemma forallb_ext' {A} (f g : A -> bool) l : (forall x, f x = g x) -> forallb f l = forallb g l.
Proof. intros H. induction l as [|x l IH]; cbn; [reflexivity|]. now rewrite H, IH. Qed.
Lemma view_length s es : view arrange s es -> length es = len s.
Proof. intros V. rewrite <- (map_length fst), (view_names s es V). unfold keys, len. apply map_length. Qed.
Theorem equals_views s es m : flat (fields s) -> view arrange s es ->
  struct_equals_map arrange s m = Done (veq (VMap es) (VMap m)) /\ map_equals_struct arrange m s = Done (veq (VMap m) (VMap es)).
Proof.
  intros F V. rewrite !equal_veq. unfold struct_equals_map, map_equals_struct. rewrite (view_length s es V). split.
  - destruct (Nat.eqb _ _); cbn [andb]; [|reflexivity]. rewrite (all_equal_done _ _ (fun k => ex_intro _ _ eq_refl) es V). f_equal. apply forallb_ext'. intros e. rewrite get_with_assoc. destruct (assoc _ _ _); reflexivity.
  - destruct (Nat.eqb _ _); cbn [andb]; [|reflexivity]. rewrite (all_equal_done _ (get s) (fun k => ex_intro _ _ (view_get s es k F V)) m).
    + f_equal. apply forallb_ext'. intros e. rewrite (view_get s es _ F V). destruct (assoc _ _ _); reflexivity.
    + induction m as [|[k v] m IH]; constructor; [cbn; auto|exact IH].
Qed.
Theorem equals_structs s es t es' : view arrange s es -> flat (fields t) -> view arrange t es' ->
  struct_equals_struct arrange s t = Done (veq (VMap es) (VMap es')).
Proof.
  intros V F V'. rewrite equal_veq. unfold struct_equals_struct. rewrite (view_length s es V), (view_length t es' V'). destruct (Nat.eqb _ _); cbn [andb]; [|reflexivity].
  rewrite (all_equal_done _ (get t) (fun k => ex_intro _ _ (view_get t es' k F V')) es V). f_equal. apply forallb_ext'. intros e. rewrite (view_get t es' _ F V'). destruct (assoc _ _ _); reflexivity.
Qed.
Theorem hash_view s es : view arrange s es -> struct_hash arrange s = Done (vhash (VMap es)).
Proof.
  intros V. unfold struct_hash. assert (E : rlist (map (fun e => rbind (snd e) (fun v => Done (Z.lxor (vhash (fst e)) (vhash v)))) (entries s)) = Done (map (fun e => Z.lxor (vhash (fst e)) (vhash (snd e))) es)).
  { apply rlist_forall2. unfold view in V. induction V as [|a [k v] l es [A B] V IH]; cbn; constructor; [cbn in *; now rewrite B, A|exact IH]. }
  rewrite E. reflexivity.
Qed.
(* the entries of a struct have different keys *)
Lemma view_data s es : flat (fields s) -> view arrange s es -> Forall (fun e => data veq (snd e)) es -> data veq (VMap es).
Proof.
  intros F V D. constructor.
  - apply Forall_forall. intros e He. rewrite Forall_forall in D. split; [|now apply D]. destruct (keys_strings s (fst e)) as (n & ->); [rewrite <- (view_names s es V); now apply in_map|constructor].
  - assert (N : NoDup (map fst es)) by (rewrite (view_names s es V); exact (proj2 (proj2 (proj2 (proj2 (lookup_entries s VNil F)))))). assert (St : Forall (fun e => exists n, fst e = VStr n) es) by (apply Forall_forall; intros e He; apply (keys_strings s); rewrite <- (view_names s es V); now apply in_map).
    clear - N St. induction es as [|e es IH]; [constructor|]. inversion N as [|? ? N1 N2]; inversion St as [|? ? (n & E) S2]; subst. constructor; [|auto]. apply Forall_forall. intros e' He'. unfold keys_differ. rewrite Forall_forall in S2. destruct (S2 _ He') as (n' & E'). rewrite E, E' in *. apply vstr_neq. intros ->. apply N1. rewrite <- E'. now apply in_map.
Qed.
Theorem equals_hash s es m : flat (fields s) -> view arrange s es -> Forall (fun e => data veq (snd e)) es -> data veq (VMap m) ->
  struct_equals_map arrange s m = map_equals_struct arrange m s /\ (struct_equals_map arrange s m = Done true -> struct_hash arrange s = Done (vhash (VMap m))).
Proof.
  intros F V D W. pose proof (view_data s es F V D) as W'. destruct (equals_views s es m F V) as [-> ->]. rewrite (hash_view s es V). split; [f_equal; apply veq_sym_eq; auto|]. intros [= E]. f_equal. apply veq_hash; auto.
Qed.

(* ---------- iterating ---------- *)

Lemma accepts_cons {St E} (p : St -> E -> St * bool) st e l : snd (p st e) = true -> accepts p (fst (p st e)) l -> accepts p st (e :: l).
Proof. intros H A [|x pre] y post Q; injection Q as -> Q; [exact H|]. exact (A pre y post Q). Qed.
Lemma loop_scans {St E} (bad : E -> bool) (p : St -> E -> St * bool) l : forallb (fun e => negb (bad e)) l = true -> forall st, exists st' b, all_loop bad p l st = (st', Done b) /\ scanned p st l st' b.
Proof.
  induction l as [|e l IH]; intros G st; cbn [all_loop].
  - exists st, true. split; [reflexivity|]. split; [intros [|x pre] y post Q; discriminate|reflexivity].
  - cbn [forallb] in G. apply andb_true_iff in G as [G1 G2]. apply negb_true_iff in G1. rewrite G1. destruct (p st e) as [st1 ok] eqn:Q. destruct ok.
    + destruct (IH G2 st1) as (st' & b & R & S). exists st', b. split; [exact R|]. destruct b; cbn [scanned] in *.
      * destruct S as [A ->]. split; [apply accepts_cons; rewrite Q; auto|]. unfold state_after. cbn [fold_left]. now rewrite Q.
      * destruct S as (pre & x & post & -> & A & B & ->). exists (e :: pre), x, post. split; [reflexivity|]. split; [apply accepts_cons; rewrite Q; auto|]. unfold state_after in *. cbn [fold_left app]. rewrite Q. auto.
    + exists st1, false. split; [reflexivity|]. exists [], e, l. split; [reflexivity|]. split; [intros [|x pre] y post Z1; discriminate|]. unfold state_after. cbn [fold_left app]. rewrite Q. auto.
Qed.
Lemma flip_rejecting {St E} (p : St -> E -> St * bool) st e : flip p st e = rejecting p st e.
Proof. unfold flip, rejecting. now destruct (p st e). Qed.
Lemma loop_ext {St E} (bad : E -> bool) (p q : St -> E -> St * bool) l : (forall st e, p st e = q st e) -> forall st, all_loop bad p l st = all_loop bad q l st.
Proof. intros H. induction l as [|e l IH]; intros st; cbn [all_loop]; [reflexivity|]. rewrite H. destruct (bad e); [reflexivity|]. destruct (q st e) as [st' []]; auto. Qed.
Lemma view_entries s es : view arrange s es -> entries s = map done_entry es.
Proof. unfold view. induction 1 as [|[k r] [k' v] l es [A B] V IH]; cbn in *; [reflexivity|]. unfold done_entry at 1. cbn. now rewrite IH, A, B. Qed.
Lemma view_values s es : view arrange s es -> map field_value (fields s) = map (fun e => Done (snd e)) es.
Proof. intros V. pose proof (view_entries s es V) as Q. apply (f_equal (map snd)) in Q. unfold entries in Q. rewrite !map_map in Q. exact Q. Qed.
Lemma no_panic es : forallb (fun e => negb (is_panic (snd e))) (map done_entry es) = true.
Proof. induction es; cbn; auto. Qed.
Lemma no_panic_values (es : list (value * value)) : forallb (fun e => negb (is_panic e)) (map (fun e => Done (snd e)) es) = true.
Proof. induction es; cbn; auto. Qed.

Theorem all_scans {St} s es (p : St -> value * res value -> St * bool) st : view arrange s es ->
  exists st' b, all arrange s p st = (st', Done b) /\ scanned p st (map done_entry es) st' b.
Proof. intros V. unfold all. rewrite (view_entries s es V). apply loop_scans, no_panic. Qed.
Theorem all_keys_scans {St} s (p : St -> value -> St * bool) st : exists st' b, all_keys s p st = (st', Done b) /\ scanned p st (keys s) st' b.
Proof. apply loop_scans. apply forallb_forall. auto. Qed.
Theorem all_values_scans {St} s es (p : St -> res value -> St * bool) st : view arrange s es ->
  exists st' b, all_values arrange s p st = (st', Done b) /\ scanned p st (map (fun e => Done (snd e)) es) st' b.
Proof. intros V. unfold all_values. rewrite (view_values s es V). apply loop_scans, no_panic_values. Qed.
Theorem any_scans {St} s es (p : St -> value * res value -> St * bool) st : view arrange s es ->
  exists st' b, any arrange s p st = (st', Done b) /\ scanned (rejecting p) st (map done_entry es) st' (negb b).
Proof.
  intros V. destruct (all_scans s es (rejecting p) st V) as (st' & b & R & S). exists st', (negb b). rewrite negb_involutive. split; [|exact S]. unfold any, flipped, all in *. rewrite (loop_ext _ _ _ _ (flip_rejecting p)), R. reflexivity.
Qed.
Theorem any_key_scans {St} s (p : St -> value -> St * bool) st : exists st' b, any_key s p st = (st', Done b) /\ scanned (rejecting p) st (keys s) st' (negb b).
Proof.
  destruct (all_keys_scans s (rejecting p) st) as (st' & b & R & S). exists st', (negb b). rewrite negb_involutive. split; [|exact S]. unfold any_key, flipped, all_keys in *. rewrite (loop_ext _ _ _ _ (flip_rejecting p)), R. reflexivity.
Qed.
Theorem any_value_scans {St} s es (p : St -> res value -> St * bool) st : view arrange s es ->
  exists st' b, any_value arrange s p st = (st', Done b) /\ scanned (rejecting p) st (map (fun e => Done (snd e)) es) st' (negb b).
Proof.
  intros V. destruct (all_values_scans s es (rejecting p) st V) as (st' & b & R & S). exists st', (negb b). rewrite negb_involutive. split; [|exact S]. unfold any_value, flipped, all_values in *. rewrite (loop_ext _ _ _ _ (flip_rejecting p)), R. reflexivity.
Qed.
Lemma each_loop {St E} (bad : E -> bool) (f : St -> E -> St) l : forallb (fun e => negb (bad e)) l = true -> forall st, all_loop bad (fun st e => (f st e, true)) l st = (fold_left f l st, Done true).
Proof. induction l as [|e l IH]; intros G st; cbn [all_loop fold_left]; [reflexivity|]. cbn [forallb] in G. apply andb_true_iff in G as [G1 G2]. apply negb_true_iff in G1. rewrite G1. now apply IH. Qed.
Theorem each_all {St} s es (f : St -> value * res value -> St) (g : St -> value -> St) (k : St -> res value -> St) st : view arrange s es ->
  each arrange s f st = (fold_left f (map done_entry es) st, Done true) /\ each_key s g st = (fold_left g (map fst es) st, Done true) /\
  each_value arrange s k st = (fold_left k (map (fun e => Done (snd e)) es) st, Done true).
Proof.
  intros V. split; [|split].
  - unfold each, all. rewrite (view_entries s es V). apply each_loop, no_panic.
  - unfold each_key, all_keys. rewrite <- (view_names s es V). apply each_loop. apply forallb_forall. auto.
  - unfold each_value, all_values. rewrite (view_values s es V). apply each_loop, no_panic_values.
Qed.
Theorem values_view s es : view arrange s es -> values arrange s = Done (map (fun e => Done (snd e)) es).
Proof.
  intros V. unfold values. unfold each_value, all_values. rewrite (view_values s es V), each_loop by apply no_panic_values. cbn [rbind]. f_equal.
  assert (X : forall (l : list (res value)) acc, fold_left (fun l v => l ++ [v]) l acc = acc ++ l). { induction l as [|x l IH]; intros acc; cbn [fold_left]; [now rewrite app_nil_r|]. rewrite IH, <- app_assoc. reflexivity. }
  apply X.
Qed.
Lemma RA {St E} (p : St -> E -> St * bool) st e l : state_after (rejecting p) st (e :: l) = state_after (rejecting p) (fst (p st e)) l.
Proof. reflexivity. Qed.
Theorem find_scans {St} s es (p : St -> value * res value -> St * bool) st : view arrange s es ->
  exists st' r, find_entry arrange s p st = (st', Done r) /\
  match r with
  | None => scanned (rejecting p) st (map done_entry es) st' true
  | Some e => exists pre post, map done_entry es = pre ++ e :: post /\ accepts (rejecting p) st pre /\ snd (p (state_after (rejecting p) st pre) e) = true /\ st' = state_after (rejecting p) st (pre ++ [e])
  end.
Proof.
  intros V. unfold find_entry. rewrite (view_entries s es V). generalize (no_panic es). generalize (map done_entry es). intros l. revert st. induction l as [|e l IH]; intros st G; cbn [find_loop].
  - exists st, None. split; [reflexivity|]. split; [intros [|x pre] y post Q; discriminate|reflexivity].
  - cbn [forallb] in G. apply andb_true_iff in G as [G1 G2]. apply negb_true_iff in G1. rewrite G1. destruct (p st e) as [st1 ok] eqn:Q. destruct ok.
    + exists st1, (Some e). split; [reflexivity|]. exists [], l. split; [reflexivity|]. split; [intros [|x pre] y post Z1; discriminate|]. unfold state_after, rejecting. cbn [fold_left app fst]. rewrite Q. auto.
    + destruct (IH st1 G2) as (st' & r & R & S). exists st', r. split; [exact R|]. assert (A1 : forall l, accepts (rejecting p) st1 l -> accepts (rejecting p) st (e :: l)) by (intros l0 A; apply accepts_cons; unfold rejecting; rewrite Q; auto).
      destruct r as [x|].
      * destruct S as (pre & post & -> & A & B & ->). exists (e :: pre), post. split; [reflexivity|]. split; [now apply A1|]. cbn [app]. rewrite !RA, Q. auto.
      * destruct S as [A ->]. split; [now apply A1|]. now rewrite RA, Q.
Qed.
Theorem map_struct_view {St} s es (f : St -> value * value -> St * value) st : flat (fields s) -> view arrange s es ->
  exists st' m, map_struct arrange s f st = Done (st', m) /\ st' = fold_left (fun st e => fst (f st e)) es st /\ map fst m = keys s /\
  forall i e, nth_error es i = Some e -> nth_error m i = Some (fst e, snd (f (fold_left (fun st e => fst (f st e)) (firstn i es) st) e)).
Proof.
  intros F V. unfold map_struct. rewrite (to_hash_map_view s es F V). cbn [rbind]. rewrite <- (view_names s es V).
  assert (X : forall (l : list (value * value)) st, exists st' m, map_loop f l st = (st', m) /\ st' = fold_left (fun st e => fst (f st e)) l st /\ map fst m = map fst l /\
    forall i e, nth_error l i = Some e -> nth_error m i = Some (fst e, snd (f (fold_left (fun st e => fst (f st e)) (firstn i l) st) e))).
  { clear. induction l as [|e l IH]; intros st; cbn [map_loop]; [exists st, []; repeat split; intros [|i] e H; discriminate|]. destruct (f st e) as [st1 v] eqn:Q. destruct (IH st1) as (st' & m & -> & -> & K & N).
    exists (fold_left (fun st e => fst (f st e)) l st1), ((fst e, v) :: m). split; [reflexivity|]. cbn [fold_left map]. rewrite Q, K. split; [reflexivity|]. split; [reflexivity|].
    intros [|i] x H; cbn [nth_error firstn fold_left] in *; [injection H as <-; now rewrite Q|]. rewrite Q. now apply N. }
  destruct (X es st) as (st' & m & -> & A). exists st', m. auto.
Qed.
End Proofs.

Lemma all_keys_strings s : string_keys s = true <-> Forall (fun k => exists n, k = VStr n) (keys s).
Proof. split; [|reflexivity]. intros _. unfold keys. rewrite Forall_forall. intros k I. apply in_map_iff in I as (f & <- & _). now eexists. Qed.
