(* Proofs for C82. *)
From Coq Require Import ZArith List Bool Arith Lia Permutation.
From Verif Require Import Int64 Data DataSpec DataProofs HMap Loader LoaderSpec Hierarchy LoaderValue LoaderValueSpec.
Import ListNotations.
Open Scope Z_scope.

Lemma lval_ind' (P : lval -> Prop) :
  (forall nm up m, P (LMap nm up m)) ->
  (forall nm up m s f c, Forall (fun e => P (snd e)) s -> P (LLoader nm up m s f c)) ->
  (forall o p, P o -> P p -> P (LChild o p)) -> forall l, P l.
Proof.
  intros H1 H2 H3. fix IH 1. intros [nm up m|nm up m s f c|o p].
  - apply H1.
  - apply H2. revert s. fix IHs 1. intros [|[k x] r]; constructor; [exact (IH x)|exact (IHs r)].
  - apply H3; apply IH.
Qed.

(* ---------- maps of loaders ---------- *)

Definition found_in (s' : list (name * lval)) (e : name * lval) : bool :=
  match get_key s' (fst e) with Some y => leq (snd e) y | None => false end.
Lemma leq_loader nm up m s f c nm' up' m' s' f' c' :
  leq (LLoader nm up m s f c) (LLoader nm' up' m' s' f' c') =
  veq (VMap m) (VMap m') && (Nat.eqb (length s) (length s') && forallb (found_in s') s).
Proof.
  cbn [leq]. f_equal. f_equal. clear. induction s as [|[k x] r IH]; [reflexivity|]. cbn [forallb found_in fst snd]. now rewrite IH.
Qed.

Lemma get_key_in {A} (s : list (name * A)) k x : get_key s k = Some x -> In (k, x) s.
Proof.
  induction s as [|[k' v] r IH]; cbn; [discriminate|]. destruct (bytes_eqb k' k) eqn:E.
  - apply bytes_eqb_eq in E. intros [= ->]. subst. now left.
  - intros H. right. now apply IH.
Qed.
Lemma in_get_key {A} (s : list (name * A)) k x : NoDup (map fst s) -> In (k, x) s -> get_key s k = Some x.
Proof.
  induction s as [|[k' v] r IH]; cbn; [contradiction|]. intros D [E|E].
  - injection E as -> ->. now rewrite (proj2 (bytes_eqb_eq k k) eq_refl).
  - inversion D; subst. destruct (bytes_eqb k' k) eqn:B.
    + apply bytes_eqb_eq in B. subst. exfalso. apply H1. apply in_map_iff. now exists (k, x).
    + now apply IH.
Qed.
Lemma get_key_key {A} (s : list (name * A)) k : In k (map fst s) <-> get_key s k <> None.
Proof.
  split.
  - intros H E. apply in_map_iff in H as ([k' v] & <- & H). cbn in E. clear - H E. revert H E.
    induction s as [|[a b] r IH]; cbn; [contradiction|]. intros [H|H] E.
    + injection H as -> ->. now rewrite (proj2 (bytes_eqb_eq k' k') eq_refl) in E.
    + destruct (bytes_eqb a k'); [discriminate|auto].
  - destruct (get_key s k) as [x|] eqn:E; [|congruence]. intros _. apply get_key_in in E. apply in_map_iff. now exists (k, x).
Qed.

Definition spaces_alike (s s' : list (name * lval)) : Prop :=
  forall k, match get_key s k, get_key s' k with None, None => True | Some x, Some y => leq x y = true | _, _ => False end.

Lemma spaces_iff s s' : NoDup (map fst s) -> NoDup (map fst s') ->
  (Nat.eqb (length s) (length s') && forallb (found_in s') s = true <-> spaces_alike s s').
Proof.
  intros D D'. split.
  - intros H. apply andb_prop in H as [L F]. apply Nat.eqb_eq in L. rewrite forallb_forall in F.
    assert (I : incl (map fst s) (map fst s')).
    { intros k K. apply in_map_iff in K as ([k' x] & <- & K). apply F in K. unfold found_in in K. cbn in *.
      apply get_key_key. destruct (get_key s' k'); congruence. }
    pose proof (NoDup_length_incl D (l' := map fst s')) as J. rewrite !map_length in J. specialize (J ltac:(lia) I).
    intros k. destruct (get_key s k) as [x|] eqn:E.
    + apply get_key_in in E. apply F in E. unfold found_in in E. cbn in E. destruct (get_key s' k); [exact E|discriminate].
    + destruct (get_key s' k) eqn:E'; [|exact Logic.I]. assert (K : In k (map fst s')) by (apply get_key_key; congruence).
      apply J in K. apply get_key_key in K. congruence.
  - intros H. apply andb_true_intro. split.
    + apply Nat.eqb_eq. rewrite <- (map_length fst s), <- (map_length fst s').
      assert (X : forall k, In k (map fst s) <-> In k (map fst s')).
      { intros k. rewrite !get_key_key. specialize (H k). destruct (get_key s k), (get_key s' k); try contradiction; split; congruence. }
      apply Nat.le_antisymm; apply NoDup_incl_length; auto; intros k; apply X.
    + apply forallb_forall. intros [k x] K. unfold found_in. cbn [fst snd]. apply in_get_key in K; auto. specialize (H k). rewrite K in H.
      destruct (get_key s' k); [exact H|contradiction].
Qed.

Lemma leq_loader_iff nm up m s f c nm' up' m' s' f' c' : NoDup (map fst s) -> NoDup (map fst s') ->
  (leq (LLoader nm up m s f c) (LLoader nm' up' m' s' f' c') = true <-> veq (VMap m) (VMap m') = true /\ spaces_alike s s').
Proof.
  intros D D'. rewrite leq_loader, andb_true_iff, (spaces_iff s s' D D'). reflexivity.
Qed.

Lemma ok_loader_inv nm up m s f c : loader_ok (LLoader nm up m s f c) ->
  wf (VMap m) /\ NoDup (map fst s) /\ forall k x, get_key s k = Some x -> loader_ok x.
Proof.
  intros H. inversion H; subst. repeat split; auto. intros k x E. apply get_key_in in E.
  match goal with F : Forall _ s |- _ => rewrite Forall_forall in F; exact (F _ E) end.
Qed.
Lemma get_key_ind (Q : name * lval -> Prop) s k x : Forall Q s -> get_key s k = Some x -> Q (k, x).
Proof. intros F E. apply get_key_in in E. rewrite Forall_forall in F. exact (F _ E). Qed.

(* ---------- Equals ---------- *)

Lemma leq_refl a : loader_ok a -> leq a a = true.
Proof.
  induction a as [nm up m|nm up m s f c IH|o p IHo IHp] using lval_ind'; intros W.
  - inversion W; subst. now apply veq_refl.
  - apply ok_loader_inv in W as (Wm & D & Ws). apply leq_loader_iff; auto. split; [now apply veq_refl|].
    intros k. destruct (get_key s k) eqn:E; [|exact Logic.I]. pose proof (get_key_ind _ _ _ _ IH E) as Q. cbn in Q. eauto.
  - inversion W; subst. cbn [leq]. now rewrite IHo, IHp.
Qed.
Lemma leq_sym a : forall b, loader_ok a -> loader_ok b -> leq a b = true -> leq b a = true.
Proof.
  induction a as [nm up m|nm up m s f c IH|o p IHo IHp] using lval_ind'; intros [nm' up' m'|nm' up' m' s' f' c'|o' p'] W W' H; try discriminate.
  - inversion W; inversion W'; subst. now apply veq_sym.
  - apply ok_loader_inv in W as (Wm & D & Ws). apply ok_loader_inv in W' as (Wm' & D' & Ws').
    apply leq_loader_iff in H as [Hm Hs]; auto. apply leq_loader_iff; auto. split; [now apply veq_sym|].
    intros k. specialize (Hs k). destruct (get_key s k) eqn:E, (get_key s' k) eqn:E'; auto.
    pose proof (get_key_ind _ _ _ _ IH E) as Q. cbn in Q. eauto.
  - inversion W; inversion W'; subst. cbn [leq] in *. apply andb_prop in H as [A B]. now rewrite (IHo o'), (IHp p').
Qed.
Lemma leq_trans a : forall b c, loader_ok a -> loader_ok b -> loader_ok c -> leq a b = true -> leq b c = true -> leq a c = true.
Proof.
  induction a as [nm up m|nm up m s f cr IH|o p IHo IHp] using lval_ind';
    intros [nm' up' m'|nm' up' m' s' f' cr'|o' p'] [nm2 up2 m2|nm2 up2 m2 s2 f2 cr2|o2 p2] W W' W2 H H2; try discriminate.
  - inversion W; inversion W'; inversion W2; subst. cbn [leq] in *. eapply veq_trans with (b := VMap m'); eauto.
  - apply ok_loader_inv in W as (Wm & D & Ws). apply ok_loader_inv in W' as (Wm' & D' & Ws'). apply ok_loader_inv in W2 as (Wm2 & D2 & Ws2).
    apply leq_loader_iff in H as [Hm Hs]; auto. apply leq_loader_iff in H2 as [Hm2 Hs2]; auto. apply leq_loader_iff; auto. split.
    + eapply veq_trans with (b := VMap m'); eauto.
    + intros k. specialize (Hs k). specialize (Hs2 k). destruct (get_key s k) eqn:E, (get_key s' k) eqn:E', (get_key s2 k) eqn:E2; auto; try contradiction.
      pose proof (get_key_ind _ _ _ _ IH E) as Q. cbn in Q. eauto.
  - inversion W; inversion W'; inversion W2; subst. cbn [leq] in *. apply andb_prop in H as [A B]. apply andb_prop in H2 as [A2 B2].
    rewrite (IHo o' o2), (IHp p' p2); auto.
Qed.

(* ---------- HashCode ---------- *)

Lemma spaces_hash (h : name -> lval -> Z) s s' : NoDup (map fst s) -> NoDup (map fst s') ->
  (forall k, match get_key s k, get_key s' k with None, None => True | Some x, Some y => h k x = h k y | _, _ => False end) ->
  Permutation (map (fun e => h (fst e) (snd e)) s) (map (fun e => h (fst e) (snd e)) s').
Proof.
  intros D D' H.
  assert (X : forall t, NoDup (map fst t) -> map (fun e => h (fst e) (snd e)) t =
     map (fun k => match get_key t k with Some x => h k x | None => 0 end) (map fst t)).
  { intros t Dt. rewrite map_map. apply map_ext_in. intros [k x] K. cbn [fst snd]. now rewrite (in_get_key t k x Dt K). }
  rewrite (X s D), (X s' D'). clear X.
  assert (P : Permutation (map fst s) (map fst s')).
  { apply NoDup_Permutation; auto. intros k. rewrite !get_key_key. specialize (H k).
    destruct (get_key s k), (get_key s' k); try contradiction; split; congruence. }
  rewrite <- P. apply Permutation_refl'. apply map_ext. intros k. specialize (H k).
  destruct (get_key s k), (get_key s' k); try contradiction; auto.
Qed.
Lemma leq_hash a : forall b, loader_ok a -> loader_ok b -> leq a b = true -> lhash a = lhash b.
Proof.
  induction a as [nm up m|nm up m s f c IH|o p IHo IHp] using lval_ind'; intros [nm' up' m'|nm' up' m' s' f' c'|o' p'] W W' H; try discriminate.
  - inversion W; inversion W'; subst. cbn [lhash]. now apply veq_hash.
  - apply ok_loader_inv in W as (Wm & D & Ws). apply ok_loader_inv in W' as (Wm' & D' & Ws').
    apply leq_loader_iff in H as [Hm Hs]; auto. cbn [lhash]. rewrite (veq_hash _ _ Wm Wm' Hm). do 2 f_equal. f_equal. apply sort_z_ext.
    apply (spaces_hash (fun k x => Z.lxor (string_hash k) (lhash x))); auto.
    intros k. specialize (Hs k). destruct (get_key s k) eqn:E, (get_key s' k) eqn:E'; auto.
    pose proof (get_key_ind _ _ _ _ IH E) as Q. cbn in Q. f_equal. eauto.
  - inversion W; inversion W'; subst. cbn [leq lhash] in *. apply andb_prop in H as [A B]. now rewrite (IHo o'), (IHp p').
Qed.

(* ---------- Load ---------- *)

Lemma same_get m m' k : wf (VMap m) -> wf (VMap m') -> veq (VMap m) (VMap m') = true ->
  same_result (get_with (veq (VStr k)) m) (get_with (veq (VStr k)) m').
Proof.
  intros W W' H. rewrite !get_with_assoc. apply (proj1 (map_equal_iff m m' W W')) with (k := VStr k) in H; [|constructor]. exact H.
Qed.
Lemma same_nonnil a b : veq a b = true -> same_result (non_nil a) (non_nil b).
Proof. destruct a, b; cbn; try discriminate; auto. Qed.
Lemma same_lget a : forall b k, loader_ok a -> loader_ok b -> settled a -> settled b -> leq a b = true -> same_result (lget a k) (lget b k).
Proof.
  induction a as [nm up m|nm up m s f c IH|o p IHo IHp] using lval_ind';
    intros [nm' up' m'|nm' up' m' s' f' c'|o' p'] k W W' S S' H; try discriminate.
  - inversion W; inversion W'; subst. now apply same_get.
  - apply ok_loader_inv in W as (Wm & D & Ws). apply ok_loader_inv in W' as (Wm' & D' & Ws').
    apply leq_loader_iff in H as [Hm Hs]; auto. inversion S; inversion S'; subst. cbn [lget].
    pose proof (same_get m m' k Wm Wm' Hm) as G.
    destruct (get_with (veq (VStr k)) m), (get_with (veq (VStr k)) m'); try contradiction; [now apply same_nonnil|exact Logic.I].
  - inversion W; inversion W'; inversion S; inversion S'; subst. cbn [leq lget] in *. apply andb_prop in H as [A B].
    pose proof (IHp p' k) as G. specialize (G ltac:(assumption) ltac:(assumption) ltac:(assumption) ltac:(assumption) B).
    destruct (lget p k), (lget p' k); try contradiction; auto.
Qed.
Lemma lspace_props l n x : loader_ok l -> settled l -> lspace l n = Some x -> loader_ok x /\ settled x.
Proof.
  revert x. induction l as [nm up m|nm up m s f c IH|o p IHo IHp] using lval_ind'; intros x W S E;
    (destruct n as [|z n]; [injection E as <-; auto|]); cbn [lspace] in E; [discriminate| |].
  - inversion S; subst. apply ok_loader_inv in W as (Wm & D & Ws). destruct (get_key s (z :: n)) eqn:G; [|discriminate].
    injection E as <-. split; [eauto|]. apply get_key_in in G. rewrite Forall_forall in *. apply (H0 _ G).
  - inversion W; inversion S; subst. change (lspace o (z :: n)) with (lspace o (z :: n)) in E.
    destruct (lspace o (z :: n)) as [a|] eqn:Eo, (lspace p (z :: n)) as [b|] eqn:Ep; injection E as <- || discriminate; auto.
    destruct (IHo a), (IHp b); auto. split; constructor; auto.
Qed.
Definition same_loader (a b : option lval) : Prop := match a, b with None, None => True | Some x, Some y => leq x y = true | _, _ => False end.
Lemma same_lspace a n : forall b, loader_ok a -> loader_ok b -> settled a -> settled b -> leq a b = true -> same_loader (lspace a n) (lspace b n).
Proof.
  induction a as [nm up m|nm up m s f c IH|o p IHo IHp] using lval_ind';
    intros [nm' up' m'|nm' up' m' s' f' c'|o' p'] W W' S S' H; try discriminate; (destruct n as [|z n]; [exact H|]); cbn [lspace]; [exact Logic.I| |].
  - apply ok_loader_inv in W as (Wm & D & Ws). apply ok_loader_inv in W' as (Wm' & D' & Ws').
    apply leq_loader_iff in H as [Hm Hs]; auto. inversion S; inversion S'; subst. specialize (Hs (z :: n)).
    destruct (get_key s (z :: n)), (get_key s' (z :: n)); try contradiction; auto.
  - inversion W; inversion W'; inversion S; inversion S'; subst. cbn [leq] in *. apply andb_prop in H as [A B].
    pose proof (IHo o' ltac:(assumption) ltac:(assumption) ltac:(assumption) ltac:(assumption) A) as Ho.
    pose proof (IHp p' ltac:(assumption) ltac:(assumption) ltac:(assumption) ltac:(assumption) B) as Hp.
    destruct (lspace o (z :: n)), (lspace o' (z :: n)), (lspace p (z :: n)), (lspace p' (z :: n)); try contradiction; auto.
    cbn [same_loader leq]. now rewrite Ho, Hp.
Qed.
Lemma same_lload_parts parts : forall a b, loader_ok a -> loader_ok b -> settled a -> settled b -> leq a b = true ->
  same_result (lload_parts a parts) (lload_parts b parts).
Proof.
  induction parts as [|n r IH]; intros a b W W' S S' H; [exact Logic.I|]. cbn [lload_parts]. destruct r as [|n' r].
  - now apply same_lget.
  - pose proof (same_lspace a n b W W' S S' H) as G. destruct (lspace a n) as [x|] eqn:E, (lspace b n) as [y|] eqn:E'; try contradiction; [|exact Logic.I].
    destruct (lspace_props _ _ _ W S E), (lspace_props _ _ _ W' S' E'). now apply IH.
Qed.
Lemma equal_load a b s : loader_ok a -> loader_ok b -> settled a -> settled b -> leq a b = true -> same_result (lload a s) (lload b s).
Proof. intros. now apply same_lload_parts. Qed.

(* the same without the need for the same kind *)
Lemma settled_unchanged l k : settled l -> after_get l k = l.
Proof.
  induction l as [nm up m|nm up m s f c IH|o p IHo IHp] using lval_ind'; intros S; inversion S; subst; cbn [after_get]; auto.
  - now destruct (get_with (veq (VStr k)) m).
  - rewrite IHp; auto. destruct (lget p k); [reflexivity|now rewrite IHo].
Qed.

(* ---------- init arguments ---------- *)

Lemma init_round_trip l : loader_ok l ->
  exists l', linit (fst (init_map l)) (snd (init_map l)) = Made l' /\ loader_ok l' /\ leq l l' = true /\ lhash l' = lhash l /\ lname l' = lname l /\
    (settled l -> forall s, same_result (lload l s) (lload l' s)).
Proof.
  intros W.
  assert (X : exists l', linit (fst (init_map l)) (snd (init_map l)) = Made l' /\ loader_ok l' /\ leq l l' = true /\ lname l' = lname l /\ (settled l -> settled l')).
  { destruct l as [nm up m|nm up m s f c|o p].
    - exists (LMap nm [] m). inversion W; subst. repeat split; try (now constructor). now apply veq_refl.
    - exists (LLoader nm [] m s None None). inversion W; subst. pose proof (leq_refl _ W) as R. rewrite leq_loader in R. repeat split; auto.
      + now constructor.
      + now rewrite leq_loader.
      + intros S. inversion S; subst. now constructor.
    - exists (LChild o p). pose proof (leq_refl _ W). repeat split; auto. }
  destruct X as (l' & E & W' & Q & N & S). exists l'. repeat split; auto.
  - symmetry. now apply leq_hash.
  - intros Sl s. apply equal_load; auto.
Qed.

(* ---------- names ---------- *)

Lemma split_part n r : part n -> split (n ++ 47 :: r) = n :: split r.
Proof.
  induction n as [|c n IH]; intros P; [reflexivity|]. cbn [app split].
  destruct (Z.eqb_spec c 47) as [->|N]; [exfalso; apply P; now left|]. rewrite IH; [reflexivity|]. intros X. apply P. now right.
Qed.
Lemma split_last n : part n -> split n = [n].
Proof.
  induction n as [|c n IH]; intros P; [reflexivity|]. cbn [split]. destruct (Z.eqb_spec c 47) as [->|N]; [exfalso; apply P; now left|].
  rewrite IH; [reflexivity|]. intros X. apply P. now right.
Qed.
Lemma split_nonempty s : split s <> [].
Proof. destruct s as [|c s]; cbn; [discriminate|]. destruct (c =? 47); [discriminate|]. now destruct (split s). Qed.

Lemma load_parts_step h r n rest : rest <> [] ->
  load_parts h r (n :: rest) = match namespace h r n with (h1, None) => (h1, None) | (h1, Some r1) => load_parts h1 r1 rest end.
Proof. intros N. destruct rest; [contradiction|]. cbn [load_parts]. destruct (namespace h r n) as [h1 [r1|]]; reflexivity. Qed.
Lemma namespace_self h r : namespace h r [] = (h, Some r).
Proof. destruct r; reflexivity. Qed.

(* a path after a slash *)
Fixpoint rel (ns : list name) (k : name) : name := match ns with [] => k | n :: r => n ++ 47 :: rel r k end.
Lemma load_rel ns : forall h r h' r' k, Forall part ns -> part k -> reaches h r ns h' r' -> load h r (rel ns k) = get h' r' k.
Proof.
  unfold load. induction ns as [|n ns IH]; intros h r h' r' k F P R; inversion R; subst; cbn [rel].
  - now rewrite split_last.
  - inversion F; subst. rewrite split_part by auto. rewrite load_parts_step by apply split_nonempty. rewrite H3. now apply IH.
Qed.
Lemma load_slash h r s : load h r (47 :: s) = load h r s.
Proof. unfold load. change (split (47 :: s)) with ([] :: split s). now rewrite load_parts_step, namespace_self by apply split_nonempty. Qed.

Lemma rel_path n ns k : 47 :: rel (n :: ns) k = path (n :: ns) ++ 47 :: k.
Proof.
  revert n. induction ns as [|n' ns IH]; intros n; [cbn; now rewrite <- app_assoc|].
  change (rel (n :: n' :: ns) k) with (n ++ 47 :: rel (n' :: ns) k). rewrite IH.
  change (path (n :: n' :: ns)) with (47 :: n ++ path (n' :: ns)). cbn [app]. now rewrite app_assoc.
Qed.
Lemma path_app a b : path (a ++ b) = path a ++ path b.
Proof. induction a as [|x a IH]; [reflexivity|]. cbn [app path]. now rewrite IH, app_assoc. Qed.

(* the names that an absolute name is made of: leading names that are empty do not count *)
Fixpoint lead (ns : list name) : list name := match ns with [] :: r => lead r | _ => ns end.
Lemma lead_app a b : lead a <> [] -> lead (a ++ b) = lead a ++ b.
Proof. induction a as [|[|z n] a IH]; cbn [app lead]; intros H; [contradiction|now apply IH|reflexivity]. Qed.
Lemma lead_none a b : lead a = [] -> lead (a ++ b) = lead b.
Proof. induction a as [|[|z n] a IH]; cbn [app lead]; intros H; [reflexivity|now apply IH|discriminate]. Qed.
Lemma path_slash ns : path ns = [47] -> ns = [[]].
Proof. destruct ns as [|n ns]; cbn; [discriminate|]. intros [= H]. apply app_eq_nil in H as [-> H]. destruct ns; [reflexivity|discriminate]. Qed.
Lemma lead_not_empty_name ns : lead ns <> [[]].
Proof. induction ns as [|[|z n] ns IH]; cbn [lead]; auto; discriminate. Qed.

Lemma abs_path nm up : abs_name nm up = match lead (rev (nm :: up)) with [] => [47] | ns => path ns end.
Proof.
  revert nm. induction up as [|p up IH]; intros nm.
  - cbn. destruct nm; cbn; [reflexivity|now rewrite app_nil_r].
  - cbn [abs_name]. rewrite IH. change (rev (nm :: p :: up)) with (rev (p :: up) ++ [nm]). set (a := rev (p :: up)).
    destruct (lead a) as [|x r] eqn:E.
    + rewrite (lead_none _ _ E). cbn. destruct nm; cbn; [reflexivity|now rewrite app_nil_r].
    + assert (N : lead a <> []) by congruence. rewrite (lead_app _ _ N), E.
      assert (B : bytes_eqb (path (x :: r)) [47] = false).
      { destruct (bytes_eqb (path (x :: r)) [47]) eqn:B; [|reflexivity]. apply bytes_eqb_eq in B. apply path_slash in B.
        rewrite B in E. now apply lead_not_empty_name in E. }
      rewrite B. transitivity (path ((x :: r) ++ [nm])); [|reflexivity].
      rewrite path_app. f_equal. cbn [path]. now rewrite app_nil_r.
Qed.
Lemma reaches_lead ns : forall h r h' r', reaches h r ns h' r' -> reaches h r (lead ns) h' r'.
Proof.
  induction ns as [|n ns IH]; intros h r h' r' R; [exact R|]. destruct n as [|z n]; [|exact R].
  inversion R as [|h0 r0 n h1 r1 ns0 h2 r2 E R' A B C D]; subst. rewrite namespace_self in E. injection E as <- <-. now apply IH.
Qed.
Lemma lead_part ns : Forall part ns -> Forall part (lead ns).
Proof. induction ns as [|[|z n] ns IH]; cbn [lead]; intros F; auto. inversion F; auto. Qed.

Lemma absolute_name_loads l ns h r h' r' k : rev (lname l :: lup l) = [] :: ns -> Forall part ns -> part k -> reaches h r ns h' r' ->
  load h r (labs l ++ 47 :: k) = get h' r' k.
Proof.
  intros E F P R. unfold labs. rewrite abs_path, E. cbn [lead]. apply reaches_lead in R. apply lead_part in F. destruct (lead ns) as [|x t].
  - inversion R; subst. cbn [app]. rewrite load_slash, load_slash. unfold load. now rewrite split_last.
  - rewrite <- rel_path, load_slash. now apply load_rel.
Qed.

(* a name without a slash has one absolute name: different paths of non-empty names have different absolute names *)
Lemma path_inj a : forall b, Forall part a -> Forall part b -> path a = path b -> a = b.
Proof.
  induction a as [|x a IH]; intros [|y b] Fa Fb E; try discriminate; auto.
  inversion Fa; inversion Fb; subst. cbn [path] in E. injection E as E.
  assert (X : x = y /\ path a = path b).
  { clear - H1 H5 E. revert y H5 E. induction x as [|c x IH]; intros [|d y] P E; cbn [app] in E.
    - auto.
    - exfalso. destruct a; cbn in E; [discriminate|]. injection E as <- _. apply P. now left.
    - exfalso. destruct b; cbn in E; [discriminate|]. injection E as -> _. apply H1. now left.
    - injection E as -> E. destruct (IH) with (y := y) as [-> ?]; auto. intros X. apply H1. now right. intros X. apply P. now right. }
  destruct X as [-> X]. f_equal. now apply IH.
Qed.
Lemma abs_name_inj nm up nm' up' : Forall part (nm :: up) -> Forall part (nm' :: up') -> Forall (fun n => n <> []) (nm :: up) -> Forall (fun n => n <> []) (nm' :: up') ->
  abs_name nm up = abs_name nm' up' -> nm = nm' /\ up = up'.
Proof.
  intros P P' N N' E. rewrite !abs_path in E.
  assert (L : forall l, Forall (fun n : name => n <> []) l -> lead (rev l) = rev l).
  { intros l Fl. apply Forall_rev in Fl. destruct (rev l) as [|[|z n] r]; [reflexivity| |reflexivity]. inversion Fl; subst. congruence. }
  rewrite (L _ N), (L _ N') in E.
  assert (M : forall l, l <> [] -> match rev l with [] => [47] | ns => path ns end = path (rev l)).
  { intros l H. destruct (rev l) eqn:R; [|reflexivity]. apply (f_equal (@rev _)) in R. rewrite rev_involutive in R. contradiction. }
  rewrite !M in E by discriminate. apply path_inj in E; [|now apply Forall_rev|now apply Forall_rev].
  apply (f_equal (@rev _)) in E. rewrite !rev_involutive in E. injection E as -> ->. auto.
Qed.

Lemma child_names p f c : lname (lchild p f c) = lname p /\ labs (lchild p f c) = labs p.
Proof. unfold labs, lchild. destruct f, c; split; reflexivity. Qed.

(* ---------- entries ---------- *)

Lemma map_at_upd h p q x : map_at (upd h p x) q = if andb (Nat.eqb p q) (Nat.ltb p (length h)) then x else map_at h q.
Proof.
  unfold map_at. revert p q. induction h as [|y h IH]; intros p q; [destruct p; cbn; now rewrite ?andb_false_r|].
  destruct p, q; cbn [upd nth]; try reflexivity. rewrite IH. reflexivity.
Qed.
Lemma put_at_frozen h p k v h' q : put_at h p k v = Some h' -> fst (map_at h q) = true -> map_at h' q = map_at h q.
Proof.
  unfold put_at. destruct (map_at h p) as [fz m] eqn:E. destruct fz; [discriminate|]. intros [= <-] F. rewrite map_at_upd.
  destruct (Nat.eqb_spec p q) as [->|N]; [|reflexivity]. rewrite E in F. discriminate.
Qed.
Lemma puts_frozen l : forall h q, fst (map_at h q) = true -> map_at (puts h l) q = map_at h q.
Proof.
  induction l as [|[[p k] v] l IH]; intros h q F; [reflexivity|]. cbn [puts]. destruct (put_at h p k v) as [h'|] eqn:E; [|now apply IH].
  pose proof (put_at_frozen _ _ _ _ _ _ E F) as G. rewrite IH; congruence.
Qed.
Lemma new_is_immutable h p : let (h', q) := map_loader_new h p in
  (forall k, map_loader_get h' q k = map_loader_get h p k) /\ forall l k, map_loader_get (puts h' l) q k = map_loader_get h' q k.
Proof.
  unfold map_loader_new, map_loader_get. destruct (fst (map_at h p)) eqn:F.
  - split; [reflexivity|]. intros l k. now rewrite puts_frozen.
  - assert (E : map_at (h ++ [(true, snd (map_at h p))]) (length h) = (true, snd (map_at h p))).
    { unfold map_at at 1. now rewrite app_nth2, Nat.sub_diag by lia. }
    split; [intros k; now rewrite E|]. intros l k. now rewrite puts_frozen by now rewrite E.
Qed.

(* ---------- what Get leaves behind ---------- *)

Lemma get_with_end (m : list (value * value)) k k' v :
  get_with (veq (VStr k)) m = None -> get_with (veq (VStr k')) (m ++ [(VStr k, v)]) =
  match get_with (veq (VStr k')) m with Some w => Some w | None => if bytes_eqb k' k then Some v else None end.
Proof.
  intros _. unfold get_with. induction m as [|[x w] r IH]; cbn [app find fst].
  - change (veq (VStr k') (VStr k)) with (bytes_eqb k' k). destruct (bytes_eqb k' k); reflexivity.
  - destruct (veq (VStr k') x); [reflexivity|exact IH].
Qed.

Lemma get_again l k k' : lget (after_get l k) k' = lget l k'.
Proof.
  induction l as [nm up m|nm up m s f c|o IHo p IHp]; cbn [after_get lget]; [reflexivity| |].
  - destruct (get_with (veq (VStr k)) m) as [w|] eqn:G; [reflexivity|]. destruct f as [g|]; [|reflexivity]. cbn [lget]. rewrite get_with_end by exact G.
    destruct (get_with (veq (VStr k')) m); [reflexivity|]. destruct (bytes_eqb k' k) eqn:E; [|reflexivity]. apply bytes_eqb_eq in E as ->. reflexivity.
  - rewrite IHp. destruct (lget p k'); [reflexivity|]. destruct (lget p k); [reflexivity|exact IHo].
Qed.

Lemma new_answers up nm es f c k n : n <> [] ->
  (forall v, get_with (veq (VStr k)) es = Some v -> v <> VNil -> lget (lnew up nm es f c) k = Some v) /\
  (get_with (veq (VStr k)) es = None -> lget (lnew up nm es f c) k = match f with Some g => non_nil (g k) | None => None end) /\
  lspace (lnew up nm es f c) n = match c with Some d => d n | None => None end.
Proof.
  intros N. destruct n as [|z n]; [now destruct N|]. unfold lnew. destruct f as [f|], c as [c|]; cbn [lget lspace get_key]; repeat split; intros; try reflexivity;
    repeat match goal with H : get_with _ _ = _ |- _ => rewrite H; clear H end; try reflexivity; destruct v; try reflexivity; congruence.
Qed.
