(* Proofs about NamedStream.v. *)
From Coq Require Import ZArith List Bool Lia Floats.SpecFloat.
From Verif Require Import Int64 Utf8 TextSpec Data DataSpec DataProofs Convert ConvertSpec ConvertProofs Graph Stream StreamSpec StreamProofs Json JsonSpec JsonProofs NamedStream NamedStreamSpec.
Import ListNotations.
Open Scope Z_scope.

Section RvInd.
Variable P : rv -> Prop.
Hypothesis H1 : forall v, P (RLeaf v).
Hypothesis H2 : forall b, P (RBin b).
Hypothesis H3 : forall s n z, P (RTime s n z).
Hypothesis H4 : forall l, Forall P l -> P (RArr l).
Hypothesis H5 : forall m, Forall (fun e => P (fst e) /\ P (snd e)) m -> P (RMap m).
Hypothesis H6 : forall x, P x -> P (RSens x).
Hypothesis H7 : forall t, P (RType t).
Hypothesis H8 : forall n x, P x -> (forall m, x = RMap m -> Forall (fun e => P (fst e) /\ P (snd e)) m) -> P (RObj n x).
Fixpoint rv_ind_both (x : rv) : P x /\ (forall m, x = RMap m -> Forall (fun e => P (fst e) /\ P (snd e)) m).
Proof.
  destruct x as [v|b|s n z|l|m|x|t|n x].
  - split; [apply H1|discriminate].
  - split; [apply H2|discriminate].
  - split; [apply H3|discriminate].
  - split; [|discriminate]. apply H4. induction l as [|x l IH]; constructor; [apply rv_ind_both|exact IH].
  - assert (F : Forall (fun e => P (fst e) /\ P (snd e)) m).
    { induction m as [|[k v] m IH]; constructor; [|exact IH]. split; [exact (proj1 (rv_ind_both k))|exact (proj1 (rv_ind_both v))]. }
    split; [now apply H5|]. intros m' E. injection E as <-. exact F.
  - split; [|discriminate]. apply H6. apply rv_ind_both.
  - split; [apply H7|discriminate].
  - split; [|discriminate]. apply H8; apply rv_ind_both.
Qed.
Definition rv_ind' (x : rv) : P x := proj1 (rv_ind_both x).
End RvInd.

Lemma every_forall {A} (P : A -> Prop) l : every P l <-> Forall P l.
Proof. unfold every. induction l as [|x l IH]; cbn; [split; [constructor|auto]|]. rewrite IH. split; [intros [H1 H2]; now constructor|intros H; inversion H; auto]. Qed.

Lemma to_of v : to_value (of_value v) = Some v.
Proof.
  induction v as [| | | | | | | |v IH|l IH|m IH] using value_ind'; cbn [of_value to_value]; try reflexivity.
  - now rewrite IH.
  - assert (L : opt_list to_value (map of_value l) = Some l); [|now rewrite L]. induction IH as [|x l Hx Hl IHl]; cbn; [reflexivity|]. now rewrite Hx, IHl.
  - assert (L : opt_pairs to_value (map (fun e => (of_value (fst e), of_value (snd e))) m) = Some m); [|now rewrite L].
    induction IH as [|[k w] r [Hk Hw] Hl IHl]; cbn in *; [reflexivity|]. now rewrite Hk, Hw, IHl.
Qed.
Lemma of_simple v : simple v -> of_value v = RLeaf v.
Proof. destruct v; cbn; tauto. Qed.

(* ---------- maps ---------- *)

Lemma put_new m k v ks : map fst m = map of_value ks -> Forall (fun a => veq k a = false) ks -> put_entry m (of_value k) v = Done (m ++ [(of_value k, v)]).
Proof.
  revert ks. induction m as [|[k' v'] m IH]; intros ks E F; cbn; [reflexivity|]. destruct ks as [|a ks]; [discriminate E|]. cbn in E. injection E as -> E. inversion F as [|? ? Fa Fr]; subst.
  unfold same_key. rewrite !to_of, Fa. cbn. now rewrite (IH ks).
Qed.
Lemma put_distinct l : forall m ks ks', map fst m = map of_value ks -> map fst l = map of_value ks' -> distinct (ks ++ ks') -> put_entries l m = Done (m ++ l).
Proof.
  induction l as [|[k v] l IH]; intros m ks ks' Em El Di; cbn; [now rewrite app_nil_r|]. destruct ks' as [|a ks']; [discriminate El|]. cbn in El. injection El as -> El.
  assert (F : Forall (fun b => veq a b = false) ks).
  { clear - Di. unfold distinct in Di. induction ks as [|b ks IH]; constructor.
    - cbn in Di. inversion Di as [|? ? H _]; subst. rewrite Forall_forall in H. apply H, in_elt.
    - apply IH. cbn in Di. now inversion Di. }
  rewrite (put_new m a v ks Em F). cbn. rewrite (IH (m ++ [(of_value a, v)]) (ks ++ [a]) ks').
  - now rewrite <- app_assoc.
  - now rewrite !map_app, Em.
  - exact El.
  - now rewrite <- app_assoc.
Qed.
Lemma put_keys m : keys_ok m -> put_entries m [] = Done m.
Proof. intros (ks & E & Di). exact (put_distinct m [] [] ks eq_refl E Di). Qed.
Definition flat (m : list (rv * rv)) : list rv := flat_map (fun e => [fst e; snd e]) m.
Lemma pairs_flat m : rv_pairs (flat m) = m.
Proof. induction m as [|[k v] m IH]; cbn; [reflexivity|]. now rewrite <- IH at 2. Qed.
Lemma get_key_none k m : ~ In (text_key k) (map fst m) -> get_key k m = None.
Proof.
  induction m as [|[k' v] m IH]; intros N; [reflexivity|]. assert (E : get_key k m = None) by (apply IH; intros I; apply N; now right). cbn.
  destruct k' as [w| | | | | | |]; auto. destruct w; auto. destruct (bytes_eqb k s) eqn:B; [|exact E]. apply bytes_eqb_eq in B as ->. elim N. now left.
Qed.
Lemma get_key_in k m v : get_key k m = Some v -> In (text_key k, v) m.
Proof.
  induction m as [|[k' v'] m IH]; cbn; [discriminate|]. destruct k' as [w| | | | | | |]; try (intros H; right; now apply IH). destruct w; try (intros H; right; now apply IH).
  destruct (bytes_eqb k s) eqn:B; [|intros H; right; now apply IH]. apply bytes_eqb_eq in B as ->. intros [= ->]. now left.
Qed.
Lemma without_none k m : ~ In (text_key k) (map fst m) -> without_key k m = m.
Proof.
  induction m as [|[k' v] m IH]; intros N; [reflexivity|]. unfold without_key in *. cbn [filter fst]. rewrite IH by (intros I; apply N; now right).
  destruct k' as [w| | | | | | |]; try reflexivity. destruct w; try reflexivity. destruct (bytes_eqb k s) eqn:B; [|reflexivity]. apply bytes_eqb_eq in B as ->. elim N. now left.
Qed.
Lemma bytes_same l : bytes_eqb l l = true. Proof. now apply bytes_eqb_eq. Qed.
Lemma bytes_other a b : a <> b -> bytes_eqb a b = false.
Proof. intros N. destruct (bytes_eqb a b) eqn:E; [|reflexivity]. apply bytes_eqb_eq in E. contradiction. Qed.

Section Trip.
Variable W : codec.
Variable D : dialect.
Variable C : consumer.
Variable op : options.
Variable M : makers.
Hypothesis D_proper : proper D.
Hypothesis rich : o_rich op = true.
Hypothesis no_aliases : o_aliases op = false.

(* the streamer and the decoder agree about the references *)
Definition inv (s : stream) (vs : table) : Prop :=
  next s = length vs /\ forall t i, lookup (KText t) (seen s) = Some i -> nth_error vs i = Some (Some (text_key t)).
Lemma inv_more s vs x : inv s vs -> inv (bump s) (vs ++ [x]).
Proof.
  intros [N K]. split; [cbn; rewrite app_length, N; cbn; lia|]. intros t i L. cbn in L. specialize (K t i L). rewrite nth_error_app1; [exact K|]. apply nth_error_Some. congruence.
Qed.
(* e is what is sent for x *)
Definition sends (f : stream -> outcome (ev * stream)) (x : rv) : Prop :=
  forall s vs, inv s vs -> exists e s' vs', f s = Done (e, s') /\ dec W D M e vs = Done (x, vs') /\ inv s' vs'.
Lemma add_sends v : sends (add v) (of_value v).
Proof. intros s vs I. exists (EAdd v), (bump s), (vs ++ [Some (of_value v)]). repeat split; try apply (inv_more s vs); auto; apply inv_more; exact I. Qed.
Lemma string_sends lv t : sends (emit_string C lv t) (text_key t).
Proof.
  intros s vs I. unfold emit_string. destruct (_ <=? _); [|exact (add_sends (VStr t) s vs I)]. unfold process.
  assert (R : forall k, k <> NoDedup -> exists e s' vs', match lookup (KText t) (seen s) with Some i => Done (ERef (Z.of_nat i), s) | None => add (VStr t) (mk_stream ((KText t, next s) :: seen s) (next s)) end = Done (e, s') /\ dec W D M e vs = Done (text_key t, vs') /\ inv s' vs').
  { intros _ _. destruct (lookup (KText t) (seen s)) as [i|] eqn:L.
    - exists (ERef (Z.of_nat i)), s, vs. split; [reflexivity|]. split; [|exact I]. cbn [dec]. destruct (Z.ltb_spec (Z.of_nat i) 0); [lia|]. rewrite Nat2Z.id. rewrite (proj2 I t i L). reflexivity.
    - eexists _, _, (vs ++ [Some (text_key t)]). split; [reflexivity|]. split; [reflexivity|]. destruct I as [N K]. split; [cbn; rewrite app_length, N; cbn; lia|].
      intros t' i' L'. cbn [seen next bump] in L'. unfold lookup in L'. cbn [find fst snd] in L'. destruct (key_eqb (KText t') (KText t)) eqn:E.
      + injection L' as <-. apply key_eqb_eq in E. injection E as ->. rewrite N. rewrite nth_error_app2 by lia. now rewrite Nat.sub_diag.
      + change (lookup (KText t') (seen s) = Some i') in L'. specialize (K t' i' L'). rewrite nth_error_app1; [exact K|]. apply nth_error_Some. congruence. }
  destruct lv; [exact (add_sends (VStr t) s vs I)|now apply (R NoKeyDedup)|now apply (R NoKeyDedup)].
Qed.
Lemma seq_sends f l : Forall (fun x => sends (f x) x) l -> forall s vs, inv s vs ->
  exists es s' vs', emit_seq f l s = Done (es, s') /\ dec_all (dec W D M) es vs = Done (l, vs') /\ inv s' vs'.
Proof.
  induction 1 as [|x l Hx Hl IH]; intros s vs I.
  - exists [], s, vs. repeat split; apply I.
  - destruct (Hx s vs I) as (e & s1 & vs1 & E & De & I1). destruct (IH s1 vs1 I1) as (es & s2 & vs2 & Es & Des & I2).
    exists (e :: es), s2, vs2. cbn. rewrite E. cbn. rewrite Es. cbn. rewrite De. cbn. rewrite Des. auto.
Qed.
Lemma pairs_sends f fk m : Forall (fun e => sends (fk (fst e)) (fst e) /\ sends (f (snd e)) (snd e)) m -> forall s vs, inv s vs ->
  exists es s' vs', emit_pairs f fk m s = Done (es, s') /\ dec_all (dec W D M) es vs = Done (flat m, vs') /\ inv s' vs'.
Proof.
  induction 1 as [|[k v] m [Hk Hv] Hm IH]; intros s vs I.
  - exists [], s, vs. repeat split; apply I.
  - cbn [fst snd] in *. destruct (Hk s vs I) as (e & s1 & vs1 & E & De & I1). destruct (Hv s1 vs1 I1) as (e' & s2 & vs2 & E' & De' & I2). destruct (IH s2 vs2 I2) as (es & s3 & vs3 & Es & Des & I3).
    exists (e :: e' :: es), s3, vs3. cbn. rewrite E. cbn. rewrite E'. cbn. rewrite Es. cbn. rewrite De. cbn. rewrite De'. cbn. rewrite Des. auto.
Qed.
Definition two (nm : list Z) (y : rv) : list (rv * rv) := [(text_key (d_type D), text_key nm); (text_key (d_value D), y)].
Lemma two_put nm y : put_entries (two nm y) [] = Done (two nm y).
Proof.
  apply put_keys. exists [VStr (d_type D); VStr (d_value D)]. split; [reflexivity|]. repeat constructor. apply bytes_other. intros E. now apply (proj1 D_proper).
Qed.
Lemma two_decoded nm y : decoded W D M (two nm y) = decode_rv W D M nm (two nm y) /\ get_key (d_value D) (two nm y) = Some y.
Proof.
  unfold decoded, two. cbn. rewrite bytes_same. split; [reflexivity|]. rewrite (bytes_other (d_value D) (d_type D)) by (intros E; symmetry in E; now apply (proj1 D_proper)). now rewrite bytes_same.
Qed.
Lemma wrapped_sends nm f x y : sends f y -> decode_rv W D M nm (two nm y) = Done x -> sends (wrapped D nm f) x.
Proof.
  intros F Dx s vs I. pose proof (inv_more _ _ (Some (text_key (d_value D))) (inv_more _ _ (Some (text_key nm)) (inv_more _ _ (Some (text_key (d_type D))) (inv_more s vs None I)))) as I4.
  destruct (F _ _ I4) as (e & s' & vs' & E & De & I').
  exists (EMap [EAdd (VStr (d_type D)); EAdd (VStr nm); EAdd (VStr (d_value D)); e]), s', vs'. unfold wrapped. cbn [add bind]. rewrite E. cbn [bind]. split; [reflexivity|]. split; [|exact I'].
  cbn [dec dec_all of_value bind]. unfold text_key in De. rewrite De. cbn [bind rv_pairs]. change [(RLeaf (VStr (d_type D)), RLeaf (VStr nm)); (RLeaf (VStr (d_value D)), y)] with (two nm y).
  rewrite two_put. cbn [bind]. rewrite (proj1 (two_decoded nm y)), Dx. reflexivity.
Qed.
Lemma decode_two nm y : decode_rv W D M nm (two nm y) =
  if bytes_eqb nm (d_map D) then match y with RArr l => Done (RMap (rv_pairs l)) | _ => Panics end
  else if bytes_eqb nm (d_sensitive D) then Done (RSens y)
  else if bytes_eqb nm (d_binary D) then match y with RLeaf (VStr t) => match binary_from_encoded (fun _ => true) t EncB with Some b => Done (RBin b) | None => Panics end | _ => Panics end
  else if bytes_eqb nm (d_time D) then match y with RLeaf (VStr t) => match w_parse W t with Some (s, ns, z) => Done (RTime s ns z) | None => Panics end | _ => Panics end
  else if bytes_eqb nm (d_alias D) then Skips
  else if w_named W nm then match m_new M nm y with Some x => Done x | None => Panics end else Panics.
Proof. unfold decode_rv. rewrite (proj2 (two_decoded nm y)). reflexivity. Qed.
Lemma words : d_sensitive D <> d_map D /\ d_binary D <> d_map D /\ d_binary D <> d_sensitive D /\ d_time D <> d_map D /\ d_time D <> d_sensitive D /\ d_time D <> d_binary D.
Proof.
  destruct D_proper as [_ N]. inversion N as [|? ? N1 R1]; subst. inversion R1 as [|? ? N2 R2]; subst. inversion R2 as [|? ? N3 _]; subst. cbn in *.
  repeat split; intros E; rewrite E in *; tauto.
Qed.
Lemma string_keys_iff m : all_string_keys m = true <-> only_strings m.
Proof.
  unfold all_string_keys, only_strings. induction m as [|[k v] m IH]; cbn; [split; auto|]. rewrite andb_true_iff, IH. split.
  - intros [H1 H2]. constructor; [|exact H2]. cbn. destruct k as [w| | | | | | |]; try discriminate H1. destruct w; try discriminate H1. now exists s.
  - intros H. inversion H as [|? ? [t E] Hr]; subst. cbn in E. subst. auto.
Qed.
Lemma ref_in_none m : (forall i, m <> [(text_key (d_ref D), RLeaf (VInt i))]) -> ref_in D m = None.
Proof.
  intros N. unfold ref_in. destruct m as [|[k v] [|]]; try reflexivity; destruct k as [w| | | | | | |]; try reflexivity; destruct w; try reflexivity; destruct v as [w| | | | | | |]; try reflexivity; destruct w; try reflexivity.
  destruct (bytes_eqb s (d_ref D)) eqn:B; [|reflexivity]. apply bytes_eqb_eq in B as ->. now elim (N z).
Qed.

Theorem emit_sends x : streamable W D C M x -> forall lv, sends (emit_rv W D C op lv x) x.
Proof.
  destruct words as (W1 & W2 & W3 & W4 & W5 & W6).
  induction x as [v|b|sec nsec zone|l IH|m IH|x IH|t|nm x IH IHm] using rv_ind'; intros S lv.
  - cbn [streamable] in S. cbn [emit_rv]. destruct v; cbn in S; try contradiction S; try exact (string_sends lv s); [exact (add_sends VNil)|exact (add_sends (VBool b))|exact (add_sends (VInt z))|exact (add_sends (VFloat f))].
  - cbn [streamable] in S. cbn [emit_rv]. destruct (c_binary C) eqn:B; [apply (add_sends (VBin b))|]. rewrite rich. destruct S as [S|S]; [discriminate S|].
    apply wrapped_sends with (y := text_key (encode_binary b)); [apply string_sends|]. rewrite decode_two, (bytes_other _ _ W2), (bytes_other _ _ W3), bytes_same. cbn [text_key].
    now rewrite (proj1 (binary_round_trip (fun _ => true) b S)).
  - cbn [streamable] in S. cbn [emit_rv]. destruct (c_time C) eqn:B; [apply (add_sends (VTime sec nsec zone))|]. rewrite rich. destruct S as [S|S]; [discriminate S|].
    apply wrapped_sends with (y := text_key (w_format W sec nsec zone)); [apply string_sends|]. rewrite decode_two, (bytes_other _ _ W4), (bytes_other _ _ W5), (bytes_other _ _ W6), bytes_same. cbn [text_key]. now rewrite S.
  - cbn [streamable] in S. rewrite every_forall in S. intros s vs I. cbn [emit_rv].
    assert (F : Forall (fun x => sends (emit_rv W D C op lv x) x) l). { rewrite Forall_forall in *. intros x Ix. exact (IH x Ix (S x Ix) lv). }
    destruct (seq_sends _ l F (bump s) (vs ++ [None]) (inv_more s vs None I)) as (es & s' & vs' & E & De & I'). exists (EArr es), s', vs'. rewrite E. cbn [bind dec]. rewrite De. auto.
  - destruct S as (S & K & R). rewrite every_forall in S.
    assert (F : forall lk, Forall (fun e => sends (emit_rv W D C op lk (fst e)) (fst e) /\ sends (emit_rv W D C op lv (snd e)) (snd e)) m).
    { intros lk. rewrite Forall_forall in *. intros e Ie. destruct (IH e Ie), (S e Ie). auto. }
    cbn [emit_rv]. destruct (c_complex C || all_string_keys m) eqn:B.
    + assert (U : unreserved D m) by (apply R; apply orb_true_iff in B as [B|B]; [now left|right; now apply string_keys_iff]). rewrite (ref_in_none m (proj2 U)).
      intros s vs I. destruct (pairs_sends _ _ m (F (key_level lv)) (bump s) (vs ++ [None]) (inv_more s vs None I)) as (es & s' & vs' & E & De & I'). exists (EMap es), s', vs'. rewrite E. cbn [bind dec]. rewrite De. cbn [bind].
      rewrite pairs_flat, (put_keys m K). cbn [bind]. unfold decoded. destruct (get_key (d_type D) m) as [y|] eqn:G; [|auto]. apply get_key_in in G.
      destruct y as [w| | | | | | |]; auto. destruct w; auto. now elim (proj1 U s0).
    + rewrite rich. apply wrapped_sends with (y := RArr (flat m)); [|rewrite decode_two, bytes_same; now rewrite pairs_flat].
      intros s vs I. destruct (pairs_sends _ _ m (F NoDedup) (bump s) (vs ++ [None]) (inv_more s vs None I)) as (es & s' & vs' & E & De & I'). exists (EArr es), s', vs'. rewrite E. cbn [bind dec]. rewrite De. auto.
  - cbn [streamable] in S. cbn [emit_rv]. rewrite rich. apply wrapped_sends with (y := x); [now apply IH|]. now rewrite decode_two, (bytes_other _ _ W1), bytes_same.
  - cbn [streamable] in S. cbn [emit_rv]. rewrite no_aliases. intros s vs I.
    pose proof (inv_more _ _ (Some (text_key t)) (inv_more _ _ (Some (text_key (d_type D))) (inv_more s vs None I))) as I3.
    eexists _, _, _. split; [reflexivity|]. split; [|exact I3]. cbn [add dec dec_all bind of_value rv_pairs put_entries put_entry]. unfold decoded. cbn [get_key]. rewrite bytes_same. unfold decode_rv. cbn [length Nat.eqb]. now rewrite S.
  - destruct S as ((Nm & Nw) & New & S). cbn [emit_rv]. rewrite rich.
    assert (N : forall w, In w [d_map D; d_sensitive D; d_binary D; d_time D; d_alias D] -> bytes_eqb nm w = false) by (intros w Iw; apply bytes_other; intros ->; contradiction).
    assert (NOTMAP : streamable W D C M x -> sends (wrapped D nm (emit_rv W D C op lv x)) (RObj nm x)).
    { intros Sx. apply wrapped_sends with (y := x); [now apply IH|]. rewrite decode_two, !N by (cbn; tauto). now rewrite Nm, New. }
    destruct x as [v|b|sec nsec zone|l|m|x|t|nm' x]; try (now apply NOTMAP). clear NOTMAP IH. destruct S as (Ne & K & Nt & Nv & Sv). rewrite every_forall in Sv. specialize (IHm m eq_refl).
    destruct K as (ks & Ek & Di).
    assert (F : Forall (fun e => sends (raw_key (fst e)) (fst e) /\ sends (emit_rv W D C op lv (snd e)) (snd e)) m).
    { rewrite Forall_forall in *. intros e Ie. split; [|exact (proj2 (IHm e Ie) (Sv e Ie) lv)]. assert (Ik : In (fst e) (map of_value ks)) by (rewrite <- Ek; now apply in_map). apply in_map_iff in Ik as (k & <- & _).
      unfold raw_key. rewrite to_of. apply add_sends. }
    intros s vs I. pose proof (inv_more _ _ (Some (text_key nm)) (inv_more _ _ (Some (text_key (d_type D))) (inv_more s vs None I))) as I3.
    destruct (pairs_sends _ _ m F _ _ I3) as (es & s' & vs' & E & De & I'). exists (EMap (EAdd (VStr (d_type D)) :: EAdd (VStr nm) :: es)), s', vs'.
    cbn [add bind]. rewrite E. cbn [bind]. split; [reflexivity|]. split; [|exact I']. cbn [dec dec_all bind of_value]. unfold text_key in De. rewrite De. cbn [bind rv_pairs]. rewrite pairs_flat.
    rewrite put_keys; [cbn [bind]|].
    + unfold decoded. cbn [get_key]. rewrite bytes_same. unfold decode_rv. cbn [length]. destruct m as [|e0 m']; [now elim Ne|]. cbn [length Nat.eqb].
      remember (e0 :: m') as m eqn:Em. cbn [get_key]. rewrite (bytes_other (d_value D) (d_type D)) by (intros Q; symmetry in Q; now apply (proj1 D_proper)).
      rewrite (get_key_none _ m Nv). cbn [without_key filter fst]. rewrite bytes_same. cbn [negb]. change (filter _ m) with (without_key (d_type D) m). rewrite (without_none _ m Nt).
      rewrite !N by (cbn; tauto). now rewrite Nm, New.
    + exists (VStr (d_type D) :: ks). cbn [map of_value fst]. rewrite Ek. split; [reflexivity|]. constructor; [|exact Di]. rewrite Forall_forall. intros k Ik. destruct k; try reflexivity. cbn. apply bytes_other. intros ->.
      apply Nt. rewrite Ek. apply in_map_iff. exists (VStr (d_type D)). auto.
Qed.
Theorem named_round_trip lv x : streamable W D C M x -> exists e, emits_rv W D C op lv x = Done e /\ decodes W D M e = Done x.
Proof.
  intros S. assert (I : inv (mk_stream [] 0) []) by (split; [reflexivity|intros t i L; discriminate L]).
  destruct (emit_sends x S (start_level C lv) _ _ I) as (e & s' & vs' & E & De & _). exists e. unfold emits_rv, decodes. rewrite E, De. auto.
Qed.
End Trip.
