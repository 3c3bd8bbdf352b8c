(* Proofs about AliasStream.v. *)
From Coq Require Import ZArith List Bool Lia Floats.SpecFloat.
From Verif Require Import Int64 Data DataSpec DataProofs Convert ConvertSpec ConvertProofs Graph Stream StreamSpec StreamProofs Json NamedStream NamedStreamSpec NamedStreamProofs AliasStream AliasStreamSpec.
Import ListNotations.
Open Scope Z_scope.

Lemma types_of_value v : types_in (of_value v) = [].
Proof.
  induction v as [| | | | | | | |v IH|l IH|m IH] using value_ind'; cbn [of_value types_in]; try reflexivity; [exact IH| |].
  - induction IH as [|x l Hx Hl IHl]; cbn; [reflexivity|]. now rewrite Hx, IHl.
  - induction IH as [|[k w] r [Hk Hw] Hl IHl]; cbn in *; [reflexivity|]. now rewrite Hk, Hw, IHl.
Qed.

Section Trip.
Variable W : codec.
Variable D : dialect.
Variable C : consumer.
Variable op : options.
Variable M : makers.
Hypothesis D_proper : proper D.
Hypothesis rich : o_rich op = true.
Variable names : list Z -> option (list Z).
Variable adder : bool.
Hypothesis aliases : o_aliases op = true.
Hypothesis word : alias_word D.
Definition one (t : list Z) : adds := if adder then match names t with Some n => [(n, t)] | None => [] end else [].
Definition ds (x : rv) : adds := flat_map one (types_in x).
Definition dsl (l : list rv) : adds := flat_map ds l.
Lemma ds_types x : types_in x = [] -> ds x = [].
Proof. unfold ds. now intros ->. Qed.
Lemma ds_flat x l : types_in x = flat_map types_in l -> ds x = dsl l.
Proof. unfold ds, dsl. intros ->. induction l as [|y l IH]; cbn; [reflexivity|]. now rewrite flat_map_app, IH. Qed.
Lemma ds_declared x : ds x = if adder then declared names x else [].
Proof. unfold ds, declared, one. destruct adder; [reflexivity|]. induction (types_in x) as [|t l IH]; cbn; auto. Qed.
Lemma types_flat m : flat_map types_in (flat m) = flat_map (fun e => types_in (fst e) ++ types_in (snd e)) m.
Proof. induction m as [|[k v] m IH]; cbn; [reflexivity|]. unfold flat in IH. now rewrite IH, app_assoc. Qed.
Notation decE := (dec_al W D M adder).

(* e is what is sent for x *)
Definition sends (f : stream -> outcome (ev * stream)) (x : rv) : Prop :=
  forall s (vs : list (option rv)) al, inv s vs -> exists e s' (vs' : list (option rv)), f s = Done (e, s') /\ decE e (vs, al) = Done (x, (vs', al ++ ds x)) /\ inv s' vs'.
Lemma add_sends v : sends (add v) (of_value v).
Proof.
  intros s vs al I. exists (EAdd v), (bump s), (vs ++ [Some (of_value v)]). split; [reflexivity|]. split; [|now apply inv_more].
  cbn [dec_al fst snd]. now rewrite (ds_types _ (types_of_value v)), app_nil_r.
Qed.
Lemma string_sends lv t : sends (emit_string C lv t) (text_key t).
Proof.
  intros s vs al I. destruct (NamedStreamProofs.string_sends W D C M lv t s vs I) as (e & s' & vs' & E & De & I'). exists e, s', vs'. split; [exact E|]. split; [|exact I'].
  change (ds (text_key t)) with (ds (of_value (VStr t))). rewrite (ds_types _ (types_of_value (VStr t))), app_nil_r.
  unfold emit_string in E. assert (L : (exists v, e = EAdd v) \/ exists i, e = ERef i).
  { destruct (_ <=? _); [|injection E as <- _; eauto]. unfold process in E. destruct lv; [injection E as <- _; eauto| |]; (destruct (lookup _ _); injection E as <- _; eauto). }
  destruct L as [[v ->]|[i ->]]; cbn [dec dec_al fst snd] in *.
  - now inversion De.
  - destruct (i <? 0); [discriminate|]. destruct (nth_error vs (Z.to_nat i)) as [[y|]|]; try discriminate. now inversion De; subst.
Qed.
Lemma seq_sends f l : Forall (fun x => sends (f x) x) l -> forall s (vs : list (option rv)) al, inv s vs ->
  exists es s' (vs' : list (option rv)), emit_seq f l s = Done (es, s') /\ dec_all_al decE es (vs, al) = Done (l, (vs', al ++ dsl l)) /\ inv s' vs'.
Proof.
  induction 1 as [|x l Hx Hl IH]; intros s vs al I.
  - exists [], s, vs. cbn. rewrite app_nil_r. repeat split; apply I.
  - destruct (Hx s vs al I) as (e & s1 & vs1 & E & De & I1). destruct (IH s1 vs1 (al ++ ds x) I1) as (es & s2 & vs2 & Es & Des & I2).
    exists (e :: es), s2, vs2. cbn [emit_seq dec_all_al]. rewrite E. cbn [bind]. rewrite Es. cbn [bind]. rewrite De. cbn [bind]. rewrite Des. cbn [bind dsl flat_map]. rewrite <- app_assoc. auto.
Qed.
Lemma pairs_sends f fk m : Forall (fun e => sends (fk (fst e)) (fst e) /\ sends (f (snd e)) (snd e)) m -> forall s (vs : list (option rv)) al, inv s vs ->
  exists es s' (vs' : list (option rv)), emit_pairs f fk m s = Done (es, s') /\ dec_all_al decE es (vs, al) = Done (flat m, (vs', al ++ dsl (flat m))) /\ inv s' vs'.
Proof.
  induction 1 as [|[k v] m [Hk Hv] Hm IH]; intros s vs al I.
  - exists [], s, vs. cbn. rewrite app_nil_r. repeat split; apply I.
  - cbn [fst snd] in *. destruct (Hk s vs al I) as (e & s1 & vs1 & E & De & I1). destruct (Hv s1 vs1 (al ++ ds k) I1) as (e' & s2 & vs2 & E' & De' & I2). destruct (IH s2 vs2 ((al ++ ds k) ++ ds v) I2) as (es & s3 & vs3 & Es & Des & I3).
    exists (e :: e' :: es), s3, vs3. cbn [emit_pairs dec_all_al]. rewrite E. cbn [bind]. rewrite E'. cbn [bind]. rewrite Es. cbn [bind]. rewrite De. cbn [bind]. rewrite De'. cbn [bind]. rewrite Des. cbn [bind].
    unfold dsl, flat. cbn [flat_map app fst snd]. rewrite !app_assoc. auto.
Qed.
Notation two := (NamedStreamProofs.two D).
Lemma wrapped_sends nm f x y : sends f y -> (forall al, decode_al W D M adder nm (two nm y) (al ++ ds y) = Done (x, al ++ ds x)) -> sends (wrapped D nm f) x.
Proof.
  intros F Dx s vs al I. pose proof (inv_more _ _ (Some (text_key (d_value D))) (inv_more _ _ (Some (text_key nm)) (inv_more _ _ (Some (text_key (d_type D))) (inv_more s vs None I)))) as I4.
  destruct (F _ _ al I4) as (e & s' & vs' & E & De & I').
  exists (EMap [EAdd (VStr (d_type D)); EAdd (VStr nm); EAdd (VStr (d_value D)); e]), s', vs'. unfold wrapped. cbn [add bind]. rewrite E. cbn [bind]. split; [reflexivity|]. split; [|exact I'].
  cbn [dec_al dec_all_al of_value bind fst snd]. unfold text_key in De. rewrite De. cbn [bind rv_pairs fst snd]. change [(RLeaf (VStr (d_type D)), RLeaf (VStr nm)); (RLeaf (VStr (d_value D)), y)] with (two nm y).
  rewrite (two_put D D_proper). cbn [bind]. unfold decoded_al. assert (G : get_key (d_type D) (two nm y) = Some (text_key nm)) by (cbn; now rewrite bytes_same).
  rewrite G. cbn [text_key]. rewrite Dx. reflexivity.
Qed.
(* not the alias type *)
Lemma decode_other nm y x : bytes_eqb nm (d_alias D) = false \/ In nm [d_map D; d_sensitive D; d_binary D; d_time D] -> decode_rv W D M nm (two nm y) = Done x -> ds x = ds y ->
  forall al, decode_al W D M adder nm (two nm y) (al ++ ds y) = Done (x, al ++ ds x).
Proof.
  intros N Dx Ex al. unfold decode_al. replace (_ && bytes_eqb nm (d_alias D)) with false; [rewrite Dx; cbn [bind]; now rewrite Ex|].
  symmetry. destruct N as [->|N]; [apply andb_false_r|]. cbn in N.
  destruct N as [<-|[<-|[<-|[<-|[]]]]]; rewrite ?bytes_same; cbn [negb]; rewrite ?andb_false_r; reflexivity.
Qed.

Theorem emit_sends x : streamable W D C M x -> all_named names x -> forall lv, sends (emit_al W D C op names lv x) x.
Proof.
  destruct (words D D_proper) as (W1 & W2 & W3 & W4 & W5 & W6).
  induction x as [v|b|sec nsec zone|l IH|m IH|x IH|t|nm x IH IHm] using rv_ind'; intros S A lv.
  - cbn [streamable] in S. cbn [emit_al]. destruct v; cbn in S; try contradiction S; try exact (string_sends lv s); [exact (add_sends VNil)|exact (add_sends (VBool b))|exact (add_sends (VInt z))|exact (add_sends (VFloat f))].
  - cbn [streamable] in S. cbn [emit_al]. destruct (c_binary C) eqn:B; [apply (add_sends (VBin b))|]. rewrite rich. destruct S as [S|S]; [discriminate S|].
    apply wrapped_sends with (y := text_key (encode_binary b)); [apply string_sends|]. apply decode_other; [right; cbn; tauto| |reflexivity].
    rewrite (decode_two W D M D_proper), (bytes_other _ _ W2), (bytes_other _ _ W3), bytes_same. cbn [text_key].
    now rewrite (proj1 (binary_round_trip (fun _ => true) b S)).
  - cbn [streamable] in S. cbn [emit_al]. destruct (c_time C) eqn:B; [apply (add_sends (VTime sec nsec zone))|]. rewrite rich. destruct S as [S|S]; [discriminate S|].
    apply wrapped_sends with (y := text_key (w_format W sec nsec zone)); [apply string_sends|]. apply decode_other; [right; cbn; tauto| |reflexivity].
    rewrite (decode_two W D M D_proper), (bytes_other _ _ W4), (bytes_other _ _ W5), (bytes_other _ _ W6), bytes_same. cbn [text_key]. now rewrite S.
  - cbn [streamable] in S. rewrite every_forall in S. intros s vs al I. cbn [emit_al].
    assert (F : Forall (fun x => sends (emit_al W D C op names lv x) x) l).
    { rewrite Forall_forall in *. intros x Ix. apply (IH x Ix (S x Ix)). unfold all_named in *. rewrite Forall_forall in *. intros t It. apply A. cbn. apply in_flat_map. eauto. }
    destruct (seq_sends _ l F (bump s) (vs ++ [None]) al (inv_more s vs None I)) as (es & s' & vs' & E & De & I'). exists (EArr es), s', vs'. rewrite E. cbn [bind dec_al fst snd]. rewrite De.
    cbn [bind]. rewrite (ds_flat (RArr l) l eq_refl). auto.
  - destruct S as (S & K & R). rewrite every_forall in S.
    assert (F : forall lk, Forall (fun e => sends (emit_al W D C op names lk (fst e)) (fst e) /\ sends (emit_al W D C op names lv (snd e)) (snd e)) m).
    { intros lk. rewrite Forall_forall in *. intros e Ie. destruct (IH e Ie) as [IH1 IH2], (S e Ie) as [S1 S2]. unfold all_named in *. rewrite Forall_forall in A.
      split; [apply IH1|apply IH2]; auto; apply Forall_forall; intros t It; apply A; cbn; apply in_flat_map; exists e; (split; [exact Ie|]); apply in_or_app; auto. }
    assert (DS : ds (RMap m) = dsl (flat m)) by (apply ds_flat; now rewrite types_flat).
    cbn [emit_al]. destruct (c_complex C || all_string_keys m) eqn:B.
    + assert (U : unreserved D m) by (apply R; apply orb_true_iff in B as [B|B]; [now left|right; now apply string_keys_iff]). rewrite (ref_in_none D m (proj2 U)).
      intros s vs al I. destruct (pairs_sends _ _ m (F (key_level lv)) (bump s) (vs ++ [None]) al (inv_more s vs None I)) as (es & s' & vs' & E & De & I'). exists (EMap es), s', vs'. rewrite E. cbn [bind dec_al fst snd]. rewrite De. cbn [bind fst snd].
      rewrite pairs_flat, (put_keys m K). cbn [bind]. unfold decoded_al. rewrite DS. destruct (get_key (d_type D) m) as [y|] eqn:G; [|auto]. apply get_key_in in G.
      destruct y as [w| | | | | | |]; auto. destruct w; auto. now elim (proj1 U s0).
    + rewrite rich. apply wrapped_sends with (y := RArr (flat m)).
      * intros s vs al I. destruct (pairs_sends _ _ m (F NoDedup) (bump s) (vs ++ [None]) al (inv_more s vs None I)) as (es & s' & vs' & E & De & I'). exists (EArr es), s', vs'. rewrite E. cbn [bind dec_al fst snd]. rewrite De.
        cbn [bind]. rewrite (ds_flat (RArr (flat m)) (flat m) eq_refl). auto.
      * apply decode_other; [right; cbn; tauto| |rewrite DS; symmetry; now apply ds_flat]. rewrite (decode_two W D M D_proper), bytes_same. now rewrite pairs_flat.
  - cbn [streamable] in S. cbn [emit_al]. rewrite rich. apply wrapped_sends with (y := x); [now apply IH|]. apply decode_other; [right; cbn; tauto| |reflexivity].
    now rewrite (decode_two W D M D_proper), (bytes_other _ _ W1), bytes_same.
  - cbn [streamable] in S. cbn [emit_al]. unfold emit_type. rewrite aliases. unfold all_named in A. cbn [types_in] in A. inversion A as [|? ? A1 _]; subst. destruct (names t) as [n|] eqn:Nt; [|congruence].
    apply wrapped_sends with (y := RArr [text_key n; text_key t]).
    + intros s vs al I. destruct (string_sends lv n (bump s) (vs ++ [None]) al (inv_more s vs None I)) as (e1 & s1 & vs1 & E1 & D1 & I1).
      destruct (string_sends lv t s1 vs1 (al ++ ds (text_key n)) I1) as (e2 & s2 & vs2 & E2 & D2 & I2). exists (EArr [e1; e2]), s2, vs2. rewrite E1. cbn [bind]. rewrite E2. cbn [bind]. split; [reflexivity|]. split; [|exact I2].
      cbn [dec_al dec_all_al fst snd]. rewrite D1. cbn [bind]. rewrite D2. cbn [bind]. change (ds (RArr [text_key n; text_key t])) with (@nil (list Z * list Z)). change (ds (text_key n)) with (@nil (list Z * list Z)). change (ds (text_key t)) with (@nil (list Z * list Z)). now rewrite !app_nil_r.
    + intros al. unfold decode_al. unfold alias_word in word. cbn in word.
      rewrite (bytes_other (d_alias D) (d_map D)), (bytes_other (d_alias D) (d_sensitive D)), (bytes_other (d_alias D) (d_binary D)), (bytes_other (d_alias D) (d_time D)), bytes_same by (intros Q; rewrite Q in *; tauto).
      rewrite (proj2 (two_decoded W D M D_proper (d_alias D) _)). cbn [length NamedStreamProofs.two Nat.eqb negb andb text_key]. rewrite S.
      change (ds (RArr [text_key n; text_key t])) with (@nil (list Z * list Z)). rewrite app_nil_r. unfold ds. cbn [types_in flat_map]. rewrite app_nil_r. unfold one. rewrite Nt. destruct adder; [reflexivity|now rewrite app_nil_r].
  - destruct S as ((Nm & Nw) & New & S). cbn [emit_al]. rewrite rich.
    assert (N : forall w, In w [d_map D; d_sensitive D; d_binary D; d_time D; d_alias D] -> bytes_eqb nm w = false) by (intros w Iw; apply bytes_other; intros ->; contradiction).
    assert (NOTMAP : streamable W D C M x -> sends (wrapped D nm (emit_al W D C op names lv x)) (RObj nm x)).
    { intros Sx. apply wrapped_sends with (y := x); [now apply IH|]. apply decode_other; [left; apply N; cbn; tauto| |reflexivity]. rewrite (decode_two W D M D_proper), !N by (cbn; tauto). now rewrite Nm, New. }
    destruct x as [v|b|sec nsec zone|l|m|x|t|nm' x]; try (now apply NOTMAP). clear NOTMAP IH. destruct S as (Ne & K & Nt & Nv & Sv). rewrite every_forall in Sv. specialize (IHm m eq_refl).
    destruct K as (ks & Ek & Di).
    assert (F : Forall (fun e => sends (raw_key (fst e)) (fst e) /\ sends (emit_al W D C op names lv (snd e)) (snd e)) m).
    { rewrite Forall_forall in *. intros e Ie. split.
      - assert (Ik : In (fst e) (map of_value ks)) by (rewrite <- Ek; now apply in_map). apply in_map_iff in Ik as (k & <- & _). unfold raw_key. rewrite to_of. apply add_sends.
      - apply (proj2 (IHm e Ie) (Sv e Ie)). unfold all_named in *. rewrite Forall_forall in *. intros t It. apply A. cbn. apply in_flat_map. exists e. split; [exact Ie|]. apply in_or_app. now right. }
    assert (DS : ds (RObj nm (RMap m)) = dsl (flat m)) by (apply ds_flat; now rewrite types_flat).
    intros s vs al I. pose proof (inv_more _ _ (Some (text_key nm)) (inv_more _ _ (Some (text_key (d_type D))) (inv_more s vs None I))) as I3.
    destruct (pairs_sends _ _ m F _ _ al I3) as (es & s' & vs' & E & De & I'). exists (EMap (EAdd (VStr (d_type D)) :: EAdd (VStr nm) :: es)), s', vs'.
    cbn [add bind]. rewrite E. cbn [bind]. split; [reflexivity|]. split; [|exact I']. cbn [dec_al dec_all_al bind of_value fst snd]. unfold text_key in De. rewrite De. cbn [bind rv_pairs fst snd]. rewrite pairs_flat.
    rewrite put_keys; [cbn [bind]|].
    + unfold decoded_al. cbn [get_key]. rewrite bytes_same. unfold decode_al. rewrite (N (d_alias D)) by (cbn; tauto). rewrite andb_false_r. unfold decode_rv. cbn [length]. destruct m as [|e0 m']; [now elim Ne|]. cbn [length Nat.eqb].
      remember (e0 :: m') as m eqn:Em. cbn [get_key]. rewrite (bytes_other (d_value D) (d_type D)) by (intros Q; symmetry in Q; now apply (proj1 D_proper)).
      rewrite (get_key_none _ m Nv). cbn [without_key filter fst]. rewrite bytes_same. cbn [negb]. change (filter _ m) with (without_key (d_type D) m). rewrite (without_none _ m Nt).
      rewrite !N by (cbn; tauto). rewrite Nm, New, DS. reflexivity.
    + exists (VStr (d_type D) :: ks). cbn [map of_value fst]. rewrite Ek. split; [reflexivity|]. constructor; [|exact Di]. rewrite Forall_forall. intros k Ik. destruct k; try reflexivity. cbn. apply bytes_other. intros ->.
      apply Nt. rewrite Ek. apply in_map_iff. exists (VStr (d_type D)). auto.
Qed.
Theorem alias_round_trip lv x : streamable W D C M x -> all_named names x ->
  exists e, emits_al W D C op names lv x = Done e /\ decodes_al W D M adder e = Done (x, if adder then declared names x else []).
Proof.
  intros S A. assert (I : inv (mk_stream [] 0) []) by (split; [reflexivity|intros t i L; discriminate L]).
  destruct (emit_sends x S A (start_level C lv) _ _ [] I) as (e & s' & vs' & E & De & _). exists e. unfold emits_al, decodes_al. rewrite E, De. cbn [bind snd app]. rewrite ds_declared. auto.
Qed.
End Trip.

(* ---------- the alias map ---------- *)

Lemma get_put m k v k' : get_text (put_text m k v) k' = if bytes_eqb k' k then Some v else get_text m k'.
Proof.
  induction m as [|[a b] m IH]; cbn; [reflexivity|]. destruct (bytes_eqb k a) eqn:E; cbn.
  - apply bytes_eqb_eq in E as ->. now destruct (bytes_eqb k' a).
  - rewrite IH. destruct (bytes_eqb k' a) eqn:E'; [|reflexivity]. apply bytes_eqb_eq in E' as ->. destruct (bytes_eqb a k) eqn:E2; [|reflexivity]. apply bytes_eqb_eq in E2 as ->. rewrite bytes_same in E. discriminate.
Qed.
Lemma in_put m k v e : In e (put_text m k v) -> e = (k, v) \/ In e m.
Proof.
  induction m as [|[a b] m IH]; cbn; [intros [<-|[]]; auto|]. destruct (bytes_eqb k a) eqn:E; cbn.
  - apply bytes_eqb_eq in E as ->. intros [<-|I]; auto.
  - intros [<-|I]; [auto|]. destruct (IH I); auto.
Qed.
Lemma get_in m k v : get_text m k = Some v -> In (k, v) m.
Proof. induction m as [|[a b] m IH]; cbn; [discriminate|]. destruct (bytes_eqb k a) eqn:E; [apply bytes_eqb_eq in E as ->; intros [= ->]; now left|auto]. Qed.
Definition puts (al m : adds) : adds := fold_left (fun m a => put_text m (fst a) (snd a)) al m.
Lemma get_puts_none al : forall m k, ~ In k (map fst al) -> get_text (puts al m) k = get_text m k.
Proof.
  induction al as [|[a b] al IH]; intros m k N; cbn; [reflexivity|]. cbn in N. rewrite IH by tauto. rewrite get_put, bytes_other; [reflexivity|]. intros ->. tauto.
Qed.
Lemma get_puts al : forall m k v, (forall v', In (k, v') al -> v' = v) -> In (k, v) al \/ get_text m k = Some v -> get_text (puts al m) k = Some v.
Proof.
  induction al as [|[a b] al IH]; intros m k v F I; cbn; [now destruct I as [[]|I]|]. apply IH; [intros v' I'; apply F; now right|]. destruct I as [[I|I]|I]; [|now left|].
  - injection I as -> ->. right. now rewrite get_put, bytes_same.
  - right. rewrite get_put. destruct (bytes_eqb k a) eqn:E; [|exact I]. apply bytes_eqb_eq in E as ->. f_equal. apply F. now left.
Qed.
Lemma in_puts al : forall m e, In e (puts al m) -> In e al \/ In e m.
Proof.
  induction al as [|[a b] al IH]; intros m e I; cbn in *; [auto|]. destruct (IH _ _ I) as [I'|I']; [auto|]. apply in_put in I' as [->|I']; auto.
Qed.
Definition turned (al : adds) : adds := map (fun e => (snd e, fst e)) al.
Lemma collect_puts a al : type_of_name (collect a al) = puts (adder_map al) (type_of_name a) /\ name_of_type (collect a al) = puts (turned (adder_map al)) (name_of_type a).
Proof.
  assert (G : forall ns a, let a' := fold_left (fun a e => {| type_of_name := put_text (type_of_name a) (fst e) (snd e); name_of_type := put_text (name_of_type a) (snd e) (fst e) |}) ns a in
     type_of_name a' = puts ns (type_of_name a) /\ name_of_type a' = puts (turned ns) (name_of_type a)).
  { induction ns as [|e ns IH]; intros b; cbn; [auto|]. apply (IH {| type_of_name := put_text (type_of_name b) (fst e) (snd e); name_of_type := put_text (name_of_type b) (snd e) (fst e) |}). }
  unfold collect. destruct (adder_map al) as [|e ns]; [split; reflexivity|]. exact (G (e :: ns) a).
Qed.

Lemma in_declared names x n t : In (n, t) (declared names x) <-> In t (types_in x) /\ names t = Some n.
Proof.
  unfold declared. rewrite in_flat_map. split.
  - intros (t' & I & J). destruct (names t') as [n'|] eqn:E; [|destruct J]. destruct J as [J|[]]. injection J as -> ->. auto.
  - intros [I E]. exists t. split; [exact I|]. rewrite E. now left.
Qed.
Theorem names_restored names a x : names_differ names x -> forall t n, In t (types_in x) -> names t = Some n ->
  get_text (type_of_name (collect a (declared names x))) n = Some t /\ get_text (name_of_type (collect a (declared names x))) t = Some n.
Proof.
  intros N t n It E. destruct (collect_puts a (declared names x)) as [-> ->].
  assert (F : forall t', In (n, t') (declared names x) -> t' = t) by (intros t' I'; apply in_declared in I' as [I' E']; exact (N t' t n I' It E' E)).
  assert (SUB : forall e, In e (adder_map (declared names x)) -> In e (declared names x)) by (intros e I'; apply in_puts in I' as [I'|[]]; exact I').
  assert (IN : In (n, t) (adder_map (declared names x))).
  { apply get_in. apply (get_puts (declared names x) [] n t F). left. now apply in_declared. }
  split.
  - apply get_puts; [|now left]. intros t' I'. apply F. now apply SUB.
  - apply get_puts.
    + intros n' I'. apply in_map_iff in I' as ([n1 t1] & E1 & I1). cbn in E1. injection E1 as -> ->. apply SUB, in_declared in I1 as [_ E1]. congruence.
    + left. apply in_map_iff. exists (n, t). auto.
Qed.
Theorem others_kept names a x :
  (forall n, (forall t, In t (types_in x) -> names t <> Some n) -> get_text (type_of_name (collect a (declared names x))) n = get_text (type_of_name a) n) /\
  (forall t, ~ In t (types_in x) -> get_text (name_of_type (collect a (declared names x))) t = get_text (name_of_type a) t).
Proof.
  destruct (collect_puts a (declared names x)) as [-> ->].
  assert (SUB : forall e, In e (adder_map (declared names x)) -> In e (declared names x)) by (intros e I'; apply in_puts in I' as [I'|[]]; exact I').
  split.
  - intros n N. apply get_puts_none. intros I. apply in_map_iff in I as ([n1 t1] & E1 & I1). cbn in E1. subst n1. apply SUB, in_declared in I1 as [I1 E1]. now apply (N t1).
  - intros t N. apply get_puts_none. intros I. apply in_map_iff in I as ([t1 n1] & E1 & I1). cbn in E1. subst t1. apply in_map_iff in I1 as ([n2 t2] & E2 & I2). injection E2 as -> ->. apply SUB, in_declared in I2 as [I2 _]. contradiction.
Qed.
