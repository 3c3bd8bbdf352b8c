(* Calls of Go functions with arguments that are instances of their parameters. *)
From Coq Require Import ZArith List Bool Lia.
From Coq Require Import Floats.SpecFloat.
From Coq Require Import Sorting.Permutation.
From Verif Require Import Int64 Data DataSpec DataProofs Types TypesSpec Construct Convert ConvertSpec ConvertProofs Reflect ReflectSpec ReflectProofs TypeReflect TypeReflectSpec TypeReflectProofs GoFunc GoFuncSpec.
Import ListNotations.
Open Scope Z_scope.

(* the whole induction principle is not needed: values are taken apart by value_ind' *)
Definition sends (v : value) (t : gty) : Prop := exists x, to_go v t = Done x /\ carries t v x.

Lemma sends_list e l : Forall (fun a => sends a e) l -> exists xs, rlist (map (fun a => to_go a e) l) = Done xs /\ Forall2 (carries e) l xs.
Proof.
  intros H. destruct (forall2_exists (fun a x => to_go a e = Done x /\ carries e a x) l H) as (xs & F). exists xs. split.
  - apply rlist_forall2. eapply forall2_impl; [|exact F]. now intros a b _ [].
  - eapply forall2_impl; [|exact F]. now intros a b _ [].
Qed.

(* ---------- keys ---------- *)

(* the key can be put in a variable of the type *)
Definition key_fits (t : gty) (v : value) : Prop :=
  match t, v with
  | RBool, VBool _ | RFloat64, VFloat _ | RString, VStr _ => True
  | RInt k, VInt z => number_of k z
  | RAny, _ => True
  | _, _ => False
  end.
Lemma int_sends k z : in64 z -> number_of k z -> sends (VInt z) (RInt k).
Proof. intros I N. exists (XInt z). split; [cbn; now rewrite reflect_to_preserves|now constructor]. Qed.
Lemma key_sends k v : simple_key v = true -> sendable v -> key_fits k v -> exists x, to_go v k = Done x /\ carries k v x /\ hashable x = true.
Proof.
  intros S P F. destruct v as [ |b|z|f|s| | | | | | ]; try discriminate S; destruct k; try contradiction F; cbn [key_fits sendable] in F, P.
  - eexists. repeat split; constructor.
  - eexists. repeat split. constructor. constructor.
  - destruct (int_sends k z P F) as (x & E & C). exists x. split; [exact E|]. split; [exact C|]. inversion C; reflexivity.
  - exists (XAny (RInt KInt64) (XInt z)). repeat split. constructor. constructor. unfold in64, min_int64, max_int64 in P. cbn. lia.
  - eexists. repeat split; constructor.
  - eexists. repeat split. constructor. constructor.
  - eexists. repeat split; constructor.
  - eexists. repeat split. constructor. constructor.
Qed.
(* different keys remain different *)
Lemma key_apart k v v' x x' : simple_key v = true -> simple_key v' = true -> key_fits k v -> key_fits k v' -> sendable v -> sendable v' ->
  to_go v k = Done x -> to_go v' k = Done x' -> go_eq x x' = true -> veq v v' = true.
Proof.
  intros S S' F F' P P' E E' G. destruct v; try discriminate S; destruct v'; try discriminate S'; destruct k; try contradiction F; try contradiction F'; cbn [key_fits sendable] in *; cbn in E, E';
    try rewrite reflect_to_preserves in E by assumption; try rewrite reflect_to_preserves in E' by assumption; injection E as <-; injection E' as <-; cbn [go_eq gty_eqb go_int_eqb andb] in G; (discriminate G || exact G).
Qed.

Lemma entries_send k e m :
  Forall (fun p => simple_key (fst p) = true /\ sendable (fst p) /\ key_fits k (fst p) /\ sends (snd p) e) m ->
  ForallOrdPairs (fun p q => veq (fst p) (fst q) = false) m ->
  exists xs, rlist (map (fun p => rpair (to_go (fst p) k) (to_go (snd p) e)) m) = Done xs /\ set_all [] xs = Done xs /\ carries (RMap k e) (VMap m) (XMap xs).
Proof.
  intros H D.
  assert (X : exists xs, Forall2 (fun p q => (to_go (fst p) k = Done (fst q) /\ carries k (fst p) (fst q) /\ hashable (fst q) = true) /\ to_go (snd p) e = Done (snd q) /\ carries e (snd p) (snd q)) m xs).
  { apply forall2_exists. eapply Forall_impl; [|exact H]. cbn beta. intros [a b] (S & P & F & (x & Ex & Cx)). destruct (key_sends k a S P F) as (y & Ey). exists (y, x). cbn [fst snd] in *. auto. }
  destruct X as (xs & F). exists xs. split; [|].
  { apply rlist_forall2. eapply forall2_impl; [|exact F]. intros p [y x] _ ((-> & _) & -> & _). reflexivity. }
  assert (Hh : Forall (fun p => hashable (fst p) = true) xs). { clear - F. induction F as [|p q m xs ((_ & _ & A) & _) F IH]; constructor; auto. }
  assert (Dx : ForallOrdPairs (fun p q => go_eq (fst p) (fst q) = false) xs).
  { clear Hh. revert H D. induction F as [|p q m xs ((Ek & _) & _) F IH]; intros H D; [constructor|]. inversion H as [|? ? (S & P & Fk & _) H']; subst. inversion D as [|? ? Dp D']; subst. constructor; [|now apply IH].
    clear IH D D' H. revert H' Dp. induction F as [|p' q' m xs ((Ek' & _) & _) F IH]; intros H' Dp; constructor.
    - inversion H' as [|? ? (S' & P' & Fk' & _) _]; subst. inversion Dp as [|? ? N _]; subst. destruct (go_eq (fst q) (fst q')) eqn:G; [|reflexivity]. rewrite (key_apart k (fst p) (fst p') _ _ S S' Fk Fk' P P' Ek Ek' G) in N. discriminate N.
    - inversion H'; subst. inversion Dp; subst. now apply IH. }
  split; [now apply set_all_distinct|]. constructor; [|exact Dx]. eapply forall2_impl; [|exact F]. now intros p q _ ((_ & A & _) & _ & B).
Qed.

(* ---------- interface{} ---------- *)

Lemma key_reflects v t : simple_key v = true -> sendable v -> t = RAny \/ reflect_type v = Done t -> key_fits t v.
Proof.
  intros S P [-> |E]; [destruct v; exact I|]. destruct v; try discriminate S; cbn in E; injection E as <-; try exact I. cbn in *. unfold in64, min_int64, max_int64 in P. lia.
Qed.

(* the Go type of a value *)
Lemma reflects v : sendable v -> exists t, reflect_type v = Done t.
Proof.
  induction v as [ |b|z|f|s|s|s n zn|s|v IHv|l IHl|m IHm] using value_ind'; intros P; try (eexists; reflexivity); cbn [reflect_type].
  - cbn [sendable] in P. apply fold_and in P. destruct (common_done reflect_type l) as [e E]; [|rewrite E; eexists; reflexivity].
    rewrite Forall_forall in *. intros a Ia. apply IHl; auto.
  - cbn [sendable] in P. destruct P as [P _]. apply fold_and in P.
    destruct (common_done (fun p : value * value => reflect_type (fst p)) m) as [k E].
    { rewrite Forall_forall in *. intros a Ia. apply IHm; auto. apply P; auto. }
    destruct (common_done (fun p : value * value => reflect_type (snd p)) m) as [e E'].
    { rewrite Forall_forall in *. intros a Ia. apply IHm; auto. apply P; auto. }
    rewrite E, E'. cbn [rbind]. unfold map_of. assert (C : comparable k = true).
    { destruct (common_spec fst m k E) as [-> |[N F]]; [reflexivity|]. destruct m as [|p m]; [congruence|]. inversion F as [|? ? Ek _]; subst. inversion P as [|? ? (S & _) _]; subst.
      destruct (fst p); try discriminate S; cbn in Ek; injection Ek as <-; reflexivity. }
    rewrite C. eexists. reflexivity.
Qed.

Lemma any_sends v : sendable v -> forall t, t = RAny \/ reflect_type v = Done t -> sends v t.
Proof.
  induction v as [ |b|z|f|s|s|s n zn|s|v IHv|l IHl|m IHm] using value_ind'; intros P t C.
  - destruct C as [-> |E]; [|injection E as <-]; eexists; (split; [reflexivity|constructor; exact I]).
  - destruct C as [-> |E]; [|injection E as <-]; eexists; (split; [reflexivity|repeat constructor]).
  - destruct C as [-> |E]; [|injection E as <-]; cbn in P.
    + exists (XAny (RInt KInt64) (XInt z)). split; [reflexivity|]. constructor. constructor. unfold in64, min_int64, max_int64 in P. cbn. lia.
    + apply int_sends; [exact P|]. unfold in64, min_int64, max_int64 in P. cbn. lia.
  - destruct C as [-> |E]; [|injection E as <-]; eexists; (split; [reflexivity|repeat constructor]).
  - destruct C as [-> |E]; [|injection E as <-]; eexists; (split; [reflexivity|repeat constructor]).
  - destruct C as [-> |E]; [|injection E as <-]; eexists; (split; [reflexivity|repeat constructor]).
  - destruct C as [-> |E]; [|injection E as <-]; eexists; (split; [reflexivity|repeat constructor]).
  - destruct C as [-> |E]; [|injection E as <-]; eexists; (split; [reflexivity|repeat constructor]).
  - destruct C as [-> |E]; [|injection E as <-]; eexists; (split; [reflexivity|repeat constructor]).
  - destruct (reflects (VArr l) P) as [rt R]. cbn [sendable] in P. apply fold_and in P.
    assert (G : exists e xs, rt = RSlice e /\ rlist (map (fun a => to_go a e) l) = Done xs /\ Forall2 (carries e) l xs).
    { pose proof R as R'. cbn [reflect_type] in R'. destruct (common (map reflect_type l)) as [e| | ] eqn:E; try discriminate R'. injection R' as <-. exists e.
      destruct (sends_list e l) as (xs & A & B); [|now exists xs]. destruct (common_spec (fun v => v) l e E) as [-> |[_ F]]; rewrite Forall_forall in *; intros a Ia; apply IHl; auto. }
    destruct G as (e & xs & -> & A & B). destruct C as [-> |E].
    + exists (XAny (RSlice e) (XSlice xs)). split; [|constructor; now constructor]. unfold to_go; fold to_go. rewrite R. cbn [rbind]. rewrite A. reflexivity.
    + rewrite R in E. injection E as <-. exists (XSlice xs). split; [|now constructor]. unfold to_go; fold to_go. cbn [rbind]. rewrite A. cbn [rbind]. apply set_same.
  - destruct (reflects (VMap m) P) as [rt R]. cbn [sendable] in P. destruct P as [P D]. apply fold_and in P.
    assert (G : exists k e xs, rt = RMap k e /\ rlist (map (fun p => rpair (to_go (fst p) k) (to_go (snd p) e)) m) = Done xs /\ set_all [] xs = Done xs /\ carries (RMap k e) (VMap m) (XMap xs)).
    { pose proof R as R'. cbn [reflect_type] in R'. destruct (common (map (fun p => reflect_type (fst p)) m)) as [k| | ] eqn:Ek; try discriminate R'. cbn [rbind] in R'.
      destruct (common (map (fun p => reflect_type (snd p)) m)) as [e| | ] eqn:Ee; try discriminate R'. cbn [rbind] in R'. unfold map_of in R'. destruct (comparable k); [|discriminate R']. injection R' as <-. exists k, e.
      destruct (entries_send k e m) as (xs & A & B & Cc); [|exact D|now exists xs].
      assert (Hk : forall p, In p m -> k = RAny \/ reflect_type (fst p) = Done k). { intros p Ip. destruct (common_spec fst m k Ek) as [-> |[_ F]]; [now left|]. rewrite Forall_forall in F. auto. }
      assert (He : forall p, In p m -> e = RAny \/ reflect_type (snd p) = Done e). { intros p Ip. destruct (common_spec snd m e Ee) as [-> |[_ F]]; [now left|]. rewrite Forall_forall in F. auto. }
      rewrite Forall_forall in *. intros p Ip. destruct (P p Ip) as (S & P1 & P2). repeat split; auto; [apply key_reflects; auto|]. apply IHm; auto. }
    destruct G as (k & e & xs & -> & A & B & Cc). destruct C as [-> |E].
    + exists (XAny (RMap k e) (XMap xs)). split; [|now constructor]. unfold to_go; fold to_go. rewrite R. cbn [rbind]. rewrite A. cbn [rbind]. rewrite B. reflexivity.
    + rewrite R in E. injection E as <-. exists (XMap xs). split; [|exact Cc]. unfold to_go; fold to_go. cbn [rbind]. rewrite A. cbn [rbind]. rewrite B. cbn [rbind]. apply set_same.
Qed.

(* ---------- the types of parameters ---------- *)

Section World.
Variable W : world.

Lemma int_instance k v : has_type W (int_type_from k) v -> (exists z, v = VInt z) .
Proof. destruct k; cbn; intros H; destruct v; try (now eexists); exfalso; unfold has_type in H; cbn in H; decompose [ex and] H; discriminate. Qed.
Lemma int_range k z : in64 z -> has_type W (int_type_from k) (VInt z) -> number_of k z.
Proof.
  intros I H. unfold in64, min_int64, max_int64 in I. destruct k; cbn in *; try lia; unfold has_type in H; cbn in H; destruct H as (z' & E & H); injection E as <-; lia.
Qed.
Lemma key_instance k v : sent_key k = true -> simple_key v = true -> sendable v -> has_type W (type_from k) v -> key_fits k v.
Proof.
  intros Sk S P H. destruct k; try discriminate Sk; cbn [type_from] in H.
  - cbn in H. destruct v; try exact I; decompose [ex] H; discriminate.
  - destruct (int_instance k v H) as [z ->]. now apply int_range.
  - cbn in H. destruct v; try exact I; decompose [ex] H; discriminate.
  - cbn in H. destruct v; try exact I; decompose [ex] H; discriminate.
  - destruct v; exact I.
Qed.
Lemma native_instance v : ~ has_type W not_any v. Proof. intros N. apply N. exact I. Qed.

(* also for a pointer to the type *)
Lemma instance_sends g : callable g = true -> forall v, has_type W (type_from g) v -> fits v -> sendable v ->
  sends v g /\ (match g with RPtr _ | RAny => True | _ => is_nil v = false -> sends v (RPtr g) end).
Proof.
  induction g as [ |k| | | | | |e IHe|k IHk e IHe|e IHe| | | ]; intros C v H F P.
  - cbn in H. destruct H as [b ->]. split; [|intros _]; (eexists; split; [reflexivity|repeat constructor]).
  - destruct (int_instance k v H) as [z ->]. cbn [sendable] in P. pose proof (int_range k z P H) as N. split; [now apply int_sends|]. intros _. exists (XPtr (XInt z)). cbn. rewrite reflect_to_preserves by assumption. split; [reflexivity|]. constructor. now constructor.
  - cbn [type_from made] in H. unfold has_type in H. cbn in H. destruct H as (f & -> & _). split; [|intros _]; (eexists; split; [reflexivity|repeat constructor]).
  - cbn in H. destruct H as [f ->]. split; [|intros _]; (eexists; split; [reflexivity|repeat constructor]).
  - cbn in H. destruct H as [s ->]. split; [|intros _]; (eexists; split; [reflexivity|repeat constructor]).
  - cbn in H. destruct H as (s & n & z & ->). split; [|intros _]; (eexists; split; [reflexivity|repeat constructor]).
  - contradiction (native_instance v H).
  - cbn [type_from] in H. apply array_from in H; [|exact F]. destruct H as (l & -> & H). cbn [sendable] in P. apply fold_and in P. cbn [callable] in C.
    assert (L : Forall (fun a => sends a e) l). { rewrite Forall_forall in *. intros a Ia. apply (IHe C a); auto. now apply (fits_elem l). }
    destruct (sends_list e l L) as (xs & A & B). split; [|intros _].
    + exists (XSlice xs). split; [|now constructor]. unfold to_go; fold to_go. cbn [rbind]. rewrite A. cbn [rbind]. apply set_same.
    + exists (XPtr (XSlice xs)). split; [|constructor; now constructor]. unfold to_go; fold to_go. cbn [rbind]. rewrite A. cbn [rbind]. apply set_same.
  - cbn [type_from] in H. apply map_from in H; [|exact F]. destruct H as (m & -> & H). cbn [sendable] in P. destruct P as [P D]. apply fold_and in P. cbn [callable] in C. apply andb_true_iff in C as [Ck Ce].
    destruct (entries_send k e m) as (xs & A & B & Cc); [|exact D|].
    { rewrite Forall_forall in *. intros p Ip. destruct (P p Ip) as (S & P1 & P2), (H p Ip) as (H1 & H2), (fits_entry m p F Ip) as (F1 & F2). repeat split; auto; [now apply key_instance|]. now apply (IHe Ce (snd p)). }
    split; [|intros _].
    + exists (XMap xs). split; [|exact Cc]. unfold to_go; fold to_go. cbn [rbind]. rewrite A. cbn [rbind]. rewrite B. cbn [rbind]. apply set_same.
    + exists (XPtr (XMap xs)). split; [|now constructor]. unfold to_go; fold to_go. cbn [rbind]. rewrite A. cbn [rbind]. rewrite B. cbn [rbind]. apply set_same.
  - split; [|exact I]. assert (R : e = RRegexp \/ e <> RRegexp) by (destruct e; (left; reflexivity) || (right; discriminate)). destruct R as [-> |R].
    + cbn in H. destruct H as [s ->]. eexists. split; [reflexivity|repeat constructor].
    + apply ptr_from in H; [|exact R]. destruct (is_nil v) eqn:N.
      * destruct v; try discriminate N. exists XNil. split; [reflexivity|constructor; exact I].
      * assert (Ce : callable e = true) by (destruct e; try discriminate C; exact C). destruct (IHe Ce v H F P) as [_ K]. destruct e; try discriminate C; auto.
  - split; [|exact I]. apply any_sends; auto.
  - contradiction (native_instance v H).
  - contradiction (native_instance v H).
Qed.

Lemma args_pass ts : forall vs, Forall (fun t => callable t = true) ts -> Forall2 (fun (Q : value -> Prop) x => Q x) (map (has_type W) (map type_from ts)) vs -> Forall fits vs -> Forall sendable vs ->
  exists xs, reflect_args ts vs = Done xs /\ carries_all ts vs xs.
Proof.
  induction ts as [|t ts IH]; intros vs C H F P; inversion H as [|? v ? vs' Hv H' E1 E2]; subst; [exists []; split; [reflexivity|exact I]|].
  inversion C as [|? ? Ct C']; subst. inversion F as [|? ? Fv F']; subst. inversion P as [|? ? Pv P']; subst. destruct (IH vs' C' H' F' P') as (xs & A & B).
  destruct (instance_sends t Ct v Hv Fv Pv) as [(x & E & Cx) _]. exists (x :: xs). split; [|split; auto]. unfold reflect_args in *. cbn [combine map rlist fst snd]. rewrite E, A. reflexivity.
Qed.
Lemma carries_length ts : forall vs xs, carries_all ts vs xs -> length vs = length ts.
Proof. induction ts as [|t ts IH]; intros [|v vs] [|x xs] H; try contradiction H; [reflexivity|]. cbn. f_equal. exact (IH vs xs (proj2 H)). Qed.
Lemma param_types_plain ts : param_types ts false = map type_from ts.
Proof. induction ts as [|t [|t' ts] IH]; [reflexivity|reflexivity|]. cbn [param_types map] in *. now rewrite IH. Qed.
Lemma param_types_variadic ts e : param_types (ts ++ [RSlice e]) true = map type_from ts ++ [type_from e].
Proof.
  induction ts as [|t ts IH]; [reflexivity|]. cbn [app map]. rewrite <- IH. destruct ts; reflexivity.
Qed.
Lemma fits_args l : fits (VArr l) -> Forall fits l.
Proof. intros F. apply Forall_forall. intros a Ia. now apply (fits_elem l). Qed.

Theorem call_passes arrange f args : go_signature f -> Forall (fun t => callable t = true) (gf_in f) ->
  has_type W (in_type f) (VArr args) -> fits (VArr args) -> sendable (VArr args) ->
  exists xs, passed f args xs /\ call arrange f args = rbind (gf_run f xs) (convert_return arrange (gf_out f)).
Proof.
  intros G C H F P. unfold has_type, in_type in H. cbn [has_type_with] in H. destruct H as (l & E & H). injection E as <-. apply fits_args in F. cbn [sendable] in P. apply fold_and in P.
  unfold passed, call. unfold go_signature in G. destruct (gf_variadic f) eqn:V.
  - destruct (G eq_refl) as (ts & e & E). rewrite E in *. destruct H as (Qs & Q & l1 & l2 & EQ & -> & H1 & H2). rewrite param_types_variadic, map_app in EQ. apply app_inj_tail in EQ as [<- <-].
    apply Forall_app in F as [F1 F2], P as [P1 P2], C as [C1 C2]. inversion C2 as [|? ? Ce _]; subst. cbn [callable] in Ce.
    destruct (args_pass ts l1 C1 H1 F1 P1) as (xs1 & A1 & B1).
    destruct (sends_list e l2) as (xs2 & A2 & B2). { rewrite Forall_forall in *. intros a Ia. apply (instance_sends e Ce a); auto. apply H2; auto. }
    exists (xs1 ++ [XSlice xs2]). split; [exists ts, e, l1, l2, xs1, xs2; auto|].
    pose proof (carries_length _ _ _ B1) as L. rewrite (app_length ts), (app_length l1), L. cbn [length]. replace (length ts + 1 - 1)%nat with (length ts) by lia.
    replace ((length ts + length l2 <? length ts)%nat) with false by (symmetry; apply Nat.ltb_ge; lia).
    assert (Fn : firstn (length ts) (ts ++ [RSlice e]) = ts) by (rewrite firstn_app, Nat.sub_diag, firstn_all, firstn_O; apply app_nil_r).
    assert (Nt : nth (length ts) (ts ++ [RSlice e]) RAny = RSlice e) by (rewrite app_nth2, Nat.sub_diag by lia; reflexivity).
    rewrite Fn, Nt. cbn [elem_of].
    replace (reflect_args ts (l1 ++ l2)) with (Done xs1).
    2:{ rewrite <- A1. unfold reflect_args. do 2 f_equal. clear - L. revert l1 L. induction ts as [|t ts IH]; intros [|a l1] L; try discriminate L; [reflexivity|]. cbn [app combine]. f_equal. apply IH. now injection L. }
    cbn [rbind]. rewrite <- L, skipn_app, skipn_all, Nat.sub_diag. cbn [skipn app]. rewrite A2. reflexivity.
  - rewrite param_types_plain in H. destruct (args_pass (gf_in f) args C H F P) as (xs & A & B). exists xs. split; [exact B|]. rewrite (carries_length _ _ _ B), Nat.eqb_refl. cbn [negb]. rewrite A. reflexivity.
Qed.

(* the number of arguments is checked *)
Theorem call_counts arrange f args : go_signature f ->
  (if gf_variadic f then (S (length args) < length (gf_in f))%nat else length args <> length (gf_in f)) -> call arrange f args = Panic.
Proof.
  intros G H. unfold call. destruct (gf_variadic f).
  - replace ((length args <? length (gf_in f) - 1)%nat) with true; [reflexivity|]. symmetry. apply Nat.ltb_lt. lia.
  - replace ((length args =? length (gf_in f))%nat) with false; [reflexivity|]. symmetry. now apply Nat.eqb_neq.
Qed.

(* the value of a result *)
Definition result (r : option value) : value := match r with Some v => v | None => VNil end.
Theorem call_returns arrange f args vs : (forall l, Permutation (arrange l) l) -> call arrange f args = Done vs ->
  exists xs rs, gf_run f xs = Done rs /\
    (Forall2 typed (gf_out f) rs -> Forall fits (map result vs) ->
     (has_type W (out_type f) (VArr (map result vs)) <-> Forall2 belongs (gf_out f) rs)).
Proof.
  intros Ar H. assert (X : exists xs, rbind (gf_run f xs) (convert_return arrange (gf_out f)) = Done vs).
  { unfold call in H. destruct (gf_variadic f).
    - destruct (_ <? _)%nat; [discriminate H|]. destruct (reflect_args _ _); try discriminate H. cbn [rbind] in H. destruct (rlist _); try discriminate H. cbn [rbind] in H. eauto.
    - destruct (negb _); [discriminate H|]. destruct (reflect_args _ _); try discriminate H. cbn [rbind] in H. eauto. }
  destruct X as [xs X]. destruct (gf_run f xs) as [rs| | ] eqn:R; try discriminate X. cbn [rbind] in X. exists xs, rs. split; [exact R|]. intros T F.
  unfold convert_return in X. apply rlist_done in X. unfold out_type, has_type. cbn [has_type_with].
  assert (G : Forall2 (fun (Q : value -> Prop) x => Q x) (map (has_type W) (map type_from (gf_out f))) (map result vs) <-> Forall2 belongs (gf_out f) rs).
  { clear H R. revert vs X F. induction T as [|t r ts rs Tr T IH]; intros vs X F; inversion X as [|? v ? vs' Ev X' E1 E2]; subst; [split; constructor|].
    cbn [map] in *. inversion F as [|? ? Fv F']; subst. destruct (IH vs' X' F') as [I1 I2]. cbn [fst snd] in Ev. destruct (from_go arrange t r) as [w| | ] eqn:Fr; try discriminate Ev. cbn [rbind] in Ev.
    assert (Ew : result v = w). { destruct w; injection Ev as <-; try reflexivity. destruct (is_dgo t r); reflexivity. }
    rewrite Ew in *. pose proof (go_belongs W arrange Ar r t w Tr Fr Fv) as B. split; intros H; inversion H; subst; constructor; tauto. }
  split; [intros (l & E & H0); injection E as <-; now apply G|]. intros B. eexists. split; [reflexivity|]. now apply G.
Qed.
End World.

(* ---------- what the results say ---------- *)

Lemma nan_not_found x : nan_key x = false -> finds_itself x = true.
Proof.
  induction x using gval_ind'; cbn; intros H0; auto. destruct f as [| | |sg mm ee]; try reflexivity; [destruct s; reflexivity|discriminate H0|].
  unfold SFeqb, SFcompare. destruct sg; rewrite Z.compare_refl, Pos.compare_cont_refl; reflexivity.
Qed.
Section Arranged.
Variable arrange : list (value * value) -> list (value * value).
Hypothesis arranged : forall l, Permutation (arrange l) l.
Lemma go_tells x : forall t v, typed t x -> moderate x -> from_go arrange t x = Done v -> tells t x v.
Proof.
  induction x as [ | | | | | | |l IH|m IH|x IH|t' x IH|v'] using gval_ind'; intros t v T M F.
  - assert (v = VNil) as -> by (destruct t as [|[]| | | | | | | |e| | |]; cbn in T, F; try contradiction T; try (injection F as <-; reflexivity); destruct e; injection F as <-; reflexivity).
    constructor. destruct t; cbn in T; try contradiction T; exact I.
  - destruct t; cbn in T; try contradiction T. injection F as <-. constructor.
  - destruct t; cbn in T; try contradiction T. cbn in F, M. rewrite to_int_same in F by assumption. injection F as <-. constructor.
  - destruct t; cbn in T; try contradiction T; injection F as <-; constructor.
  - destruct t; cbn in T; try contradiction T. injection F as <-. constructor.
  - destruct t; cbn in T; try contradiction T. injection F as <-. constructor.
  - destruct t; cbn in T; try contradiction T. discriminate F.
  - destruct t as [| | | | | | |e| | | | |]; cbn in T; try contradiction T. apply fold_and in T. cbn in M. apply fold_and in M.
    assert (C : e = RInt KUint8 \/ e <> RInt KUint8) by (destruct e as [|[]| | | | | | | | | | |]; (left; reflexivity) || (right; discriminate)).
    destruct C as [->|C].
    { cbn in F. injection F as <-. replace l with (map XInt (map byte_of l)) at 1; [constructor|]. clear - T. induction T as [|x l Tx T IH]; [reflexivity|].
      cbn [map]. f_equal; [|exact IH]. destruct x; cbn in Tx; try contradiction Tx. reflexivity. }
    assert (FL : exists vs, v = VArr vs /\ Forall2 (fun x v => from_go arrange e x = Done v) l vs).
    { assert (D : e = RValue \/ e <> RValue) by (destruct e; (left; reflexivity) || (right; discriminate)). destruct D as [->|D].
      - cbn in F. destruct (rlist _) as [vs| |] eqn:R; try discriminate F. injection F as <-. exists vs. split; auto. apply rlist_done in R.
        eapply forall2_impl; [|exact R]. intros x y _ H. cbn in H. destruct x; try discriminate H. injection H as <-. reflexivity.
      - assert (F' : rbind (rlist (map (from_go arrange e) l)) (fun vs => Done (VArr vs)) = Done v) by (rewrite <- F; destruct e as [|[]| | | | | | | | | | |]; (reflexivity || congruence)).
        destruct (rlist _) as [vs| |] eqn:R; try discriminate F'. injection F' as <-. exists vs. split; auto. now apply rlist_done. }
    destruct FL as (vs & -> & FL). constructor; [exact C|]. clear F. revert IH T M. induction FL as [|x y l vs H FL IHF]; [constructor|].
    intros IH T M. inversion IH; inversion T; inversion M; subst. constructor; auto.
  - destruct t as [| | | | | | | |k e| | | |]; cbn in T; try contradiction T. destruct T as [T _]. apply fold_and in T. cbn in M. apply fold_and in M. cbn in F.
    destruct (rlist _) as [es| |] eqn:R; try discriminate F. injection F as <-. apply rlist_done in R. apply te_map with es; [|apply Permutation_sym, arranged].
    revert IH T M. induction R as [|p q m es H R IHR]; [constructor|]. intros IH T M. inversion IH as [|? ? [I1 I2] IH']; inversion T as [|? ? [T1 T2] T']; inversion M as [|? ? (M0 & M1 & M2) M']; subst.
    constructor; [|exact (IHR IH' T' M')]. rewrite (nan_not_found _ M0) in H. unfold rpair in H.
    destruct (from_go arrange k (fst p)) eqn:E1, (from_go arrange e (snd p)) eqn:E2; try discriminate H.
    injection H as <-. cbn [fst snd]. split; [apply I1|apply I2]; assumption.
  - destruct t as [| | | | | | | | |e| | |]; cbn in T; try contradiction T. cbn in M. constructor.
    assert (C : e = RRegexp \/ e = RTime \/ e <> RRegexp /\ e <> RTime) by (destruct e; try (left; reflexivity); try (right; left; reflexivity); right; right; split; discriminate).
    destruct C as [->|[->|[C1 C2]]].
    + destruct x; cbn in T; try contradiction T. injection F as <-. constructor.
    + discriminate F.
    + apply IH; auto. rewrite <- F. destruct e; (reflexivity || congruence).
  - destruct t; cbn in T; try contradiction T. cbn in M, F. constructor. auto.
  - destruct t; cbn in T; try contradiction T; injection F as <-; constructor.
Qed.

Theorem call_tells f args vs : call arrange f args = Done vs ->
  exists xs rs, gf_run f xs = Done rs /\ (Forall2 typed (gf_out f) rs -> Forall moderate rs -> tells_all (gf_out f) rs (map result vs)).
Proof.
  intros H. assert (X : exists xs, rbind (gf_run f xs) (convert_return arrange (gf_out f)) = Done vs).
  { unfold call in H. destruct (gf_variadic f).
    - destruct (_ <? _)%nat; [discriminate H|]. destruct (reflect_args _ _); try discriminate H. cbn [rbind] in H. destruct (rlist _); try discriminate H. cbn [rbind] in H. eauto.
    - destruct (negb _); [discriminate H|]. destruct (reflect_args _ _); try discriminate H. cbn [rbind] in H. eauto. }
  destruct X as [xs X]. destruct (gf_run f xs) as [rs| | ] eqn:R; try discriminate X. cbn [rbind] in X. exists xs, rs. split; [exact R|]. intros T M.
  unfold convert_return in X. apply rlist_done in X. clear H R. revert vs X M.
  induction T as [|t r ts rs Tr T IH]; intros vs X M; inversion X as [|? v ? vs' Ev X' E1 E2]; subst; [exact I|]. inversion M; subst.
  cbn [map tells_all]. split; [|auto]. cbn [fst snd] in Ev. destruct (from_go arrange t r) as [w| | ] eqn:Fr; try discriminate Ev. cbn [rbind] in Ev.
  replace (result v) with w; [now apply go_tells|]. destruct w; injection Ev as <-; try reflexivity. destruct (is_dgo t r); reflexivity.
Qed.
End Arranged.

(* ---------- nil ---------- *)

Lemma ends_nil_go x : ends_nil x = nil_go x.
Proof. induction x using gval_ind'; cbn; auto. Qed.
Theorem call_nil arrange f args vs : call arrange f args = Done vs ->
  exists xs rs, gf_run f xs = Done rs /\ (Forall2 typed (gf_out f) rs -> Forall2 (fun r o => o = None <-> back_as_nil r = true) rs vs).
Proof.
  intros H. assert (X : exists xs, rbind (gf_run f xs) (convert_return arrange (gf_out f)) = Done vs).
  { unfold call in H. destruct (gf_variadic f).
    - destruct (_ <? _)%nat; [discriminate H|]. destruct (reflect_args _ _); try discriminate H. cbn [rbind] in H. destruct (rlist _); try discriminate H. cbn [rbind] in H. eauto.
    - destruct (negb _); [discriminate H|]. destruct (reflect_args _ _); try discriminate H. cbn [rbind] in H. eauto. }
  destruct X as [xs X]. destruct (gf_run f xs) as [rs| | ] eqn:R; try discriminate X. cbn [rbind] in X. exists xs, rs. split; [exact R|]. intros T.
  unfold convert_return in X. apply rlist_done in X. clear H R. revert vs X.
  induction T as [|t r ts rs Tr T IH]; intros vs X; inversion X as [|? v ? vs' Ev X' E1 E2]; subst; [constructor|].
  constructor; [|auto]. cbn [fst snd] in Ev. destruct (from_go arrange t r) as [w| | ] eqn:Fr; try discriminate Ev. cbn [rbind] in Ev.
  pose proof (becomes_nil arrange r t w Tr Fr) as B. rewrite <- ends_nil_go in B.
  assert (D : is_nil w = true -> back_as_nil r = negb (is_dgo t r)).
  { intros N. rewrite N in B. unfold back_as_nil. destruct r as [| | | | | | | | | |t' x|]; try discriminate B; try (destruct t; cbn in Tr; try contradiction Tr; reflexivity).
    - destruct t; cbn in Tr; try contradiction Tr. now rewrite <- B.
    - destruct t; cbn in Tr; try contradiction Tr. cbn in B. destruct x; try discriminate B; destruct t'; cbn in Tr; try contradiction Tr; cbn; try congruence; symmetry; exact B. }
  destruct (is_nil w) eqn:N.
  - destruct w; try discriminate N. rewrite (D eq_refl). destruct (is_dgo t r); injection Ev as <-; cbn; split; congruence.
  - assert (v = Some w) as -> by (destruct w; try discriminate N; injection Ev as <-; reflexivity). split; [discriminate|].
    intros K. exfalso. unfold back_as_nil in K. destruct r as [| | | | | | | | | |t' x|]; try congruence. destruct x; congruence.
Qed.

Lemma functions_equality :
  (forall f, func_eq f f = true) /\ (forall f g, func_eq f g = func_eq g f) /\
  (forall f g h, func_eq f g = true -> func_eq g h = true -> func_eq f h = true) /\ (forall f g, func_eq f g = true -> func_hash f = func_hash g).
Proof.
  unfold func_eq, func_hash. split; [intros f; apply Z.eqb_refl|]. split; [intros f g; apply Z.eqb_sym|].
  split; intros f g; rewrite ?Z.eqb_eq; [|auto]. intros h. rewrite !Z.eqb_eq. congruence.
Qed.
