(* Conversions from Go and back, and to Go and back. *)
From Coq Require Import ZArith List Bool Lia.
From Coq Require Import Floats.SpecFloat.
From Coq Require Import Sorting.Permutation.
From Verif Require Import Int64 Data DataSpec DataProofs InstProofs Convert ConvertSpec ConvertProofs Reflect ReflectSpec.
Import ListNotations.
Open Scope Z_scope.

Lemma gval_ind' (P : gval -> Prop) :
  P XNil -> (forall b, P (XBool b)) -> (forall z, P (XInt z)) -> (forall f, P (XFloat f)) -> (forall s, P (XString s)) -> (forall s n z, P (XTime s n z)) ->
  (forall s, P (XRegexp s)) -> (forall l, Forall P l -> P (XSlice l)) -> (forall m, Forall (fun e => P (fst e) /\ P (snd e)) m -> P (XMap m)) ->
  (forall x, P x -> P (XPtr x)) -> (forall t x, P x -> P (XAny t x)) -> (forall v, P (XDgo v)) -> forall x, P x.
Proof.
  intros H1 H2 H3 H4 H5 H6 H7 H8 H9 HA HB HC. fix IH 1. intros [ |b|z|f|s|s n z|s|l|m|x|t x|v].
  - exact H1.
  - apply H2.
  - apply H3.
  - apply H4.
  - apply H5.
  - apply H6.
  - apply H7.
  - apply H8. induction l as [|a r IHr]; constructor; [apply IH|exact IHr].
  - apply H9. induction m as [|[a b] r IHr]; constructor; [split; apply IH|exact IHr].
  - apply HA, IH.
  - apply HB, IH.
  - apply HC.
Qed.

(* ---------- equality ---------- *)

Lemma gty_eqb_eq a : forall b, gty_eqb a b = true <-> a = b.
Proof.
  induction a; intros b; destruct b; cbn [gty_eqb]; try (split; [discriminate|congruence]); try (split; reflexivity).
  - destruct k, k0; cbn; split; congruence.
  - rewrite IHa. split; congruence.
  - rewrite andb_true_iff, IHa1, IHa2. split; [intros [-> ->]; reflexivity|intros [= -> ->]; auto].
  - rewrite IHa. split; congruence.
Qed.
Lemma gty_eqb_refl a : gty_eqb a a = true. Proof. now apply gty_eqb_eq. Qed.
Lemma sfeqb_sym a b : SFeqb a b = SFeqb b a.
Proof.
  assert (D : forall f, f = S754_nan \/ f <> S754_nan) by (intros []; auto; right; discriminate).
  destruct (D a) as [-> |Na]; [destruct b; reflexivity|]. destruct (D b) as [-> |Nb]; [destruct a; reflexivity|].
  apply eq_true_iff_eq. rewrite !SFeqb_key by assumption. split; congruence.
Qed.
Lemma bytes_eqb_sym a b : bytes_eqb a b = bytes_eqb b a.
Proof. apply eq_true_iff_eq. rewrite !bytes_eqb_eq. split; congruence. Qed.
Lemma gty_eqb_sym a b : gty_eqb a b = gty_eqb b a.
Proof. apply eq_true_iff_eq. rewrite !gty_eqb_eq. split; congruence. Qed.
Lemma go_eq_sym a : forall b, go_eq a b = go_eq b a.
Proof.
  induction a using gval_ind'; intros y; destruct y; cbn [go_eq]; try reflexivity.
  - destruct b, b0; reflexivity.
  - apply Z.eqb_sym.
  - apply sfeqb_sym.
  - apply bytes_eqb_sym.
  - now rewrite (Z.eqb_sym s), (Z.eqb_sym n), (Z.eqb_sym z).
  - now rewrite gty_eqb_sym, IHa.
Qed.

(* ---------- lists of results ---------- *)

Lemma rlist_forall2 {A B} (f : A -> res B) l l' : Forall2 (fun a b => f a = Done b) l l' -> rlist (map f l) = Done l'.
Proof. intros H. induction H as [|a b l l' E H IH]; [reflexivity|]. cbn [map rlist]. now rewrite E, IH. Qed.
Lemma rlist_done {A B} (f : A -> res B) l l' : rlist (map f l) = Done l' -> Forall2 (fun a b => f a = Done b) l l'.
Proof.
  revert l'. induction l as [|a l IH]; cbn [map rlist]; intros l' H; [injection H as <-; constructor|].
  destruct (f a) as [b| | ] eqn:E, (rlist (map f l)) as [r| | ] eqn:R; try discriminate. injection H as <-. constructor; auto.
Qed.
Lemma forall2_exists {A B} (R : A -> B -> Prop) l : Forall (fun a => exists b, R a b) l -> exists l', Forall2 R l l'.
Proof. intros H. induction H as [|a l [b Hb] H [l' IH]]; [exists []; constructor|]. exists (b :: l'). now constructor. Qed.
Lemma forall2_impl {A B} (R R' : A -> B -> Prop) l l' : (forall a b, In a l -> R a b -> R' a b) -> Forall2 R l l' -> Forall2 R' l l'.
Proof. intros H F. induction F as [|a b l l' E F IH]; constructor; [apply H; auto; now left|]. apply IH. intros; apply H; auto; now right. Qed.
Lemma ordpairs_perm {A} (R : A -> A -> Prop) l l' : (forall a b, R a b -> R b a) -> Permutation l l' -> ForallOrdPairs R l -> ForallOrdPairs R l'.
Proof.
  intros S P. induction P as [|x l l' P IH|x y l|l l' l'' P1 IH1 P2 IH2]; intros H; auto.
  - inversion H as [|? ? F H']; subst. constructor; [|auto]. eapply Permutation_Forall; eauto.
  - inversion H as [|? ? F H']; subst. inversion H' as [|? ? F' H'']; subst. inversion F as [|? ? Rxy F'']; subst. constructor; [constructor; auto|]. now constructor.
Qed.

(* ---------- maps ---------- *)

Lemma set_map_new m k x : Forall (fun p => go_eq k (fst p) = false) m -> set_map_index m k x = m ++ [(k, x)].
Proof. intros H. induction H as [|[k' x'] m E H IH]; [reflexivity|]. cbn [set_map_index app fst] in *. now rewrite E, IH. Qed.
Lemma set_all_new l : Forall (fun p => hashable (fst p) = true) l -> ForallOrdPairs (fun p q => go_eq (fst p) (fst q) = false) l ->
  forall m, Forall (fun p => Forall (fun q => go_eq (fst p) (fst q) = false) l) m -> set_all m l = Done (m ++ l).
Proof.
  induction l as [|[k x] l IH]; intros Hh Hd m Hm; cbn [set_all]; [now rewrite app_nil_r|].
  inversion Hh as [|? ? Hk Hh']; subst. inversion Hd as [|? ? Fk Hd']; subst. cbn [fst] in Hk. rewrite Hk. rewrite set_map_new.
  - rewrite IH; auto; [now rewrite <- app_assoc|]. apply Forall_app. split; [|constructor; [exact Fk|constructor]].
    eapply Forall_impl; [|exact Hm]. intros p Hp. now inversion Hp.
  - eapply Forall_impl; [|exact Hm]. intros p Hp. inversion Hp as [|? ? E _]; subst. cbn [fst] in E. now rewrite go_eq_sym.
Qed.
Lemma set_all_distinct l : Forall (fun p => hashable (fst p) = true) l -> ForallOrdPairs (fun p q => go_eq (fst p) (fst q) = false) l -> set_all [] l = Done l.
Proof. intros A B. now rewrite (set_all_new l A B []). Qed.

(* ---------- integers ---------- *)

Lemma int_back k z : number_of k z -> (match k with KUint | KUint64 => z <> 18446744073709551615 | _ => True end) ->
  exists z', to_int k z = Some z' /\ in64 z' /\ reflect_to k z' = z.
Proof.
  intros N M. destruct (Z_le_gt_dec z max_int64) as [L|G].
  - assert (I6 : in64 z) by (unfold in64, min_int64, max_int64 in *; destruct k; cbn in N; lia).
    exists z. rewrite to_int_same by auto. split; [reflexivity|]. split; [exact I6|now apply reflect_to_preserves].
  - destruct (to_int_wraps k z N ltac:(lia)) as [K E]. rewrite E. assert (Nz : z <> 18446744073709551615) by (destruct K; subst; exact M).
    destruct (Z.eqb_spec z 18446744073709551615); [contradiction|]. exists (z - 18446744073709551616). split; [reflexivity|].
    assert (R : max_int64 < z <= 18446744073709551615) by (destruct K; subst; cbn in N; lia). unfold in64, min_int64, max_int64 in *. split; [lia|].
    assert (X : go_convert KUint64 (z - 18446744073709551616) = z).
    { unfold go_convert. cbn [bits signed andb]. change (2 ^ 64) with 18446744073709551616. symmetry. apply Zmod_unique with (-1); lia. }
    destruct K; subst; unfold reflect_to; cbn [signed]; rewrite X; unfold go_convert; cbn [bits signed andb]; change (2 ^ 64) with 18446744073709551616; apply Z.mod_small; lia.
Qed.

(* ---------- from Go and back ---------- *)

Section Arrange.
Variable arrange : list (value * value) -> list (value * value).
Hypothesis arranged : forall l, Permutation (arrange l) l.
Notation from_go := (from_go arrange).

(* there and back *)
Definition back (t : gty) (x : gval) : Prop := exists v x', from_go t x = Done v /\ to_go v t = Done x' /\ same_go x x'.

Lemma key_back k x : key_type k = true -> typed k x -> kept k x -> exists v, from_go k x = Done v /\ to_go v k = Done x.
Proof.
  destruct k; try discriminate; intros _ T K; destruct x; cbn [typed] in T; try contradiction; cbn [Reflect.from_go].
  - exists (VBool b). auto.
  - destruct (int_back k z T) as (z' & E & _ & R). { destruct k; auto. } rewrite E. exists (VInt z'). split; [reflexivity|]. cbn. now rewrite R.
  - exists (VFloat f). split; [reflexivity|]. cbn. now rewrite T.
  - exists (VFloat f). auto.
  - exists (VStr s). auto.
  - exists (VTime sec nsec zone). auto.
Qed.
Lemma key_hashable k x : key_type k = true -> typed k x -> hashable x = true.
Proof. destruct k; try discriminate; intros _ T; destruct x; cbn [typed] in T; try contradiction; reflexivity. Qed.
Lemma key_found x : (match x with XFloat f => is_nan f = false | _ => True end) -> (match x with XAny _ _ => False | _ => True end) -> finds_itself x = true.
Proof. destruct x as [ | | |f| | | | | | | | ]; intros H N; try reflexivity; try contradiction. cbn. unfold SFeqb. rewrite SFcompare_refl; [reflexivity|]. intros ->. discriminate. Qed.

Lemma map_back k e m : key_type k = true -> Forall (fun p => typed k (fst p) /\ kept k (fst p) /\ (match fst p with XFloat f => is_nan f = false | _ => True end) /\ back e (snd p)) m ->
  ForallOrdPairs (fun p q => go_eq (fst p) (fst q) = false) m ->
  exists vs xs, from_go (RMap k e) (XMap m) = Done (VMap vs) /\
    rlist (map (fun p => rpair (to_go (fst p) k) (to_go (snd p) e)) vs) = Done xs /\ set_all [] xs = Done xs /\ same_go (XMap m) (XMap xs).
Proof.
  intros Kk H D.
  set (R := fun (p : gval * gval) (q : value * value) => to_go (fst q) k = Done (fst p) /\ exists x', to_go (snd q) e = Done x' /\ same_go (snd p) x').
  assert (X : exists es, Forall2 (fun p q => rpair (from_go k (fst p)) (if finds_itself (fst p) then from_go e (snd p) else Done VNil) = Done q /\ R p q) m es).
  { apply forall2_exists. eapply Forall_impl; [|exact H]. intros [kx ex] (T & K & N & v & x' & F & G & S). cbn [fst snd] in *.
    destruct (key_back k kx Kk T K) as (kv & Fk & Gk). exists (kv, v). rewrite Fk, key_found, F; [|exact N|destruct k, kx; try discriminate; cbn in T; try contradiction; exact I]. split; [reflexivity|]. split; [exact Gk|]. exists x'. auto. }
  destruct X as [es X]. exists (arrange es).
  assert (F2 : Forall2 R m es) by (eapply forall2_impl; [|exact X]; cbn; intuition).
  assert (F2' : Forall2 (fun q p => R p q) es m). { clear - F2. induction F2; constructor; auto. }
  destruct (Permutation_Forall2 (Permutation_sym (arranged es)) F2') as (m2 & Pm & Fm).
  assert (X2 : exists xs, Forall2 (fun q x => rpair (to_go (fst q) k) (to_go (snd q) e) = Done x) (arrange es) xs /\ Forall2 (fun p x => fst p = fst x /\ same_go (snd p) (snd x)) m2 xs).
  { clear - Fm. induction Fm as [|q p es' m2 [G (x' & G' & S)] Fm (xs & IH1 & IH2)]; [exists []; split; constructor|].
    exists ((fst p, x') :: xs). split; constructor; auto. now rewrite G, G'. }
  destruct X2 as (xs & X2 & S2). exists xs. split; [|split; [|split]].
  - cbn [Reflect.from_go]. erewrite rlist_forall2; [reflexivity|]. eapply forall2_impl; [|exact X]. cbn. intuition.
  - now apply rlist_forall2.
  - assert (D2 : ForallOrdPairs (fun p q => go_eq (fst p) (fst q) = false) m2). { eapply ordpairs_perm; [|exact Pm|exact D]. intros a b Hab. now rewrite go_eq_sym. }
    assert (H2 : Forall (fun p => hashable (fst p) = true) m2). { eapply Permutation_Forall; [exact Pm|]. eapply Forall_impl; [|exact H]. intros p (T & _). now apply (key_hashable k). }
    apply set_all_distinct.
    + clear - S2 H2. induction S2 as [|p x m2 xs [E _] S2 IH]; [constructor|]. inversion H2; subst. constructor; [now rewrite <- E|auto].
    + clear - S2 D2. induction S2 as [|p x m2 xs [E _] S2 IH]; [constructor|]. inversion D2 as [|? ? F D2']; subst. constructor; [|auto].
      rewrite <- E. clear - F S2. induction S2 as [|p' x' m2 xs [E' _] S2 IH]; [constructor|]. inversion F; subst. constructor; [now rewrite <- E'|auto].
  - destruct (Permutation_Forall2 (Permutation_sym Pm) S2) as (m1 & Pm1 & Fm1). eapply same_map; [exact Fm1|]. now apply Permutation_sym.
Qed.

Lemma slice_back e l : Forall (back e) l -> e <> RInt KUint8 -> e <> RValue ->
  exists vs xs, from_go (RSlice e) (XSlice l) = Done (VArr vs) /\ rlist (map (fun a => to_go a e) vs) = Done xs /\ same_go (XSlice l) (XSlice xs).
Proof.
  intros H N1 N2. assert (X : exists vs xs, Forall2 (fun x v => from_go e x = Done v) l vs /\ Forall2 (fun v x => to_go v e = Done x) vs xs /\ Forall2 same_go l xs).
  { induction H as [|x l (v & x' & F & G & S) H (vs & xs & A & B & C)]; [exists [], []; repeat constructor|]. exists (v :: vs), (x' :: xs). split; [|split]; constructor; auto. }
  destruct X as (vs & xs & A & B & C). exists vs, xs. split; [|split].
  - assert (E : rlist (map (from_go e) l) = Done vs) by now apply rlist_forall2. cbn [Reflect.from_go]. destruct e as [ |[]| | | | | | | | | | | ]; try (rewrite E; reflexivity); congruence.
  - now apply rlist_forall2.
  - now apply same_slice.
Qed.
Lemma bytes_back l : Forall (fun x => exists z, x = XInt z) l -> map XInt (map byte_of l) = l.
Proof. intros H. induction H as [|x l (z & ->) H IH]; [reflexivity|]. cbn. now rewrite IH. Qed.
Lemma values_back l : Forall (fun x => exists v, x = XDgo v) l -> exists vs, map XDgo vs = l.
Proof. intros H. induction H as [|x l (z & ->) H (vs & <-)]; [now exists []|]. now exists (z :: vs). Qed.
Lemma same_refl x : (match x with XSlice _ | XMap _ | XPtr _ => False | _ => True end) -> same_go x x.
Proof. apply same_leaf. Qed.

(* slices and maps, also behind a pointer *)
Definition whole (t : gty) (x : gval) : Prop :=
  match x with
  | XSlice _ | XMap _ => exists v x', from_go t x = Done v /\ to_go v t = Done x' /\ to_go v (RPtr t) = Done (XPtr x') /\ same_go x x'
  | _ => True
  end.

Lemma whole_slice e l : Forall (fun x => typed e x /\ kept e x /\ back e x) l -> whole (RSlice e) (XSlice l).
Proof.
  intros H. unfold whole. destruct (gty_eqb e (RInt KUint8)) eqn:E1; [|destruct (gty_eqb e RValue) eqn:E2].
  - apply gty_eqb_eq in E1 as ->. exists (VBin (map byte_of l)), (XSlice l). cbn [Reflect.from_go]. split; [reflexivity|]. cbn. rewrite bytes_back.
    + split; [reflexivity|]. split; [reflexivity|]. apply same_slice. clear - H. induction H as [|x l (T & _ & _) H IH]; constructor; auto. destruct x; cbn in T; try contradiction. now constructor.
    + eapply Forall_impl; [|exact H]. intros x (T & _). destruct x; cbn in T; try contradiction. eauto.
  - apply gty_eqb_eq in E2 as ->. destruct (values_back l) as [vs <-]. { eapply Forall_impl; [|exact H]. intros x (T & K & _). destruct x; cbn in T, K; try contradiction. eauto. }
    exists (VArr vs), (XSlice (map XDgo vs)). cbn [Reflect.from_go]. rewrite map_map. rewrite (rlist_forall2 (fun v => Done v) vs vs) by (clear; induction vs; constructor; auto).
    split; [reflexivity|]. cbn [to_go rbind]. rewrite (rlist_forall2 (fun a => to_go a RValue) vs (map XDgo vs)) by (clear; induction vs as [|v vs IH]; constructor; [destruct v; reflexivity|exact IH]). cbn [rbind]. unfold set. rewrite !gty_eqb_refl.
    split; [reflexivity|]. split; [reflexivity|]. apply same_slice. clear. induction vs; constructor; auto. now constructor.
  - destruct (slice_back e l) as (vs & xs & F & G & S).
    { eapply Forall_impl; [|exact H]. intros x (_ & _ & B). exact B. } { intros ->. discriminate. } { intros ->. discriminate. }
    exists (VArr vs), (XSlice xs). split; [exact F|]. cbn [to_go rbind]. rewrite G. cbn [rbind]. unfold set. rewrite !gty_eqb_refl. auto.
Qed.
Lemma whole_map k e m : key_type k = true -> Forall (fun p => typed k (fst p) /\ kept k (fst p) /\ (match fst p with XFloat f => is_nan f = false | _ => True end) /\ back e (snd p)) m ->
  ForallOrdPairs (fun p q => go_eq (fst p) (fst q) = false) m -> whole (RMap k e) (XMap m).
Proof.
  intros Kk H D. destruct (map_back k e m Kk H D) as (vs & xs & F & G & A & S). exists (VMap vs), (XMap xs). split; [exact F|]. cbn [to_go rbind]. rewrite G. cbn [rbind]. rewrite A. cbn [rbind]. unfold set. rewrite !gty_eqb_refl. auto.
Qed.

Lemma whole_all x : forall t, kept_type t = true -> typed t x -> kept t x -> back t x /\ whole t x.
Proof.
  induction x as [ |b|z|f|s|s n zn|s|l IHl|m IHm|x IHx|t' x IHx|v] using gval_ind'; intros t Kt T K.
  - split; [|exact I]. destruct t; cbn in T, K; try contradiction; try discriminate; exists VNil, XNil; (split; [first [reflexivity|destruct t; reflexivity]|split; [reflexivity|now apply same_leaf]]).
  - split; [|exact I]. destruct t; cbn in T; try contradiction. destruct (key_back RBool (XBool b) eq_refl T K) as (v & F & G). exists v, (XBool b). split; [exact F|split; [exact G|now constructor]].
  - split; [|exact I]. destruct t; cbn in T; try contradiction. destruct (key_back (RInt k) (XInt z) eq_refl T K) as (v & F & G). exists v, (XInt z). split; [exact F|split; [exact G|now constructor]].
  - split; [|exact I]. destruct t; cbn in T; try contradiction; [destruct (key_back RFloat32 (XFloat f) eq_refl T K) as (v & F & G)|destruct (key_back RFloat64 (XFloat f) eq_refl T K) as (v & F & G)]; (exists v, (XFloat f); split; [exact F|split; [exact G|now constructor]]).
  - split; [|exact I]. destruct t; cbn in T; try contradiction. destruct (key_back RString (XString s) eq_refl T K) as (v & F & G). exists v, (XString s). split; [exact F|split; [exact G|now constructor]].
  - split; [|exact I]. destruct t; cbn in T; try contradiction. destruct (key_back RTime (XTime s n zn) eq_refl T K) as (v & F & G). exists v, (XTime s n zn). split; [exact F|split; [exact G|now constructor]].
  - destruct t; cbn in T; try contradiction. discriminate.
  - assert (W : whole t (XSlice l)).
    { destruct t; cbn in T; try contradiction. apply whole_slice. apply fold_and in T. cbn [kept] in K. apply fold_and in K. cbn [kept_type] in Kt. rewrite Forall_forall in *. intros x Hx. split; [auto|]. split; [auto|]. apply IHl; auto. }
    split; [|exact W]. destruct W as (v & x' & F & G & _ & S). exists v, x'. auto.
  - assert (W : whole t (XMap m)).
    { destruct t; cbn in T; try contradiction. destruct T as [T D]. cbn [kept_type] in Kt. apply andb_true_iff in Kt as [Kk Ke]. apply fold_and in T. cbn [kept] in K. apply fold_and in K. apply whole_map; auto. rewrite Forall_forall in *. intros p Hp. specialize (T p Hp). specialize (K p Hp). specialize (IHm p Hp).
      split; [tauto|]. split; [tauto|]. split; [tauto|]. apply IHm; tauto. }
    split; [|exact W]. destruct W as (v & x' & F & G & _ & S). exists v, x'. auto.
  - split; [|exact I]. destruct t; cbn in T; try contradiction. cbn [kept] in K. destruct K as [K N].
    assert (C : t = RRegexp \/ pointed_type t = true /\ kept_type t = true /\ t <> RRegexp).
    { destruct (gty_eqb t RRegexp) eqn:E; [left; now apply gty_eqb_eq|right]. assert (t <> RRegexp) by (intros ->; discriminate). destruct t; cbn [kept_type] in Kt; try (apply andb_true_iff in Kt as [A B]); auto; congruence. }
    destruct C as [-> |(Pt & Ke & NR)].
    + destruct x; cbn in T; try contradiction. exists (VRegexp s), (XPtr (XRegexp s)). split; [reflexivity|]. split; [reflexivity|]. apply same_ptr; now apply same_leaf.
    + destruct (IHx t Ke T K) as [B W]. assert (F : from_go (RPtr t) (XPtr x) = from_go t x) by (destruct t; try reflexivity; discriminate).
      destruct t; try discriminate; try congruence.
      * destruct x; cbn in T; try contradiction. exists (VBool b), (XPtr (XBool b)). repeat split. apply same_ptr; now apply same_leaf.
      * destruct x; cbn in T; try contradiction. destruct (int_back k z T) as (z' & E & _ & R). { destruct k; auto. } exists (VInt z'), (XPtr (XInt z)). split; [cbn; now rewrite E|]. split; [cbn; now rewrite R|apply same_ptr; now apply same_leaf].
      * destruct x; cbn in T; try contradiction. exists (VFloat f), (XPtr (XFloat f)). split; [reflexivity|]. split; [cbn; now rewrite T|apply same_ptr; now apply same_leaf].
      * destruct x; cbn in T; try contradiction. exists (VFloat f), (XPtr (XFloat f)). repeat split. apply same_ptr; now apply same_leaf.
      * destruct x; cbn in T; try contradiction. exists (VStr s), (XPtr (XString s)). repeat split. apply same_ptr; now apply same_leaf.
      * destruct x; cbn in T; try contradiction. destruct W as (v & x' & A & _ & G & S). exists v, (XPtr x'). rewrite F. split; [exact A|]. split; [exact G|now apply same_ptr].
      * destruct x; cbn in T; try contradiction. destruct W as (v & x' & A & _ & G & S). exists v, (XPtr x'). rewrite F. split; [exact A|]. split; [exact G|now apply same_ptr].
  - destruct t; cbn in T; try contradiction. discriminate.
  - split; [|exact I]. destruct t; cbn in T; try contradiction.
    + exists v, (XDgo v). split; [reflexivity|]. split; [destruct v; reflexivity|now constructor].
    + destruct v; try contradiction. exists (VSens v), (XDgo (VSens v)). repeat split. now constructor.
Qed.
Theorem go_round_trip t x : kept_type t = true -> typed t x -> kept t x ->
  exists v x', from_go t x = Done v /\ to_go v t = Done x' /\ same_go x x'.
Proof. intros A B C. exact (proj1 (whole_all x t A B C)). Qed.

(* ---------- to Go and back ---------- *)

Lemma rearranged_refl v : rearranged v v.
Proof.
  induction v as [ | | | | | | | |v IHv|l IHl|m IHm] using value_ind'; try (now apply re_leaf).
  - apply re_arr. induction IHl; constructor; auto.
  - apply re_map with m; [|apply Permutation_refl]. induction IHm as [|e m [_ E] _ IH]; constructor; auto.
Qed.

(* the types of the values: all the same, or interface{} *)
Lemma reflect_not_value v : reflect_type v <> Done RValue.
Proof.
  destruct v; cbn [reflect_type]; try discriminate.
  - destruct (common _); discriminate.
  - destruct (common _) as [k| | ]; try discriminate. cbn [rbind]. destruct (common _) as [e| | ]; try discriminate. cbn [rbind]. unfold map_of. destruct (comparable k); discriminate.
Qed.
Lemma assignable_eq a b : b <> RValue -> assignable_to a b = true -> b = RAny \/ a = b.
Proof. unfold assignable_to. intros N H. apply orb_true_iff in H as [H|H]; [right; now apply gty_eqb_eq|]. destruct b; try discriminate; auto; congruence. Qed.
Lemma common_loop_spec l : Forall (fun r => r <> Done RValue) l -> forall p e, p <> RValue -> common_loop p l = Done e -> e = RAny \/ (e = p /\ Forall (fun r => r = Done e) l).
Proof.
  induction l as [|r l IH]; intros N p e Np H; cbn [common_loop] in H; [injection H as <-; right; auto|].
  inversion N as [|? ? Nr Nl]; subst. destruct r as [rt| | ]; try discriminate. cbn [rbind] in H.
  assert (Nrt : rt <> RValue) by congruence.
  destruct (assignable_to rt p) eqn:A1; [|destruct (assignable_to p rt) eqn:A2].
  - destruct (IH Nl p e Np H) as [-> |[-> F]]; [now left|]. destruct (assignable_eq _ _ Np A1) as [-> | ->]; [now left|]. right. split; [reflexivity|]. now constructor.
  - destruct (IH Nl rt e Nrt H) as [-> |[-> F]]; [now left|]. destruct (assignable_eq _ _ Nrt A2) as [-> | ->]; [now left|]. right. split; [reflexivity|]. now constructor.
  - injection H as <-. now left.
Qed.
Lemma common_spec {A} (f : A -> value) l e : common (map (fun a => reflect_type (f a)) l) = Done e -> e = RAny \/ (l <> [] /\ Forall (fun a => reflect_type (f a) = Done e) l).
Proof.
  destruct l as [|a l]; cbn [map common]; [intros [= <-]; now left|]. destruct (reflect_type (f a)) as [t| | ] eqn:E; try discriminate. cbn [rbind]. intros H.
  assert (Nt : t <> RValue) by (intros ->; now apply (reflect_not_value (f a))).
  apply common_loop_spec in H; auto.
  - destruct H as [H|[-> F]]; [now left|right]. split; [discriminate|]. constructor; [exact E|]. rewrite Forall_map in F. exact F.
  - rewrite Forall_map. apply Forall_forall. intros x _. apply reflect_not_value.
Qed.
Lemma common_done {A} (f : A -> res gty) l : Forall (fun a => exists t, f a = Done t) l -> exists e, common (map f l) = Done e.
Proof.
  intros H. destruct H as [|a l [t E] H]; [now exists RAny|]. cbn [map common]. rewrite E. cbn [rbind]. clear E. revert t. induction H as [|b l [t' E'] H IH]; intros t; cbn [map common_loop]; [eauto|].
  rewrite E'. cbn [rbind]. destruct (assignable_to t' t), (assignable_to t t'); eauto.
Qed.

(* keys *)
Lemma key_reflect v : simple_key v = true -> exists t, reflect_type v = Done t /\ wide_key t = true.
Proof. destruct v; try discriminate; intros _; eexists; (split; [reflexivity|reflexivity]). Qed.
Lemma int_there z k : in64 z -> (match k with KInt | KInt64 => True | _ => False end) -> reflect_to k z = z /\ to_int k z = Some z.
Proof.
  intros I6 K. assert (N : number_of k z) by (destruct k; try contradiction; cbn; unfold in64, min_int64, max_int64 in I6; lia).
  split; [now apply reflect_to_preserves|]. apply to_int_same; auto. unfold in64 in I6. lia.
Qed.
Lemma key_there v k x : simple_key v = true -> portable v -> wide_key k = true -> to_go v k = Done x ->
  from_go k x = Done v /\ hashable x = true /\ finds_itself x = true.
Proof.
  intros S P W H. destruct v as [ |b|z|f|s| | | | | | ]; try discriminate.
  - destruct k as [ |[]| | | | | | | | | | | ]; try discriminate; cbn in H; injection H as <-; repeat split.
  - destruct k as [ |k| | | | | | | | | | | ]; try discriminate; cbn in H; injection H as <-.
    + destruct (int_there z k P) as [A B]; [destruct k; try discriminate; exact I|]. rewrite A. cbn. now rewrite B.
    + destruct (int_there z KInt64 P I) as [A B]. split; [|now split]. cbn [Reflect.from_go]. now rewrite B.
  - assert (N : SFeqb f f = true). { unfold SFeqb. rewrite SFcompare_refl; [reflexivity|]. intros ->. discriminate. }
    destruct k as [ |[]| | | | | | | | | | | ]; try discriminate; cbn in H; injection H as <-; repeat split; exact N.
  - destruct k as [ |[]| | | | | | | | | | | ]; try discriminate; cbn in H; injection H as <-; repeat split.
Qed.
Lemma keys_there v v' k x x' : simple_key v = true -> simple_key v' = true -> portable v -> portable v' -> wide_key k = true -> to_go v k = Done x -> to_go v' k = Done x' ->
  go_eq x x' = true -> veq v v' = true.
Proof.
  intros S S' P P' W H H' E.
  assert (WI : forall z k0, in64 z -> wide_key (RInt k0) = true -> reflect_to k0 z = z). { intros z k0 I6 Wk. apply int_there; auto. destruct k0; try discriminate; exact I. }
  destruct v as [ |b|z|f|s| | | | | | ]; try discriminate; destruct v' as [ |b'|z'|f'|s'| | | | | | ]; try discriminate;
    destruct k as [ |k| | | | | | | | | | | ]; try discriminate; cbn [to_go set gty_eqb go_int_eqb] in H, H'; try discriminate; injection H as <-; injection H' as <-; try discriminate; cbn [go_eq] in E; try exact E; try discriminate.
  cbn [portable] in P, P'. rewrite !WI in E by auto. exact E.
Qed.

(* entries *)
Lemma entries_there k e m xs : wide_key k = true ->
  Forall (fun p => simple_key (fst p) = true /\ portable (fst p) /\ forall x, to_go (snd p) e = Done x -> exists w, from_go e x = Done w /\ rearranged (snd p) w) m ->
  ForallOrdPairs (fun p q => veq (fst p) (fst q) = false) m ->
  rlist (map (fun p => rpair (to_go (fst p) k) (to_go (snd p) e)) m) = Done xs ->
  set_all [] xs = Done xs /\ exists w, from_go (RMap k e) (XMap xs) = Done w /\ rearranged (VMap m) w.
Proof.
  intros W H D R. apply rlist_done in R.
  assert (Q : Forall2 (fun p x => simple_key (fst p) = true /\ portable (fst p) /\ to_go (fst p) k = Done (fst x) /\ exists w, from_go e (snd x) = Done w /\ rearranged (snd p) w) m xs).
  { clear D. induction R as [|p x m xs E R IH]; [constructor|]. inversion H as [|? ? (S & P & C) H']; subst. constructor; [|auto].
    destruct (to_go (fst p) k) as [a| | ] eqn:Ea; try discriminate; destruct (to_go (snd p) e) as [b| | ] eqn:Eb; try discriminate. injection E as <-. cbn [fst snd]. auto. }
  split.
  - apply set_all_distinct.
    + clear - Q W. induction Q as [|p x m xs (S & P & T & _) Q IH]; constructor; auto. now destruct (key_there _ _ _ S P W T) as (_ & B & _).
    + clear - Q W D. induction Q as [|p x m xs (S & P & T & _) Q IH]; [constructor|]. inversion D as [|? ? F D']; subst. constructor; [|auto].
      clear - F Q S P T W. induction Q as [|p' x' m xs (S' & P' & T' & _) Q IH]; [constructor|]. inversion F as [|? ? F1 F']; subst. constructor; [|auto].
      destruct (go_eq (fst x) (fst x')) eqn:E; [|reflexivity]. rewrite (keys_there _ _ k _ _ S S' P P' W T T' E) in F1. discriminate.
  - assert (X : exists es, Forall2 (fun x q => rpair (from_go k (fst x)) (if finds_itself (fst x) then from_go e (snd x) else Done VNil) = Done q) xs es /\ Forall2 (fun p q => fst p = fst q /\ rearranged (snd p) (snd q)) m es).
    { clear - Q W. induction Q as [|p x m xs (S & P & T & w & F & Rw) Q (es & A & B)]; [exists []; split; constructor|].
      destruct (key_there _ _ _ S P W T) as (Fk & _ & Fi). exists ((fst p, w) :: es). split; constructor; auto. now rewrite Fk, Fi, F. }
    destruct X as (es & A & B). exists (VMap (arrange es)). split.
    + cbn [Reflect.from_go]. now rewrite (rlist_forall2 _ _ _ A).
    + eapply re_map; [exact B|]. now apply Permutation_sym.
Qed.
Lemma elements_there e l xs : e <> RInt KUint8 ->
  Forall (fun a => forall x, to_go a e = Done x -> exists w, from_go e x = Done w /\ rearranged a w) l ->
  rlist (map (fun a => to_go a e) l) = Done xs -> exists w, from_go (RSlice e) (XSlice xs) = Done w /\ rearranged (VArr l) w.
Proof.
  intros N H R. apply rlist_done in R.
  assert (X : exists ws, Forall2 (fun x w => from_go e x = Done w) xs ws /\ Forall2 rearranged l ws).
  { induction R as [|a x l xs E R IH]; [exists []; split; constructor|]. inversion H as [|? ? C H']; subst. destruct (C x E) as (w & F & Rw). destruct (IH H') as (ws & A & B). exists (w :: ws). split; constructor; auto. }
  destruct X as (ws & A & B). exists (VArr ws). split; [|now apply re_arr].
  destruct (gty_eqb e RValue) eqn:EV.
  - apply gty_eqb_eq in EV as ->. cbn [Reflect.from_go]. erewrite rlist_forall2; [reflexivity|]. clear - A R.
    revert ws A. induction R as [|a x l xs E R IH]; intros ws A; inversion A as [|? w ? ws' Ew A']; subst; constructor; auto.
    destruct x; try exact Ew; destruct a; discriminate E.
  - assert (E : rlist (map (from_go e) xs) = Done ws) by now apply rlist_forall2. cbn [Reflect.from_go]. destruct e as [ |[]| | | | | | | | | | | ]; try (rewrite E; reflexivity); try congruence. discriminate.
Qed.

(* the type of the value keeps all of it *)
Lemma reflect_wide v : portable v -> exists t, reflect_type v = Done t /\ wide t = true /\ suits t v /\ t <> RInt KUint8.
Proof.
  induction v as [ |b|z|f|s|s|s n zn|s|v IHv|l IHl|m IHm] using value_ind'; intros P; try (eexists; split; [reflexivity|]; split; [reflexivity|]; split; [exact I|discriminate]).
  - contradiction.
  - cbn [portable] in P. apply fold_and in P.
    assert (H : Forall (fun a => exists t, reflect_type a = Done t /\ wide t = true /\ suits t a /\ t <> RInt KUint8) l).
    { rewrite Forall_forall in *. intros a Ha. auto. }
    destruct (common_done reflect_type l) as [e E]. { eapply Forall_impl; [|exact H]. intros a (t & A & _). eauto. }
    exists (RSlice e). cbn [reflect_type]. rewrite E. split; [reflexivity|].
    destruct (common_spec (fun a => a) l e E) as [-> |[Nl F]].
    + split; [reflexivity|]. split; [|discriminate]. cbn [suits]. apply fold_and. apply Forall_forall. intros a _. destruct a; exact I.
    + assert (G : Forall (fun a => wide e = true /\ suits e a /\ e <> RInt KUint8) l).
      { rewrite Forall_forall in *. intros a Ha. destruct (H a Ha) as (t & A & B). rewrite (F a Ha) in A. injection A as <-. exact B. }
      destruct l as [|a l]; [congruence|]. inversion G as [|? ? (We & _ & Ne) _]; subst. assert (Gs : fold_right and True (map (suits e) (a :: l))). { apply fold_and. eapply Forall_impl; [|exact G]. cbn. intuition. }
      split; [cbn [wide]; destruct e as [ |[]| | | | | | | | | | | ]; auto|]. split; [|discriminate]. cbn [suits]. destruct e as [ |[]| | | | | | | | | | | ]; auto.
  - cbn [portable] in P. destruct P as [P D]. apply fold_and in P.
    assert (Hk : Forall (fun p => exists t, reflect_type (fst p) = Done t /\ wide_key t = true) m). { eapply Forall_impl; [|exact P]. intros p (S & _). now apply key_reflect. }
    assert (Hv : Forall (fun p => exists t, reflect_type (snd p) = Done t /\ wide t = true /\ suits t (snd p) /\ t <> RInt KUint8) m).
    { rewrite Forall_forall in *. intros p Hp. destruct (P p Hp) as (_ & _ & Pv). apply IHm; auto. }
    destruct (common_done (fun p : value * value => reflect_type (fst p)) m) as [k Ek]. { eapply Forall_impl; [|exact Hk]. intros p (t & A & _). eauto. }
    destruct (common_done (fun p : value * value => reflect_type (snd p)) m) as [e Ee]. { eapply Forall_impl; [|exact Hv]. intros p (t & A & _). eauto. }
    assert (Wk : wide_key k = true).
    { destruct (common_spec (fun p : value * value => fst p) m k Ek) as [-> |[Nl F]]; [reflexivity|]. destruct m as [|p m]; [congruence|]. inversion F as [|? ? Fp _]; subst. inversion Hk as [|? ? (t & A & B) _]; subst. rewrite Fp in A. injection A as <-. exact B. }
    assert (Wv : wide e = true /\ Forall (fun p => suits e (snd p)) m).
    { destruct (common_spec (fun p : value * value => snd p) m e Ee) as [-> |[Nl F]].
      - split; [reflexivity|]. apply Forall_forall. intros [a b] _. destruct b; exact I.
      - assert (G : Forall (fun p => wide e = true /\ suits e (snd p)) m). { rewrite Forall_forall in *. intros p Hp. destruct (Hv p Hp) as (t & A & B & C & _). rewrite (F p Hp) in A. injection A as <-. auto. }
        split; [destruct m as [|p m]; [congruence|]; inversion G; tauto|]. eapply Forall_impl; [|exact G]. cbn. intuition. }
    destruct Wv as [We Sv]. exists (RMap k e). cbn [reflect_type]. rewrite Ek. cbn [rbind]. rewrite Ee. cbn [rbind].
    assert (C : comparable k = true) by (destruct k; try discriminate; reflexivity). unfold map_of. rewrite C. split; [reflexivity|]. split; [cbn [wide]; now rewrite Wk, We|]. split; [|discriminate].
    cbn [suits]. now apply fold_and.
Qed.

Lemma set_same t x : set t t x = Done x. Proof. unfold set. now rewrite gty_eqb_refl. Qed.
Lemma set_done t s x y : set t s x = Done y -> (t = s /\ y = x) \/ (t = RAny /\ y = XAny s x).
Proof. unfold set. destruct (gty_eqb t s) eqn:E; [apply gty_eqb_eq in E; intros [= <-]; auto|]. destruct t; try discriminate. intros [= <-]. auto. Qed.

Definition there (v : value) : Prop := forall t x, wide t = true -> suits t v -> to_go v t = Done x -> exists w, from_go t x = Done w /\ rearranged v w.

Lemma slice_wide e : wide (RSlice e) = true -> e <> RInt KUint8 -> wide e = true.
Proof. intros W N. destruct e as [ |[]| | | | | | | | | | | ]; auto; congruence. Qed.
Lemma there_all v : portable v -> there v.
Proof.
  induction v as [ |b|z|f|s|s|s n zn|s|v IHv|l IHl|m IHm] using value_ind'; intros P t x W S H.
  - destruct t as [ |[]| | | | | |e|k e|p| | | ]; try discriminate W; try contradiction S; try discriminate H; injection H as <-; (eexists; split; [first [reflexivity|destruct p; reflexivity]|now apply re_leaf]).
  - destruct t as [ |[]| | | | | | | |[ |[]| | | | | | | | | | | ]| | | ]; try discriminate W; try discriminate H; injection H as <-; (eexists; split; [reflexivity|now apply re_leaf]).
  - assert (K : forall k, wide (RInt k) = true -> reflect_to k z = z /\ to_int k z = Some z). { intros k Wk. apply int_there; auto. destruct k; try discriminate; exact I. }
    destruct t as [ |k| | | | | | | |[ |k| | | | | | | | | | | ]| | | ]; try discriminate W; try discriminate H.
    + destruct (K k W) as [A B]. injection H as <-. exists (VInt z). split; [cbn [Reflect.from_go]; now rewrite A, B|now apply re_leaf].
    + destruct (K k W) as [A B]. injection H as <-. exists (VInt z). split; [cbn [Reflect.from_go]; now rewrite A, B|now apply re_leaf].
    + destruct (K KInt64 eq_refl) as [A B]. injection H as <-. exists (VInt z). split; [cbn [Reflect.from_go]; now rewrite B|now apply re_leaf].
    + injection H as <-. exists (VInt z). split; [reflexivity|now apply re_leaf].
  - destruct t as [ |[]| | | | | | | |[ |[]| | | | | | | | | | | ]| | | ]; try discriminate W; try discriminate H; injection H as <-; (eexists; split; [reflexivity|now apply re_leaf]).
  - destruct t as [ |[]| | | | | | | |[ |[]| | | | | | | | | | | ]| | | ]; try discriminate W; try discriminate H; injection H as <-; (eexists; split; [reflexivity|now apply re_leaf]).
  - assert (B : map byte_of (map XInt s) = s) by (clear; induction s as [|a s IH]; cbn; [|rewrite IH]; reflexivity).
    assert (B1 : from_go (RSlice (RInt KUint8)) (XSlice (map XInt s)) = Done (VBin s)) by (cbn [Reflect.from_go]; now rewrite B).
    exists (VBin s). split; [|now apply re_leaf]. destruct t; try discriminate W; try discriminate H; cbn [to_go] in H.
    + apply set_done in H as [[E ->]|[E ->]]; [injection E as ->; exact B1|discriminate].
    + apply set_done in H as [[E ->]|[E ->]]; [injection E as ->; exact B1|discriminate].
    + injection H as <-. exact B1.
    + injection H as <-. reflexivity.
  - contradiction.
  - exists (VRegexp s). split; [|now apply re_leaf]. destruct t; try discriminate W; try discriminate H; cbn [to_go] in H.
    + apply set_done in H as [[E ->]|[E ->]]; [injection E as ->; reflexivity|discriminate].
    + injection H as <-. reflexivity.
    + injection H as <-. reflexivity.
  - exists (VSens v). split; [|now apply re_leaf]. destruct t; try discriminate W; try discriminate H; injection H as <-; reflexivity.
  - cbn [portable] in P. apply fold_and in P.
    assert (G : forall e xs, wide (RSlice e) = true -> e <> RInt KUint8 -> Forall (suits e) l -> rlist (map (fun a => to_go a e) l) = Done xs -> exists w, from_go (RSlice e) (XSlice xs) = Done w /\ rearranged (VArr l) w).
    { intros e xs We Ne Se R. apply elements_there; auto. apply (slice_wide e) in We; [|exact Ne]. rewrite Forall_forall in *. intros a Ha y. apply IHl; auto. }
    assert (U : forall e, suits (RSlice e) (VArr l) -> e <> RInt KUint8 /\ Forall (suits e) l).
    { intros e Se. cbn [suits] in Se. split; [intros ->; exact Se|]. apply fold_and. destruct e as [ |[]| | | | | | | | | | | ]; auto; contradiction. }
    destruct t; try discriminate W; try discriminate H.
    + cbn [to_go rbind] in H. destruct (rlist _) as [xs| | ] eqn:R; try discriminate. cbn [rbind] in H. rewrite set_same in H. injection H as <-. destruct (U t S) as [Ne Se]. now apply G.
    + assert (Sp : forall e, t = RSlice e -> e <> RInt KUint8 /\ Forall (suits e) l). { intros e ->. apply U. cbn [suits] in *. destruct e as [ |[]| | | | | | | | | | | ]; auto. }
      destruct t; try discriminate W; try discriminate H. cbn [to_go rbind] in H. destruct (rlist _) as [xs| | ] eqn:R; try discriminate. cbn [rbind] in H. rewrite set_same in H. injection H as <-.
      destruct (Sp t eq_refl) as [Ne Se]. cbn [wide] in W. apply G; auto.
    + assert (Pv : portable (VArr l)) by (cbn [portable]; now apply fold_and). destruct (reflect_wide _ Pv) as (rt & Er & Wr & Sr & _).
      cbn [to_go] in H. rewrite Er in H. cbn [rbind] in H. destruct rt as [ | | | | | | |e| | | | | ]; try discriminate H. destruct (rlist _) as [xs| | ] eqn:R; try discriminate. injection H as <-.
      destruct (U e Sr) as [Ne Se]. exact (G e xs Wr Ne Se R).
    + injection H as <-. exists (VArr l). split; [reflexivity|apply rearranged_refl].
  - pose proof P as Pv. cbn [portable] in P. destruct P as [P D]. apply fold_and in P.
    assert (G : forall k e xs, wide (RMap k e) = true -> Forall (fun p => suits e (snd p)) m -> rlist (map (fun p => rpair (to_go (fst p) k) (to_go (snd p) e)) m) = Done xs ->
      set_all [] xs = Done xs /\ exists w, from_go (RMap k e) (XMap xs) = Done w /\ rearranged (VMap m) w).
    { intros k e xs We Se R. cbn [wide] in We. apply andb_true_iff in We as [Wk We]. apply entries_there; auto. rewrite Forall_forall in *. intros p Hp. destruct (P p Hp) as (A & B & C). split; [exact A|]. split; [exact B|]. intros y. apply IHm; auto. }
    destruct t; try discriminate W; try discriminate H.
    + cbn [to_go rbind] in H. destruct (rlist _) as [xs| | ] eqn:R; try discriminate. cbn [rbind] in H. cbn [suits] in S. apply fold_and in S. destruct (G _ _ xs W S R) as [A B]. rewrite A in H. cbn [rbind] in H. rewrite set_same in H. injection H as <-. exact B.
    + destruct t; try discriminate W; try discriminate H. cbn [to_go rbind] in H. destruct (rlist _) as [xs| | ] eqn:R; try discriminate. cbn [rbind] in H. cbn [suits] in S. apply fold_and in S.
      destruct (G t1 t2 xs W S R) as [A B]. rewrite A in H. cbn [rbind] in H. rewrite set_same in H. injection H as <-. exact B.
    + destruct (reflect_wide _ Pv) as (rt & Er & Wr & Sr & _).
      cbn [to_go] in H. rewrite Er in H. cbn [rbind] in H. destruct rt as [ | | | | | | | |k e| | | | ]; try discriminate H. destruct (rlist _) as [xs| | ] eqn:R; try discriminate. cbn [rbind] in H.
      cbn [suits] in Sr. apply fold_and in Sr. destruct (G k e xs Wr Sr R) as [A B]. rewrite A in H. injection H as <-. exact B.
    + injection H as <-. exists (VMap m). split; [reflexivity|apply rearranged_refl].
Qed.

(* a portable value can be given to an interface{}, and to a variable of its own type *)
Lemma to_any v : portable v -> forall t, t = RAny \/ reflect_type v = Done t -> exists x, to_go v t = Done x.
Proof.
  induction v as [ |b|z|f|s|s|s n zn|s|v IHv|l IHl|m IHm] using value_ind'; intros P t C; try (destruct C as [-> |E]; [|injection E as <-]; eexists; reflexivity).
  - pose proof P as Pv. cbn [portable] in P. apply fold_and in P. destruct (reflect_wide _ Pv) as (rt & Er & _).
    assert (G : forall e, reflect_type (VArr l) = Done (RSlice e) -> exists xs, rlist (map (fun a => to_go a e) l) = Done xs).
    { intros e E. cbn [reflect_type] in E. destruct (common (map reflect_type l)) as [e'| | ] eqn:Ec; try discriminate. injection E as ->.
      assert (F : Forall (fun a => e = RAny \/ reflect_type a = Done e) l). { destruct (common_spec (fun a => a) l e Ec) as [-> |[_ F]]; [apply Forall_forall; auto|]. eapply Forall_impl; [|exact F]. auto. }
      destruct (forall2_exists (fun a x => to_go a e = Done x) l) as [xs X]. { rewrite Forall_forall in *. intros a Ha. apply IHl; auto. } exists xs. now apply rlist_forall2. }
    assert (Rt : exists e, rt = RSlice e). { pose proof Er as E2. cbn [reflect_type] in E2. destruct (common _); try discriminate. injection E2 as <-. eauto. } destruct Rt as [e ->].
    destruct (G e Er) as [xs X]. destruct C as [-> |C].
    + exists (XAny (RSlice e) (XSlice xs)). cbn [to_go]. rewrite Er. cbn [rbind]. now rewrite X.
    + rewrite Er in C. injection C as <-. exists (XSlice xs). cbn [to_go rbind]. rewrite X. cbn [rbind]. now rewrite set_same.
  - pose proof P as Pv. cbn [portable] in P. destruct P as [P D]. apply fold_and in P. destruct (reflect_wide _ Pv) as (rt & Er & Wr & Sr & _).
    assert (Rt : exists k e, rt = RMap k e /\ common (map (fun p => reflect_type (fst p)) m) = Done k /\ common (map (fun p => reflect_type (snd p)) m) = Done e).
    { pose proof Er as E2. cbn [reflect_type] in E2. destruct (common (map (fun p => reflect_type (fst p)) m)) as [k| | ]; try discriminate. cbn [rbind] in E2. destruct (common _) as [e| | ]; try discriminate. cbn [rbind] in E2. unfold map_of in E2. destruct (comparable k); try discriminate. injection E2 as <-. eauto. }
    destruct Rt as (k & e & -> & Ek & Ee).
    assert (X : exists xs, rlist (map (fun p => rpair (to_go (fst p) k) (to_go (snd p) e)) m) = Done xs).
    { destruct (forall2_exists (fun p x => rpair (to_go (fst p) k) (to_go (snd p) e) = Done x) m) as [xs X]; [|exists xs; now apply rlist_forall2].
      assert (Fk : Forall (fun p => k = RAny \/ reflect_type (fst p) = Done k) m). { destruct (common_spec (fun p : value * value => fst p) m k Ek) as [-> |[_ F]]; [apply Forall_forall; auto|]. eapply Forall_impl; [|exact F]. auto. }
      assert (Fe : Forall (fun p => e = RAny \/ reflect_type (snd p) = Done e) m). { destruct (common_spec (fun p : value * value => snd p) m e Ee) as [-> |[_ F]]; [apply Forall_forall; auto|]. eapply Forall_impl; [|exact F]. auto. }
      rewrite Forall_forall in *. intros p Hp. destruct (P p Hp) as (_ & Pk & Pe). destruct (IHm p Hp) as [Ik Ie]. destruct (Ik Pk k (Fk p Hp)) as [a A]. destruct (Ie Pe e (Fe p Hp)) as [b B]. exists (a, b). now rewrite A, B. }
    destruct X as [xs X].
    assert (S : set_all [] xs = Done xs).
    { cbn [wide] in Wr. apply andb_true_iff in Wr as [Wk We]. cbn [suits] in Sr. apply fold_and in Sr. refine (proj1 (entries_there k e m xs Wk _ D X)). rewrite Forall_forall in *. intros p Hp. destruct (P p Hp) as (A & B & C'). split; [exact A|]. split; [exact B|]. intros y Hy. apply (there_all (snd p) C' e y We); auto. }
    destruct C as [-> |C].
    + exists (XAny (RMap k e) (XMap xs)). cbn [to_go]. rewrite Er. cbn [rbind]. rewrite X. cbn [rbind]. now rewrite S.
    + rewrite Er in C. injection C as <-. exists (XMap xs). cbn [to_go rbind]. rewrite X. cbn [rbind]. rewrite S. cbn [rbind]. now rewrite set_same.
Qed.

Theorem dgo_round_trip v t x : portable v -> wide t = true -> suits t v -> to_go v t = Done x -> exists w, from_go t x = Done w /\ rearranged v w.
Proof. intros P W S H. exact (there_all v P t x W S H). Qed.
Theorem dgo_any_round_trip v : portable v -> exists x w, to_go v RAny = Done x /\ from_go RAny x = Done w /\ rearranged v w.
Proof.
  intros P. destruct (to_any v P RAny (or_introl eq_refl)) as [x X]. destruct (there_all v P RAny x) as (w & F & R); auto; [destruct v; exact I|]. eauto.
Qed.
End Arrange.

(* rearranged values are equal *)
Lemma rearranged_equal v : forall w, wf v -> rearranged v w -> wf w /\ veq v w = true.
Proof.
  induction v as [ |b|z|f|s|s|s n zn|s|v IHv|l IHl|m IHm] using value_ind'; intros w W R; inversion R as [? L|? l' F|? m1 m' F P]; subst; try contradiction; try (split; [exact W|now apply veq_refl]).
  - apply data_arr_inv in W.
    assert (A : Forall wf l' /\ forall2b veq l l' = true).
    { clear R. induction F as [|a b l l' E F IH]; [split; [constructor|reflexivity]|]. inversion W; subst. inversion IHl as [|? ? Ha IHl']; subst. destruct (Ha b) as [A B]; auto. destruct IH as [C D]; auto. split; [now constructor|]. cbn [forall2b]. now rewrite B, D. }
    destruct A as [A B]. split; [now constructor|]. now rewrite veq_arr.
  - pose proof W as W0. apply data_map_inv in W as [We Wd].
    assert (A : Forall (fun e => wf (fst e) /\ wf (snd e)) m1 /\ Forall2 (fun p q => fst p = fst q /\ veq (snd p) (snd q) = true) m m1).
    { clear R W0 Wd P. induction F as [|p q m m1 [E Rv] F IH]; [split; constructor|]. inversion We as [|? ? [Wk Wv] We']; subst. inversion IHm as [|? ? [_ Hv] IHm']; subst. destruct (Hv _ Wv Rv) as [A B]. destruct IH as [C D]; auto. split; constructor; auto. rewrite <- E. auto. }
    destruct A as [A B].
    assert (D1 : ForallOrdPairs (keys_differ veq) m1).
    { clear - B Wd. induction B as [|p q m m1 [E _] B IH]; [constructor|]. inversion Wd as [|? ? Fp Wd']; subst. constructor; [|auto]. clear - Fp B E. induction B as [|p' q' m m1 [E' _] B IH]; [constructor|]. inversion Fp; subst. constructor; auto. unfold keys_differ in *. now rewrite <- E, <- E'. }
    assert (W1 : wf (VMap m1)) by now constructor. pose proof (perm_data _ _ W1 P) as W'. split; [exact W'|].
    apply (matched_map_equal m m' m1); auto; [now symmetry|]. clear - B We. induction B as [|p q m m1 [E V] B IH]; constructor; [|inversion We; auto]. inversion We as [|? ? [Wk _] _]; subst. split; [rewrite <- E; now apply veq_refl|exact V].
Qed.

Lemma go_eq_compared a : compared a -> forall b, go_eq a b = true <-> a = b.
Proof.
  induction a using gval_ind'; cbn [compared]; intros C; try contradiction; intros y; destruct y; cbn [go_eq]; try (split; [discriminate|congruence]); try (split; reflexivity).
  - rewrite Bool.eqb_true_iff. split; congruence.
  - rewrite Z.eqb_eq. split; congruence.
  - rewrite bytes_eqb_eq. split; congruence.
  - rewrite !andb_true_iff, !Z.eqb_eq. split; [intros [[-> ->] ->]; reflexivity|intros X; injection X as <- <- <-; auto].
  - rewrite andb_true_iff, gty_eqb_eq, IHa by assumption. split; [intros [-> ->]; reflexivity|intros X; injection X as <- <-; auto].
Qed.
Lemma rounded_sign p em (s : bool) m e (z : bool) : sign_of (binary_normalize p em (if s then Zneg m else Zpos m) e z) = Some s \/ binary_normalize p em (if s then Zneg m else Zpos m) e z = S754_nan.
Proof.
  assert (H : forall s', sign_of (binary_round p em s' m e) = Some s' \/ binary_round p em s' m e = S754_nan).
  { intros s'. unfold binary_round. destruct (shl_align m e (fexp p em (Zpos (digits2_pos m) + e))) as [mz ez]. unfold binary_round_aux.
    destruct (shr_fexp p em (Zpos mz) ez loc_Exact) as [r1 e1]. destruct (shr_fexp p em (round_nearest_even (shr_m r1) (loc_of_shr_record r1)) e1 loc_Exact) as [r2 e2]. destruct (shr_m r2); [now left| |now right]. destruct (Z.leb e2 (em - p)); now left. }
  destruct s; cbn [binary_normalize]; apply H.
Qed.
Lemma round32_sign f : sign_of (round32 f) = sign_of f \/ round32 f = S754_nan.
Proof.
  destruct f as [s|s| |s m e]; try now left. cbn [round32 sign_of]. destruct (rounded_sign 24 128 s m e s) as [H|H].
  - destruct (binary_normalize 24 128 (if s then Z.neg m else Z.pos m) e s) as [s'|s'| |s' m' e']; cbn [sign_of] in *; try (now left); try discriminate.
    injection H as ->. apply (rounded_sign 53 1024).
  - rewrite H. now right.
Qed.
