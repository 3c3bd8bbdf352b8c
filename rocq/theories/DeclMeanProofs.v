(* The types that are read from a text accept what belongs to its expression. *)
From Coq Require Import Strings.Ascii Strings.String.
From Coq Require Import ZArith List Bool Lia Arith.
From Verif Require Import Int64 Utf8 Text HMap Data DataSpec DataProofs Types TypesSpec Graph RecTypes RecTypesSpec RecTypesProofs RecTypesEnds RecMeaning Print.
From Verif Require Import Resolve ResolveSpec ResolveInstance DeclareSpec DeclareRead DeclareDone DeclMeanSpec.
Import ListNotations.
Open Scope Z_scope.

Lemma every_forall {A} (R : A -> Prop) l : every R l <-> Forall R l.
Proof. induction l as [|a l IH]; cbn [every]; [split; constructor|]. fold (every R l). rewrite IH. split; [intros [X Y]; now constructor|intros H; inversion H; auto]. Qed.
Lemma some_exists {A} (R : A -> Prop) l : some R l <-> Exists R l.
Proof. induction l as [|a l IH]; cbn [some]; [split; [tauto|intros H; inversion H]|]. fold (some R l). rewrite IH. split; [intros [X|Y]; [now left|now right]|intros H; inversion H; auto]. Qed.
Lemma just_one_split {A} (R : A -> Prop) l : just_one R l <-> exists l1 a l2, l = l1 ++ a :: l2 /\ R a /\ Forall (fun b => ~ R b) (l1 ++ l2).
Proof.
  induction l as [|a l IH]; cbn [just_one].
  - split; [tauto|]. intros (l1 & b & l2 & E & _). destruct l1; discriminate E.
  - fold (just_one R l). rewrite IH, every_forall. split.
    + intros [[X Y]|[X (l1 & b & l2 & -> & Y & Z)]]; [exists [], a, l; auto|]. exists (a :: l1), b, l2. split; [reflexivity|]. split; [exact Y|]. now constructor.
    + intros ([|c l1] & b & l2 & E & X & Y); cbn in E, Y; injection E as <- ->; [left; auto|]. right. inversion Y; subst. split; [assumption|]. exists l1, b, l2. auto.
Qed.
Lemma just_one_cong {A B} (R : A -> Prop) (R' : B -> Prop) l m : Forall2 (fun a b => R a <-> R' b) l m -> (just_one R l <-> just_one R' m).
Proof.
  induction 1 as [|a b l m X F IH]; [reflexivity|]. cbn [just_one]. fold (just_one R l) (just_one R' m). rewrite IH, X, !every_forall.
  assert (Y : Forall (fun b => ~ R b) l <-> Forall (fun b => ~ R' b) m).
  { clear - F. induction F as [|a b l m X F IH]; [split; constructor|]. split; intros H; inversion H; subst; constructor; try tauto. }
  rewrite Y. reflexivity.
Qed.
Lemma veq_str s k : veq (VStr s) k = true <-> k = VStr s.
Proof. split; [|intros ->; cbn; apply bytes_eqb_eq; reflexivity]. destruct k; cbn; try discriminate. intros H. apply bytes_eqb_eq in H. now subst. Qed.
Lemma veq_str_not s k : veq (VStr s) k = false <-> k <> VStr s.
Proof.
  split; [intros H E; apply veq_str in E; congruence|]. intros H. destruct (veq (VStr s) k) eqn:E; [|reflexivity]. now apply veq_str in E.
Qed.

(* ---------- what belongs depends on what the names stand for ---------- *)

Lemma direct_solid e : direct e -> by_name e = false -> solid e.
Proof. destruct e; cbn; try discriminate; try tauto. Qed.
Lemma flat_solid e : direct e -> flat e -> solid e.
Proof. destruct e; cbn; tauto. Qed.
Section Cong.
Variable W : world.
Variable G : graph.
Variables N N' : list Z -> gval -> Prop.
Variable D : gval -> Prop.
Hypothesis DP : forall x y, D x -> part G x y -> D y.

Lemma F_iff {A} (P Q : A -> Prop) l : (forall a, In a l -> (P a <-> Q a)) -> (Forall P l <-> Forall Q l).
Proof. intros H. rewrite !Forall_forall. split; intros K a I; apply H; auto. Qed.
Lemma pairs_iff {A B} (P Q : A -> B -> Prop) l m : (forall a b, In a l -> In b m -> (P a b <-> Q a b)) -> (pairs P l m <-> pairs Q l m).
Proof.
  revert m. induction l as [|a l IH]; intros [|b m] H; cbn [pairs]; try reflexivity. fold (pairs P l m) (pairs Q l m). rewrite (H a b (or_introl eq_refl) (or_introl eq_refl)), IH; [reflexivity|]. intros; apply H; now right.
Qed.
Lemma exists_iff {A} (P Q : A -> Prop) : (forall a, P a <-> Q a) -> ((exists a, P a) <-> (exists a, Q a)).
Proof. intros H. split; intros [a X]; exists a; now apply H. Qed.

(* the cases of types with contents, if the contents are in D *)
Definition agree (e : ex) : Prop := forall x, D x -> (belongs W G N e x <-> belongs W G N' e x).
Lemma arr_agree sz e x : agree e -> (forall y, part G x y -> D y) -> (belongs W G N (XArr sz e) x <-> belongs W G N' (XArr sz e) x).
Proof.
  intros A P. cbn [belongs]. apply exists_iff. intros l. split; intros (E & Z & F); (split; [exact E|split; [exact Z|]]); rewrite Forall_forall in *; intros y I; apply A; auto; apply P; now apply (part_element G x l).
Qed.
Lemma map_agree sz k v x : agree k -> agree v -> (forall y, part G x y -> D y) -> (belongs W G N (XMap sz k v) x <-> belongs W G N' (XMap sz k v) x).
Proof.
  intros A B P. cbn [belongs]. apply exists_iff. intros m. split; intros (E & Z & F); (split; [exact E|split; [exact Z|]]); rewrite Forall_forall in *; intros [a b] I; destruct (F _ I) as [X Y]; split.
  - apply A; [apply P; now apply (part_key G x m a b)|exact X].
  - apply B; [apply P; now apply (part_value G x m a b)|exact Y].
  - apply A; [apply P; now apply (part_key G x m a b)|exact X].
  - apply B; [apply P; now apply (part_value G x m a b)|exact Y].
Qed.
Lemma tuple_agree es x : Forall agree es -> (forall y, part G x y -> D y) -> (belongs W G N (XTuple es) x <-> belongs W G N' (XTuple es) x).
Proof.
  intros A P. rewrite Forall_forall in A. cbn [belongs]. apply exists_iff. intros l.
  assert (Q : elements G x l -> (pairs (belongs W G N) es l <-> pairs (belongs W G N') es l)).
  { intros E. apply pairs_iff. intros e y I J. apply (A e I). apply P. now apply (part_element G x l). }
  split; intros [E F]; (split; [exact E|]); now apply Q.
Qed.
Lemma struct_agree a fs x : Forall (fun f => agree (snd f)) fs -> (forall y, part G x y -> D y) -> (belongs W G N (XStruct a fs) x <-> belongs W G N' (XStruct a fs) x).
Proof.
  intros A P. rewrite Forall_forall in A. cbn [belongs]. apply exists_iff. intros m. rewrite !every_forall.
  split; intros (E & F & K); (split; [exact E|split; [|exact K]]); rewrite Forall_forall in *; intros f I; (destruct (F f I) as [(y & J & B)|B]; [|now right]); left; exists y; (split; [exact J|]);
    apply (A f I); auto; apply P; now apply (part_value G x m (VStr (fst (fst f))) y).
Qed.
Lemma F2_refl {A} (R : A -> A -> Prop) l : (forall a, In a l -> R a a) -> Forall2 R l l.
Proof. induction l as [|a l IH]; intros H; constructor; [apply H; now left|apply IH; intros; apply H; now right]. Qed.
Definition here (x : gval) (e : ex) : Prop := belongs W G N e x <-> belongs W G N' e x.
Lemma or_agree es x : Forall (here x) es -> here x (XOr es).
Proof. intros A. rewrite Forall_forall in A. unfold here. cbn [belongs]. rewrite !some_exists, !Exists_exists. split; intros (e & I & B); exists e; (split; [exact I|]); now apply A. Qed.
Lemma and_agree es x : Forall (here x) es -> here x (XAnd es).
Proof. intros A. rewrite Forall_forall in A. unfold here. cbn [belongs]. rewrite !every_forall. apply F_iff. exact A. Qed.
Lemma xor_agree es x : Forall (here x) es -> here x (XXor es).
Proof. intros A. rewrite Forall_forall in A. unfold here. cbn [belongs]. apply just_one_cong. apply F2_refl. exact A. Qed.

Definition known (U : list (list Z)) : Prop := forall n, In n U -> forall x, D x -> (N n x <-> N' n x).
Lemma sub_known {A} (f : A -> list (list Z)) l a : known (flat_map f l) -> In a l -> known (f a).
Proof. intros K I n J. apply K. apply in_flat_map. now exists a. Qed.
Lemma all_agree e : known (used e) -> agree e.
Proof.
  induction e using ex_induct; cbn [used]; intros K x Dx; pose proof (fun y => DP x y Dx) as P.
  - reflexivity.
  - reflexivity.
  - reflexivity.
  - reflexivity.
  - reflexivity.
  - cbn [belongs]. apply K; [now left|exact Dx].
  - cbn [belongs]. apply K; [now left|exact Dx].
  - cbn [belongs]. now apply IHe.
  - apply arr_agree; auto.
  - apply map_agree; [apply IHe1|apply IHe2|exact P]; intros n I; apply K, in_or_app; auto.
  - apply tuple_agree; [|exact P]. rewrite Forall_forall in *. intros e I. apply H; [exact I|]. now apply (sub_known used es).
  - apply struct_agree; [|exact P]. rewrite Forall_forall in *. intros f I. apply H; [exact I|]. now apply (sub_known (fun f => used (snd f)) fs).
  - apply or_agree. rewrite Forall_forall in *. intros e I. apply H; [exact I| |exact Dx]. now apply (sub_known used es).
  - apply xor_agree. rewrite Forall_forall in *. intros e I. apply H; [exact I| |exact Dx]. now apply (sub_known used es).
  - apply and_agree. rewrite Forall_forall in *. intros e I. apply H; [exact I| |exact Dx]. now apply (sub_known used es).
  - cbn [belongs]. rewrite (IHe K x Dx). reflexivity.
Qed.
(* a declaration says something about what a value contains *)
Lemma solid_agree e : known (used e) -> solid e -> direct e -> forall x, (forall y, part G x y -> D y) -> here x e.
Proof.
  assert (LL : forall (es : list ex) x, Forall (fun e => known (used e) -> solid e -> direct e -> forall x, (forall y, part G x y -> D y) -> here x e) es ->
    every (fun e => flat e /\ direct e) es -> known (flat_map used es) -> (forall y, part G x y -> D y) -> Forall (here x) es).
  { intros es x F E K P. rewrite every_forall in E. rewrite Forall_forall in *. intros e0 I. destruct (E e0 I) as [Fl Di]. apply F; [exact I|now apply (sub_known used es)|now apply flat_solid|exact Di|exact P]. }
  induction e using ex_induct; cbn [used solid direct]; intros K S Di x P; try contradiction.
  - unfold here. reflexivity.
  - unfold here. reflexivity.
  - unfold here. reflexivity.
  - unfold here. reflexivity.
  - unfold here. reflexivity.
  - now apply IHe.
  - apply arr_agree; [now apply all_agree|exact P].
  - apply map_agree; [apply all_agree|apply all_agree|exact P]; intros n I; apply K, in_or_app; auto.
  - apply tuple_agree; [|exact P]. rewrite Forall_forall. intros e I. apply all_agree. now apply (sub_known used es).
  - apply struct_agree; [|exact P]. rewrite Forall_forall. intros f I. apply all_agree. now apply (sub_known (fun f => used (snd f)) fs).
  - apply or_agree. now apply LL.
  - apply xor_agree. now apply LL.
  - apply and_agree. now apply LL.
  - pose proof (IHe K (direct_solid e (proj2 Di) S) (proj2 Di) x P) as X. unfold here in *. cbn [belongs]. now rewrite X.
Qed.
End Cong.

(* ---------- declarations ---------- *)

Lemma declarations_names e : map fst (declarations e) = declared e.
Proof.
  assert (L : forall es, Forall (fun e => map fst (declarations e) = declared e) es -> map fst (flat_map declarations es) = flat_map declared es).
  { induction 1 as [|a l A F IH]; [reflexivity|]. cbn [flat_map]. rewrite map_app. congruence. }
  induction e using ex_induct; cbn [declarations declared map fst]; auto; try congruence.
  - rewrite map_app. congruence.
  - induction H as [|f fs A F IH]; [reflexivity|]. cbn [flat_map]. rewrite map_app. congruence.
Qed.
Lemma declaration_ok e : correct e -> direct e -> forall n d, In (n, d) (declarations e) -> solid d /\ direct d /\ correct d /\ incl (used d) (used e).
Proof.
  assert (L : forall es, Forall (fun e => correct e -> direct e -> forall n d, In (n, d) (declarations e) -> solid d /\ direct d /\ correct d /\ incl (used d) (used e)) es ->
    Forall correct es -> Forall direct es -> forall n d, In (n, d) (flat_map declarations es) -> solid d /\ direct d /\ correct d /\ incl (used d) (flat_map used es)).
  { intros es F C Di n d I. apply in_flat_map in I as (e0 & I & J). rewrite Forall_forall in *. destruct (F e0 I (C e0 I) (Di e0 I) n d J) as (A & B & K & U).
    split; [exact A|split; [exact B|split; [exact K|]]]. intros m M. apply in_flat_map. exists e0. auto. }
  assert (FD : forall es, every (fun e => flat e /\ direct e) es -> Forall direct es) by (intros es E; rewrite every_forall in E; eapply Forall_impl; [|exact E]; intros a [_ X]; exact X).
  induction e using ex_induct; cbn [correct direct declarations used]; intros C Di s d I; try (destruct I; fail).
  - destruct C as (_ & S & C). destruct I as [[= <- <-]|I]; [split; [exact S|split; [exact Di|split; [exact C|apply incl_refl]]]|now apply (IHe C Di s)].
  - now apply (IHe (proj2 C) (proj2 Di) s).
  - destruct C as [_ C]. apply in_app_or in I as [I|I]; [destruct (IHe1 (proj1 C) (proj1 Di) s d I) as (A & B & K & U)|destruct (IHe2 (proj2 C) (proj2 Di) s d I) as (A & B & K & U)];
      (split; [exact A|split; [exact B|split; [exact K|]]]); intros m M; apply in_or_app; auto.
  - destruct C as [_ C]. apply all_forall in C. destruct Di as [_ Di]. apply every_forall in Di. now apply (L es H C Di s).
  - destruct C as [_ C]. apply (all_forall (fun f : list Z * bool * ex => correct (snd f))) in C. destruct Di as [_ Di]. apply every_forall in Di.
    apply in_flat_map in I as (f & I & J). rewrite Forall_forall in *. destruct (H f I (C f I) (Di f I) s d J) as (A & B & K & U).
    split; [exact A|split; [exact B|split; [exact K|]]]. intros m M. apply in_flat_map. exists f. auto.
  - destruct C as [_ C]. apply all_forall in C. apply FD in Di. now apply (L es H C Di s).
  - destruct C as [_ C]. apply all_forall in C. apply FD in Di. now apply (L es H C Di s).
  - destruct C as [_ C]. apply all_forall in C. apply FD in Di. now apply (L es H C Di s).
  - destruct C as [C _]. destruct Di as [_ Di]. now apply (IHe C Di s).
Qed.

Lemma declaration_plain e : correct e -> plain e -> forall n d, In (n, d) (declarations e) -> solid d /\ plain d /\ correct d /\ incl (used d) (used e).
Proof.
  assert (L : forall es, Forall (fun e => correct e -> plain e -> forall n d, In (n, d) (declarations e) -> solid d /\ plain d /\ correct d /\ incl (used d) (used e)) es ->
    Forall correct es -> Forall plain es -> forall n d, In (n, d) (flat_map declarations es) -> solid d /\ plain d /\ correct d /\ incl (used d) (flat_map used es)).
  { intros es F C Di n d I. apply in_flat_map in I as (e0 & I & J). rewrite Forall_forall in *. destruct (F e0 I (C e0 I) (Di e0 I) n d J) as (A & B & K & U).
    split; [exact A|split; [exact B|split; [exact K|]]]. intros m M. apply in_flat_map. exists e0. auto. }
  induction e using ex_induct; cbn [correct plain declarations used]; intros C Di s d I; try (destruct I; fail).
  - destruct C as (_ & S & C). destruct I as [[= <- <-]|I]; [split; [exact S|split; [exact Di|split; [exact C|apply incl_refl]]]|now apply (IHe C Di s)].
  - now apply (IHe (proj2 C) (proj2 Di) s).
  - destruct C as [_ C]. apply in_app_or in I as [I|I]; [destruct (IHe1 (proj1 C) (proj1 Di) s d I) as (A & B & K & U)|destruct (IHe2 (proj2 C) (proj2 Di) s d I) as (A & B & K & U)];
      (split; [exact A|split; [exact B|split; [exact K|]]]); intros m M; apply in_or_app; auto.
  - destruct C as [_ C]. apply all_forall in C. destruct Di as [_ Di]. apply every_forall in Di. now apply (L es H C Di s).
  - destruct C as [_ C]. apply (all_forall (fun f : list Z * bool * ex => correct (snd f))) in C. destruct Di as [_ Di]. apply every_forall in Di.
    apply in_flat_map in I as (f & I & J). rewrite Forall_forall in *. destruct (H f I (C f I) (Di f I) s d J) as (A & B & K & U).
    split; [exact A|split; [exact B|split; [exact K|]]]. intros m M. apply in_flat_map. exists f. auto.
  - destruct C as [_ C]. apply all_forall in C. apply every_forall in Di. now apply (L es H C Di s).
  - destruct C as [_ C]. apply all_forall in C. apply every_forall in Di. now apply (L es H C Di s).
  - destruct C as [_ C]. apply all_forall in C. apply every_forall in Di. now apply (L es H C Di s).
  - destruct C as [C _]. now apply (IHe C Di s).
Qed.

(* ---------- the declarations say what the names stand for ---------- *)

Lemma within_first G x y : within G x y -> y = x \/ exists z, part G x z /\ within G z y.
Proof.
  induction 1 as [|y z Wy IH P]; [now left|right]. destruct IH as [->|(w & Pw & Ww)]; [exists z; split; [exact P|constructor]|]. exists w. split; [exact Pw|]. now apply (within_part G w y z).
Qed.
Lemma one_solution W G e (base : list Z -> Prop) (N N' : list Z -> gval -> Prop) : correct e -> direct e ->
  Forall (fun n => In n (declared e) \/ base n) (used e) -> values_ok G ->
  (forall n d x, In (n, d) (declarations e) -> sized G x -> val_ok G x -> (N n x <-> belongs W G N d x)) ->
  (forall n d x, In (n, d) (declarations e) -> sized G x -> val_ok G x -> (N' n x <-> belongs W G N' d x)) ->
  (forall n x, base n -> sized G x -> val_ok G x -> (N n x <-> N' n x)) ->
  forall x, sized G x -> val_ok G x -> (belongs W G N e x <-> belongs W G N' e x).
Proof.
  intros C Di U VG E E' B.
  set (names := fun n => In n (declared e) \/ base n).
  assert (K : forall x, sized G x -> val_ok G x -> forall y, within G x y -> sized G y /\ val_ok G y /\ forall n, names n -> (N n y <-> N' n y)).
  { intros x S. induction S as [x S1 S2 S4 S3 IH]. intros V. assert (Sx : sized G x) by now constructor.
    set (D := fun y => exists z, part G x z /\ within G z y).
    assert (KD : forall y, D y -> sized G y /\ val_ok G y /\ forall n, names n -> (N n y <-> N' n y)).
    { intros y (z & P & Wz). apply (IH z P); [now apply (part_ok G x)|exact Wz]. }
    assert (DP : forall y z, D y -> part G y z -> D z) by (intros y z (w & P & Ww) Pz; exists w; split; [exact P|now apply (within_part G w y z)]).
    intros y Wy. apply within_first in Wy as [->|Dy]; [|now apply KD]. split; [exact Sx|split; [exact V|]].
    intros n [I|I]; [|now apply B]. rewrite <- declarations_names in I. apply in_map_iff in I as ([m d] & <- & I). cbn [fst].
    rewrite (E m d x I Sx V), (E' m d x I Sx V). destruct (declaration_ok e C Di m d I) as (So & Dd & _ & Ud).
    apply (solid_agree W G N N' D DP d); [|exact So|exact Dd|].
    - intros k Ik z Dz. apply KD; [exact Dz|]. rewrite Forall_forall in U. now apply U, Ud.
    - intros z P. exists z. split; [exact P|constructor]. }
  intros x S V. apply (all_agree W G N N' (within G x)); [intros y z Wy P; now apply (within_part G x y z)| |constructor].
  intros n I y Wy. apply (K x S V y Wy). rewrite Forall_forall in U. now apply U.
Qed.
