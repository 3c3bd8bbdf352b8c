(* Instances of a type in a variable of its Go type: ReflectType, ReflectTo and FromReflected together. *)
From Coq Require Import ZArith List Bool Lia.
From Coq Require Import Floats.SpecFloat.
From Coq Require Import Sorting.Permutation.
From Verif Require Import Int64 HMap HMapBase Data DataSpec DataProofs Arr EqProofs Types TypesSpec TypesCor InstProofs Construct Convert ConvertSpec ConvertProofs Reflect ReflectSpec ReflectProofs TypeReflect TypeReflectSpec TypeReflectProofs TypeReflectTypes.
Import ListNotations.
Open Scope Z_scope.

(* ---------- exact types ---------- *)

Lemma reflect_not_byte v : reflect_type v <> Done (RInt KUint8).
Proof.
  destruct v as [ |b|z|f|s|s|s n zn|s|v|l|m]; try discriminate; cbn [reflect_type].
  - destruct (common _); discriminate.
  - destruct (common _) as [k| | ]; try discriminate. cbn [rbind]. destruct (common _) as [e| | ]; try discriminate. cbn [rbind]. unfold map_of. destruct (comparable k); discriminate.
Qed.
Lemma forall2_forall {A B} (R : A -> B -> Prop) (P : A -> Prop) (Q : B -> Prop) l l' : Forall2 R l l' -> Forall P l -> (forall a b, In a l -> In b l' -> R a b -> P a -> Q b) -> Forall Q l'.
Proof.
  intros F. induction F as [|a b l l' H F IH]; intros HP HQ; [constructor|]. inversion HP; subst. constructor; [apply (HQ a b); auto; now left|].
  apply IH; auto. intros; eapply HQ; eauto; now right.
Qed.
Lemma exact_holds w : forall v g, wf w -> wf v -> veq w v = true -> reflect_type w = Done g -> holds g v.
Proof.
  induction w as [ |b|z|f|s|s|s n zn|s|w IHw|l IHl|m IHm] using value_ind'; intros v g Ww Wv E R.
  1-9: cbn [reflect_type] in R; injection R as <-; destruct v; try discriminate E; constructor.
  - cbn [reflect_type] in R. destruct (common (map reflect_type l)) as [e| | ] eqn:C; try discriminate R. injection R as <-. destruct v as [ | | | | | | | | |l'| ]; try discriminate E.
    rewrite veq_arr in E. apply forall2b_iff in E. apply data_arr_inv in Ww, Wv.
    destruct (common_spec (fun a => a) l e C) as [-> |[Nl F]].
    { constructor; [discriminate|]. apply Forall_forall. intros x _. constructor. }
    constructor.
    { destruct l as [|a l]; [congruence|]. inversion F as [|? ? Fa _]; subst. intros ->. now apply (reflect_not_byte a). }
    rewrite Forall_forall in IHl, Ww, Wv. apply (forall2_forall _ (fun a => reflect_type a = Done e) _ _ _ E F). intros a b Ha Hb V Ra. apply (IHl a Ha); auto.
  - cbn [reflect_type] in R. destruct (common (map (fun p => reflect_type (fst p)) m)) as [k| | ] eqn:Ck; try discriminate R. cbn [rbind] in R.
    destruct (common (map (fun p => reflect_type (snd p)) m)) as [e| | ] eqn:Ce; try discriminate R. cbn [rbind] in R. unfold map_of in R. destruct (comparable k); try discriminate R. injection R as <-.
    destruct v as [ | | | | | | | | | |m']; try discriminate E.
    destruct (map_equal_matched m m' Ww Wv E) as (q & Hp & Hf). apply data_map_inv in Ww as [Ww _]. apply data_map_inv in Wv as [Wv _].
    constructor. apply (forall_perm _ _ _ (Permutation_sym Hp)).
    assert (Fk : Forall (fun p => k = RAny \/ reflect_type (fst p) = Done k) m). { destruct (common_spec (fun p : value * value => fst p) m k Ck) as [-> |[_ F]]; [apply Forall_forall; auto|]. eapply Forall_impl; [|exact F]. auto. }
    assert (Fe : Forall (fun p => e = RAny \/ reflect_type (snd p) = Done e) m). { destruct (common_spec (fun p : value * value => snd p) m e Ce) as [-> |[_ F]]; [apply Forall_forall; auto|]. eapply Forall_impl; [|exact F]. auto. }
    apply (forall2_forall _ (fun p => (k = RAny \/ reflect_type (fst p) = Done k) /\ (e = RAny \/ reflect_type (snd p) = Done e)) _ _ _ Hf); [rewrite Forall_forall in *; auto|].
    rewrite Forall_forall in IHm, Ww, Wv. intros a b Ha Hb [V1 V2] [Rk Re]. apply (Permutation_in _ (Permutation_sym Hp)) in Hb. destruct (IHm a Ha) as [I1 I2], (Ww a Ha), (Wv b Hb).
    split; [destruct Rk as [-> |Rk]|destruct Re as [-> |Re]]; try constructor; auto.
Qed.

(* ---------- instances ---------- *)

Section Store.
Variable W : world.

Lemma value_holds w v g : wf w -> wf v -> veq w v = true -> value_reflect w = Done (Some g) -> holds g v.
Proof. unfold value_reflect. intros Ww Wv E R. destruct (reflect_type w) as [g'| | ] eqn:Rw; try discriminate R. injection R as ->. now apply (exact_holds w). Qed.

(* one of the alternatives is enough *)
Lemma one_holds l g v r : l <> [] -> Forall (fun r => exists g, r = Done (Some g) /\ good_type g) l ->
  common_reflect None l = Done (Some g) -> In r l -> (forall g, r = Done (Some g) -> holds g v) -> holds g v.
Proof.
  intros N G C I H. destruct (common_all l N G) as (g' & E & _ & D). rewrite E in C. injection C as ->. destruct D as [-> |D]; [constructor|].
  rewrite Forall_forall in D. auto.
Qed.

Theorem instance_holds t : storable t -> type_ok t -> plain t -> forall v g, has_type W t v -> wf v -> reflect_ty t = Done (Some g) -> holds g v.
Proof.
  assert (GT : forall ts, Forall storable ts -> Forall (fun r => exists g, r = Done (Some g) /\ good_type g) (map reflect_ty ts)).
  { intros ts H. rewrite Forall_map. eapply Forall_impl; [|exact H]. intros a. apply reflect_total. }
  induction t as [ | | | |lo hi i| |lo hi i| | |lo hi|r|r|lo hi| | |p w|p t IHt| |p e lo hi IHe|p ts b IHts| |p k e lo hi IHk IHe|p a es IHes|p ts IHts|p vs|p ts IHts|p ts IHts|p t IHt| |t IHt] using ty_ind';
    intros St Ok Pl v g H Wv R.
  - injection R as <-. constructor.
  - injection R as <-. constructor.
  - injection R as <-. destruct H as [b ->]. constructor.
  - injection R as <-. destruct H as [z ->]. constructor.
  - injection R as <-. destruct H as (z & -> & _). constructor.
  - injection R as <-. destruct H as [f ->]. constructor.
  - injection R as <-. destruct H as (f & -> & _). constructor.
  - injection R as <-. destruct H as [s ->]. constructor.
  - injection R as <-. destruct H as (s & -> & _). constructor.
  - injection R as <-. destruct H as (s & -> & _). constructor.
  - injection R as <-. destruct H as (z & -> & _). constructor.
  - injection R as <-. destruct H as (z & -> & _). constructor.
  - injection R as <-. destruct H as (z & -> & _). constructor.
  - destruct St as [[] _].
  - injection R as <-. destruct H as [s ->]. constructor.
  - destruct Ok as [Ok _]. apply (value_holds w); auto.
  - injection R as <-. destruct H as (x & -> & _). constructor.
  - injection R as <-. destruct H as [l ->]. constructor; [discriminate|]. apply Forall_forall. intros x _. constructor.
  - destruct H as (l & -> & _ & H). cbn [reflect_ty] in R. destruct St as [_ St], Ok as [_ Ok], Pl as [_ Pl]. destruct (reflect_total e St) as (g' & E & _ & N & _). rewrite E in R. injection R as <-.
    constructor; auto. apply data_arr_inv in Wv. rewrite Forall_forall in *. intros x Hx. apply IHe; auto. apply H; auto.
  - rewrite tuple_reflect in R. destruct St as [_ St], Ok as [Vr Ok], Pl as [_ Pl]. apply fold_and in St, Ok, Pl.
    destruct (elements_good (map (fun t => (t, reflect_ty t)) ts)) as (g' & E & (_ & N & _) & D). { rewrite Forall_map. eapply Forall_impl; [|exact St]. intros t. apply reflect_total. }
    rewrite E in R. injection R as <-. destruct H as (l & -> & H). apply data_arr_inv in Wv. constructor; auto.
    assert (Q : forall t x, In t ts -> In x l -> has_type W t x -> holds g' x).
    { intros t x Ht Hx HT. destruct D as [-> |(us & U1 & U2)]; [constructor|]. destruct (U2 (t, reflect_ty t)) as (q & Hq & C); [apply in_map_iff; eauto|].
      rewrite Forall_forall in U1. destruct (U1 q Hq) as [Iq Rq]. apply in_map_iff in Iq as (t' & <- & Ht'). cbn [fst snd] in *.
      rewrite Forall_forall in IHts, St, Ok, Pl, Wv. apply (IHts t'); auto; [now apply St|now apply Ok|now apply Pl|].
      destruct C as [C|C]; [injection C as <-; exact HT|]. apply (equal_types_same_instances W t t'); auto; [now apply Ok|now apply Ok|now apply Pl|now apply Pl]. }
    apply Forall_forall. intros x Hx. destruct b; cbv zeta in H.
    + destruct H as (Qs & P & l1 & l2 & EP & -> & F & L). apply in_app_or in Hx as [Hx|Hx].
      * destruct (Forall2_in_r _ _ _ _ F Hx) as (Q1 & HQ & HT). assert (I : In Q1 (map (has_type W) ts)) by (unfold has_type; rewrite EP; apply in_or_app; now left).
        apply in_map_iff in I as (t & <- & Ht). apply (Q t); auto. apply in_or_app. now left.
      * assert (I : In P (map (has_type W) ts)) by (unfold has_type; rewrite EP; apply in_or_app; right; now left). apply in_map_iff in I as (t & <- & Ht). rewrite Forall_forall in L. apply (Q t); auto. apply in_or_app. now right.
    + destruct (Forall2_in_r _ _ _ _ H Hx) as (Q1 & HQ & HT). apply in_map_iff in HQ as (t & <- & Ht). apply (Q t); auto.
  - injection R as <-. destruct H as [m ->]. constructor. apply Forall_forall. intros x _. split; constructor.
  - destruct H as (m & -> & _ & H). destruct St as (Kk & Sk & Se), Ok as (_ & Ok1 & Ok2), Pl as (_ & P1 & P2). destruct (reflect_total k Sk) as (gk & Ek & _), (reflect_total e Se) as (ge & Ee & _).
    cbn [reflect_ty] in R. rewrite Ek, Ee in R. cbn [rbind map_of_types] in R. unfold map_of in R. destruct (comparable gk); try discriminate R. injection R as <-.
    apply data_map_inv in Wv as [Wv _]. constructor. rewrite Forall_forall in *. intros x Hx. destruct (H x Hx), (Wv x Hx). split; [apply IHk|apply IHe]; auto.
  - destruct H as (m & -> & H & Cl). destruct St as ((Op & Ks) & St), Ok as ((Dk & _) & Ok), Pl as (_ & Pl). apply fold_and in St, Ok, Pl. pose proof Wv as Wm. apply data_map_inv in Wv as [Wv Df]. cbn [reflect_ty] in R.
    destruct es as [|e0 es']; [injection R as <-; constructor; apply Forall_forall; intros x _; split; constructor|]. set (es := e0 :: es') in *.
    destruct Cl as [Cl|Cl]; [now discriminate (Op Cl)|].
    destruct (common_all (map (fun e : value * ty * bool => value_reflect (fst (fst e))) es)) as (gk & Ek & _ & Ck); [discriminate| |].
    { rewrite Forall_map. eapply Forall_impl; [|exact Ks]. intros e He. destruct (key_value_good _ He) as (g' & Eg & Wg). exists g'. split; auto using wide_key_good. }
    destruct (common_all (map (fun e : value * ty * bool => reflect_ty (snd (fst e))) es)) as (gv & Ev & _ & Cv); [discriminate| |].
    { rewrite Forall_map. eapply Forall_impl; [|exact St]. intros e. apply reflect_total. }
    rewrite Ek, Ev in R. cbn [rbind map_of_types] in R. unfold map_of in R. destruct (comparable gk); try discriminate R. injection R as <-.
    constructor. apply Forall_forall. intros [kx x] Hx. destruct (Cl kx x Hx) as (e & He & V). rewrite Forall_map in H. rewrite Forall_forall in H, Wv, Dk, Ok, Pl, St, IHes.
    specialize (H e He). destruct (Wv _ Hx) as [Wk Wx]. cbn [fst snd] in *. split.
    + destruct Ck as [-> |Ck]; [constructor|]. rewrite Forall_map, Forall_forall in Ck. apply (value_holds (fst (fst e))); auto.
    + destruct Cv as [-> |Cv]; [constructor|]. rewrite Forall_map, Forall_forall in Cv. 
      assert (As : assoc veq m (fst (fst e)) = Some x). { apply (assoc_unique m _ kx x); auto. }
      rewrite As in H. apply (IHes e He); auto; [now apply St|now apply Ok|now apply Pl].
  - destruct St as (N & St), Ok as (_ & Ok), Pl as (_ & Pl). apply fold_and in St, Ok, Pl. unfold has_type in H. cbn [has_type_with] in H. rewrite Forall_map in H. destruct ts as [|t ts]; [congruence|].
    inversion H; inversion St; inversion Ok; inversion Pl; inversion IHts; subst. cbn [reflect_ty] in R. apply (one_holds _ g v (reflect_ty t)) in R; auto; [discriminate|now left].
  - destruct St as ((N & St) & _), Ok as (Ok & _). cbn [node_ok] in Ok. destruct vs as [|w vs]; [congruence|]. cbn [reflect_ty] in R. inversion St; inversion Ok; subst. 
    apply (one_holds _ g v (value_reflect w)) in R; auto; [discriminate| |now left|].
    { rewrite Forall_map. eapply Forall_impl; [|exact St]. intros u. apply value_good. }
    intros g' Rw. unfold has_type in H. cbn [has_type_with] in H. inversion H as [|? ? Hw _]; subst.
    destruct w; cbn [type_of has_type_with] in Hw; try (now apply (value_holds _ v g') in Rw).
    + injection Rw as <-. constructor.
    + injection Rw as <-. destruct Hw as (x & -> & _). constructor.
  - destruct St as (N & St), Ok as (_ & Ok), Pl as (_ & Pl). apply fold_and in St, Ok, Pl. unfold has_type in H. cbn [has_type_with] in H. apply Exists_exists in H as (P & HP & HT). apply in_map_iff in HP as (t & <- & Ht).
    rewrite Forall_forall in IHts, Ok, Pl. cbn [reflect_ty] in R. apply (one_holds _ g v (reflect_ty t)) in R; auto; [destruct ts; [congruence|discriminate]|now apply in_map|].
    rewrite Forall_forall in St. intros g'. apply (IHts t Ht); auto; [now apply St|now apply Ok|now apply Pl].
  - destruct St as (N & St), Ok as (_ & Ok), Pl as (_ & Pl). apply fold_and in St, Ok, Pl. destruct H as (l1 & P & l2 & EP & HT & _).
    assert (HP : In P (map (has_type W) ts)) by (unfold has_type; rewrite EP; apply in_or_app; right; now left). apply in_map_iff in HP as (t & <- & Ht).
    rewrite Forall_forall in IHts, Ok, Pl. cbn [reflect_ty] in R. apply (one_holds _ g v (reflect_ty t)) in R; auto; [destruct ts; [congruence|discriminate]|now apply in_map|].
    rewrite Forall_forall in St. intros g'. apply (IHts t Ht); auto; [now apply St|now apply Ok|now apply Pl].
  - injection R as <-. constructor.
  - destruct St as [[] _].
  - destruct St as [[] _].
Qed.

(* ---------- storing ---------- *)

Lemma wide_key_wide k : wide_key k = true -> wide k = true. Proof. destruct k as [|[]| | | | | | | | | | |]; (reflexivity || discriminate). Qed.
Lemma holds_stores v : portable v -> forall g, holds g v -> wide g = true -> suits g v /\ exists x, to_go v g = Done x.
Proof.
  induction v as [ |b|z|f|s|s|s n zn|s|v IHv|l IHl|m IHm] using value_ind'; intros P g H Wg.
  all: assert (C : g = RAny \/ g <> RAny) by (destruct g; (left; reflexivity) || (right; discriminate)); destruct C as [-> |NA];
    [split; [exact I|apply (to_any (fun l => l) (fun l => Permutation_refl l)); auto]|].
  1-9: inversion H; subst; try congruence; (split; [exact I|]); try (eexists; reflexivity).
  - inversion H; subst; try congruence. cbn [portable] in P. apply fold_and in P.
    assert (We : wide e = true) by (cbn [wide] in Wg; destruct e as [|[]| | | | | | | | | | |]; congruence).
    assert (G : Forall (fun a => suits e a /\ exists x, to_go a e = Done x) l) by (rewrite Forall_forall in *; intros a Ha; apply IHl; auto).
    split.
    + assert (F : fold_right and True (map (suits e) l)) by (apply fold_and; eapply Forall_impl; [|exact G]; now intros a []). destruct e as [|[]| | | | | | | | | | |]; (exact F || congruence).
    + destruct (forall2_exists (fun a x => to_go a e = Done x) l) as [xs X]; [eapply Forall_impl; [|exact G]; now intros a []|]. apply rlist_forall2 in X.
      exists (XSlice xs). cbn [to_go rbind]. rewrite X. cbn [rbind]. now rewrite set_same.
  - inversion H as [| | | | | | | | | |k e m' F]; subst; try congruence. cbn [portable] in P. destruct P as [P D]. apply fold_and in P.
    cbn [wide] in Wg. apply andb_true_iff in Wg as [Wk We].
    assert (G : Forall (fun p => suits e (snd p) /\ (exists x, to_go (fst p) k = Done x) /\ exists x, to_go (snd p) e = Done x) m).
    { rewrite Forall_forall in *. intros p Hp. destruct (P p Hp) as (_ & Pk & Pe), (IHm p Hp) as [Ik Ie], (F p Hp) as [Fk Fe].
      destruct (Ik Pk k Fk (wide_key_wide k Wk)) as [_ A], (Ie Pe e Fe We) as [B C]. auto. }
    split; [cbn [suits]; apply fold_and; eapply Forall_impl; [|exact G]; now intros p []|].
    assert (X : exists xs, rlist (map (fun p => rpair (to_go (fst p) k) (to_go (snd p) e)) m) = Done xs).
    { destruct (forall2_exists (fun p x => rpair (to_go (fst p) k) (to_go (snd p) e) = Done x) m) as [xs X]; [|exists xs; now apply rlist_forall2].
      eapply Forall_impl; [|exact G]. intros p (_ & [a A] & [b B]). exists (a, b). now rewrite A, B. }
    destruct X as [xs X].
    assert (S : set_all [] xs = Done xs).
    { refine (proj1 (entries_there (fun l => l) (fun l => Permutation_refl l) k e m xs Wk _ D X)). rewrite Forall_forall in *. intros p Hp. destruct (P p Hp) as (A & B & C'), (G p Hp) as (Sp & _). split; [exact A|]. split; [exact B|]. intros y Hy. now apply (there_all (fun l => l) (fun l => Permutation_refl l) (snd p) C' e y We). }
    exists (XMap xs). cbn [to_go rbind]. rewrite X. cbn [rbind]. rewrite S. cbn [rbind]. now rewrite set_same.
Qed.

Variable arrange : list (value * value) -> list (value * value).
Hypothesis arranged : forall l, Permutation (arrange l) l.

Theorem instance_stored t v : storable t -> type_ok t -> plain t -> has_type W t v -> wf v -> portable v ->
  exists g x w, reflect_ty t = Done (Some g) /\ to_go v g = Done x /\ from_go arrange g x = Done w /\ rearranged v w.
Proof.
  intros St Ok Pl H Wv P. destruct (reflect_total t St) as (g & E & Wg & _). pose proof (instance_holds t St Ok Pl v g H Wv E) as Hg.
  destruct (holds_stores v P g Hg Wg) as [S [x X]]. destruct (dgo_round_trip arrange arranged v g x P Wg S X) as (w & F & R). exists g, x, w. auto.
Qed.

(* ---------- back to a type ---------- *)

Lemma holds_type v : forall g, holds g v -> open_type g -> fits v -> has_type W (type_from g) v.
Proof.
  induction v as [ |b|z|f|s|s|s n zn|s|v IHv|l IHl|m IHm] using value_ind'; intros g H O F; inversion H; subst; try exact I; try contradiction O; try (repeat eexists; reflexivity).
  - cbn [type_from]. apply array_from; [exact F|]. exists l. split; [reflexivity|]. assert (O' : open_type e) by (cbn [open_type] in O; destruct e as [|[]| | | | | | | | | | |]; (exact O || congruence)).
    rewrite Forall_forall in *. intros x Hx. apply IHl; auto. now apply fits_elem with l.
  - cbn [type_from]. apply map_from; [exact F|]. exists m. split; [reflexivity|]. destruct O as [Ok Oe]. assert (HF : Forall (fun p => holds k (fst p) /\ holds e (snd p)) m) by assumption. rewrite Forall_forall in IHm, HF |- *. intros x Hx. destruct (IHm x Hx) as [I1 I2]. 
    destruct (HF x Hx) as [HF1 HF2]. destruct (fits_entry m x F Hx) as [F1 F2]. split; auto.
Qed.

Theorem instance_of_reflected t v g : storable t -> type_ok t -> plain t -> has_type W t v -> wf v -> fits v ->
  reflect_ty t = Done (Some g) -> open_type g -> has_type W (type_from g) v.
Proof. intros St Ok Pl H Wv F E O. apply holds_type; auto. apply (instance_holds t); auto. Qed.
End Store.

Theorem go_type_exists t : storable t -> exists g, reflect_ty t = Done (Some g).
Proof. intros H. destruct (reflect_total t H) as (g & E & _). eauto. Qed.
