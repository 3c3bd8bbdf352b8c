(* Instance of the types that are read from a text. *)
From Coq Require Import Strings.Ascii Strings.String.
From Coq Require Import ZArith List Bool Lia Arith.
From Verif Require Import Int64 Utf8 Text HMap Data DataSpec DataProofs Types TypesSpec Graph RecTypes RecTypesSpec RecTypesProofs RecTypesEnds RecMeaning Print.
From Verif Require Import Resolve ResolveSpec ResolveInstance DeclareSpec DeclareRead DeclareDone DeclMeanSpec DeclMeanProofs DeclMeanBuilt.
Import ListNotations.
Open Scope Z_scope.

(* ---------- types that see the same value ---------- *)

Section Falls.
Variable T : tgraph.
Fixpoint falls (k a : nat) : Prop := match k with O => False | S k => forall nd q, nth_error T a = Some nd -> In q (same_value nd) -> falls k q end.
Lemma falls_more k : forall a k', (k <= k')%nat -> falls k a -> falls k' a.
Proof. induction k as [|k IH]; intros a k' L F; [destruct F|]. destruct k' as [|k']; [lia|]. intros nd q E I. apply (IH q k'); [lia|]. now apply (F nd). Qed.
Lemma falls_list l : (forall q, In q l -> exists k, falls k q) -> exists k, forall q, In q l -> falls k q.
Proof.
  induction l as [|a l IH]; intros H; [exists 0%nat; intros q []|]. destruct IH as [k K]; [intros; apply H; now right|]. destruct (H a) as [j J]; [now left|].
  exists (k + j)%nat. intros q [<-|I]; [apply (falls_more j); [lia|exact J]|apply (falls_more k); [lia|now apply K]].
Qed.
Lemma falls_node a nd : nth_error T a = Some nd -> (forall q, In q (same_value nd) -> exists k, falls k q) -> exists k, falls k a.
Proof. intros E H. destruct (falls_list _ H) as [k K]. exists (S k). intros nd' q E' I. assert (nd' = nd) as -> by congruence. now apply K. Qed.
Fixpoint steps (n a : nat) : nat :=
  match n with O => 0%nat | S n => match nth_error T a with Some nd => S (list_max (map (steps n) (same_value nd))) | None => 0%nat end end.
Lemma steps_more k : forall a n, falls k a -> (k <= n)%nat -> steps n a = steps k a.
Proof.
  induction k as [|k IH]; intros a n F L; [destruct F|]. destruct n as [|n]; [lia|]. cbn [steps]. destruct (nth_error T a) as [nd|] eqn:E; [|reflexivity]. f_equal. f_equal.
  apply map_ext_in. intros q I. apply IH; [now apply (F nd)|lia].
Qed.
Lemma falls_contractive : (forall a, (a < length T)%nat -> exists k, falls k a) -> contractive T.
Proof.
  intros H. destruct (falls_list (seq 0 (length T))) as [K HK]; [intros q I; apply in_seq in I; apply H; lia|].
  exists (steps K). intros p nd q E I. assert (Lp : (p < length T)%nat) by (apply nth_error_Some; congruence).
  assert (F : falls K p) by (apply HK, in_seq; lia). destruct K as [|K]; [destruct F|].
  rewrite (steps_more K q (S K)) by (try lia; now apply (F nd)). cbn [steps]. rewrite E. apply Nat.lt_succ_r.
  assert (X : (list_max (map (steps K) (same_value nd)) <= list_max (map (steps K) (same_value nd)))%nat) by lia. apply list_max_le in X. rewrite Forall_forall in X. apply X. now apply in_map.
Qed.
Lemma contractive_falls : contractive T -> forall a, exists k, falls k a.
Proof.
  intros [rank R] a. exists (S (rank a)). assert (X : forall n a, (rank a <= n)%nat -> falls (S n) a); [|now apply X].
  induction n as [|n IH]; intros b L nd q E I; pose proof (R b nd q E I); [lia|]. apply IH. lia.
Qed.
End Falls.
Lemma same_refers nd q : In q (same_value nd) -> In q (refers nd).
Proof. destruct nd; cbn; tauto. Qed.

(* ---------- the types that an expression describes ---------- *)

Section Cover.
Variable T : list Z -> nat -> Prop.
Variable h : heap.
Variable U : list (list Z).
Hypothesis TF : forall n p q, T n p -> T n q -> p = q.
Definition outs (q : nat) : Prop := exists n, In n U /\ T n q.
Definition inner (nd : rnode) : Prop :=
  match nd with
  | NLeaf t => leaf_type t = true /\ type_ok t
  | NTuple ts true => ts <> []
  | NStruct _ es => Forall (fun e : value * nat * bool => data veq (fst (fst e))) es /\
      ForallOrdPairs (fun e e' : value * nat * bool => veq (fst (fst e)) (fst (fst e')) = false) es
  | _ => True
  end.
Definition flat_at (q : nat) : Prop := exists nd, at_node h q nd /\ match nd with NLeaf _ | NNot _ | NSens _ => True | _ => False end.
Definition fine (S : list nat) (a : nat) : Prop :=
  exists nd, at_node h a nd /\ (forall q, In q (refers nd) -> In q S \/ outs q) /\ inner nd /\
  (forall q, In q (same_value nd) -> In q S /\ match nd with NNot _ => True | _ => flat_at q end).
Definition cover (S : list nat) : Prop := forall a, In a S -> fine S a /\ exists k, falls (types_of h) k a.
Definition copies (S : list nat) (h2 : heap) : Prop := forall a, In a S \/ outs a -> nth_error h2 a = nth_error h a.
Definition covered (e : ex) (p : nat) : Prop :=
  exists S, cover S /\ (In p S \/ outs p) /\ (solid e -> In p S) /\ (forall n q, In n (declared e) -> T n q -> In q S) /\
  (forall h2, copies S h2 -> built T h2 e p).

Lemma node_type a nd : at_node h a nd -> nth_error (types_of h) a = Some nd.
Proof. intros A. unfold types_of. rewrite nth_error_map, A. reflexivity. Qed.
Lemma fine_more S S' a : incl S S' -> fine S a -> fine S' a.
Proof.
  intros I (nd & A & B & C & D). exists nd. split; [exact A|split; [|split; [exact C|]]].
  - intros q J. destruct (B q J); auto.
  - intros q J. destruct (D q J). auto.
Qed.
Lemma cover_app S S' : cover S -> cover S' -> cover (S ++ S').
Proof.
  intros A B a I. apply in_app_or in I as [I|I]; [destruct (A a I) as [F K]|destruct (B a I) as [F K]]; (split; [|exact K]); eapply fine_more; try exact F; intros x X; apply in_or_app; auto.
Qed.
Lemma cover_add S p nd : cover S -> at_node h p nd -> (forall q, In q (refers nd) -> In q S \/ outs q) -> inner nd ->
  (forall q, In q (same_value nd) -> In q S /\ match nd with NNot _ => True | _ => flat_at q end) -> cover (p :: S).
Proof.
  intros C A B I D a [<-|J].
  - split.
    + exists nd. split; [exact A|split; [|split; [exact I|]]].
      * intros q Q. destruct (B q Q); [left; now right|now right].
      * intros q Q. destruct (D q Q). split; [now right|assumption].
    + apply (falls_node _ p nd); [now apply node_type|]. intros q Q. destruct (D q Q) as [J _]. apply (C q J).
  - destruct (C a J) as [F K]. split; [|exact K]. eapply fine_more; [|exact F]. intros x X. now right.
Qed.
Lemma copies_incl S S' h2 : incl S S' -> copies S' h2 -> copies S h2.
Proof. intros I C a [J|J]; apply C; auto. Qed.
Lemma copies_at S h2 p nd : copies (p :: S) h2 -> at_node h p nd -> at_node h2 p nd.
Proof. intros C A. unfold at_node in *. rewrite C; [exact A|left; now left]. Qed.

(* one node, and what it refers to is covered *)
Lemma covered_leaf e p t : at_leaf h p t -> leaf_type t = true /\ type_ok t -> declared e = [] -> (forall h2, at_leaf h2 p t -> built T h2 e p) -> covered e p.
Proof.
  intros A L D B. exists [p]. split; [|split; [left; now left|split; [intros _; now left|split]]].
  - apply (cover_add [] p (NLeaf t)); [intros a []|exact A|intros q []|exact L|intros q []].
  - rewrite D. intros n q [].
  - intros h2 C. apply B. exact (copies_at [] h2 p (NLeaf t) C A).
Qed.
Lemma covered_list es qs : Forall2 covered es qs ->
  exists S, cover S /\ (forall q, In q qs -> In q S \/ outs q) /\ Forall2 (fun e q => solid e -> In q S) es qs /\ (forall n q, In n (flat_map declared es) -> T n q -> In q S) /\
  (forall h2, copies S h2 -> pairs (built T h2) es qs).
Proof.
  induction 1 as [|e q es qs (S & A & B & C & D & E) F (S' & A' & B' & C' & D' & E')].
  - exists []. split; [intros a []|split; [intros q []|split; [constructor|split; [intros n q []|intros h2 _; exact I]]]].
  - exists (S ++ S'). split; [now apply cover_app|]. split; [|split; [|split]].
    + intros x [<-|X]; [destruct B as [B|B]; [left; apply in_or_app; now left|now right]|destruct (B' x X) as [Y|Y]; [left; apply in_or_app; now right|now right]].
    + constructor; [intros So; apply in_or_app; left; now apply C|]. eapply F2_impl; [|exact C']. intros a b X So. apply in_or_app. right. now apply X.
    + intros n x N X. cbn [flat_map] in N. apply in_app_or in N as [N|N]; apply in_or_app; [left; now apply (D n)|right; now apply (D' n)].
    + intros h2 K. split; [apply E|apply E']; eapply copies_incl; try exact K; intros a I; apply in_or_app; auto.
Qed.
Lemma pairs_covered es qs : Forall (fun e => forall p, built T h e p -> covered e p) es -> pairs (built T h) es qs -> Forall2 covered es qs.
Proof. rewrite pairs_forall2. intros H F. revert H. induction F; intros K; inversion K; subst; constructor; auto. Qed.
Lemma F2_in_r {A B} (R : A -> B -> Prop) l m b : Forall2 R l m -> In b m -> exists a, In a l /\ R a b.
Proof. induction 1 as [|x y l m X F IH]; intros I; [destruct I|]. destruct I as [<-|I]; [exists x; split; [now left|exact X]|]. destruct (IH I) as (a & J & Y). exists a. split; [now right|exact Y]. Qed.
(* alternatives *)
Lemma flat_built e q : correct e -> direct e -> flat e -> built T h e q -> flat_at q.
Proof.
  intros C Di F B. destruct e; try contradiction; cbn [built] in B.
  - destruct B as (t & _ & B). exists (NLeaf t). auto.
  - eexists. split; [exact B|exact I].
  - eexists. split; [exact B|exact I].
  - eexists. split; [exact B|exact I].
  - destruct (size_of sz). eexists. split; [exact B|exact I].
  - destruct B as (r & B & [K|K]); [exists (NNot r); auto|]. now destruct (not_not T h e r q (proj1 C) (proj2 C) (proj1 Di) B).
Qed.
Lemma covered_alternatives (mk : list ex -> ex) (nd : list nat -> rnode) es qs p :
  (forall qs, refers (nd qs) = qs /\ same_value (nd qs) = qs /\ inner (nd qs) /\ match nd qs with NNot _ => False | _ => True end) ->
  declared (mk es) = flat_map declared es -> (forall h2 qs, pairs (built T h2) es qs -> at_node h2 p (nd qs) -> built T h2 (mk es) p) ->
  Forall correct es -> Forall (fun e => flat e /\ direct e) es -> Forall2 covered es qs -> pairs (built T h) es qs -> at_node h p (nd qs) -> covered (mk es) p.
Proof.
  intros ND De Bu Co Di F P A. destruct (covered_list es qs F) as (S & C1 & C2 & C3 & C4 & C5). destruct (ND qs) as (R1 & R2 & R3 & R4).
  exists (p :: S). split; [|split; [left; now left|split; [intros _; now left|split]]].
  - apply (cover_add S p (nd qs)); [exact C1|exact A|rewrite R1; exact C2|exact R3|]. rewrite R2. intros q I. rewrite pairs_forall2 in P.
    assert (X : In q S /\ flat_at q).
    { revert C3 Co Di I. clear - P. induction P as [|e0 q0 es qs B P IH]; intros C3 Co Di I; [destruct I|]. inversion C3 as [|? ? ? ? X1 X2]; subst. inversion Co as [|? ? Y1 Y2]; subst. inversion Di as [|? ? Z1 Z2]; subst.
      destruct I as [<-|I]; [|now apply IH]. destruct Z1 as [Fl Dr]. split; [exact (X1 (flat_solid e0 Dr Fl))|exact (flat_built e0 q0 Y1 Dr Fl B)]. }
    destruct X as [X1 X2]. split; [exact X1|]. destruct (nd qs); try exact X2. exact Logic.I.
  - rewrite De. intros n q I J. right. now apply (C4 n).
  - intros h2 K. apply (Bu h2 qs); [apply C5; eapply copies_incl; [|exact K]; intros x X; now right|now apply (copies_at S)].
Qed.

Lemma struct_keys (fs : list (list Z * bool * ex)) qs : NoDup (map (fun f => fst (fst f)) fs) -> length fs = length qs ->
  inner (NStruct true (map (fun x : list Z * bool * ex * nat => (VStr (fst (fst (fst x))), snd x, snd (fst (fst x)))) (combine fs qs))).
Proof.
  intros ND L. cbn [inner]. split.
  - rewrite Forall_forall. intros e I. apply in_map_iff in I as (x & <- & _). cbn [fst snd]. repeat constructor.
  - revert qs L. induction fs as [|f fs IH]; intros [|q qs] L; try discriminate L; [constructor|]. cbn [combine map]. inversion ND; subst. constructor.
    + rewrite Forall_forall. intros e I. apply in_map_iff in I as ([f' q'] & <- & I). cbn [fst snd]. apply veq_str_not. intros E. injection E as E. apply H1. rewrite <- E.
      apply (in_map (fun f : list Z * bool * ex => fst (fst f))). now apply in_combine_l in I.
    + apply IH; [assumption|]. cbn in L. congruence.
Qed.
Lemma map_combine_snd {A B} (l : list A) (m : list B) : length l = length m -> map snd (combine l m) = m.
Proof. revert m. induction l as [|a l IH]; intros [|b m] L; try discriminate L; [reflexivity|]. cbn. f_equal. apply IH. cbn in L. congruence. Qed.

Lemma built_covered e : correct e -> direct e -> incl (used e) U -> forall p, built T h e p -> covered e p.
Proof.
  assert (SUB : forall es qs, Forall (fun e => correct e -> direct e -> incl (used e) U -> forall p, built T h e p -> covered e p) es -> Forall correct es -> Forall direct es -> incl (flat_map used es) U ->
    pairs (built T h) es qs -> Forall2 covered es qs).
  { intros es qs H C Di Us B. apply pairs_covered; [|exact B]. rewrite Forall_forall in *. intros e0 I. apply H; auto. intros n J. apply Us. apply in_flat_map. exists e0. auto. }
  assert (FD : forall es, every (fun e => flat e /\ direct e) es -> Forall direct es) by (intros es E; rewrite every_forall in E; eapply Forall_impl; [|exact E]; intros a [_ X]; exact X).
  induction e using ex_induct; cbn [correct direct used]; intros C Di Us p B; pose proof B as B0; cbn [built] in B.
  - destruct B as (t & I & B). apply (covered_leaf _ p t); [exact B|apply word_type in I as (X & Y & _); auto|reflexivity|]. intros h2 A. exists t. auto.
  - eapply (covered_leaf _ p); [exact B|split; [reflexivity|repeat constructor]|reflexivity|]. intros h2 A. exact A.
  - eapply (covered_leaf _ p); [exact B|split; [reflexivity|repeat constructor; apply C]|reflexivity|]. intros h2 A. exact A.
  - eapply (covered_leaf _ p); [exact B| |reflexivity|intros h2 A; exact A]. destruct ((lo =? min_int64) && (hi =? max_int64)); (split; [reflexivity|repeat constructor; unfold in64; lia]).
  - eapply (covered_leaf _ p (let (lo, hi) := size_of sz in if (lo =? 0) && (hi =? max_int64) then TString else TStrSized lo hi)); [destruct (size_of sz); exact B| |reflexivity|intros h2 A; cbn [built]; destruct (size_of sz); exact A].
    destruct (size_of sz) as [lo hi]. destruct ((lo =? 0) && (hi =? max_int64)); (split; [reflexivity|repeat constructor]).
  - exists []. split; [intros a []|]. split; [right; exists n; split; [apply Us; now left|exact B]|]. split; [intros []|]. split; [intros m q []|]. intros h2 _. exact B.
  - exists []. split; [intros a []|]. split; [right; exists n; split; [apply Us; now left|exact B]|]. split; [intros []|]. split; [intros m q []|]. intros h2 _. exact B.
  - destruct B as [B1 B2]. destruct C as (_ & So & C). destruct (IHe C Di Us p B2) as (S & C1 & C2 & C3 & C4 & C5). exists S. split; [exact C1|split; [exact C2|split; [exact C3|split]]].
    + intros m q [<-|I] J; [rewrite <- (TF _ p q B1 J); now apply C3|now apply (C4 m)].
    + intros h2 K. split; [exact B1|now apply C5].
  - destruct B as (q & B & K). destruct C as [_ C]. destruct Di as [Ix Di]. destruct (IHe C Di Us q B) as (S & C1 & C2 & C3 & C4 & C5). exists (p :: S).
    assert (X : forall h2, copies (p :: S) h2 -> copies S h2) by (intros h2; apply copies_incl; intros x Hx; now right).
    destruct K as [K|[(Z1 & A & K)|(Z1 & v & V & K)]]; [| |destruct Ix as [Ix|Ix]; [contradiction|]; now destruct (no_value T h e C (direct_plain e Di) q v B Ix)].
    + split; [apply (cover_add S p (NArr q (fst (size_of sz)) (snd (size_of sz)))); [exact C1|exact K|intros r [<-|[]]; exact C2|exact I|intros r []]|].
      split; [left; now left|split; [intros _; now left|split; [intros m r M1 M2; right; now apply (C4 m)|]]].
      intros h2 Cp. exists q. split; [apply C5; now apply X|left; now apply (copies_at S)].
    + split; [apply (cover_add S p (NLeaf TArray)); [exact C1|exact K|intros r []|split; [reflexivity|repeat constructor]|intros r []]|].
      split; [left; now left|split; [intros _; now left|split; [intros m r M1 M2; right; now apply (C4 m)|]]].
      intros h2 Cp. exists q. split; [apply C5; now apply X|right; left; split; [exact Z1|split; [|now apply (copies_at S h2 p (NLeaf TArray))]]].
      unfold at_leaf in *. rewrite Cp; [exact A|]. destruct C2; [left; now right|now right].
  - destruct B as (q & r & B1 & B2 & K). destruct C as [_ C].
    assert (F : Forall2 covered [e1; e2] [q; r]).
    { constructor; [apply IHe1; try tauto; intros n I; apply Us, in_or_app; auto|]. constructor; [apply IHe2; try tauto; intros n I; apply Us, in_or_app; auto|constructor]. }
    destruct (covered_list _ _ F) as (S & C1 & C2 & _ & C4 & C5). exists (p :: S).
    assert (X : forall h2, copies (p :: S) h2 -> built T h2 e1 q /\ built T h2 e2 r).
    { intros h2 Cp. assert (Y : copies S h2) by (revert Cp; apply copies_incl; intros x Hx; now right). destruct (C5 h2 Y) as (Y1 & Y2 & _). auto. }
    assert (C4' : forall n x, In n (declared e1 ++ declared e2) -> T n x -> In x (p :: S)).
    { intros n x I J. right. apply (C4 n); [|exact J]. cbn [flat_map]. now rewrite app_nil_r. }
    destruct K as [K|(Z2 & A1 & A2 & K)].
    + split; [apply (cover_add S p (NMap q r (fst (size_of sz)) (snd (size_of sz)))); [exact C1|exact K|intros x I; now apply C2|exact I|intros x []]|].
      split; [left; now left|split; [intros _; now left|split; [exact C4'|]]].
      intros h2 Cp. exists q, r. destruct (X h2 Cp). split; [assumption|split; [assumption|left; now apply (copies_at S)]].
    + split; [apply (cover_add S p (NLeaf TMap)); [exact C1|exact K|intros x []|split; [reflexivity|repeat constructor]|intros x []]|].
      split; [left; now left|split; [intros _; now left|split; [exact C4'|]]].
      intros h2 Cp. exists q, r. destruct (X h2 Cp). split; [assumption|split; [assumption|right]].
      assert (Z1 : forall a t, In a [q; r] -> at_leaf h a t -> at_leaf h2 a t).
      { intros a t I J. unfold at_leaf in *. rewrite Cp; [exact J|]. destruct (C2 a I); [left; now right|now right]. }
      split; [exact Z2|]. split; [apply Z1; [now left|exact A1]|split; [apply Z1; [right; now left|exact A2]|now apply (copies_at S h2 p (NLeaf TMap))]].
  - destruct B as (qs & B & K). destruct C as [_ C]. apply all_forall in C. destruct Di as [Ix Di]. apply every_forall in Di.
    destruct K as [K|(vs & Vs & K)]; [|exfalso; apply (some_value T h es qs vs); auto; rewrite Forall_forall in *; intros e0 I q v; apply no_value; auto using direct_plain].
    destruct (covered_list es qs (SUB es qs H C Di Us B)) as (S & C1 & C2 & _ & C4 & C5). exists (p :: S).
    split; [apply (cover_add S p (NTuple qs false)); [exact C1|exact K|exact C2|exact I|intros x []]|].
    split; [left; now left|split; [intros _; now left|split; [intros m r M1 M2; right; now apply (C4 m)|]]].
    intros h2 Cp. exists qs. split; [|left; now apply (copies_at S)]. apply C5. revert Cp. apply copies_incl. intros x Hx. now right.
  - destruct B as (qs & B & K). destruct C as [ND C]. apply (all_forall (fun f : list Z * bool * ex => correct (snd f))) in C. destruct Di as [Ix Di]. apply every_forall in Di.
    destruct K as [K|(-> & R & vs & Vs & K)].
    2:{ exfalso. destruct Ix as [Ix|Ix]; [discriminate Ix|]. apply (some_field T h fs qs vs); auto. rewrite Forall_forall in *. intros f I q v. apply no_value; auto using direct_plain. }
    assert (PM : forall h2 qs, pairs (fun f q => built T h2 (snd f) q) fs qs <-> pairs (built T h2) (map snd fs) qs).
    { intros h2. clear. induction fs as [|f fs IH]; intros [|q qs]; cbn [pairs map]; try reflexivity.
      specialize (IH qs). cbn [pairs] in IH. fold (pairs (fun (f : list Z * bool * ex) q => built T h2 (snd f) q) fs qs) (pairs (built T h2) (map snd fs) qs) in *. rewrite IH. reflexivity. }
    assert (F : Forall2 covered (map snd fs) qs).
    { apply SUB; [rewrite Forall_map; exact H|now rewrite Forall_map|now rewrite Forall_map| |now apply PM]. intros n I. apply Us. apply in_flat_map in I as (e0 & I & J). apply in_map_iff in I as (f & <- & I). apply in_flat_map. exists f. auto. }
    destruct (covered_list _ _ F) as (S & C1 & C2 & _ & C4 & C5). exists (p :: S).
    assert (LEN : length fs = length qs) by (rewrite pairs_forall2 in B; clear - B; induction B; cbn; congruence).
    split; [eapply (cover_add S p); [exact C1|exact K| | |intros x []]|].
    + cbn [refers]. rewrite map_map. cbn [fst snd]. intros q Iq. apply C2. rewrite <- (map_combine_snd fs qs LEN). exact Iq.
    + exact (struct_keys fs qs ND LEN).
    + split; [left; now left|split; [intros _; now left|split]].
      * intros m r M1 M2. right. apply (C4 m); [|exact M2]. cbn [declared] in M1. apply in_flat_map in M1 as (f & I & J). apply in_flat_map. exists (snd f). split; [now apply in_map|exact J].
      * intros h2 Cp. exists qs. split; [|left; now apply (copies_at S)]. apply PM. apply C5. revert Cp. apply copies_incl. intros x Hx. now right.
  - destruct B as (qs & B & K). destruct C as [_ C]. apply all_forall in C. pose proof (FD es Di) as Di'. apply every_forall in Di.
    apply (covered_alternatives XOr NAny es qs p); auto; [intros; cbn; auto|intros h2 qs' X Y; exists qs'; auto].
  - destruct B as (qs & B & K). destruct C as [_ C]. apply all_forall in C. pose proof (FD es Di) as Di'. apply every_forall in Di.
    apply (covered_alternatives XXor NOne es qs p); auto; [intros; cbn; auto|intros h2 qs' X Y; exists qs'; auto].
  - destruct B as (qs & B & K). destruct C as [_ C]. apply all_forall in C. pose proof (FD es Di) as Di'. apply every_forall in Di.
    apply (covered_alternatives XAnd NAll es qs p); auto; [intros; cbn; auto|intros h2 qs' X Y; exists qs'; auto].
  - destruct B as (q & B & K). destruct Di as [By Di]. destruct K as [K|K]; [|now destruct (not_not T h e q p (proj1 C) (proj2 C) By B)].
    destruct (IHe (proj1 C) Di Us q B) as (S & C1 & C2 & C3 & C4 & C5). exists (p :: S).
    split; [apply (cover_add S p (NNot q)); [exact C1|exact K|intros r [<-|[]]; exact C2|exact I|]|].
    + intros r [<-|[]]. split; [|exact I]. apply C3. now apply direct_solid.
    + split; [left; now left|split; [intros _; now left|split; [intros m r M1 M2; right; now apply (C4 m)|]]].
      intros h2 Cp. exists q. split; [apply C5; revert Cp; apply copies_incl; intros x Hx; now right|left; now apply (copies_at S)].
Qed.
End Cover.

(* ---------- only the types that matter ---------- *)

Section Keep.
Variable h : heap.
Variable S : list nat.
Definition keep : heap := map (fun a => if in_dec Nat.eq_dec a S then nth a h (HNode (NLeaf TAny)) else HNode (NLeaf TAny)) (seq 0 (length h)).
Lemma keep_length : length keep = length h.
Proof. unfold keep. now rewrite map_length, seq_length. Qed.
Lemma seq_nth n a : (a < n)%nat -> nth_error (seq 0 n) a = Some a.
Proof. intros L. rewrite (nth_error_nth' _ 0%nat) by (now rewrite seq_length). f_equal. now rewrite List.seq_nth. Qed.
Lemma keep_in a : In a S -> nth_error keep a = nth_error h a.
Proof.
  intros I. destruct (Nat.lt_ge_cases a (length h)) as [L|L].
  - unfold keep. rewrite nth_error_map, seq_nth by exact L. cbn [option_map]. destruct (in_dec _ a S) as [_|N]; [|contradiction]. symmetry. now apply nth_error_nth'.
  - rewrite (proj2 (nth_error_None h a) L). apply nth_error_None. now rewrite keep_length.
Qed.
Lemma keep_out a : ~ In a S -> (a < length h)%nat -> nth_error keep a = Some (HNode (NLeaf TAny)).
Proof. intros N L. unfold keep. rewrite nth_error_map, seq_nth by exact L. cbn [option_map]. destruct (in_dec _ a S) as [I|_]; [contradiction|reflexivity]. Qed.
End Keep.
Lemma types_nth h a : nth_error (types_of h) a = option_map as_type (nth_error h a).
Proof. unfold types_of. apply nth_error_map. Qed.

Lemma only_length K T : length (only K T) = length T.
Proof. unfold only. now rewrite map_length, seq_length. Qed.
Lemma only_in K T a : In a K -> nth_error (only K T) a = nth_error T a.
Proof.
  intros I. destruct (Nat.lt_ge_cases a (length T)) as [L|L].
  - unfold only. rewrite nth_error_map, seq_nth by exact L. cbn [option_map]. destruct (in_dec _ a K) as [_|N]; [|contradiction]. symmetry. now apply nth_error_nth'.
  - rewrite (proj2 (nth_error_None T a) L). apply nth_error_None. now rewrite only_length.
Qed.
Section Text.
Variables (any : nat) (backing : list Z -> option nat) (named : list Z -> bool) (h : heap) (e : ex) (p : nat) (names : list (list Z * nat)) (h' : heap) (K0 : list nat).
Hypothesis TH : there any backing h.
Hypothesis CO : correct e.
Hypothesis DI : direct e.
Hypothesis SC : scoped named backing e.
Hypothesis KK : knows K0 (types_of h) backing e.
Hypothesis OT : types_ok (only K0 (types_of h)).
Hypothesis OF : flat_alternatives (only K0 (types_of h)).
Hypothesis OC : contractive (only K0 (types_of h)).
Hypothesis NA : map fst names = declared e.
Let T (n : list Z) (q : nat) : Prop := In (n, q) names \/ backing n = Some q.
Hypothesis BU : built T h' e p.
Hypothesis OLD : forall q n, nth_error h q = Some n -> nth_error h' q = Some n.

Lemma name_known n q : In (n, q) names -> In n (declared e) /\ backing n = None.
Proof. intros I. apply (in_map fst) in I. rewrite NA in I. split; [exact I|]. destruct SC as (_ & B & _). rewrite Forall_forall in B. now apply B. Qed.
Lemma text_fun n q r : T n q -> T n r -> q = r.
Proof.
  intros [A|A] [B|B]; [|destruct (name_known n q A); congruence|destruct (name_known n r B); congruence|congruence].
  apply (fst_fun names n); [rewrite NA; apply SC|exact A|exact B].
Qed.

(* a graph with the old types and those that the text describes *)
Definition old (q : nat) : Prop := In q K0 /\ (q < length h)%nat.
Lemma used_old n q : In n (used e) -> backing n = Some q -> old q.
Proof. intros I B. split; [now apply (proj1 KK n)|]. destruct TH as (_ & _ & _ & X & _). now apply (X n). Qed.
Lemma old_refers a nd q : old a -> nth_error (types_of h) a = Some nd -> In q (refers nd) -> old q.
Proof.
  intros [I L] E J. split; [now apply (proj2 KK a nd)|]. unfold types_ok in OT. rewrite Forall_forall in OT. rewrite <- (only_in K0) in E by exact I.
  destruct (OT nd) as [X _]; [now apply nth_error_In in E|]. rewrite Forall_forall in X. specialize (X q J). rewrite only_length in X. unfold types_of in X. now rewrite map_length in X.
Qed.
Lemma kept : exists h2, types_ok (types_of h2) /\ flat_alternatives (types_of h2) /\ contractive (types_of h2) /\ built T h2 e p /\
  (p < length (types_of h2))%nat /\ (forall a, old a -> (a < length (types_of h2))%nat) /\
  (forall W G n x, rec_instance W (types_of h') G n p x = rec_instance W (types_of h2) G n p x) /\
  (forall W G n q x, old q -> rec_instance W (types_of h) G n q x = rec_instance W (types_of h2) G n q x).
Proof.
  destruct (built_covered T h' (used e) text_fun e CO DI (incl_refl _) p BU) as (S & C1 & C2 & _ & C4 & C5).
  set (S2 := S ++ filter (fun a => Nat.ltb a (length h)) K0).
  assert (OLS : forall a, old a -> In a S2) by (intros a [I L]; apply in_or_app; right; apply filter_In; split; [exact I|now apply Nat.ltb_lt]).
  assert (OUT : forall q, outs T (used e) q -> In q S2).
  { intros q (n & I & [J|J]); [apply in_or_app; left; apply (C4 n q); [now apply (name_known n q)|now left]|]. apply OLS. now apply (used_old n). }
  assert (INS : forall q, In q S \/ outs T (used e) q -> In q S2) by (intros q [I|I]; [apply in_or_app; now left|now apply OUT]).
  assert (LH : forall a, (a < length h)%nat -> (a < length h')%nat /\ nth_error h' a = nth_error h a).
  { intros a L. destruct (nth_error h a) as [n|] eqn:E; [|apply nth_error_None in E; lia]. rewrite (OLD a n E). split; [|reflexivity]. apply nth_error_Some. rewrite (OLD a n E). discriminate. }
  assert (CASES : forall a, In a S2 -> In a S \/ old a) by (intros a I; apply in_app_or in I as [I|I]; [now left|right; apply filter_In in I as [I L]; split; [exact I|now apply Nat.ltb_lt]]).
  assert (RNG : forall a, In a S2 -> (a < length h')%nat).
  { intros a I. destruct (CASES a I) as [J|[_ J]]; [|now apply LH]. destruct (C1 a J) as [(nd & A & _) _]. apply nth_error_Some. unfold at_node in A. congruence. }
  set (h2 := keep h' S2). exists h2.
  assert (KT : forall a, In a S2 -> nth_error (types_of h2) a = nth_error (types_of h') a) by (intros a I; rewrite !types_nth; f_equal; now apply keep_in).
  assert (LEN : length (types_of h2) = length h') by (unfold types_of; rewrite map_length; apply keep_length).
  assert (KO : forall a, old a -> nth_error (types_of h2) a = nth_error (types_of h) a).
  { intros a L. rewrite (KT a) by now apply OLS. rewrite !types_nth. now rewrite (proj2 (LH a (proj2 L))). }
  assert (KP : forall a, old a -> nth_error (types_of h2) a = nth_error (only K0 (types_of h)) a) by (intros a L; rewrite (KO a L); symmetry; apply only_in, L).
  assert (KN : forall a nd, at_node h' a nd -> In a S2 -> nth_error (types_of h2) a = Some nd) by (intros a nd A I; rewrite (KT a I), types_nth, A; reflexivity).
  (* references stay inside *)
  assert (CL : forall a nd q, In a S2 -> nth_error (types_of h2) a = Some nd -> In q (refers nd) -> In q S2).
  { intros a nd q I E J. destruct (CASES a I) as [K|K].
    - destruct (C1 a K) as [(nd' & A & B & _) _]. assert (nd' = nd) as -> by (rewrite (KN a nd' A I) in E; congruence). apply INS. now apply B.
    - rewrite (KO a K) in E. apply OLS. now apply (old_refers a nd). }
  assert (OUTN : forall a nd, ~ In a S2 -> nth_error (types_of h2) a = Some nd -> nd = NLeaf TAny).
  { intros a nd N E. assert (L : (a < length h')%nat) by (rewrite <- LEN; apply nth_error_Some; congruence). rewrite types_nth in E. unfold h2 in E. rewrite (keep_out h' S2 a N L) in E. cbn in E. congruence. }
  split; [|split; [|split; [|split; [|split; [|split; [|split]]]]]].
  - unfold types_ok. rewrite Forall_forall. intros nd I. apply In_nth_error in I as [a E]. destruct (in_dec Nat.eq_dec a S2) as [I|N].
    + split; [rewrite Forall_forall; intros q J; rewrite LEN; apply RNG; now apply (CL a nd)|].
      destruct (CASES a I) as [K|K].
      * destruct (C1 a K) as [(nd' & A & _ & B & _) _]. assert (nd' = nd) as -> by (rewrite (KN a nd' A I) in E; congruence). exact B.
      * rewrite (KP a K) in E. unfold types_ok in OT. rewrite Forall_forall in OT. destruct (OT nd) as [_ X]; [now apply nth_error_In in E|]. exact X.
    + rewrite (OUTN a nd N E). split; [constructor|]. split; [reflexivity|repeat constructor].
  - intros a nd q E J. destruct (in_dec Nat.eq_dec a S2) as [I|N]; [|rewrite (OUTN a nd N E) in J; destruct J].
    destruct (CASES a I) as [K|K].
    + destruct (C1 a K) as [(nd' & A & _ & _ & B) _]. assert (nd' = nd) as -> by (rewrite (KN a nd' A I) in E; congruence). destruct (B q J) as [Iq Fq].
      assert (Y : flat_at h' q -> match nth_error (types_of h2) q with Some (NLeaf _) | Some (NNot _) | Some (NSens _) => True | _ => False end).
      { intros (x & X1 & X2). rewrite (KN q x X1) by (apply INS; now left). destruct x; tauto. }
      destruct nd; try exact Logic.I; now apply Y.
    + assert (Lq : old q) by (rewrite (KO a K) in E; apply (old_refers a nd); [exact K|exact E|now apply same_refers]).
      rewrite (KP a K) in E. pose proof (OF a nd q E J) as X. rewrite (KP q Lq). exact X.
  - apply falls_contractive. intros a L. destruct (in_dec Nat.eq_dec a S2) as [I|N].
    + assert (TR : forall T1 k b, In b S2 -> (forall c nd, In c S2 -> nth_error (types_of h2) c = Some nd -> nth_error T1 c = Some nd \/ exists j, falls (types_of h2) j c) -> falls T1 k b -> exists j, falls (types_of h2) j b).
      { intros T1 k. induction k as [|k IH]; intros b Ib Q F; [destruct F|]. destruct (nth_error (types_of h2) b) as [nd|] eqn:E; [|exists 1%nat; intros nd q E'; congruence].
        destruct (Q b nd Ib E) as [E1|X]; [|exact X]. apply (falls_node _ b nd E). intros q J. apply IH; [apply (CL b nd q Ib E); now apply same_refers|exact Q|]. now apply (F nd). }
      assert (OLDF : forall b, old b -> exists j, falls (types_of h2) j b).
      { intros b Lb. destruct (contractive_falls _ OC b) as [k F]. revert b Lb F. induction k as [|k IH]; intros b Lb F; [destruct F|].
        destruct (nth_error (types_of h) b) as [nd|] eqn:E; [|apply nth_error_None in E; unfold types_of in E; rewrite map_length in E; destruct Lb; lia].
        apply (falls_node _ b nd); [now rewrite (KO b Lb)|]. intros q J. apply IH; [|apply (F nd); [rewrite only_in; [exact E|apply Lb]|exact J]].
        apply (old_refers b nd); [exact Lb|exact E|now apply same_refers]. }
      destruct (CASES a I) as [K|K]; [|now apply OLDF]. destruct (C1 a K) as [_ [k F]]. apply (TR (types_of h') k a I); [|exact F]. intros c nd Ic E. left. now rewrite <- (KT c Ic).
    + exists 1%nat. intros nd q E J. rewrite (OUTN a nd N E) in J. destruct J.
  - apply C5. intros a I. apply keep_in. now apply INS.
  - rewrite LEN. apply RNG, INS. exact C2.
  - intros a L. rewrite LEN. now apply LH, L.
  - intros W G n x. unfold rec_instance. f_equal. apply (same_rinst W G (types_of h') (types_of h2) (fun a => In a S2)).
    + intros a I. symmetry. now apply KT.
    + intros a nd q I E J. apply (CL a nd q I); [now rewrite KT|exact J].
    + apply INS. exact C2.
  - intros W G n q x L. unfold rec_instance. f_equal. apply (same_rinst W G (types_of h) (types_of h2) old).
    + intros a I. symmetry. now apply KO.
    + intros a nd r I E J. now apply (old_refers a nd).
    + exact L.
Qed.

Lemma declarations_built h2 : forall e p, built T h2 e p -> forall n d, In (n, d) (declarations e) -> exists q, T n q /\ built T h2 d q.
Proof.
  assert (L : forall es qs, Forall (fun e => forall p, built T h2 e p -> forall n d, In (n, d) (declarations e) -> exists q, T n q /\ built T h2 d q) es ->
    pairs (built T h2) es qs -> forall n d, In (n, d) (flat_map declarations es) -> exists q, T n q /\ built T h2 d q).
  { intros es qs H B. rewrite pairs_forall2 in B. revert H. induction B as [|a q es qs X B IH]; intros H n d I; [destruct I|]. inversion H as [|? ? H1 H2]; subst. cbn [flat_map] in I. apply in_app_or in I as [I|I]; [now apply (H1 q)|now apply IH]. }
  induction e0 using ex_induct; cbn [built declarations]; intros z0 B s d I; try (destruct I; fail).
  - destruct I as [[= <- <-]|I]; [exists z0; exact B|now apply (IHe0 z0 (proj2 B))].
  - destruct B as (q & B & _). now apply (IHe0 q).
  - destruct B as (q & r & B1 & B2 & _). apply in_app_or in I as [I|I]; [now apply (IHe0_1 q)|now apply (IHe0_2 r)].
  - destruct B as (qs & B & _). now apply (L es qs).
  - destruct B as (qs & B & _). rewrite pairs_forall2 in B. clear L. revert H I. induction B as [|f q fs qs X B IH]; intros H I; [destruct I|]. inversion H as [|? ? H1 H2]; subst. cbn [flat_map] in I. apply in_app_or in I as [I|I]; [now apply (H1 q)|now apply IH].
  - destruct B as (qs & B & _). now apply (L es qs).
  - destruct B as (qs & B & _). now apply (L es qs).
  - destruct B as (qs & B & _). now apply (L es qs).
  - destruct B as (q & B & _). now apply (IHe0 q).
Qed.

Section Values.
Variable W : world.
Variable G : graph.
Hypothesis VG : values_ok G.
(* what the types of another graph mean is what the names stand for *)
Lemma names_from (D : gval -> Prop) (Old : nat -> Prop) (P : nat -> gval -> Prop) h2 :
  plain e -> (forall n q, In n (used e) -> backing n = Some q -> Old q) -> (forall x y, D x -> part G x y -> D y) ->
  (forall x, D x -> (forall l, elements G x l -> Z.of_nat (length l) <= max_int64) /\ (forall m, entries G x m -> Z.of_nat (length m) <= max_int64) /\
    match x with GLeaf (VStr s) => Z.of_nat (length s) <= max_int64 | GLeaf (VInt z) => min_int64 <= z <= max_int64 | _ => True end) ->
  types_ok (types_of h2) -> built T h2 e p -> (p < length (types_of h2))%nat -> (forall a, Old a -> (a < length (types_of h2))%nat) ->
  (forall n x, rec_instance W (types_of h') G n p x = rec_instance W (types_of h2) G n p x) ->
  (forall n q x, Old q -> rec_instance W (types_of h) G n q x = rec_instance W (types_of h2) G n q x) ->
  (forall q nd x, D x -> at_node h2 q nd -> (P q x <-> holds W G P nd x)) ->
  (forall q x, (q < length (types_of h2))%nat -> D x -> val_ok G x -> exists M r, (forall k, (M <= k)%nat -> rec_instance W (types_of h2) G k q x = Some r) /\ (r = true <-> P q x)) ->
  exists N, (as_declared W G D e N /\ as_known W G D e (types_of h) backing N) /\
  forall x, D x -> val_ok G x -> exists M r, (forall k, (M <= k)%nat -> rec_instance W (types_of h') G k p x = Some r) /\ (r = true <-> belongs W G N e x).
Proof.
  intros PL UO DP DS K1 K4 K5 K6 K7 K8 M EX. set (D2 := fun x => D x /\ val_ok G x).
  assert (ME : forall d q x, correct d -> plain d -> built T h2 d q -> D x -> val_ok G x -> (P q x <-> belongs W G (fun n x => exists q, T n q /\ P q x) d x)).
  { intros d q x Cd Pd Bd Dx V. apply (means W G T h2 P text_fun D2) with (e := d); try assumption; [| | | |split; assumption].
    - intros a b [A1 A2] Pa. split; [now apply (DP a)|now apply (part_ok G a)].
    - intros a [A1 _]. now apply DS.
    - intros a b y [A1 A2] A. destruct (EX a y) as (B & r & _ & R2); [|exact A1|exact A2|destruct r; [left; now apply R2|right; intros X; apply R2 in X; discriminate X]].
      unfold types_ok in K1. rewrite Forall_forall in K1. apply node_type in A. apply nth_error_In in A. destruct (K1 _ A) as [Y _]. cbn [refers] in Y. now inversion Y.
    - intros a nd y [A1 _]. now apply M. }
  exists (fun n x => exists q, T n q /\ P q x). split; [split|].
  - intros n d x I S V. destruct (declarations_built h2 e p K4 n d I) as (q & Tq & Bq). destruct (declaration_plain e CO PL n d I) as (_ & Dd & Cd & _).
    rewrite <- (ME d q x Cd Dd Bq S V). split; [|intros X; exists q; auto]. intros (r & Tr & X). now rewrite (text_fun n q r Tq Tr).
  - intros n q x U Bq S V. pose proof (UO n q U Bq) as Lq. destruct (EX q x (K6 q Lq) S V) as (B & r & R1 & R2).
    assert (Tq : T n q) by now right. split.
    + intros (q' & Tq' & X). rewrite <- (text_fun n q q' Tq Tq') in X. apply R2 in X. subst r. exists B. rewrite (K8 B q x Lq). apply R1. lia.
    + intros [k X]. exists q. split; [exact Tq|]. apply R2. rewrite (K8 k q x Lq) in X. pose proof (rec_more W (types_of h2) G k (k + B)%nat q x true ltac:(lia) X) as Y. rewrite (R1 (k + B)%nat) in Y by lia. congruence.
  - intros x S V. destruct (EX p x K5 S V) as (B & r & R1 & R2). exists B, r. split; [intros k Lk; rewrite K7; now apply R1|]. rewrite R2. now apply ME.
Qed.
Definition means_names (N : list Z -> gval -> Prop) : Prop := as_declared W G (sized G) e N /\ as_known W G (sized G) e (types_of h) backing N.

Theorem names_mean_something : exists N, means_names N /\
  forall x, sized G x -> val_ok G x -> exists M r, (forall k, (M <= k)%nat -> rec_instance W (types_of h') G k p x = Some r) /\ (r = true <-> belongs W G N e x).
Proof.
  destruct kept as (h2 & K1 & K2 & K3 & K4 & K5 & K6 & K7 & K8). destruct (finite_meaning W G (types_of h2) K1 K3) as (P & MP & _).
  assert (M : forall q nd x, sized G x -> at_node h2 q nd -> (P q x <-> holds W G P nd x)).
  { intros q nd x S A. apply MP; [now apply sized_finite|]. now apply node_type. }
  assert (EX : forall q x, (q < length (types_of h2))%nat -> sized G x -> val_ok G x -> exists M r, (forall k, (M <= k)%nat -> rec_instance W (types_of h2) G k q x = Some r) /\ (r = true <-> P q x)).
  { intros q x L S V. destruct (rec_returns_finite W (types_of h2) G q x K1 VG K3 V (sized_finite G x S) L) as [B HB]. destruct (HB B (le_n _)) as [r R]. exists B, r. split.
    - intros k Lk. exact (rec_more W (types_of h2) G B k q x r Lk R).
    - exact (rec_exact_finite W (types_of h2) G P q x B r K1 VG K2 MP V (sized_finite G x S) R). }
  apply (names_from (sized G) old P h2); try assumption; [now apply direct_plain|apply used_old|intros x y; apply sized_part|intros x [S1 S2 S3 _]; auto|apply K7|apply K8].
Qed.
Theorem instance_exact N : means_names N -> forall x, sized G x -> val_ok G x ->
  exists M r, (forall k, (M <= k)%nat -> rec_instance W (types_of h') G k p x = Some r) /\ (r = true <-> belongs W G N e x).
Proof.
  intros [N1 N2] x S V. destruct names_mean_something as (N' & [N1' N2'] & H). destruct (H x S V) as (M & r & R1 & R2). exists M, r. split; [exact R1|]. rewrite R2.
  apply (one_solution W G e (fun n => In n (used e) /\ backing n <> None) N' N CO DI); auto.
  - destruct SC as (_ & _ & X). rewrite Forall_forall in *. intros n I. destruct (X n I) as [_ [Y|Y]]; auto.
  - intros n y [I B] Sy Vy. destruct (backing n) as [q|] eqn:Q; [|congruence]. rewrite (N2' n q y I Q Sy Vy). symmetry. now apply N2.
Qed.
End Values.
End Text.
