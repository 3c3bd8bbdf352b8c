(* Instance of the types that are read from a text where no name refers to itself. *)
From Coq Require Import Strings.Ascii Strings.String.
From Coq Require Import ZArith List Bool Lia Arith.
From Verif Require Import Int64 Utf8 Text HMap Data DataSpec DataProofs Types TypesSpec Graph RecTypes RecTypesSpec RecTypesProofs RecTypesEnds RecMeaning Print.
From Verif Require Import Resolve ResolveSpec ResolveInstance DeclareSpec DeclareRead DeclareDone DeclMeanSpec DeclMeanProofs DeclMeanBuilt DeclMeanDone.
Import ListNotations.
Open Scope Z_scope.

(* ---------- types that do not refer to themselves ---------- *)

Section Drops.
Variable T : tgraph.
Fixpoint drops (k a : nat) : Prop := match k with O => False | S k => forall nd q, nth_error T a = Some nd -> In q (refers nd) -> drops k q end.
Lemma drops_more k : forall a k', (k <= k')%nat -> drops k a -> drops k' a.
Proof. induction k as [|k IH]; intros a k' L F; [destruct F|]. destruct k' as [|k']; [lia|]. intros nd q E I. apply (IH q k'); [lia|]. now apply (F nd). Qed.
Lemma drops_list l : (forall q, In q l -> exists k, drops k q) -> exists k, forall q, In q l -> drops k q.
Proof.
  induction l as [|a l IH]; intros H; [exists 0%nat; intros q []|]. destruct IH as [k K]; [intros; apply H; now right|]. destruct (H a) as [j J]; [now left|].
  exists (k + j)%nat. intros q [<-|I]; [apply (drops_more j); [lia|exact J]|apply (drops_more k); [lia|now apply K]].
Qed.
Lemma drops_node a nd : nth_error T a = Some nd -> (forall q, In q (refers nd) -> exists k, drops k q) -> exists k, drops k a.
Proof. intros E H. destruct (drops_list _ H) as [k K]. exists (S k). intros nd' q E' I. assert (nd' = nd) as -> by congruence. now apply K. Qed.
Fixpoint deep (n a : nat) : nat :=
  match n with O => 0%nat | S n => match nth_error T a with Some nd => S (list_max (map (deep n) (refers nd))) | None => 0%nat end end.
Lemma deep_more k : forall a n, drops k a -> (k <= n)%nat -> deep n a = deep k a.
Proof.
  induction k as [|k IH]; intros a n F L; [destruct F|]. destruct n as [|n]; [lia|]. cbn [deep]. destruct (nth_error T a) as [nd|] eqn:E; [|reflexivity]. f_equal. f_equal.
  apply map_ext_in. intros q I. apply IH; [now apply (F nd)|lia].
Qed.
Lemma drops_plain_graph : (forall a, (a < length T)%nat -> exists k, drops k a) -> not_recursive T.
Proof.
  intros H. destruct (drops_list (seq 0 (length T))) as [K HK]; [intros q I; apply in_seq in I; apply H; lia|].
  exists (deep K). intros p nd q E I. assert (Lp : (p < length T)%nat) by (apply nth_error_Some; congruence).
  assert (F : drops K p) by (apply HK, in_seq; lia). destruct K as [|K]; [destruct F|].
  rewrite (deep_more K q (S K)) by (try lia; now apply (F nd)). cbn [deep]. rewrite E. apply Nat.lt_succ_r.
  assert (X : (list_max (map (deep K) (refers nd)) <= list_max (map (deep K) (refers nd)))%nat) by lia. apply list_max_le in X. rewrite Forall_forall in X. apply X. now apply in_map.
Qed.
Lemma plain_graph_drops : not_recursive T -> forall a, exists k, drops k a.
Proof.
  intros [rank R] a. exists (S (rank a)). assert (X : forall n a, (rank a <= n)%nat -> drops (S n) a); [|now apply X].
  induction n as [|n IH]; intros b L nd q E I; pose proof (R b nd q E I); [lia|]. apply IH. lia.
Qed.
End Drops.

(* ---------- the types that an expression describes ---------- *)

Section Cover.
Variable T : list Z -> nat -> Prop.
Variable h : heap.
Variable U : list (list Z).
Hypothesis TF : forall n p q, T n p -> T n q -> p = q.
Notation outs := (outs T U).
Hypothesis OD : forall q, outs q -> exists k, drops (types_of h) k q.
(* named, or what a named type negates *)
Definition near (q : nat) : Prop := outs q \/ exists r, outs r /\ at_node h r (NNot q).
Definition fine (S : list nat) (a : nat) : Prop :=
  exists nd, at_node h a nd /\ (forall q, In q (refers nd) -> In q S \/ near q) /\ inner nd /\ match nd with NNot q => In q S \/ outs q | _ => True end.
Definition cover (S : list nat) : Prop := forall a, In a S -> fine S a /\ exists k, drops (types_of h) k a.
Definition copies (S : list nat) (h2 : heap) : Prop := forall a, In a S \/ near a -> nth_error h2 a = nth_error h a.
Definition covered (e : ex) (p : nat) : Prop :=
  exists S, cover S /\ (In p S \/ near p) /\ match e with XNot _ => True | _ => In p S \/ outs p end /\ (solid e -> In p S) /\
  (forall n q, In n (declared e) -> T n q -> In q S) /\ (forall h2, copies S h2 -> built T h2 e p).

Lemma near_drops q : near q -> exists k, drops (types_of h) k q.
Proof.
  intros [O|(r & O & A)]; [now apply OD|]. destruct (OD r O) as [[|k] D]; [destruct D|]. exists k. apply (D (NNot q)); [now apply node_type|now left].
Qed.
Lemma fine_more S S' a : incl S S' -> fine S a -> fine S' a.
Proof.
  intros I (nd & A & B & C & D). exists nd. split; [exact A|split; [|split; [exact C|]]].
  - intros q J. destruct (B q J); auto.
  - destruct nd; auto. destruct D; auto.
Qed.
Lemma cover_app S S' : cover S -> cover S' -> cover (S ++ S').
Proof.
  intros A B a I. apply in_app_or in I as [I|I]; [destruct (A a I) as [F K]|destruct (B a I) as [F K]]; (split; [|exact K]); eapply fine_more; try exact F; intros x X; apply in_or_app; auto.
Qed.
Lemma cover_add S p nd : cover S -> at_node h p nd -> (forall q, In q (refers nd) -> In q S \/ near q) -> inner nd -> match nd with NNot q => In q S \/ outs q | _ => True end -> cover (p :: S).
Proof.
  intros C A B I D a [<-|J].
  - split.
    + exists nd. split; [exact A|split; [|split; [exact I|]]].
      * intros q Q. destruct (B q Q); [left; now right|now right].
      * destruct nd; auto. destruct D; [left; now right|now right].
    + apply (drops_node _ p nd); [now apply node_type|]. intros q Q. destruct (B q Q) as [J|J]; [apply (C q J)|now apply near_drops].
  - destruct (C a J) as [F K]. split; [|exact K]. eapply fine_more; [|exact F]. intros x X. now right.
Qed.
Lemma copies_incl S S' h2 : incl S S' -> copies S' h2 -> copies S h2.
Proof. intros I C a [J|J]; apply C; auto. Qed.
Lemma copies_at S h2 p nd : copies (p :: S) h2 -> at_node h p nd -> at_node h2 p nd.
Proof. intros C A. unfold at_node in *. rewrite C; [exact A|left; now left]. Qed.

Lemma covered_new e p S : cover (p :: S) -> (forall n q, In n (declared e) -> T n q -> In q (p :: S)) -> (forall h2, copies (p :: S) h2 -> built T h2 e p) -> covered e p.
Proof. intros A B C. exists (p :: S). split; [exact A|split; [left; now left|split; [destruct e; auto; left; now left|split; [intros _; now left|split; [exact B|exact C]]]]]. Qed.
Lemma covered_leaf e p t : at_leaf h p t -> leaf_type t = true /\ type_ok t -> declared e = [] -> (forall h2, at_leaf h2 p t -> built T h2 e p) -> covered e p.
Proof.
  intros A L D B. apply (covered_new e p []).
  - apply (cover_add [] p (NLeaf t)); [intros a []|exact A|intros q []|exact L|exact I].
  - rewrite D. intros n q [].
  - intros h2 C. apply B. exact (copies_at [] h2 p (NLeaf t) C A).
Qed.
Lemma covered_list es qs : Forall2 covered es qs ->
  exists S, cover S /\ (forall q, In q qs -> In q S \/ near q) /\ (forall n q, In n (flat_map declared es) -> T n q -> In q S) /\
  (forall h2, copies S h2 -> pairs (built T h2) es qs).
Proof.
  induction 1 as [|e q es qs (S & A & B & _ & C & D & E) F (S' & A' & B' & D' & E')].
  - exists []. split; [intros a []|split; [intros q []|split; [intros n q []|intros h2 _; exact I]]].
  - exists (S ++ S'). split; [now apply cover_app|]. split; [|split].
    + intros x [<-|X]; [destruct B as [B|B]; [left; apply in_or_app; now left|now right]|destruct (B' x X) as [Y|Y]; [left; apply in_or_app; now right|now right]].
    + intros n x N X. cbn [flat_map] in N. apply in_app_or in N as [N|N]; apply in_or_app; [left; now apply (D n)|right; now apply (D' n)].
    + intros h2 K. split; [apply E|apply E']; eapply copies_incl; try exact K; intros a I; apply in_or_app; auto.
Qed.
(* one node, and what it refers to is covered *)
Lemma covered_node e p nd es qs : at_node h p nd -> (forall q, In q (refers nd) -> In q qs) -> inner nd -> match nd with NNot _ => False | _ => True end -> Forall2 covered es qs ->
  (forall n, In n (declared e) -> In n (flat_map declared es)) -> (forall h2, pairs (built T h2) es qs -> at_node h2 p nd -> (forall a, In a qs -> nth_error h2 a = nth_error h a) -> built T h2 e p) -> covered e p.
Proof.
  intros A R I NN F De Bu. destruct (covered_list es qs F) as (S & C1 & C2 & C4 & C5). apply (covered_new e p S).
  - apply (cover_add S p nd); [exact C1|exact A|intros q Q; apply C2; now apply R|exact I|destruct nd; tauto].
  - intros n q J K. right. apply (C4 n); [now apply De|exact K].
  - intros h2 Cp. apply Bu; [|now apply (copies_at S)|].
    + apply C5. revert Cp. apply copies_incl. intros x Hx. now right.
    + intros a J. apply Cp. destruct (C2 a J); [left; now right|now right].
Qed.
Lemma pairs_covered es qs : Forall (fun e => forall p, built T h e p -> covered e p) es -> pairs (built T h) es qs -> Forall2 covered es qs.
Proof. rewrite pairs_forall2. intros H F. revert H. induction F; intros K; inversion K; subst; constructor; auto. Qed.

Lemma built_covered e : correct e -> plain e -> incl (used e) U -> forall p, built T h e p -> covered e p.
Proof.
  assert (SUB : forall es qs, Forall (fun e => correct e -> plain e -> incl (used e) U -> forall p, built T h e p -> covered e p) es -> Forall correct es -> Forall plain es -> incl (flat_map used es) U ->
    pairs (built T h) es qs -> Forall2 covered es qs).
  { intros es qs H C Di Us B. apply pairs_covered; [|exact B]. rewrite Forall_forall in *. intros e0 I. apply H; auto. intros n J. apply Us. apply in_flat_map. exists e0. auto. }
  assert (NM : forall e n p, (forall h2, built T h2 e p) -> declared e = [] -> ~ solid e -> match e with XNot _ => False | _ => True end -> In n U -> T n p -> covered e p).
  { intros e0 n p B D NS NN I Tn. assert (O : outs p) by (exists n; auto). exists []. split; [intros a []|]. split; [right; now left|]. split; [destruct e0; auto|]. split; [tauto|]. split; [rewrite D; intros m q []|]. intros h2 _. apply B. }
  induction e using ex_induct; cbn [correct plain used]; intros C Di Us p B; pose proof B as B0; cbn [built] in B.
  - destruct B as (t & I & B). apply (covered_leaf _ p t); [exact B|apply word_type in I as (X & Y & _); auto|reflexivity|]. intros h2 A. exists t. auto.
  - eapply (covered_leaf _ p); [exact B|split; [reflexivity|repeat constructor]|reflexivity|]. intros h2 A. exact A.
  - eapply (covered_leaf _ p); [exact B|split; [reflexivity|repeat constructor; apply C]|reflexivity|]. intros h2 A. exact A.
  - eapply (covered_leaf _ p); [exact B| |reflexivity|intros h2 A; exact A]. destruct ((lo =? min_int64) && (hi =? max_int64)); (split; [reflexivity|repeat constructor; unfold in64; lia]).
  - eapply (covered_leaf _ p (let (lo, hi) := size_of sz in if (lo =? 0) && (hi =? max_int64) then TString else TStrSized lo hi)); [destruct (size_of sz); exact B| |reflexivity|intros h2 A; cbn [built]; destruct (size_of sz); exact A].
    destruct (size_of sz) as [lo hi]. destruct ((lo =? 0) && (hi =? max_int64)); (split; [reflexivity|repeat constructor]).
  - apply (NM _ n p); auto. apply Us. now left.
  - apply (NM _ n p); auto. apply Us. now left.
  - destruct B as [B1 B2]. destruct C as (_ & So & C). destruct (IHe C Di Us p B2) as (S & C1 & C2 & _ & C3 & C4 & C5). exists S. split; [exact C1|split; [exact C2|split; [left; now apply C3|split; [exact C3|split]]]].
    + intros m q [<-|I] J; [rewrite <- (TF _ p q B1 J); now apply C3|now apply (C4 m)].
    + intros h2 K. split; [exact B1|now apply C5].
  - destruct B as (q & B & K). destruct C as [_ C]. destruct Di as [Ix Di].
    assert (F : Forall2 covered [e] [q]) by (constructor; [now apply IHe|constructor]).
    destruct K as [K|[(Z1 & A & K)|(Z1 & v & V & K)]]; [| |destruct Ix as [Ix|Ix]; [contradiction|]; now destruct (no_value T h e C Di q v B Ix)].
    + apply (covered_node _ p (NArr q (fst (size_of sz)) (snd (size_of sz))) [e] [q]); auto; [exact I|intros n J; cbn; now rewrite app_nil_r|].
      intros h2 [X _] Y _. exists q. split; [exact X|now left].
    + apply (covered_node _ p (NLeaf TArray) [e] [q]); auto; [intros r []|split; [reflexivity|repeat constructor]|intros n J; cbn; now rewrite app_nil_r|].
      intros h2 [X _] Y Z2. exists q. split; [exact X|right; left]. split; [exact Z1|split; [|exact Y]]. unfold at_leaf in *. rewrite Z2; [exact A|now left].
  - destruct B as (q & r & B1 & B2 & K). destruct C as [_ C].
    assert (F : Forall2 covered [e1; e2] [q; r]).
    { constructor; [apply IHe1; try tauto; intros n I; apply Us, in_or_app; auto|]. constructor; [apply IHe2; try tauto; intros n I; apply Us, in_or_app; auto|constructor]. }
    destruct K as [K|(Z2 & A1 & A2 & K)].
    + apply (covered_node _ p (NMap q r (fst (size_of sz)) (snd (size_of sz))) [e1; e2] [q; r]); auto; [exact I|intros n J; cbn; now rewrite app_nil_r|].
      intros h2 (X & Y & _) Z _. exists q, r. split; [exact X|split; [exact Y|now left]].
    + apply (covered_node _ p (NLeaf TMap) [e1; e2] [q; r]); auto; [intros x []|split; [reflexivity|repeat constructor]|intros n J; cbn; now rewrite app_nil_r|].
      intros h2 (X & Y & _) Z Z3. exists q, r. split; [exact X|split; [exact Y|right]]. split; [exact Z2|]. unfold at_leaf in *. rewrite !Z3 by (cbn; auto). auto.
  - destruct B as (qs & B & K). destruct C as [_ C]. apply all_forall in C. destruct Di as [Ix Di]. apply every_forall in Di.
    destruct K as [K|(vs & Vs & K)]; [|exfalso; apply (some_value T h es qs vs); auto; rewrite Forall_forall in *; intros e0 I q v; apply no_value; auto].
    apply (covered_node _ p (NTuple qs false) es qs); auto; [exact I|]. intros h2 X Y _. exists qs. split; [exact X|now left].
  - destruct B as (qs & B & K). destruct C as [ND C]. apply (all_forall (fun f : list Z * bool * ex => correct (snd f))) in C. destruct Di as [Ix Di]. apply every_forall in Di.
    destruct K as [K|(-> & R & vs & Vs & K)].
    2:{ exfalso. destruct Ix as [Ix|Ix]; [discriminate Ix|]. apply (some_field T h fs qs vs); auto. rewrite Forall_forall in *. intros f I q v. apply no_value; auto. }
    assert (PM : forall h2 qs, pairs (fun f q => built T h2 (snd f) q) fs qs <-> pairs (built T h2) (map snd fs) qs).
    { intros h2. clear. induction fs as [|f fs IH]; intros [|q qs]; cbn [pairs map]; try reflexivity.
      specialize (IH qs). cbn [pairs] in IH. fold (pairs (fun (f : list Z * bool * ex) q => built T h2 (snd f) q) fs qs) (pairs (built T h2) (map snd fs) qs) in *. rewrite IH. reflexivity. }
    assert (F : Forall2 covered (map snd fs) qs).
    { apply SUB; [rewrite Forall_map; exact H|now rewrite Forall_map|now rewrite Forall_map| |now apply PM]. intros n I. apply Us. apply in_flat_map in I as (e0 & I & J). apply in_map_iff in I as (f & <- & I). apply in_flat_map. exists f. auto. }
    assert (LEN : length fs = length qs) by (rewrite pairs_forall2 in B; clear - B; induction B; cbn; congruence).
    eapply (covered_node _ p _ (map snd fs) qs); [exact K| |exact (struct_keys fs qs ND LEN)|exact I|exact F| |].
    + cbn [refers]. rewrite map_map. cbn [fst snd]. intros q Iq. rewrite <- (map_combine_snd fs qs LEN). exact Iq.
    + intros n J. cbn [declared] in J. apply in_flat_map in J as (f & I & J). apply in_flat_map. exists (snd f). split; [now apply in_map|exact J].
    + intros h2 X Y _. exists qs. split; [now apply PM|now left].
  - destruct B as (qs & B & K). destruct C as [_ C]. apply all_forall in C. apply every_forall in Di.
    apply (covered_node _ p (NAny qs) es qs); auto; [exact I|]. intros h2 X Y _. exists qs. auto.
  - destruct B as (qs & B & K). destruct C as [_ C]. apply all_forall in C. apply every_forall in Di.
    apply (covered_node _ p (NOne qs) es qs); auto; [exact I|]. intros h2 X Y _. exists qs. auto.
  - destruct B as (qs & B & K). destruct C as [_ C]. apply all_forall in C. apply every_forall in Di.
    apply (covered_node _ p (NAll qs) es qs); auto; [exact I|]. intros h2 X Y _. exists qs. auto.
  - destruct B as (q & B & K). destruct C as [C NN]. destruct (IHe C Di Us q B) as (S & C1 & C2 & C2' & C3 & C4 & C5).
    assert (Q : In q S \/ outs q) by (destruct e; auto; contradiction). destruct K as [K|K].
    + apply (covered_new _ p S).
      * apply (cover_add S p (NNot q)); [exact C1|exact K|intros r [<-|[]]; exact C2|exact I|exact Q].
      * intros m r M1 M2. right. now apply (C4 m).
      * intros h2 Cp. exists q. split; [apply C5; revert Cp; apply copies_incl; intros x Hx; now right|left; now apply (copies_at S)].
    + assert (PN : In p S \/ near p).
      { destruct Q as [Q|Q]; [|right; right; exists q; auto]. destruct (C1 q Q) as [(nd & A & R & _) _]. assert (nd = NNot p) as -> by (unfold at_node in *; congruence). apply R. now left. }
      exists S. split; [exact C1|split; [exact PN|split; [exact I|split; [|split; [exact C4|]]]]].
      * cbn [solid]. intros By. destruct (not_not T h e q p C NN By B K).
      * intros h2 Cp. exists q. split; [now apply C5|right]. unfold at_node in *. rewrite Cp; [exact K|]. destruct Q; [now left|right; now left].
Qed.
End Cover.

(* ---------- the declarations say what the names stand for ---------- *)

Lemma within_more G x y z : part G x y -> within G y z -> within G x z.
Proof. intros P Wz. induction Wz as [|a b Wa IH Pb]; [apply (within_part G x x y); [constructor|exact P]|now apply (within_part G x a b)]. Qed.
Lemma measured_part G x y : measured G x -> part G x y -> measured G y.
Proof. intros M P z Wz. apply M. now apply (within_more G x y). Qed.
Lemma plain_solution W G e (D : gval -> Prop) (base : list Z -> Prop) (N N' : list Z -> gval -> Prop) : correct e -> plain e -> no_loops e ->
  Forall (fun n => In n (declared e) \/ base n) (used e) -> (forall x y, D x -> part G x y -> D y) ->
  (forall n d x, In (n, d) (declarations e) -> D x -> (N n x <-> belongs W G N d x)) ->
  (forall n d x, In (n, d) (declarations e) -> D x -> (N' n x <-> belongs W G N' d x)) ->
  (forall n x, base n -> D x -> (N n x <-> N' n x)) ->
  forall x, D x -> (belongs W G N e x <-> belongs W G N' e x).
Proof.
  intros C Pl [rank R] U DP E E' B. rewrite Forall_forall in U.
  assert (K : forall k n, (rank n < k)%nat -> In n (declared e) -> forall x, D x -> (N n x <-> N' n x)).
  { induction k as [|k IH]; intros n L I x Dx; [lia|]. pose proof I as I0. rewrite <- declarations_names in I. apply in_map_iff in I as ([m d] & Q & I). cbn [fst] in Q. subst m.
    rewrite (E n d x I Dx), (E' n d x I Dx). destruct (declaration_plain e C Pl n d I) as (_ & _ & _ & Ud). apply (all_agree W G N N' D DP d); [|exact Dx].
    intros m J y Dy. destruct (U m (Ud m J)) as [X|X]; [|now apply B]. apply IH; [|exact X|exact Dy]. pose proof (R n d m I J X). lia. }
  intros x Dx. apply (all_agree W G N N' D DP e); [|exact Dx]. intros n I y Dy. destruct (U n I) as [X|X]; [|now apply B]. apply (K (S (rank n))); [lia|exact X|exact Dy].
Qed.

(* ---------- Instance ---------- *)

Section Text.
Variables (any : nat) (backing : list Z -> option nat) (named : list Z -> bool) (h : heap) (e : ex) (p : nat) (names : list (list Z * nat)) (h' : heap) (K0 : list nat).
Hypothesis TH : there any backing h.
Hypothesis CO : correct e.
Hypothesis PL : plain e.
Hypothesis NL : no_loops e.
Hypothesis SC : scoped named backing e.
Hypothesis KK : knows K0 (types_of h) backing e.
Hypothesis OT : types_ok (only K0 (types_of h)).
Hypothesis ON : not_recursive (only K0 (types_of h)).
Hypothesis NA : map fst names = declared e.
Let T (n : list Z) (q : nat) : Prop := In (n, q) names \/ backing n = Some q.
Hypothesis BU : built T h' e p.
Hypothesis OLD : forall q n, nth_error h q = Some n -> nth_error h' q = Some n.
Let TFUN := text_fun backing named e names SC NA.
Let KNOWN := name_known backing named e names SC NA.
Let Old : nat -> Prop := old h K0.
Let uold := used_old any backing h e K0 TH KK.
Let oref := old_refers backing h e K0 KK OT.

Lemma old_same a : Old a -> nth_error h' a = nth_error h a.
Proof. intros [_ L]. destruct (nth_error h a) as [n|] eqn:E; [|apply nth_error_None in E; lia]. now apply OLD. Qed.
Lemma old_drops q : Old q -> exists k, drops (types_of h') k q.
Proof.
  intros O. destruct (plain_graph_drops _ ON q) as [k F]. exists k. revert q O F. induction k as [|k IH]; intros q O F; [destruct F|].
  intros nd r E I. rewrite types_nth, (old_same q O), <- types_nth in E. apply IH; [now apply (oref q nd)|]. apply (F nd); [|exact I]. rewrite only_in; [exact E|apply O].
Qed.
Lemma names_drop : forall n q, In n (used e) -> T n q -> exists k, drops (types_of h') k q.
Proof.
  destruct NL as [rank R]. pose proof SC as (_ & _ & U). rewrite Forall_forall in U.
  assert (X : forall k n, (rank n < k)%nat -> In n (declared e) -> forall q, T n q -> exists j, drops (types_of h') j q).
  { induction k as [|k IH]; intros n L I q Tq; [lia|]. pose proof I as I0. rewrite <- declarations_names in I. apply in_map_iff in I as ([m d] & Q & I). cbn [fst] in Q. subst m.
    destruct (declarations_built backing names h' e p BU n d I) as (q' & Tq' & Bq'). assert (q' = q) as -> by exact (TFUN n q' q Tq' Tq).
    destruct (declaration_plain e CO PL n d I) as (So & Pd & Cd & Ud).
    assert (OD : forall r, outs T (used d) r -> exists j, drops (types_of h') j r).
    { intros r (m & Im & Tm). destruct (U m (Ud m Im)) as [_ [Y|Y]].
      - apply (IH m); [pose proof (R n d m I Im Y); lia|exact Y|exact Tm].
      - destruct Tm as [Tm|Tm]; [destruct (KNOWN m r Tm); congruence|]. apply old_drops. apply (uold m r); [now apply Ud|exact Tm]. }
    destruct (built_covered T h' (used d) TFUN OD d Cd Pd (incl_refl _) q Bq') as (S & C1 & _ & _ & C3 & _). now destruct (C1 q (C3 So)). }
  intros n q I Tq. destruct (U n I) as [_ [Y|Y]].
  - apply (X (S (rank n)) n); [lia|exact Y|exact Tq].
  - destruct Tq as [Tm|Tm]; [destruct (KNOWN n q Tm); congruence|]. apply old_drops. now apply (uold n q).
Qed.

(* a graph with the old types that matter and those that the text describes *)
Lemma kept : exists h2, types_ok (types_of h2) /\ not_recursive (types_of h2) /\ built T h2 e p /\
  (p < length (types_of h2))%nat /\ (forall a, Old a -> (a < length (types_of h2))%nat) /\
  (forall W G n x, rec_instance W (types_of h') G n p x = rec_instance W (types_of h2) G n p x) /\
  (forall W G n q x, Old q -> rec_instance W (types_of h) G n q x = rec_instance W (types_of h2) G n q x).
Proof.
  assert (OD : forall r, outs T (used e) r -> exists j, drops (types_of h') j r) by (intros r (m & Im & Tm); now apply (names_drop m)).
  destruct (built_covered T h' (used e) TFUN OD e CO PL (incl_refl _) p BU) as (S & C1 & C2 & _ & _ & C4 & C5).
  set (S2 := S ++ filter (fun a => Nat.ltb a (length h)) K0).
  assert (OLS : forall a, Old a -> In a S2) by (intros a [I L]; apply in_or_app; right; apply filter_In; split; [exact I|now apply Nat.ltb_lt]).
  assert (CASES : forall a, In a S2 -> In a S \/ Old a) by (intros a I; apply in_app_or in I as [I|I]; [now left|right; apply filter_In in I as [I L]; split; [exact I|now apply Nat.ltb_lt]]).
  assert (OUT : forall q, outs T (used e) q -> In q S2).
  { intros q (n & I & [J|J]); [apply in_or_app; left; apply (C4 n q); [now apply (KNOWN n q)|now left]|]. apply OLS. now apply (uold n). }
  assert (NEAR : forall q, near T h' (used e) q -> In q S2).
  { intros q [O|(r & O & A)]; [now apply OUT|]. destruct (CASES r (OUT r O)) as [I|I].
    - destruct (C1 r I) as [(nd & A' & _ & _ & X) _]. assert (nd = NNot q) as -> by (unfold at_node in *; congruence). destruct X as [X|X]; [apply in_or_app; now left|now apply OUT].
    - apply OLS. apply (oref r (NNot q)); [exact I| |now left]. rewrite types_nth, <- (old_same r I). unfold at_node in A. rewrite A. reflexivity. }
  assert (INS : forall q, In q S \/ near T h' (used e) q -> In q S2) by (intros q [I|I]; [apply in_or_app; now left|now apply NEAR]).
  assert (RNG : forall a, In a S2 -> (a < length h')%nat).
  { intros a I. apply nth_error_Some. destruct (CASES a I) as [J|J].
    - destruct (C1 a J) as [(nd & A & _) _]. unfold at_node in A. congruence.
    - rewrite (old_same a J). apply nth_error_Some. apply J. }
  set (h2 := keep h' S2). exists h2.
  assert (KT : forall a, In a S2 -> nth_error (types_of h2) a = nth_error (types_of h') a) by (intros a I; rewrite !types_nth; f_equal; now apply keep_in).
  assert (LEN : length (types_of h2) = length h') by (unfold types_of; rewrite map_length; apply keep_length).
  assert (KO : forall a, Old a -> nth_error (types_of h2) a = nth_error (types_of h) a).
  { intros a L. rewrite (KT a) by now apply OLS. rewrite !types_nth. now rewrite (old_same a L). }
  assert (KP : forall a, Old a -> nth_error (types_of h2) a = nth_error (only K0 (types_of h)) a) by (intros a L; rewrite (KO a L); symmetry; apply only_in, L).
  assert (KN : forall a nd, at_node h' a nd -> In a S2 -> nth_error (types_of h2) a = Some nd) by (intros a nd A I; rewrite (KT a I), types_nth, A; reflexivity).
  assert (CL : forall a nd q, In a S2 -> nth_error (types_of h2) a = Some nd -> In q (refers nd) -> In q S2).
  { intros a nd q I E J. destruct (CASES a I) as [K|K].
    - destruct (C1 a K) as [(nd' & A & B & _) _]. assert (nd' = nd) as -> by (rewrite (KN a nd' A I) in E; congruence). apply INS. now apply B.
    - rewrite (KO a K) in E. apply OLS. now apply (oref a nd). }
  assert (OUTN : forall a nd, ~ In a S2 -> nth_error (types_of h2) a = Some nd -> nd = NLeaf TAny).
  { intros a nd N E. assert (L : (a < length h')%nat) by (rewrite <- LEN; apply nth_error_Some; congruence). rewrite types_nth in E. unfold h2 in E. rewrite (keep_out h' S2 a N L) in E. cbn in E. congruence. }
  split; [|split; [|split; [|split; [|split; [|split]]]]].
  - unfold types_ok. rewrite Forall_forall. intros nd I. apply In_nth_error in I as [a E]. destruct (in_dec Nat.eq_dec a S2) as [I|N].
    + split; [rewrite Forall_forall; intros q J; rewrite LEN; apply RNG; now apply (CL a nd)|].
      destruct (CASES a I) as [K|K].
      * destruct (C1 a K) as [(nd' & A & _ & B & _) _]. assert (nd' = nd) as -> by (rewrite (KN a nd' A I) in E; congruence). exact B.
      * rewrite (KP a K) in E. pose proof OT as OT'. unfold types_ok in OT'. rewrite Forall_forall in OT'. destruct (OT' nd) as [_ X]; [now apply nth_error_In in E|]. exact X.
    + rewrite (OUTN a nd N E). split; [constructor|]. split; [reflexivity|repeat constructor].
  - apply drops_plain_graph. intros a L. destruct (in_dec Nat.eq_dec a S2) as [I|N].
    + assert (D : exists k, drops (types_of h') k a) by (destruct (CASES a I) as [K|K]; [now destruct (C1 a K)|now apply old_drops]).
      destruct D as [k F]. exists k. clear L. revert a I F. induction k as [|k IH]; intros a I F; [destruct F|]. intros nd q E J. apply IH; [now apply (CL a nd)|]. apply (F nd); [now rewrite <- KT|exact J].
    + exists 1%nat. intros nd q E J. rewrite (OUTN a nd N E) in J. destruct J.
  - apply C5. intros a I. apply keep_in. now apply INS.
  - rewrite LEN. apply RNG, INS. exact C2.
  - intros a L. rewrite LEN. apply RNG. now apply OLS.
  - intros W G n x. unfold rec_instance. f_equal. apply (same_rinst W G (types_of h') (types_of h2) (fun a => In a S2)).
    + intros a I. symmetry. now apply KT.
    + intros a nd q I E J. apply (CL a nd q I); [now rewrite KT|exact J].
    + apply INS. exact C2.
  - intros W G n q x L. unfold rec_instance. f_equal. apply (same_rinst W G (types_of h) (types_of h2) Old).
    + intros a I. symmetry. now apply KO.
    + intros a nd r I E J. now apply (oref a nd).
    + exact L.
Qed.

Section Values.
Variable W : world.
Variable G : graph.
Hypothesis VG : values_ok G.
Theorem plain_names_mean_something : exists N, (as_declared W G (measured G) e N /\ as_known W G (measured G) e (types_of h) backing N) /\
  forall x, measured G x -> val_ok G x -> exists M r, (forall k, (M <= k)%nat -> rec_instance W (types_of h') G k p x = Some r) /\ (r = true <-> belongs W G N e x).
Proof.
  destruct kept as (h2 & K1 & K2 & K4 & K5 & K6 & K7 & K8). destruct (plain_meaning W G (types_of h2) K2) as (P & MP).
  assert (CT : contractive (types_of h2)) by (destruct K2 as [rank R]; exists rank; intros a nd q E I; apply (R a nd q E); now apply same_refers).
  assert (NR : no_restart (types_of h2)) by (destruct K2 as [rank R]; exists rank; intros a nd q E I; pose proof (R a nd q E I); split; [lia|destruct nd; auto]).
  apply (names_from backing named h e p names h' CO SC NA W G VG (measured G) Old P h2); try assumption.
  - intros x y. apply measured_part.
  - intros x M. apply M. constructor.
  - apply K7.
  - apply K8.
  - intros q nd x _ A. apply MP; [exact I|]. now apply node_type.
  - intros q x L _ V. destruct (rec_returns W (types_of h2) G q x K1 VG CT NR V L) as [B HB]. destruct (HB B (le_n _)) as [r R]. exists B, r. split.
    + intros k Lk. exact (rec_more W (types_of h2) G B k q x r Lk R).
    + exact (rec_exact_plain W (types_of h2) G P q x B r K1 VG K2 MP V R).
Qed.
Theorem plain_instance_exact N : as_declared W G (measured G) e N /\ as_known W G (measured G) e (types_of h) backing N -> forall x, measured G x -> val_ok G x ->
  exists M r, (forall k, (M <= k)%nat -> rec_instance W (types_of h') G k p x = Some r) /\ (r = true <-> belongs W G N e x).
Proof.
  intros [N1 N2] x S V. destruct plain_names_mean_something as (N' & [N1' N2'] & H). destruct (H x S V) as (M & r & R1 & R2). exists M, r. split; [exact R1|]. rewrite R2.
  apply (plain_solution W G e (fun y => measured G y /\ val_ok G y) (fun n => In n (used e) /\ backing n <> None) N' N CO PL NL).
  - pose proof SC as (_ & _ & X). rewrite Forall_forall in *. intros n I. destruct (X n I) as [_ [Y|Y]]; auto.
  - intros y z [A B] Pz. split; [now apply (measured_part G y)|now apply (part_ok G y)].
  - intros n d y I [A B]. now apply N1'.
  - intros n d y I [A B]. now apply N1.
  - intros n y [I B] [Sy Vy]. destruct (backing n) as [q|] eqn:Q; [|congruence]. rewrite (N2' n q y I Q Sy Vy). symmetry. now apply N2.
  - auto.
Qed.
End Values.
End Text.
