(* What Go code can change through the memory that it holds. *)
From Coq Require Import ZArith List Bool Arith Lia.
From Verif Require Import Int64 Data Share ShareSpec.
Import ListNotations.

Lemma upd_length {A} (l : list A) n x : length (upd l n x) = length l.
Proof. revert n. induction l as [|y l IH]; intros [|n]; cbn; auto. Qed.
Lemma upd_same {A} (l : list A) n x y : nth_error l n = Some y -> nth_error (upd l n x) n = Some x.
Proof. revert n. induction l as [|z l IH]; intros [|n] H; try discriminate; [reflexivity|]. cbn in *. eauto. Qed.
Lemma upd_other {A} (l : list A) n m x : n <> m -> nth_error (upd l n x) m = nth_error l m.
Proof. revert n m. induction l as [|z l IH]; intros [|n] [|m] H; try reflexivity; [congruence|]. cbn. apply IH. congruence. Qed.
Lemma load_upd m a b c : a <> b -> load (upd m b c) a = load m a.
Proof. unfold load. revert a b. induction m as [|x m IH]; intros [|a] [|b] H; try reflexivity; [congruence|]. cbn. apply IH. congruence. Qed.
Lemma load_app m c a : (a < length m)%nat -> load (m ++ [c]) a = load m a.
Proof. intros H. unfold load. now rewrite app_nth1. Qed.
Lemma load_new m c : load (m ++ [c]) (length m) = c.
Proof. unfold load. rewrite app_nth2, Nat.sub_diag; auto. Qed.
Lemma nth_snoc {A} (l : list A) x n y : nth_error (l ++ [x]) n = Some y -> nth_error l n = Some y \/ n = length l /\ y = x.
Proof.
  intros H. destruct (Nat.lt_ge_cases n (length l)) as [L|G]; [rewrite nth_error_app1 in H by auto; auto|]. rewrite nth_error_app2 in H by auto.
  destruct (n - length l)%nat as [|k] eqn:E; [injection H as <-; right; split; [lia|reflexivity]|destruct k; discriminate].
Qed.
Lemma nth_keep {A} (l : list A) x n y : nth_error l n = Some y -> nth_error (l ++ [x]) n = Some y.
Proof. intros H. rewrite nth_error_app1; [exact H|]. apply nth_error_Some. congruence. Qed.

(* values that nothing is supposed to change *)
Definition constant (o : object) : bool := match o with OStr _ _ | OTime _ | OBin true _ | OArr true _ => true | _ => false end.
(* the same value, except for the cached hash *)
Definition same (o o' : object) : Prop := match o, o' with OStr a _, OStr a' _ => a = a' | _, _ => o = o' end.
(* ops that give away the memory of the string or time i *)
Definition leaks (w : world) (i : nat) (c : op) : bool :=
  match c with
  | ReflectPtr j => Nat.eqb i j && match nth_error (objects w) i with Some (OStr _ _) | Some (OTime _) => true | _ => false end
  | _ => false
  end.

(* no one else has the memory of the value i *)
Definition sealed (w : world) (i a : nat) (o : object) : Prop :=
  nth_error (objects w) i = Some o /\ constant o = true /\ cell_of o = Some a /\ (a < length (memory w))%nat /\
  ~ In a (held w) /\ ~ In a (pointed w) /\ forall j o', nth_error (objects w) j = Some o' -> cell_of o' = Some a -> j = i.

Lemma same_cell o o' : same o o' -> cell_of o = cell_of o'.
Proof. destruct o, o'; cbn; intros H; try discriminate H; try injection H; intros; subst; reflexivity. Qed.
Lemma same_constant o o' : same o o' -> constant o = constant o'.
Proof. destruct o, o'; cbn; intros H; try discriminate H; try injection H; intros; subst; reflexivity. Qed.
Lemma same_refl o : same o o. Proof. now destruct o. Qed.

(* ---------- the elementary changes ---------- *)

Lemma sealed_cell w i a o c : sealed w i a o -> sealed (with_cell w c) i a o /\ load (memory (with_cell w c)) a = load (memory w) a.
Proof.
  intros (A & B & C & D & E & F & G). split; [|now apply load_app]. unfold sealed, with_cell. cbn [memory objects held pointed]. rewrite app_length. cbn [length].
  repeat (split; [first [assumption|lia]|]). exact G.
Qed.
Lemma sealed_object w i a o n : sealed w i a o -> cell_of n <> Some a -> sealed (with_object w n) i a o.
Proof.
  intros (A & B & C & D & E & F & G) N. unfold sealed, with_object. cbn [memory objects held pointed]. split; [now apply nth_keep|]. repeat (split; [assumption|]).
  intros j o' H Hc. apply nth_snoc in H as [H|[-> ->]]; [eauto|congruence].
Qed.
Lemma sealed_copy w i a o f c : sealed w i a o -> cell_of (f (fresh w)) = Some (fresh w) -> sealed (with_copy w f c) i a o /\ load (memory (with_copy w f c)) a = load (memory w) a.
Proof.
  intros S N. destruct (sealed_cell w i a o c S) as [S1 L]. split; [|exact L]. apply sealed_object; auto. rewrite N. destruct S as (_ & _ & _ & D & _). unfold fresh. intros [= E]. lia.
Qed.
Lemma sealed_hold w i a o b : sealed w i a o -> b <> a -> sealed (hold w b) i a o.
Proof. intros (A & B & C & D & E & F & G) N. repeat (split; [assumption|]). split; [intros [H|H]; auto|]. split; assumption. Qed.
Lemma sealed_point w i a o b : sealed w i a o -> b <> a -> sealed (point w b) i a o.
Proof. intros (A & B & C & D & E & F & G) N. repeat (split; [assumption|]). split; [intros [H|H]; auto|]. assumption. Qed.
Lemma sealed_store w i a o b c : sealed w i a o -> b <> a -> sealed (store w b c) i a o /\ load (memory (store w b c)) a = load (memory w) a.
Proof.
  intros (A & B & C & D & E & F & G) N. split; [|apply load_upd; auto]. unfold sealed, store. cbn [memory objects held pointed]. rewrite upd_length. repeat (split; [assumption|]). exact G.
Qed.
Lemma sealed_replace w i a o j old n : sealed w i a o -> nth_error (objects w) j = Some old -> j <> i -> cell_of n <> Some a -> sealed (replace w j n) i a o.
Proof.
  intros (A & B & C & D & E & F & G) Hj N Hn. unfold sealed, replace. cbn [memory objects held pointed]. rewrite upd_other by auto. repeat (split; [assumption|]).
  intros k o' H Hc. destruct (Nat.eq_dec j k) as [-> |K]; [rewrite (upd_same _ _ n _ Hj) in H; injection H as <-; congruence|]. rewrite upd_other in H by auto. eauto.
Qed.
Lemma sealed_rehash w i a h h' : sealed w i a (OStr a h) -> sealed (replace w i (OStr a h')) i a (OStr a h').
Proof.
  intros (A & B & C & D & E & F & G). unfold sealed, replace. cbn [memory objects held pointed]. split; [eapply upd_same; eauto|]. repeat (split; [assumption|]).
  intros k o' H Hc. destruct (Nat.eq_dec i k) as [-> |K]; [reflexivity|]. rewrite upd_other in H by auto. eauto.
Qed.
Lemma sealed_apart w i a o j o' b : sealed w i a o -> nth_error (objects w) j = Some o' -> cell_of o' = Some b -> j <> i -> b <> a.
Proof. intros (_ & _ & _ & _ & _ & _ & G) H C N ->. apply N. eauto. Qed.
Lemma sealed_mutable w i a o j o' b : sealed w i a o -> nth_error (objects w) j = Some o' -> cell_of o' = Some b -> constant o' = false -> j <> i /\ b <> a.
Proof. intros S H C N. assert (X : j <> i). { intros ->. destruct S as (A & B & _). congruence. } split; [exact X|]. eapply sealed_apart; eauto. Qed.
Lemma sealed_fresh w i a o : sealed w i a o -> fresh w <> a.
Proof. intros (_ & _ & _ & D & _). unfold fresh. lia. Qed.

(* ---------- one call ---------- *)

Lemma step_sealed w c w' i a o : sealed w i a o -> leaks w i c = false -> step w c = Some w' ->
  (exists o', sealed w' i a o' /\ same o o') /\ load (memory w') a = load (memory w) a.
Proof.
  intros S L H. pose proof (sealed_fresh _ _ _ _ S) as Nf.
  assert (K : forall w1, sealed w1 i a o /\ load (memory w1) a = load (memory w) a -> (exists o', sealed w1 i a o' /\ same o o') /\ load (memory w1) a = load (memory w) a).
  { intros w1 [A B]. split; [exists o; split; [exact A|apply same_refl]|exact B]. }
  assert (Hh : forall b, In b (held w ++ pointed w) -> b <> a). { intros b Hb ->. destruct S as (_ & _ & _ & _ & E & F & _). apply in_app_iff in Hb as [Hb|Hb]; auto. }
  assert (Hs : forall b, In b (held w) -> b <> a). { intros b Hb. apply Hh, in_app_iff. auto. }
  assert (Hc : forall c0, sealed (with_cell w c0) i a o /\ load (memory (with_cell w c0)) a = load (memory w) a) by (intros; now apply sealed_cell).
  destruct c; cbn [step] in H.
  - injection H as <-. apply K. destruct (Hc c) as [A B]. split; [now apply sealed_hold|exact B].
  - destruct (in_dec _ _ _) as [I|]; [|discriminate]. injection H as <-. apply K. apply sealed_store; auto.
  - injection H as <-. apply K. now apply sealed_copy.
  - injection H as <-. apply K. now apply sealed_copy.
  - injection H as <-. apply K. split; [|reflexivity]. apply sealed_object; auto. discriminate.
  - destruct (in_dec _ _ _) as [I|]; [|discriminate]. injection H as <-. apply K. destruct frozen; [now apply sealed_copy|]. split; [|reflexivity]. apply sealed_object; auto. cbn. intros [= ->]. now apply (Hs a I).
  - destruct (in_dec _ _ _) as [I|]; [|discriminate]. injection H as <-. apply K. split; [|reflexivity]. apply sealed_object; auto. cbn. intros [= ->]. now apply (Hs a I).
  - destruct (in_dec _ _ _) as [I|]; [|discriminate]. injection H as <-. apply K. now apply sealed_copy.
  - destruct (in_dec _ _ _) as [I|]; [|discriminate]. injection H as <-. apply K. split; [|reflexivity]. apply sealed_object; auto. cbn. intros [= ->]. now apply (Hs a I).
  - destruct (nth_error (objects w) i0) as [[b h|b|fr b|fr b|c|fr b]|] eqn:E; try discriminate; injection H as <-. apply K. now apply sealed_copy.
  - destruct (nth_error (objects w) i0) as [[b h|b|[] b|[] b|c|[] b]|] eqn:E; try discriminate; injection H as <-; apply K; auto.
    + destruct (sealed_mutable _ _ _ _ _ _ b S E eq_refl eq_refl) as [X Y]. destruct (Hc (load (memory w) b)) as [A B]. split; [|exact B]. eapply sealed_replace; eauto. cbn. intros [= Z]. now apply Nf.
    + destruct (sealed_mutable _ _ _ _ _ _ b S E eq_refl eq_refl) as [X Y]. split; [|reflexivity]. eapply sealed_replace; eauto. cbn. congruence.
    + destruct (sealed_mutable _ _ _ _ _ _ b S E eq_refl eq_refl) as [X Y]. split; [|reflexivity]. eapply sealed_replace; eauto. cbn. congruence.
  - destruct (nth_error (objects w) i0) as [[b h|b|[] b|[] b|c|[] b]|] eqn:E; try discriminate; injection H as <-; apply K; auto; try now apply sealed_copy.
    destruct (sealed_mutable _ _ _ _ _ _ b S E eq_refl eq_refl) as [X Y]. split; [|reflexivity]. apply sealed_object; auto. cbn. congruence.
  - destruct (nth_error (objects w) i0) as [[b h|b|fr b|fr b|c|[] b]|] eqn:E; try discriminate; injection H as <-; apply K; auto; now apply sealed_copy.
  - destruct (nth_error (objects w) i0) as [[b h|b|[] b|[] b|c|[] b]|] eqn:E; try discriminate; injection H as <-; apply K.
    + destruct (Hc (load (memory w) b)) as [A B]. split; [now apply sealed_hold|exact B].
    + destruct (sealed_mutable _ _ _ _ _ _ b S E eq_refl eq_refl) as [X Y]. split; [now apply sealed_hold|reflexivity].
    + destruct (Hc (load (memory w) b)) as [A B]. split; [now apply sealed_hold|exact B].
    + destruct (sealed_mutable _ _ _ _ _ _ b S E eq_refl eq_refl) as [X Y]. split; [now apply sealed_hold|reflexivity].
  - assert (Hl : forall o', nth_error (objects w) i0 = Some o' -> (match o' with OStr _ _ | OTime _ => True | _ => False end) -> i0 <> i).
    { intros o' E Ho ->. cbn [leaks] in L. rewrite Nat.eqb_refl, E in L. destruct o'; try contradiction; discriminate. }
    destruct (nth_error (objects w) i0) as [[b h|b|[] b|[] b|c|[] b]|] eqn:E; try discriminate; injection H as <-; apply K.
    + split; [|reflexivity]. apply sealed_point; auto. eapply sealed_apart; eauto. eapply Hl; [reflexivity|exact I].
    + split; [|reflexivity]. apply sealed_point; auto. eapply sealed_apart; eauto. eapply Hl; [reflexivity|exact I].
    + destruct (Hc (load (memory w) b)) as [A B]. split; [now apply sealed_hold|exact B].
    + destruct (sealed_mutable _ _ _ _ _ _ b S E eq_refl eq_refl) as [X Y]. split; [now apply sealed_hold|reflexivity].
    + destruct (Hc (load (memory w) b)) as [A B]. split; [now apply sealed_hold|exact B].
    + destruct (sealed_mutable _ _ _ _ _ _ b S E eq_refl eq_refl) as [X Y]. split; [now apply sealed_hold|reflexivity].
    + destruct (Hc c) as [A B]. split; [now apply sealed_point|exact B].
    + destruct (sealed_mutable _ _ _ _ _ _ b S E eq_refl eq_refl) as [X Y]. split; [now apply sealed_hold|reflexivity].
    + destruct (sealed_mutable _ _ _ _ _ _ b S E eq_refl eq_refl) as [X Y]. split; [now apply sealed_hold|reflexivity].
  - destruct (nth_error (objects w) i0) as [[b h|b|fr b|[] b|c0|[] b]|] eqn:E; try discriminate. injection H as <-. apply K. destruct (sealed_mutable _ _ _ _ _ _ b S E eq_refl eq_refl) as [X Y]. now apply sealed_store.
  - destruct (nth_error (objects w) i0) as [[b h|b|fr b|[] b|c0|[] b]|] eqn:E; try discriminate. injection H as <-. apply K. destruct (sealed_mutable _ _ _ _ _ _ b S E eq_refl eq_refl) as [X Y].
    destruct grows; [|now apply sealed_store]. destruct (Hc (load (memory w) b ++ [z])) as [A B]. split; [|exact B]. eapply sealed_replace; eauto. cbn. intros [= Z]. now apply Nf.
  - destruct (nth_error (objects w) i0) as [[b h|b|fr b|fr b|c|[] b]|] eqn:E; try discriminate; injection H as <-; try (apply K; split; [exact S|reflexivity]).
    destruct (Z.eqb h 0); [|apply K; split; [exact S|reflexivity]]. destruct (Nat.eq_dec i0 i) as [-> |N].
    + assert (Eo : o = OStr b h) by (destruct S as (A & _); congruence). subst o. assert (b = a) by (destruct S as (_ & _ & C & _); now injection C). subst b.
      split; [|reflexivity]. eexists. split; [eapply sealed_rehash; eauto|reflexivity].
    + apply K. split; [|reflexivity]. eapply sealed_replace; eauto. intros C. apply N. destruct S as (_ & _ & _ & _ & _ & _ & G). eapply G; eauto.
Qed.

(* ---------- programs ---------- *)

(* no call gives away the string or time i *)
Fixpoint tight (i : nat) (w : world) (ops : list op) : Prop :=
  match ops with
  | [] => True
  | c :: r => leaks w i c = false /\ tight i (match step w c with Some w' => w' | None => w end) r
  end.

Lemma run_sealed ops : forall w i a o, sealed w i a o -> tight i w ops ->
  exists o', sealed (run w ops) i a o' /\ same o o' /\ load (memory (run w ops)) a = load (memory w) a.
Proof.
  induction ops as [|c ops IH]; intros w i a o S T; cbn [run]; [exists o; split; [exact S|]; split; [apply same_refl|reflexivity]|].
  destruct T as [L T]. destruct (step w c) as [w'|] eqn:E; [|eauto].
  destruct (step_sealed _ _ _ _ _ _ S L E) as [(o1 & S1 & M1) L1]. destruct (IH w' i a o1 S1 T) as (o2 & S2 & M2 & L2). exists o2. split; [exact S2|]. split; [|congruence].
  destruct o, o1, o2; cbn in *; congruence.
Qed.
Lemma tight_frozen ops : forall w i a o, sealed w i a o -> (match o with OBin _ _ | OArr _ _ => True | _ => False end) -> tight i w ops.
Proof.
  induction ops as [|c ops IH]; intros w i a o S B; cbn [tight]; [exact I|].
  assert (L : leaks w i c = false). { unfold leaks. destruct c; try reflexivity. destruct S as (A & _). rewrite A. destruct o; try contradiction; apply andb_false_r. }
  split; [exact L|]. destruct (step w c) as [w'|] eqn:E; [|eauto]. destruct (step_sealed _ _ _ _ _ _ S L E) as [(o1 & S1 & M1) _]. apply (IH w' i a o1 S1). destruct o, o1; cbn in *; try contradiction; try congruence; exact I.
Qed.
Lemma sealed_content w i a o : sealed w i a o -> content w o = load (memory w) a.
Proof. intros (_ & _ & C & _). destruct o; cbn in *; congruence. Qed.

(* ---------- reachable states ---------- *)

Record good (w : world) : Prop := {
  good_cells : forall i o a, nth_error (objects w) i = Some o -> cell_of o = Some a -> (a < length (memory w))%nat;
  good_held : forall a, In a (held w) \/ In a (pointed w) -> (a < length (memory w))%nat;
  (* the memory of strings, times and frozen binaries belongs to no other value and is in no slice *)
  good_own : forall i o a, nth_error (objects w) i = Some o -> cell_of o = Some a -> (match o with OArr _ _ | OBin false _ | OStruct _ _ => False | _ => True end) ->
    ~ In a (held w) /\ forall j o', nth_error (objects w) j = Some o' -> cell_of o' = Some a -> j = i;
  (* a pointer that is no slice points to no array and no binary *)
  good_pointed : forall i o a, nth_error (objects w) i = Some o -> cell_of o = Some a -> (match o with OArr _ _ | OBin _ _ | OStruct _ _ => True | _ => False end) -> ~ In a (pointed w);
  good_apart : forall a, In a (held w) -> ~ In a (pointed w) }.

Lemma good_cell w c : good w -> good (with_cell w c).
Proof.
  intros [A B C D E]. constructor; cbn [with_cell memory objects held pointed]; auto; intros; rewrite app_length; cbn [length].
  - specialize (A _ _ _ H H0). lia.
  - specialize (B _ H). lia.
Qed.
(* a new value with new memory of its own *)
Lemma good_copy w f c : good w -> (forall a, cell_of (f a) = Some a) -> good (with_copy w f c).
Proof.
  intros [A B C D E] F. unfold with_copy, fresh.
  assert (Nh : ~ In (length (memory w)) (held w)) by (intros H; specialize (B _ (or_introl H)); lia).
  assert (Np : ~ In (length (memory w)) (pointed w)) by (intros H; specialize (B _ (or_intror H)); lia).
  constructor; cbn [with_object with_cell memory objects held pointed]; auto.
  - intros i o a H Hc. rewrite app_length. cbn [length]. apply nth_snoc in H as [H|[-> ->]]; [specialize (A _ _ _ H Hc); lia|]. rewrite F in Hc. injection Hc as <-. lia.
  - intros a H. rewrite app_length. cbn [length]. specialize (B _ H). lia.
  - intros i o a H Hc K. apply nth_snoc in H as [H|[-> ->]].
    + destruct (C _ _ _ H Hc K) as [X Y]. split; [exact X|]. intros j o' H' Hc'. apply nth_snoc in H' as [H'|[-> ->]]; [eauto|]. rewrite F in Hc'. injection Hc' as <-. specialize (A _ _ _ H Hc). lia.
    + rewrite F in Hc. injection Hc as <-. split; [exact Nh|]. intros j o' H' Hc'. apply nth_snoc in H' as [H'|[-> ->]]; [specialize (A _ _ _ H' Hc'); lia|reflexivity].
  - intros i o a H Hc K. apply nth_snoc in H as [H|[-> ->]]; [eauto|]. rewrite F in Hc. now injection Hc as <-.
Qed.
(* an array or an unfrozen binary with a slice that Go code holds *)
Lemma good_wrap w n a : good w -> In a (held w) -> cell_of n = Some a -> (match n with OArr _ _ | OBin false _ | OStruct _ _ => True | _ => False end) -> good (with_object w n).
Proof.
  intros [A B C D E] Hh Fn Kn. constructor; cbn [with_object memory objects held pointed]; auto.
  - intros i o b H Hc. apply nth_snoc in H as [H|[-> ->]]; [eauto|]. assert (b = a) by congruence. subst. auto.
  - intros i o b H Hc K. apply nth_snoc in H as [H|[-> ->]]; [|exfalso; destruct n as [ | |[]| | | ]; contradiction].
    destruct (C _ _ _ H Hc K) as [X Y]. split; [exact X|]. intros j o' H' Hc'. apply nth_snoc in H' as [H'|[-> ->]]; [eauto|]. assert (b = a) by congruence. subst. contradiction.
  - intros i o b H Hc K. apply nth_snoc in H as [H|[-> ->]]; [eauto|]. assert (b = a) by congruence. subst. auto.
Qed.
(* another struct with the same slice *)
Lemma good_share w n i a fr : good w -> nth_error (objects w) i = Some (OStruct fr a) -> n = OStruct true a -> good (with_object w n).
Proof.
  intros [A B C D E] Hi ->. constructor; cbn [with_object memory objects held pointed]; auto.
  - intros j o b H Hc. apply nth_snoc in H as [H|[-> ->]]; [eauto|]. injection Hc as <-. exact (A _ _ _ Hi eq_refl).
  - intros j o b H Hc K. apply nth_snoc in H as [H|[-> ->]]; [|contradiction].
    destruct (C _ _ _ H Hc K) as [X Y]. split; [exact X|]. intros k o' H' Hc'. apply nth_snoc in H' as [H'|[-> ->]]; [eauto|]. injection Hc' as <-.
    pose proof (Y _ _ Hi eq_refl) as Eij. subst j. rewrite Hi in H. injection H as <-. contradiction.
  - intros j o b H Hc K. apply nth_snoc in H as [H|[-> ->]]; [eauto|]. injection Hc as <-. exact (D _ _ _ Hi eq_refl I).
Qed.
Lemma good_hold w a : good w -> (a < length (memory w))%nat -> ~ In a (pointed w) ->
  (forall i o, nth_error (objects w) i = Some o -> cell_of o = Some a -> match o with OArr _ _ | OBin false _ | OStruct _ _ => True | _ => False end) -> good (hold w a).
Proof.
  intros [A B C D E] L Np Ow. constructor; cbn [hold memory objects held pointed]; auto.
  - intros b [[-> |H]|H]; auto.
  - intros i o b H Hc K. destruct (C _ _ _ H Hc K) as [X Y]. split; [|exact Y]. intros [-> |Hb]; [|auto]. specialize (Ow _ _ H Hc). destruct o as [ | |[]| | | ]; contradiction.
  - intros b [-> |H]; auto.
Qed.
Lemma good_point w a : good w -> (a < length (memory w))%nat -> ~ In a (held w) ->
  (forall i o, nth_error (objects w) i = Some o -> cell_of o = Some a -> match o with OArr _ _ | OBin _ _ | OStruct _ _ => False | _ => True end) -> good (point w a).
Proof.
  intros [A B C D E] L Nh Ow. constructor; cbn [point memory objects held pointed]; auto.
  - intros b [H|[-> |H]]; auto.
  - intros i o b H Hc K [-> |Hb]; [specialize (Ow _ _ H Hc); destruct o; contradiction|]. now apply (D _ _ _ H Hc K).
  - intros b H [-> |Hb]; [auto|]. now apply (E b).
Qed.
Lemma good_store w a c : good w -> good (store w a c).
Proof. intros [A B C D E]. constructor; cbn [store memory objects held pointed]; auto; intros; rewrite upd_length; eauto. Qed.
Lemma good_plain w c : good w -> good (with_object w (OPlain c)).
Proof.
  intros [A B C D E]. constructor; cbn [with_object memory objects held pointed]; auto.
  - intros i o a H Hc. apply nth_snoc in H as [H|[-> ->]]; [eauto|discriminate].
  - intros i o a H Hc K. apply nth_snoc in H as [H|[-> ->]]; [|discriminate]. destruct (C _ _ _ H Hc K) as [X Y]. split; [exact X|]. intros j o' H' Hc'. apply nth_snoc in H' as [H'|[-> ->]]; [eauto|discriminate].
  - intros i o a H Hc K. apply nth_snoc in H as [H|[-> ->]]; [eauto|discriminate].
Qed.
(* a value gets new memory, with a copy *)
Lemma good_move w i old f c : good w -> nth_error (objects w) i = Some old -> (forall a, cell_of (f a) = Some a) -> good (replace (with_cell w c) i (f (fresh w))).
Proof.
  intros [A B C D E] Hi F. unfold fresh.
  assert (Nh : ~ In (length (memory w)) (held w)) by (intros H; specialize (B _ (or_introl H)); lia).
  assert (Np : ~ In (length (memory w)) (pointed w)) by (intros H; specialize (B _ (or_intror H)); lia).
  assert (G : forall j o, nth_error (upd (objects w) i (f (length (memory w)))) j = Some o -> (j = i /\ o = f (length (memory w))) \/ (j <> i /\ nth_error (objects w) j = Some o)).
  { intros j o H. destruct (Nat.eq_dec i j) as [<- |N]; [rewrite (upd_same _ _ _ _ Hi) in H; injection H as <-; auto|]. rewrite upd_other in H by auto. auto. }
  constructor; cbn [replace with_cell memory objects held pointed]; auto.
  - intros j o a H Hc. rewrite app_length. cbn [length]. apply G in H as [[-> ->]|[N H]]; [rewrite F in Hc; injection Hc as <-; lia|specialize (A _ _ _ H Hc); lia].
  - intros a H. rewrite app_length. cbn [length]. specialize (B _ H). lia.
  - intros j o a H Hc K. apply G in H as [[-> ->]|[N H]].
    + rewrite F in Hc. injection Hc as <-. split; [exact Nh|]. intros k o' H' Hc'. apply G in H' as [[-> ->]|[N' H']]; [reflexivity|]. specialize (A _ _ _ H' Hc'). lia.
    + destruct (C _ _ _ H Hc K) as [X Y]. split; [exact X|]. intros k o' H' Hc'. apply G in H' as [[-> ->]|[N' H']]; [|eauto]. rewrite F in Hc'. injection Hc' as <-. specialize (A _ _ _ H Hc). lia.
  - intros j o a H Hc K. apply G in H as [[-> ->]|[N H]]; [rewrite F in Hc; now injection Hc as <-|eauto].
Qed.
(* the cell and the kind remain *)
Lemma good_keep w i old n : good w -> nth_error (objects w) i = Some old -> cell_of n = cell_of old ->
  (match old, n with OStr _ _, OStr _ _ | OArr _ _, OArr _ _ | OStruct _ _, OStruct _ _ => True | _, _ => False end) -> good (replace w i n).
Proof.
  intros [A B C D E] Hi F K0.
  assert (G : forall j o, nth_error (upd (objects w) i n) j = Some o -> exists o0, nth_error (objects w) j = Some o0 /\ cell_of o0 = cell_of o /\ (o0 = o \/ o0 = old /\ o = n)).
  { intros j o H. destruct (Nat.eq_dec i j) as [<- |N]; [rewrite (upd_same _ _ _ _ Hi) in H; injection H as <-; exists old; auto|]. rewrite upd_other in H by auto. exists o. auto. }
  constructor; cbn [replace memory objects held pointed]; auto.
  - intros j o a H Hc. destruct (G _ _ H) as (o0 & H0 & E0 & _). apply (A _ _ _ H0). congruence.
  - intros j o a H Hc K. destruct (G _ _ H) as (o0 & H0 & E0 & R). destruct (C j o0 a H0) as [X Y]; [congruence|destruct R as [-> |[-> ->]]; [exact K|destruct old, n; try contradiction; exact K]|].
    split; [exact X|]. intros k o' H' Hc'. destruct (G _ _ H') as (o1 & H1 & E1 & _). apply (Y k o1 H1). congruence.
  - intros j o a H Hc K. destruct (G _ _ H) as (o0 & H0 & E0 & R). apply (D j o0 a H0); [congruence|]. destruct R as [-> |[-> ->]]; [exact K|destruct old, n; try contradiction; exact K].
Qed.

Lemma step_good w c w' : good w -> step w c = Some w' -> good w'.
Proof.
  intros G H.
  assert (Hn : forall c0, good (hold (with_cell w c0) (fresh w))).
  { intros c0. apply good_hold; [now apply good_cell| | |].
    - cbn. rewrite app_length. cbn. unfold fresh. lia.
    - cbn. intros Hp. pose proof (good_held w G _ (or_intror Hp)). unfold fresh in *. lia.
    - cbn. intros i o Hi Hc. pose proof (good_cells w G _ _ _ Hi Hc). unfold fresh in *. lia. }
  assert (Hp : forall c0, good (point (with_cell w c0) (fresh w))).
  { intros c0. apply good_point; [now apply good_cell| | |].
    - cbn. rewrite app_length. cbn. unfold fresh. lia.
    - cbn. intros Hh. pose proof (good_held w G _ (or_introl Hh)). unfold fresh in *. lia.
    - cbn. intros i o Hi Hc. pose proof (good_cells w G _ _ _ Hi Hc). unfold fresh in *. lia. }
  assert (Hm : forall i o a, nth_error (objects w) i = Some o -> cell_of o = Some a -> (match o with OArr false _ | OBin false _ | OStruct _ _ => True | _ => False end) -> good (hold w a)).
  { intros i o a Hi Hc K. apply good_hold; auto.
    - eapply good_cells; eauto.
    - eapply good_pointed; eauto. destruct o as [ | |[]|[]| |[]]; auto.
    - intros j o' Hj Hc'. destruct (match o' with OArr _ _ | OBin false _ | OStruct _ _ => true | _ => false end) eqn:Eo; [destruct o' as [ | |[]| | | ]; auto; discriminate|]. exfalso.
      destruct (good_own w G j o' a Hj Hc') as [_ Y]; [destruct o' as [ | |[]| | | ]; auto; discriminate|]. pose proof (Y _ _ Hi Hc) as Eij. subst j. rewrite Hi in Hj. injection Hj as <-. destruct o as [ | |[]|[]| |[]]; try contradiction; discriminate. }
  assert (Hq : forall i o a, nth_error (objects w) i = Some o -> cell_of o = Some a -> (match o with OStr _ _ | OTime _ => True | _ => False end) -> good (point w a)).
  { intros i o a Hi Hc K. destruct (good_own w G i o a Hi Hc) as [X Y]; [destruct o; try contradiction; exact I|]. apply good_point; auto.
    - eapply good_cells; eauto.
    - intros j o' Hj Hc'. pose proof (Y _ _ Hj Hc') as Eij. subst j. rewrite Hi in Hj. injection Hj as <-. destruct o; try contradiction; exact I. }
  destruct c; cbn [step] in H.
  - injection H as <-. apply Hn.
  - destruct (in_dec _ _ _); [|discriminate]. injection H as <-. now apply good_store.
  - injection H as <-. now apply good_copy.
  - injection H as <-. now apply good_copy.
  - injection H as <-. now apply good_plain.
  - destruct (in_dec _ _ _); [|discriminate]. injection H as <-. destruct frozen; [now apply good_copy|]. eapply good_wrap; eauto; try reflexivity; try exact I.
  - destruct (in_dec _ _ _); [|discriminate]. injection H as <-. eapply good_wrap; eauto; try reflexivity; try exact I.
  - destruct (in_dec _ _ _); [|discriminate]. injection H as <-. now apply good_copy.
  - destruct (in_dec _ _ _); [|discriminate]. injection H as <-. eapply good_wrap; eauto; try reflexivity; try exact I.
  - destruct (nth_error (objects w) i) as [[b h|b|fr b|fr b|c|fr b]|] eqn:E; try discriminate; injection H as <-. now apply good_copy.
  - destruct (nth_error (objects w) i) as [[b h|b|[] b|[] b|c|[] b]|] eqn:E; try discriminate; injection H as <-; auto; first [eapply (good_move w i _ (OBin true)); now eauto|eapply good_keep; eauto; try reflexivity; try exact I].
  - destruct (nth_error (objects w) i) as [[b h|b|[] b|[] b|c|[] b]|] eqn:E; try discriminate; injection H as <-; auto; first [eapply good_share; now eauto|now apply good_copy].
  - destruct (nth_error (objects w) i) as [[b h|b|fr b|fr b|c|[] b]|] eqn:E; try discriminate; injection H as <-; auto; now apply good_copy.
  - destruct (nth_error (objects w) i) as [[b h|b|[] b|[] b|c|[] b]|] eqn:E; try discriminate; injection H as <-; auto; (eapply Hm; eauto; try reflexivity; try exact I).
  - destruct (nth_error (objects w) i) as [[b h|b|[] b|[] b|c|[] b]|] eqn:E; try discriminate; injection H as <-; auto; first [eapply Hq; eauto; try reflexivity; try exact I|eapply Hm; eauto; try reflexivity; try exact I].
  - destruct (nth_error (objects w) i) as [[b h|b|fr b|[] b|c0|[] b]|] eqn:E; try discriminate. injection H as <-. now apply good_store.
  - destruct (nth_error (objects w) i) as [[b h|b|fr b|[] b|c0|[] b]|] eqn:E; try discriminate. injection H as <-. destruct grows; [eapply (good_move w i _ (OArr false)); eauto|now apply good_store].
  - destruct (nth_error (objects w) i) as [[b h|b|fr b|fr b|c|[] b]|] eqn:E; try discriminate; injection H as <-; auto. destruct (Z.eqb h 0); auto. eapply good_keep; eauto; try reflexivity; try exact I.
Qed.
Lemma start_good : good start.
Proof. constructor; cbn; intros; try tauto; destruct i; discriminate. Qed.
Lemma run_good ops : forall w, good w -> good (run w ops).
Proof. induction ops as [|c ops IH]; intros w G; cbn [run]; [exact G|]. apply IH. destruct (step w c) eqn:E; [eapply step_good; eauto|exact G]. Qed.
Lemma run_app ops ops' : forall w, run w (ops ++ ops') = run (run w ops) ops'.
Proof. induction ops as [|c ops IH]; intros w; cbn; auto. Qed.

Lemma keep_content w ops i a o : sealed w i a o -> tight i w ops -> exists o', nth_error (objects (run w ops)) i = Some o' /\ same o o' /\ content (run w ops) o' = content w o.
Proof.
  intros S T. destruct (run_sealed ops w i a o S T) as (o' & S' & M & L). exists o'. split; [apply S'|]. split; [exact M|]. rewrite (sealed_content _ _ _ _ S'), (sealed_content _ _ _ _ S). exact L.
Qed.

(* ---------- frozen binaries ---------- *)

Theorem binary_final before after i a : nth_error (objects (run start before)) i = Some (OBin true a) ->
  nth_error (objects (run start (before ++ after))) i = Some (OBin true a) /\ content (run start (before ++ after)) (OBin true a) = content (run start before) (OBin true a).
Proof.
  intros H. set (w := run start before) in *. pose proof (run_good before start start_good) as G. fold w in G.
  assert (S : sealed w i a (OBin true a)).
  { destruct (good_own w G i _ a H eq_refl I) as [X Y]. split; [exact H|]. split; [reflexivity|]. split; [reflexivity|]. split; [eapply good_cells; eauto; reflexivity|]. split; [exact X|]. split; [eapply good_pointed; eauto; try reflexivity; try exact I|exact Y]. }
  rewrite run_app. fold w. destruct (keep_content w after i a _ S) as (o' & H' & M & C); [eapply tight_frozen; eauto; exact I|]. cbn in M. subst o'. auto.
Qed.

(* ---------- frozen copies of arrays ---------- *)

Lemma copy_sealed w f c : good w -> (forall a, cell_of (f a) = Some a) -> constant (f (fresh w)) = true -> sealed (with_copy w f c) (length (objects w)) (fresh w) (f (fresh w)).
Proof.
  intros G F K. unfold sealed, with_copy. cbn [with_object with_cell memory objects held pointed].
  split; [rewrite nth_error_app2, Nat.sub_diag by auto; reflexivity|]. split; [exact K|]. split; [apply F|]. split; [rewrite app_length; cbn; unfold fresh; lia|].
  split; [intros H; pose proof (good_held w G _ (or_introl H)); unfold fresh in *; lia|]. split; [intros H; pose proof (good_held w G _ (or_intror H)); unfold fresh in *; lia|].
  intros j o' H Hc. apply nth_snoc in H as [H|[-> _]]; [|reflexivity]. pose proof (good_cells w G _ _ _ H Hc). unfold fresh in *. lia.
Qed.
Lemma copy_final w f c after : good w -> (forall a, cell_of (f a) = Some a) -> (match f (fresh w) with OBin true _ | OArr true _ => True | _ => False end) ->
  exists o', nth_error (objects (run (with_copy w f c) after)) (length (objects w)) = Some o' /\ same (f (fresh w)) o' /\ content (run (with_copy w f c) after) o' = c.
Proof.
  intros G F K. assert (S := copy_sealed w f c G F). destruct (keep_content (with_copy w f c) after _ _ _ (S ltac:(destruct (f (fresh w)) as [ | |[]|[]| |[]]; try contradiction; reflexivity))) as (o' & H & M & C).
  - eapply tight_frozen; [apply S; destruct (f (fresh w)) as [ | |[]|[]| |[]]; try contradiction; reflexivity|destruct (f (fresh w)); try contradiction; exact I].
  - exists o'. split; [exact H|]. split; [exact M|]. rewrite C. assert (E : content (with_copy w f c) (f (fresh w)) = load (memory (with_copy w f c)) (fresh w)).
    { pose proof (F (fresh w)) as Fa. destruct (f (fresh w)); cbn in *; congruence. } rewrite E. apply load_new.
Qed.
Theorem frozen_copy_final before after i a : nth_error (objects (run start before)) i = Some (OArr false a) ->
  let w := run start before in let w' := run start (before ++ FrozenCopy i :: after) in
  exists b, nth_error (objects w') (length (objects w)) = Some (OArr true b) /\ content w' (OArr true b) = content w (OArr false a).
Proof.
  intros H w w'. subst w'. rewrite run_app. fold w. fold w in H. cbn [run step]. rewrite H.
  destruct (copy_final w (OArr true) (load (memory w) a) after (run_good before start start_good)) as (o' & A & M & C); [reflexivity|exact I|]. cbn in M. subst o'. exists (fresh w). auto.
Qed.
Theorem array_of_slice_final before after a : In a (held (run start before)) ->
  let w := run start before in let w' := run start (before ++ NewArray a :: after) in
  exists b, nth_error (objects w') (length (objects w)) = Some (OArr true b) /\ content w' (OArr true b) = load (memory w) a.
Proof.
  intros H w w'. subst w'. rewrite run_app. fold w. fold w in H. cbn [run step]. destruct (in_dec _ _ _); [|contradiction].
  destruct (copy_final w (OArr true) (load (memory w) a) after (run_good before start start_good)) as (o' & A & M & C); [reflexivity|exact I|]. cbn in M. subst o'. exists (fresh w). auto.
Qed.

(* ---------- strings and times ---------- *)

Lemma unpointed_tight i ops : Forall (unpointed i) ops -> forall w, tight i w ops.
Proof.
  intros H. induction H as [|c ops U H IH]; intros w; cbn [tight]; [exact I|]. split; [|apply IH]. destruct c; try reflexivity. cbn in *. destruct (Nat.eqb_spec i i0); [congruence|reflexivity].
Qed.

(* a string with its hash *)
Definition hashed (w : world) (i a : nat) : Prop := exists h, sealed w i a (OStr a h) /\ (h = 0%Z \/ h = string_hash (load (memory w) a)).
Lemma step_hashed w c i a w' : hashed w i a -> leaks w i c = false -> step w c = Some w' -> hashed w' i a /\ load (memory w') a = load (memory w) a.
Proof.
  intros (h & S & Hh) L E. destruct (step_sealed _ _ _ _ _ _ S L E) as [(o' & S' & M) Lo]. split; [|exact Lo].
  destruct o' as [b h'| | | | | ]; cbn in M; try discriminate M. subst b. exists h'. split; [exact S'|]. rewrite Lo.
  (* only HashCode changes the cached hash *)
  assert (N : h' = h \/ h' = string_hash (load (memory w) a)).
  { pose proof S as (Hi & _ & _ & _). pose proof S' as (Hi' & _ & _ & _).
    assert (Keep : forall (l : list object) n x, l = objects w -> n <> i -> nth_error (upd l n x) i = Some (OStr a h') -> h' = h) by (intros l n x -> Hn Hx; rewrite upd_other in Hx by auto; congruence).
    assert (App : forall x, nth_error (objects w ++ [x]) i = Some (OStr a h') -> h' = h) by (intros x Hx; rewrite (nth_keep _ _ _ _ Hi) in Hx; congruence).
    assert (Mut : forall j o0, nth_error (objects w) j = Some o0 -> (match o0 with OStr _ _ => False | _ => True end) -> j <> i) by (intros j o0 Hj Ho ->; rewrite Hi in Hj; injection Hj as <-; exact Ho).
    destruct c; cbn [step] in E;
      repeat match type of E with
      | (if in_dec ?d ?x ?y then _ else _) = _ => destruct (in_dec d x y); [|discriminate]
      | match nth_error (objects w) ?j with _ => _ end = _ => let Ej := fresh "Ej" in destruct (nth_error (objects w) j) as [[b0 h0|b0|[] b0|[] b0|c0|[] b0]|] eqn:Ej; try discriminate
      end; injection E as <-; cbn [hold point with_cell with_object with_copy store replace objects] in Hi'; try (left; congruence); try (left; eapply App; eassumption).
    - destruct frozen; cbn [with_cell with_object with_copy objects] in Hi'; left; eapply App; exact Hi'.
    - left. eapply Keep; [reflexivity| |exact Hi']. eapply Mut; eauto. exact I.
    - left. eapply Keep; [reflexivity| |exact Hi']. eapply Mut; eauto. exact I.
    - left. eapply Keep; [reflexivity| |exact Hi']. eapply Mut; eauto. exact I.
    - destruct grows; cbn [replace store with_cell objects] in Hi'; [left; eapply Keep; [reflexivity| |exact Hi']; eapply Mut; eauto; exact I|left; congruence].
    - destruct (Z.eqb h0 0); [|left; congruence]. cbn [replace objects] in Hi'. destruct (Nat.eq_dec i0 i) as [-> |Ni]; [|left; eapply Keep; eauto].
      rewrite (upd_same _ _ _ _ Ej) in Hi'. injection Hi' as Eb Eh. subst b0. right. congruence. }
  destruct N as [-> | ->]; auto.
Qed.
Lemma run_hashed ops : forall w i a, hashed w i a -> tight i w ops -> hashed (run w ops) i a /\ load (memory (run w ops)) a = load (memory w) a.
Proof.
  induction ops as [|c ops IH]; intros w i a H T; cbn [run]; [auto|]. destruct T as [L T]. destruct (step w c) as [w'|] eqn:E; [|auto].
  destruct (step_hashed _ _ _ _ _ H L E) as [H' Lo]. destruct (IH w' i a H' T) as [A B]. split; [exact A|congruence].
Qed.
Theorem string_final before s after : let i := length (objects (run start before)) in Forall (unpointed i) after ->
  let w' := run start (before ++ NewString s :: after) in
  exists o, nth_error (objects w') i = Some o /\ content w' o = s /\ hash_of w' i = Some (string_hash s).
Proof.
  intros i U w'. subst w'. rewrite run_app. cbn [run step]. set (w := run start before) in *.
  assert (S := copy_sealed w (fun a => OStr a 0) s (run_good before start start_good) (fun a => eq_refl) eq_refl). fold i in S.
  assert (H0 : hashed (with_copy w (fun a => OStr a 0%Z) s) i (fresh w)) by (exists 0%Z; auto).
  destruct (run_hashed after _ _ _ H0 (unpointed_tight i after U _)) as [(h & Sh & Hh) L]. pose proof (load_new (memory w) s) as Ln. change (load (memory (with_copy w (fun a => OStr a 0%Z) s)) (fresh w) = s) in Ln.
  rewrite Ln in L. exists (OStr (fresh w) h). split; [apply Sh|]. split; [exact L|]. unfold hash_of. destruct Sh as (Hi & _). rewrite Hi, L. rewrite L in Hh. destruct Hh as [-> | ->]; [reflexivity|]. destruct (Z.eqb _ _); reflexivity.
Qed.
Theorem time_final before c after : let i := length (objects (run start before)) in Forall (unpointed i) after ->
  let w' := run start (before ++ NewTime c :: after) in
  exists o, nth_error (objects w') i = Some o /\ content w' o = c.
Proof.
  intros i U w'. subst w'. rewrite run_app. cbn [run step]. set (w := run start before) in *.
  assert (S := copy_sealed w OTime c (run_good before start start_good) (fun a => eq_refl) eq_refl). fold i in S.
  destruct (keep_content _ after _ _ _ S (unpointed_tight i after U _)) as (o' & H & M & C). exists o'. split; [exact H|]. rewrite C. apply (load_new (memory w) c).
Qed.
