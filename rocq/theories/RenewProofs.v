(* The type that is read back is equal to the type that was written, and is written in the same way. *)
From Coq Require Import Strings.Ascii Strings.String.
From Coq Require Import ZArith List Bool Lia.
From Coq Require Import Floats.SpecFloat.
From Verif Require Import Int64 Arr Data DataProofs Types TypesSpec InstProofs Construct ReflProofs Print Lexer Syntax SyntaxSpec SyntaxProofs CoreProofs.
Import ListNotations.
Open Scope Z_scope.

(* ---------- same_values ---------- *)

Section Same.
Context {A : Type} (f : A -> A -> bool) (g : A -> A).
Notation og := (option_map g).
Lemma strike_left x vs : (forall a b, f a (g b) = f a b) -> strike A f (g x) vs = strike A f x vs.
Proof. intros H. induction vs as [|[v|] vs IH]; [reflexivity| |]; cbn [strike]; rewrite IH; [now rewrite H|reflexivity]. Qed.
Lemma strike_right x vs : (forall a b, f (g a) b = f a b) -> strike A f x (map og vs) = option_map (map og) (strike A f x vs).
Proof.
  intros H. induction vs as [|[v|] vs IH]; [reflexivity| |]; cbn [strike map option_map]; rewrite IH; [rewrite H; destruct (f v x); [reflexivity|]|]; destruct (strike A f x vs); reflexivity.
Qed.
Lemma contains_left n : (forall a b, f a (g b) = f a b) -> forall l vs, contains_loop A f n (map g l) vs = contains_loop A f n l vs.
Proof. intros H. induction n as [|n IH]; intros l vs; [reflexivity|]. destruct l as [|x l]; [reflexivity|]. cbn [contains_loop map]. rewrite strike_left by exact H. destruct (strike A f x vs); [apply IH|reflexivity]. Qed.
Lemma contains_right n : (forall a b, f (g a) b = f a b) -> forall l vs, contains_loop A f n l (map og vs) = contains_loop A f n l vs.
Proof. intros H. induction n as [|n IH]; intros l vs; [reflexivity|]. destruct l as [|x l]; [reflexivity|]. cbn [contains_loop]. rewrite strike_right by exact H. destruct (strike A f x vs); cbn [option_map]; [apply IH|reflexivity]. Qed.
Lemma same_left l l' : (forall a b, f a (g b) = f a b) -> same_values A f (map g l) l' = same_values A f l l'.
Proof. intros H. unfold same_values, contains_all. rewrite map_length. destruct l as [|x l]; [reflexivity|]. cbn [map]. rewrite <- (contains_left _ H (x :: l)). reflexivity. Qed.
Lemma same_right l l' : (forall a b, f (g a) b = f a b) -> same_values A f l (map g l') = same_values A f l l'.
Proof.
  intros H. unfold same_values, contains_all. rewrite !map_length. rewrite <- (contains_right _ H l (map Some l')). rewrite !map_map. reflexivity.
Qed.
Lemma pairwise_left {B} (h : A -> B -> bool) l : (forall a b, h (g a) b = h a b) -> forall l', pairwise h (map g l) l' = pairwise h l l'.
Proof. intros H. induction l as [|x l IH]; intros [|y l']; try reflexivity. cbn [map pairwise]. now rewrite H, IH. Qed.
Lemma pairwise_right {B} (h : B -> A -> bool) l' : (forall a b, h a (g b) = h a b) -> forall l, pairwise h l (map g l') = pairwise h l l'.
Proof. intros H. induction l' as [|y l' IH]; intros [|x l]; try reflexivity. cbn [map pairwise]. now rewrite H, IH. Qed.
End Same.

(* ---------- equality ---------- *)

Definition renewed_entry (e : value * ty * bool) : value * ty * bool := (fst (fst e), renewed (snd (fst e)), snd e).
Lemma renewed_struct p a es : renewed (TStruct p a es) = TStruct 0%nat a (map renewed_entry es). Proof. reflexivity. Qed.
Lemma one_any ts : Nat.eqb (length ts) 1 && forallb is_any ts = true -> ts = [TAny].
Proof. destruct ts as [|t [|u ts]]; cbn; try discriminate. destruct t; try discriminate. reflexivity. Qed.
Lemma renewed_tuple p ts b : exists q, renewed (TTuple p ts b) = TTuple q (map renewed ts) b.
Proof.
  cbn [renewed]. destruct b; cbn [andb]; [|eauto]. destruct (_ && _) eqn:X; [|eauto]. apply one_any in X as ->. exists 1%nat. reflexivity.
Qed.
Lemma renewed_sens p t : exists q, renewed (TSens p t) = TSens q (renewed t).
Proof. cbn [renewed]. destruct (is_any t) eqn:X; [|eauto]. destruct t; try discriminate. exists 3%nat. reflexivity. Qed.

Lemma teqn_renewed n : (forall a b, teqn n (renewed a) b = teqn n a b) /\ (forall a b, teqn n a (renewed b) = teqn n a b).
Proof.
  induction n as [|n [IHl IHr]]; [split; reflexivity|].
  assert (Ms : forall es : list (value * ty * bool), map snd (map renewed_entry es) = map snd es) by (intros es; rewrite map_map; reflexivity).
  split.
  - intros a b. destruct a as [ | | | |x y i| |x y i| | |x y|s|s|x y| | |p w|p t| |p e x y|p ts v| |p kt vt x y|p a es|p ts|p vs|p ts|p ts|p t|[t|]]; try reflexivity.
    + destruct (renewed_sens p t) as [q ->]. destruct b; try reflexivity. apply IHl.
    + destruct b; try reflexivity. cbn [renewed teqn]. now rewrite IHl.
    + destruct (renewed_tuple p ts v) as [q ->]. destruct b as [ | | | |x' y' i'| |x' y' i'| | |x' y'|s'|s'|x' y'| | |p' w'|p' t'| |p' e' x' y'|p' ts' v'| |p' kt' vt' x' y'|p' a' es'|p' ts'|p' vs'|p' ts'|p' ts'|p' t'|t']; try reflexivity.
      * destruct w'; try reflexivity. cbn [teqn]. now rewrite pairwise_left.
      * cbn [teqn]. now rewrite pairwise_left.
    + destruct b; try reflexivity. cbn [renewed teqn]. now rewrite !IHl.
    + rewrite renewed_struct. destruct b; try reflexivity. cbn [teqn]. rewrite Ms, !pairwise_left; auto. intros e e'. apply IHl.
    + destruct b; try reflexivity; cbn [renewed teqn]; now rewrite same_left.
    + destruct b; try reflexivity; cbn [renewed teqn]; now rewrite same_left.
    + destruct b; try reflexivity; cbn [renewed teqn]; now rewrite same_left.
    + destruct b; try reflexivity. cbn [renewed teqn]. apply IHl.
    + destruct b as [ | | | |x' y' i'| |x' y' i'| | |x' y'|s'|s'|x' y'| | |p' w'|p' t'| |p' e' x' y'|p' ts' v'| |p' kt' vt' x' y'|p' a' es'|p' ts'|p' vs'|p' ts'|p' ts'|p' t'|[t'|]]; try reflexivity. cbn [renewed teqn]. apply IHl.
  - intros a b. destruct b as [ | | | |x y i| |x y i| | |x y|s|s|x y| | |p w|p t| |p e x y|p ts v| |p kt vt x y|p b es|p ts|p vs|p ts|p ts|p t|[t|]]; try reflexivity.
    + destruct (renewed_sens p t) as [q ->]. destruct a; try reflexivity. apply IHr.
    + destruct a; try reflexivity. cbn [renewed teqn]. now rewrite IHr.
    + destruct (renewed_tuple p ts v) as [q ->]. destruct a; try reflexivity. cbn [teqn]. now rewrite pairwise_right.
    + destruct a; try reflexivity. cbn [renewed teqn]. now rewrite !IHr.
    + rewrite renewed_struct. destruct a; try reflexivity. cbn [teqn]. rewrite Ms, !pairwise_right; auto. intros e e'. apply IHr.
    + destruct a; try reflexivity; cbn [renewed teqn]; [now rewrite same_right|now rewrite same_left].
    + destruct a; try reflexivity; cbn [renewed teqn]; now rewrite same_right.
    + destruct a; try reflexivity; cbn [renewed teqn]; now rewrite same_right.
    + destruct a; try reflexivity. cbn [renewed teqn]. apply IHr.
    + destruct a as [ | | | |x' y' i'| |x' y' i'| | |x' y'|s'|s'|x' y'| | |p' w'|p' t'| |p' e' x' y'|p' ts' v'| |p' kt' vt' x' y'|p' a' es'|p' ts'|p' vs'|p' ts'|p' ts'|p' t'|[t'|]]; try reflexivity. cbn [renewed teqn]. apply IHr.
Qed.
Theorem renewed_equal t : type_ok t -> type_eq t (renewed t) = true.
Proof. intros H. unfold type_eq. rewrite (proj2 (teqn_renewed _)). apply teqn_refl; [exact H|lia]. Qed.

(* ---------- text ---------- *)

Lemma text_renewed (E : env) t : forall prio, type_text E prio (renewed t) = type_text E prio t.
Proof.
  unfold type_text. induction t as [ | | | |x y i| |x y i| | |x y|s|s|x y| | |p v|p t IHt| |p e x y IHe|p ts b IHts| |p k v x y IHk IHv|p a es IHes|p ts IHts|p vs|p ts IHts|p ts IHts|p t IHt| |t IHt] using ty_ind'; intros prio; try reflexivity.
  - destruct (renewed_sens p t) as [q ->]. cbn [type_text_with]. now rewrite renewed_any, IHt.
  - cbn [renewed type_text_with]. now rewrite IHe.
  - destruct (renewed_tuple p ts b) as [q ->]. cbn [type_text_with]. f_equal. rewrite map_map. apply map_ext_in. rewrite Forall_forall in IHts. auto.
  - cbn [renewed type_text_with]. now rewrite IHk, IHv.
  - rewrite renewed_struct. cbn [type_text_with]. rewrite map_map. f_equal. f_equal; [|destruct es; reflexivity]. f_equal. apply map_ext_in. rewrite Forall_forall in IHes. intros e He. cbn [renewed_entry fst snd]. now rewrite IHes.
  - cbn [renewed type_text_with]. rewrite map_map. f_equal. apply map_ext_in. rewrite Forall_forall in IHts. auto.
  - cbn [renewed type_text_with]. rewrite map_map. f_equal. apply map_ext_in. rewrite Forall_forall in IHts. auto.
  - cbn [renewed type_text_with]. rewrite map_map. f_equal. apply map_ext_in. rewrite Forall_forall in IHts. auto.
  - cbn [renewed type_text_with]. now rewrite IHt.
  - cbn [renewed type_text_with]. now rewrite renewed_any, IHt.
Qed.

Theorem round_trip E t : readable E t -> type_ok t -> exists t', parse_type E (type_string E t) = POk t' LEnd /\ type_eq t t' = true /\ type_string E t' = type_string E t.
Proof. intros R K. exists (renewed t). repeat split; [now apply type_read|now apply renewed_equal|apply text_renewed]. Qed.
