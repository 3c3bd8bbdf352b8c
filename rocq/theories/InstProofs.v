(* Instance of Assign.v computes inst of Types.v, which agrees with TypesSpec.has_type. *)
From Coq Require Import ZArith List Bool Lia.
From Coq Require Import Floats.SpecFloat.
From Verif Require Import Int64 HMap Data DataSpec DataProofs Arr Types TypesSpec Assign.
Import ListNotations.
Open Scope Z_scope.

(* ---------- induction on types ---------- *)

Lemma ty_ind' (P : ty -> Prop) :
  P TAny -> P TNil -> P TBool -> P TInt -> (forall x y i, P (TIntRange x y i)) ->
  P TFloat -> (forall x y i, P (TFloatRange x y i)) -> P TString -> P TDgoString ->
  (forall x y, P (TStrSized x y)) -> (forall s, P (TCiStr s)) -> (forall s, P (TPattern s)) ->
  (forall x y, P (TBinary x y)) -> P TTime -> P TRegexp -> (forall p v, P (TExact p v)) ->
  (forall p t, P t -> P (TSens p t)) -> P TArray -> (forall p e x y, P e -> P (TArrSized p e x y)) ->
  (forall p ts b, Forall P ts -> P (TTuple p ts b)) -> P TMap ->
  (forall p k v x y, P k -> P v -> P (TMapSized p k v x y)) ->
  (forall p a es, Forall (fun e => P (snd (fst e))) es -> P (TStruct p a es)) ->
  (forall p ts, Forall P ts -> P (TAllOf p ts)) -> (forall p vs, P (TAllOfValue p vs)) ->
  (forall p ts, Forall P ts -> P (TAnyOf p ts)) -> (forall p ts, Forall P ts -> P (TOneOf p ts)) ->
  (forall p t, P t -> P (TNot p t)) -> P (TMeta None) -> (forall t, P t -> P (TMeta (Some t))) ->
  forall t, P t.
Proof.
  intros H1 H2 H3 H4 H5 H6 H7 H8 H9 H10 H11 H12 H13 H14 H15 H16 H17 H18 H19 H20 H21 H22 H23 H24 H25 H26 H27 H28 H29 H30.
  fix F 1. intros [ | | | |x y i| |x y i| | |x y|s|s|x y| | |p v|p t| |p e x y|p ts b| |p k v x y|p a es|p ts|p vs|p ts|p ts|p t|[t|]].
  - exact H1. - exact H2. - exact H3. - exact H4. - exact (H5 x y i). - exact H6. - exact (H7 x y i).
  - exact H8. - exact H9. - exact (H10 x y). - exact (H11 s). - exact (H12 s). - exact (H13 x y).
  - exact H14. - exact H15. - exact (H16 p v). - exact (H17 p t (F t)). - exact H18.
  - exact (H19 p e x y (F e)).
  - apply H20. induction ts as [|t r IH]; constructor; [exact (F t)|exact IH].
  - exact H21.
  - exact (H22 p k v x y (F k) (F v)).
  - apply H23. induction es as [|[[k t] b] r IH]; constructor; [exact (F t)|exact IH].
  - apply H24. induction ts as [|t r IH]; constructor; [exact (F t)|exact IH].
  - exact (H25 p vs).
  - apply H26. induction ts as [|t r IH]; constructor; [exact (F t)|exact IH].
  - apply H27. induction ts as [|t r IH]; constructor; [exact (F t)|exact IH].
  - exact (H28 p t (F t)).
  - exact (H30 t (F t)).
  - exact H29.
Qed.

Lemma fold_and {A} (P : A -> Prop) l : fold_right and True (map P l) <-> Forall P l.
Proof.
  induction l as [|x r IH]; cbn; [split; auto|]. rewrite IH. split; [intros [A1 A2]; auto|intros H; inversion H; auto].
Qed.

Lemma list_sum_cons x l : list_sum (x :: l) = (x + list_sum l)%nat.
Proof. reflexivity. Qed.

Lemma list_sum_in' {A} (f : A -> nat) l x : In x l -> (f x <= list_sum (map f l))%nat.
Proof. apply list_sum_in. Qed.

Lemma Forall_map_iff {A B} (f : A -> B) (P : B -> Prop) l : Forall P (map f l) <-> Forall (fun x => P (f x)) l.
Proof. induction l as [|x r IH]; cbn; split; intros H; try constructor; inversion H; subst; intuition. Qed.

Lemma type_size_pos t : (0 < type_size t)%nat.
Proof.
  destruct t as [ | | | |x y i| |x y i| | |x y|s|s|x y| | |p v|p t| |p e x y|p ts b| |p k v x y|p a es|p ts|p vs|p ts|p ts|p t|[t|]];
    cbn; try lia. destruct v; cbn; lia.
Qed.

Lemma value_size_pos v : (0 < value_size v)%nat.
Proof. destruct v; cbn; lia. Qed.

(* ---------- sizes of the types of values ---------- *)

Lemma gen_value_size p v : (type_size (gen_value p v) <= value_size v)%nat.
Proof.
  induction v as [ |x|x|x|x|x|s1 n1 z1|x|x IHx|l IHl|m IHm] using value_ind'; cbn [gen_value type_size value_size]; try lia.
  - destruct l as [|x r]; cbn [map common or_any]; [cbn; lia|].
    inversion IHl as [|a b Hx Hr]; subst.
    rewrite list_sum_cons. destruct (forallb _ _); cbn [or_any type_size]; lia.
  - destruct m as [|[k v] r]; [cbn; lia|]. inversion IHm as [|a b [Hk Hv] Hr]; subst. cbn [fst snd] in *.
    cbn [map common fst snd]. rewrite list_sum_cons.
    pose proof (value_size_pos k). pose proof (value_size_pos v).
    set (kt := or_any _). set (vt := or_any _).
    assert (K : (type_size kt <= value_size k)%nat) by (unfold kt; destruct (forallb _ _); cbn [or_any type_size]; lia).
    clearbody kt. assert (V : (type_size vt <= value_size v)%nat) by (unfold vt; destruct (forallb _ _); cbn [or_any type_size]; lia).
    destruct (is_any kt && is_any vt); cbn [type_size]; lia.
Qed.

Lemma type_of_size p v : (type_size (type_of p v) <= value_size v)%nat.
Proof.
  destruct v; cbn [type_of type_size]; try lia.
  - cbn. lia.
  - cbn [value_size]. pose proof (gen_value_size p v). lia.
Qed.

(* ---------- inst, with the list recursions named ---------- *)

Section World.
Variable W : world.

Fixpoint tuple_inst (f : ty -> value -> bool) (variadic : bool) (ts : list ty) (l : list value) : bool :=
  match ts, l with
  | [], [] => true
  | [], _ :: _ => false
  | [t], _ => if variadic then forallb (f t) l
              else match l with [x] => f t x | _ => false end
  | t :: ts', x :: l' => f t x && tuple_inst f variadic ts' l'
  | _ :: _, [] => false
  end.

Fixpoint struct_inst (f : ty -> value -> bool) (additional : bool) (m : list (value * value)) (oc : Z)
    (es : list (value * ty * bool)) : bool :=
  match es with
  | [] => additional || (oc =? length_z m)
  | (k, t, required) :: r =>
      match get_with (veq k) m with
      | Some x => f t x && struct_inst f additional m (oc + 1) r
      | None => if required then false else struct_inst f additional m oc r
      end
  end.

Lemma inst_tuple av p ts b l : inst_with W av (TTuple p ts b) (VArr l) = tuple_inst (inst_with W av) b ts l.
Proof.
  cbn [inst_with]. revert l. induction ts as [|t [|t' r] IH]; intros [|x l]; try reflexivity.
  cbn [tuple_inst] in *. now rewrite <- IH.
Qed.

Lemma inst_struct av p a es m : inst_with W av (TStruct p a es) (VMap m) = struct_inst (inst_with W av) a m 0 es.
Proof.
  cbn [inst_with]. generalize 0. induction es as [|[[k t] b] r IH]; intros oc; [reflexivity|].
  cbn [struct_inst]. destruct (get_with (veq k) m); rewrite IH; reflexivity.
Qed.

(* types in which no allOfValueType occurs *)
Fixpoint no_av (t : ty) : bool :=
  match t with
  | TSens _ t | TArrSized _ t _ _ | TNot _ t => no_av t
  | TMapSized _ k v _ _ => no_av k && no_av v
  | TTuple _ ts _ | TAllOf _ ts | TAnyOf _ ts | TOneOf _ ts => forallb no_av ts
  | TStruct _ _ es => forallb (fun e => no_av (snd (fst e))) es
  | TAllOfValue _ _ => false
  | _ => true
  end.

Lemma forallb_ext_in {A} (f g : A -> bool) l : (forall x, In x l -> f x = g x) -> forallb f l = forallb g l.
Proof.
  induction l as [|x r IH]; intros H; [reflexivity|]. cbn.
  rewrite (H x) by (left; reflexivity). f_equal. apply IH. intros y Hy. apply H. now right.
Qed.
Lemma existsb_ext_in {A} (f g : A -> bool) l : (forall x, In x l -> f x = g x) -> existsb f l = existsb g l.
Proof.
  induction l as [|x r IH]; intros H; [reflexivity|]. cbn.
  rewrite (H x) by (left; reflexivity). f_equal. apply IH. intros y Hy. apply H. now right.
Qed.
Lemma tuple_inst_ext f g b ts : forall l, (forall t x, In t ts -> f t x = g t x) -> tuple_inst f b ts l = tuple_inst g b ts l.
Proof.
  induction ts as [|t [|t' r] IH]; intros l H; [destruct l; reflexivity| |].
  - destruct l as [|x [|y l]]; cbn; destruct b; try reflexivity; rewrite ?(H t) by (left; reflexivity); try reflexivity.
    f_equal. f_equal. apply forallb_ext_in. intros. apply H. now left.
  - destruct l as [|x l]; [reflexivity|]. change (f t x && tuple_inst f b (t' :: r) l = g t x && tuple_inst g b (t' :: r) l).
    rewrite (H t) by (left; reflexivity). f_equal. apply IH. intros. apply H. now right.
Qed.
Lemma struct_inst_ext f g a m es : forall oc, (forall e x, In e es -> f (snd (fst e)) x = g (snd (fst e)) x) ->
  struct_inst f a m oc es = struct_inst g a m oc es.
Proof.
  induction es as [|[[k t] b] r IH]; intros oc H; [reflexivity|]. cbn [struct_inst].
  assert (R : forall oc, struct_inst f a m oc r = struct_inst g a m oc r) by (intros; apply IH; intros; apply H; now right).
  destruct (get_with (veq k) m) as [x|]; rewrite R; [|reflexivity].
  pose proof (H (k, t, b) x (or_introl eq_refl)) as E. cbn in E. now rewrite E.
Qed.

Lemma inst_no_av av av' t : no_av t = true -> forall v, inst_with W av t v = inst_with W av' t v.
Proof.
  induction t as [ | | | |x y i| |x y i| | |x y|s|s|x y| | |p v|p t IHt| |p e x y IHe|p ts b IHts| |p k v x y IHk IHv|p a es IHes|p ts IHts|p vs|p ts IHts|p ts IHts|p t IHt| |t IHt] using ty_ind';
    intros H w; try reflexivity; cbn [no_av] in H.
  - destruct w; try reflexivity. cbn. auto.
  - destruct w; try reflexivity. cbn [inst_with]. f_equal. apply forallb_ext_in. auto.
  - destruct w as [ | | | | | | | | |l| ]; try reflexivity. rewrite !inst_tuple. apply tuple_inst_ext. intros t x Ht.
    rewrite forallb_forall in H. rewrite Forall_forall in IHts. auto.
  - destruct w; try reflexivity. cbn [inst_with]. apply andb_true_iff in H as [Hk Hv]. f_equal. apply forallb_ext_in.
    intros [k' v'] _. cbn. now rewrite IHk, IHv.
  - destruct w as [ | | | | | | | | | |m]; try reflexivity. rewrite !inst_struct. apply struct_inst_ext. intros e x He.
    rewrite forallb_forall in H. rewrite Forall_forall in IHes. auto.
  - cbn [inst_with]. apply forallb_ext_in. intros t Ht. rewrite forallb_forall in H. rewrite Forall_forall in IHts. auto.
  - discriminate.
  - cbn [inst_with]. apply existsb_ext_in. intros t Ht. rewrite forallb_forall in H. rewrite Forall_forall in IHts. auto.
  - cbn [inst_with]. f_equal. apply map_ext_in. intros t Ht. rewrite forallb_forall in H. rewrite Forall_forall in IHts. auto.
  - cbn. f_equal. auto.
Qed.

Lemma gen_value_no_av p v : no_av (gen_value p v) = true.
Proof.
  assert (C : forall l, forallb no_av l = true -> no_av (or_any (common gen_assignable TAny l)) = true).
  { intros [|t r] H; [reflexivity|]. cbn [common]. cbn in H. apply andb_true_iff in H as [Ht _].
    destruct (forallb _ _); cbn; auto. }
  induction v as [ |x|x|x|x|x|s1 n1 z1|x|x IHx|l IHl|m IHm] using value_ind'; cbn [gen_value no_av]; auto.
  - apply C. rewrite forallb_forall. intros t Ht. apply in_map_iff in Ht as (x & <- & Hx).
    rewrite Forall_forall in IHl. auto.
  - rewrite Forall_forall in IHm.
    assert (K : no_av (or_any (common gen_assignable TAny (map (fun e => gen_value p (fst e)) m))) = true).
    { apply C. rewrite forallb_forall. intros t Ht. apply in_map_iff in Ht as (x & <- & Hx). now apply IHm. }
    assert (V : no_av (or_any (common gen_assignable TAny (map (fun e => gen_value p (snd e)) m))) = true).
    { apply C. rewrite forallb_forall. intros t Ht. apply in_map_iff in Ht as (x & <- & Hx). now apply IHm. }
    destruct (is_any _ && is_any _); cbn [no_av]; [reflexivity|]. now rewrite K, V.
Qed.

Lemma type_of_no_av p v : no_av (type_of p v) = true.
Proof. destruct v; try reflexivity. cbn. apply gen_value_no_av. Qed.

(* ---------- the addresses do not matter for inst ---------- *)

Fixpoint readdr (q : ptr) (t : ty) : ty :=
  match t with
  | TExact _ v => TExact q v
  | TSens _ t => TSens q (readdr q t)
  | TArrSized _ e x y => TArrSized q (readdr q e) x y
  | TTuple _ ts b => TTuple q (map (readdr q) ts) b
  | TMapSized _ k v x y => TMapSized q (readdr q k) (readdr q v) x y
  | TStruct _ a es => TStruct q a (map (fun e => (fst (fst e), readdr q (snd (fst e)), snd e)) es)
  | TAllOf _ ts => TAllOf q (map (readdr q) ts)
  | TAllOfValue _ vs => TAllOfValue q vs
  | TAnyOf _ ts => TAnyOf q (map (readdr q) ts)
  | TOneOf _ ts => TOneOf q (map (readdr q) ts)
  | TNot _ t => TNot q (readdr q t)
  | TMeta (Some t) => TMeta (Some (readdr q t))
  | _ => t
  end.

Lemma gen_assignable_readdr q : forall a b, gen_assignable (readdr q a) (readdr q b) = gen_assignable a b.
Proof.
  induction a as [ | | | |x y i| |x y i| | |x y|s|s|x y| | |p v|p t IHt| |p e x y IHe|p ts b IHts| |p k v x y IHk IHv|p a es IHes|p ts IHts|p vs|p ts IHts|p ts IHts|p t IHt| |t IHt] using ty_ind';
    intros b'; destruct b' as [ | | | | | | | | | | | | | | | | | | | | | | | | | | | |[t'|]]; cbn [readdr gen_assignable]; try reflexivity; auto.
  - change TAny with (readdr q TAny). now rewrite IHk, IHv.
  - now rewrite IHk, IHv.
Qed.

Lemma common_readdr q l : or_any (common gen_assignable TAny (map (readdr q) l)) = readdr q (or_any (common gen_assignable TAny l)).
Proof.
  destruct l as [|t r]; [reflexivity|]. cbn [common map].
  assert (E : forallb (gen_assignable (readdr q t)) (map (readdr q) r) = forallb (gen_assignable t) r).
  { induction r as [|u r IH]; [reflexivity|]. cbn. now rewrite IH, gen_assignable_readdr. }
  rewrite E. destruct (forallb (gen_assignable t) r); reflexivity.
Qed.

Lemma gen_value_readdr p q v : gen_value q v = readdr q (gen_value p v).
Proof.
  induction v as [ |x|x|x|x|x|s1 n1 z1|x|x IHx|l IHl|m IHm] using value_ind'; cbn [gen_value readdr]; try reflexivity.
  - now f_equal.
  - f_equal. rewrite <- common_readdr, map_map. do 2 f_equal. apply map_ext_in. intros x Hx.
    rewrite Forall_forall in IHl. auto.
  - rewrite Forall_forall in IHm.
    assert (K : map (fun e => gen_value q (fst e)) m = map (readdr q) (map (fun e => gen_value p (fst e)) m)).
    { rewrite map_map. apply map_ext_in. intros e He. now apply IHm. }
    assert (V : map (fun e => gen_value q (snd e)) m = map (readdr q) (map (fun e => gen_value p (snd e)) m)).
    { rewrite map_map. apply map_ext_in. intros e He. now apply IHm. }
    rewrite K, V, !common_readdr.
    set (kt := or_any _). set (vt := or_any _).
    assert (A : forall t, is_any (readdr q t) = is_any t) by (intros [ | | | | | | | | | | | | | | | | | | | | | | | | | | | |[|]]; reflexivity).
    rewrite !A. destruct (is_any kt && is_any vt); reflexivity.
Qed.

Lemma type_of_readdr p q v : type_of q v = readdr q (type_of p v).
Proof. destruct v; try reflexivity. cbn. now rewrite (gen_value_readdr p q). Qed.

Lemma tuple_inst_map f g b ts : forall l, tuple_inst f b (map g ts) l = tuple_inst (fun t => f (g t)) b ts l.
Proof.
  induction ts as [|t [|t' r] IH]; intros l; [destruct l; reflexivity| |].
  - destruct l as [|x [|y l]]; reflexivity.
  - destruct l as [|x l]; [reflexivity|]. cbn [map tuple_inst] in *. now rewrite IH.
Qed.

Lemma forallb_map' {A B} (f : B -> bool) (g : A -> B) l : forallb f (map g l) = forallb (fun x => f (g x)) l.
Proof. induction l; cbn; congruence. Qed.
Lemma existsb_map' {A B} (f : B -> bool) (g : A -> B) l : existsb f (map g l) = existsb (fun x => f (g x)) l.
Proof. induction l; cbn; congruence. Qed.

Lemma inst_readdr av q t : forall v, inst_with W av (readdr q t) v = inst_with W av t v.
Proof.
  induction t as [ | | | |x y i| |x y i| | |x y|s|s|x y| | |p v|p t IHt| |p e x y IHe|p ts b IHts| |p k v x y IHk IHv|p a es IHes|p ts IHts|p vs|p ts IHts|p ts IHts|p t IHt| |t IHt] using ty_ind';
    intros w; try reflexivity; cbn [readdr].
  - destruct w; try reflexivity. cbn. auto.
  - destruct w; try reflexivity. cbn [inst_with]. f_equal. apply forallb_ext_in. auto.
  - destruct w as [ | | | | | | | | |l| ]; try reflexivity. rewrite !inst_tuple, tuple_inst_map.
    apply tuple_inst_ext. intros t x Ht. rewrite Forall_forall in IHts. auto.
  - destruct w; try reflexivity. cbn [inst_with]. f_equal. apply forallb_ext_in.
    intros [k' v'] _. cbn. now rewrite IHk, IHv.
  - destruct w as [ | | | | | | | | | |m]; try reflexivity. rewrite !inst_struct. generalize 0.
    induction es as [|[[k t] b] r IH]; intros oc; [reflexivity|]. inversion IHes; subst.
    cbn [map struct_inst fst snd]. cbn in H1. destruct (get_with (veq k) m); rewrite IH by assumption; [rewrite H1|]; reflexivity.
  - cbn [inst_with]. rewrite forallb_map'. apply forallb_ext_in. intros t Ht. rewrite Forall_forall in IHts. auto.
  - cbn [inst_with]. rewrite existsb_map'. apply existsb_ext_in. intros t Ht. rewrite Forall_forall in IHts. auto.
  - cbn [inst_with]. rewrite map_map. f_equal. apply map_ext_in. intros t Ht. rewrite Forall_forall in IHts. auto.
  - cbn. f_equal. auto.
Qed.

Lemma inst_type_of p v w : inst W (type_of p v) w = inst_simple W (type_of 0%nat v) w.
Proof.
  unfold inst. rewrite (type_of_readdr 0%nat p), inst_readdr. apply inst_no_av. apply type_of_no_av.
Qed.

End World.
