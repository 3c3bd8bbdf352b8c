From Coq Require Import ZArith List Bool Lia.
From Verif Require Import Int64 HMap Data DataSpec DataProofs Types TypesSpec Assign InstProofs GuardProofs SemProofs EqProofs SubProofs AssignProofs NoHitProofs TypesCor NamedProofs Func FuncSpec FuncProofs FuncNest FuncNestSpec.
Import ListNotations.
Open Scope Z_scope.

Section NtyInd.
  Variable P : nty -> Prop.
  Hypothesis HT : forall t, P (NTy t).
  Hypothesis HF : forall args v rets rv, Forall P args -> Forall P rets -> P (NFn args v rets rv).
  Fixpoint nty_ind' (a : nty) : P a :=
    match a with
    | NTy t => HT t
    | NFn args v rets rv =>
        let go := fix go l : Forall P l := match l with [] => Forall_nil P | x :: r => Forall_cons x (nty_ind' x) (go r) end in
        HF args v rets rv (go args) (go rets)
    end.
End NtyInd.

Section World.
Variable W : world.

(* what a positive answer says *)
Inductive checked : nty -> nty -> Prop :=
| c_ty t u : sub W t u -> type_ok t -> type_ok u -> (function_in u -> function_in t) -> checked (NTy t) (NTy u)
| c_in t args v rets rv : function_in t -> checked (NTy t) (NFn args v rets rv)
| c_fn args v rets args' v' rets' : (args = args' /\ v = v') \/ (v = false /\ v' = false /\ Forall2 checked args args') -> Forall2 checked rets rets' ->
    checked (NFn args v rets false) (NFn args' v' rets' false).

(* the leaves are not larger than k *)
Fixpoint small (k : nat) (a : nty) : Prop :=
  match a with
  | NTy t => (type_size t <= k)%nat /\ (mu t <= k)%nat
  | NFn args _ rets _ => fold_right and True (map (small k) args) /\ fold_right and True (map (small k) rets)
  end.
Lemma small_le k k' a : (k <= k')%nat -> small k a -> small k' a.
Proof.
  intros L. induction a as [t|args v rets rv IA IR] using nty_ind'; cbn; [lia|]. rewrite !fold_and. rewrite !Forall_forall in *. intuition auto.
Qed.
Lemma small_list l : Forall (fun a => exists k, small k a) l -> exists k, Forall (small k) l.
Proof.
  induction 1 as [|a l [k H] _ [k' H']]; [exists 0%nat; constructor|]. exists (Nat.max k k'). constructor; [eapply small_le; [|exact H]; lia|].
  eapply Forall_impl; [|exact H']. intros b. apply small_le. lia.
Qed.
Lemma small_exists a : exists k, small k a.
Proof.
  induction a as [t|args v rets rv IA IR] using nty_ind'; [exists (type_size t + mu t)%nat; cbn; lia|].
  destruct (small_list _ IA) as [k1 H1], (small_list _ IR) as [k2 H2]. exists (Nat.max k1 k2). cbn. rewrite !fold_and.
  split; [eapply Forall_impl; [|exact H1]|eapply Forall_impl; [|exact H2]]; intros b; apply small_le; lia.
Qed.

Lemma nested_mono n : forall a b, mono (nested W n a b).
Proof.
  induction n as [|n IH]; intros a b; cbn [nested]; [apply mono_fail|]. destruct a, b; try apply mono_ret; [apply asgn_mono|].
  assert (T : forall ts v os w, mono (tuple_assignable_tuple (nested W n) ts v os w)).
  { intros. unfold tuple_assignable_tuple. cbn zeta. destruct (_ || _)%bool; [apply mono_ret|]. apply mono_tuple_loop. exact IH. }
  apply mono_andm; [apply mono_ret|]. apply mono_andm; apply T.
Qed.

Lemma in_sub {P : ty -> Prop} ts t : fold_right and True (map (ty_all P) ts) -> In t ts -> ty_all P t.
Proof. intros H. apply fold_and in H. rewrite Forall_forall in H. auto. Qed.

Lemma takes_in L t : target_ok L t -> takes_functions t = true -> function_in t.
Proof.
  intros [_ T]. revert T.
  induction t as [ | | | |x y i| |x y i| | |x y|s|s|x y| | |p v|p t IHt| |p e x y IHe|p ts b IHts| |p k v x y IHk IHv|p a es IHes|p ts IHts|p vs|p ts IHts|p ts IHts|p t IHt| |t IHt] using ty_ind';
    cbn [takes_functions function_in ty_all]; intros T E; try discriminate; try exact Logic.I; try (now destruct T).
  - destruct T as [_ T]. apply fold_and. rewrite forallb_forall in E. rewrite Forall_forall in *. intros u Hu. apply IHts; auto. now apply (in_sub ts).
  - destruct T as [_ T]. apply fold_or. apply existsb_exists in E as (u & Hu & E). exists u. split; auto. rewrite Forall_forall in IHts. apply IHts; auto. now apply (in_sub ts).
Qed.
Lemma no_goes L t : source_ok L t -> goes_to_function t = false.
Proof.
  intros [_ T]. revert T.
  induction t as [ | | | |x y i| |x y i| | |x y|s|s|x y| | |p v|p t IHt| |p e x y IHe|p ts b IHts| |p k v x y IHk IHv|p a es IHes|p ts IHts|p vs|p ts IHts|p ts IHts|p t IHt| |t IHt] using ty_ind';
    cbn [goes_to_function ty_all]; intros T; try reflexivity.
  - destruct T as [N T]. destruct ts as [|u r]; [now destruct N|]. cbn. inversion IHts as [|? ? IHu _]; subst. destruct T as [T _]. now rewrite (IHu T).
  - destruct T as [N _]. destruct vs; [now destruct N|reflexivity].
  - destruct T as [N T]. destruct ts as [|u r]; [reflexivity|]. cbn. inversion IHts as [|? ? IHu _]; subst. destruct T as [T _]. now rewrite (IHu T).
  - destruct T as [N T]. destruct ts as [|u r]; [reflexivity|]. cbn. inversion IHts as [|? ? IHu _]; subst. destruct T as [T _]. now rewrite (IHu T).
Qed.

(* what is assignable from any holds functions *)
Lemma from_any L n : forall fn t, target_ok L t -> ok (asgn W n fn t TAny) (function_in t).
Proof.
  induction n as [|n IH]; intros fn t T; cbn [asgn]; [apply yields_fail|].
  assert (CH : check_assignable_to (asgn W n) TAny t = ret false) by reflexivity.
  assert (F : deep_assignable t = false -> ok (with_nil (flat_assignable_to W (asgn W n) t TAny)) (function_in t)).
  { intros D. apply yields_with_guard. destruct t; try discriminate D; cbn [flat_assignable_to function_in]; rewrite ?CH; try (apply ok_false); try (now apply ok_ret).
    destruct T as [_ T]. now destruct T. }
  assert (MEM : forall p ts, (t = TAllOf p ts \/ t = TAnyOf p ts) -> forall u, In u ts -> ok (asgn W n true u TAny) (function_in u)).
  { intros p ts E u Hu. apply IH. destruct T as [T1 T2]. split; destruct E as [-> | ->]; [destruct T1 as [_ T1]|destruct T1 as [_ T1]|destruct T2 as [_ T2]|destruct T2 as [_ T2]]; eapply in_sub; eauto. }
  assert (D : deep_assignable t = true -> forall x y both, ok (enter x y both (deep_assignable_to (asgn W n) (instn W n true) t TAny)) (function_in t)).
  { intros D x y both. apply yields_enter. destruct t; try discriminate D; cbn [deep_assignable_to function_in array_bounds map_bounds]; rewrite ?CH; try (apply ok_false).
    - eapply ok_orm; [|apply mono_ret|apply ok_false]. eapply ok_imp; [apply ok_all with (Q := function_in)|].
      + intros; apply asgn_mono.
      + eapply MEM. left. reflexivity.
      + intros H. apply fold_and. now apply Forall_forall.
    - destruct T as [_ T]. now destruct T.
    - destruct ts as [|u r]; [apply ok_false|]. remember (u :: r) as ts. eapply ok_orm; [|apply mono_ret|apply ok_false].
      eapply ok_imp; [apply ok_any with (Q := function_in)|].
      + intros; apply asgn_mono.
      + eapply MEM. right. reflexivity.
      + intros (v & Hv & H). apply fold_or. eauto.
    - destruct T as [_ T]. now destruct T. }
  destruct fn.
  - unfold same_type. destruct (type_eq_dec t TAny) as [->|N]; [now apply ok_ret|]. destruct (deep_assignable t) eqn:E; auto.
  - destruct (deep_assignable t) eqn:E; auto. destruct t; try discriminate E; apply yields_with_guard; first [exact (D eq_refl _ _ _)|exact (IH true _ T)].
Qed.

Lemma nested_same n : forall a s r s', nested W n a a s = Some (r, s') -> s' = s.
Proof.
  induction n as [|n IH]; intros a s r s' E; cbn [nested] in E; [discriminate|].
  assert (TL : forall k (ts : list nty) tv s r s', tuple_loop (nested W n) k ts ts tv tv s = Some (r, s') -> s' = s).
  { induction k as [|k IHk]; intros ts tv s0 r0 s1 E0; cbn [tuple_loop] in E0; [now injection E0 as _ <-|].
    destruct (match ts with t :: _ => Some t | [] => tv end) as [t|]; [|now injection E0 as _ <-].
    unfold andm, bind in E0. destruct (nested W n t t s0) as [[r1 s2]|] eqn:E1; [|discriminate]. apply IH in E1 as ->.
    destruct r1; [eapply IHk; eauto|now injection E0 as _ <-]. }
  assert (TT : forall ts v s r s', tuple_assignable_tuple (nested W n) ts v ts v s = Some (r, s') -> s' = s).
  { intros ts v s0 r0 s1 E0. unfold tuple_assignable_tuple in E0. cbn zeta in E0. destruct (_ || _)%bool; [now injection E0 as _ <-|]. eapply TL; eauto. }
  destruct a as [t|args v rets rv].
  - destruct n as [|n]; [discriminate|]. cbn [asgn] in E. unfold same_type in E. destruct (type_eq_dec t t) as [_|N]; [|now destruct N]. now injection E as _ <-.
  - unfold andm, bind, ret in E. rewrite eqb_reflx in E. destruct (tuple_assignable_tuple _ args v args v s) as [[r1 s1]|] eqn:E1; [|discriminate]. apply TT in E1 as ->.
    destruct r1; [|now injection E as _ <-]. eapply TT; eauto.
Qed.

Lemma loop_same n k : forall (ts : list nty) tv s r s', tuple_loop (nested W n) k ts ts tv tv s = Some (r, s') -> s' = s.
Proof.
  induction k as [|k IHk]; intros ts tv s0 r0 s1 E0; cbn [tuple_loop] in E0; [now injection E0 as _ <-|].
  destruct (match ts with t :: _ => Some t | [] => tv end) as [t|]; [|now injection E0 as _ <-].
  unfold andm, bind in E0. destruct (nested W n t t s0) as [[r1 s2]|] eqn:E1; [|discriminate]. apply nested_same in E1 as ->.
  destruct r1; [eapply IHk; eauto|now injection E0 as _ <-].
Qed.
Lemma Forall2_imp {X Y} (P Q : X -> Y -> Prop) l l' : (forall x y, P x y -> Q x y) -> Forall2 P l l' -> Forall2 Q l l'.
Proof. intros H. induction 1; constructor; auto. Qed.
Lemma Forall2_forall {X Y} (P : X -> Y -> Prop) l : forall l', length l = length l' -> (forall x y, In x l -> In y l' -> P x y) -> Forall2 P l l'.
Proof.
  induction l as [|x l IH]; intros [|y l'] E H; try discriminate; constructor; [apply H; now left|]. apply IH; [now injection E|]. intros; apply H; now right.
Qed.

(* the sides of a comparison *)
Definition sides (L : allowed) (A : ptr -> Prop) (w : bool) (a b : nty) : Prop := wanted L A w a /\ given L A w b /\ (w = false -> same_arguments a b).

Lemma fixed_quiet A n k ts os : Forall2 (fun t o => quiet A k k k (nested W n t o) any) ts os ->
  quiet A k k k (tuple_loop (nested W n) (length ts) ts os None None) any.
Proof. induction 1 as [|t o ts os H _ IH]; [now apply q_ret|]. cbn [length tuple_loop tl]. now apply q_andm. Qed.
Lemma fixed_ok n (Q : nty -> nty -> Prop) ts os : Forall2 (fun t o => ok (nested W n t o) (Q t o)) ts os ->
  ok (tuple_loop (nested W n) (length ts) ts os None None) (Forall2 Q ts os).
Proof.
  induction 1 as [|t o ts os H _ IH]; [apply ok_ret; constructor|]. cbn [length tuple_loop tl]. eapply ok_andm; [exact H| |].
  - apply mono_tuple_loop, nested_mono.
  - intros Qto. eapply ok_imp; [exact IH|]. intros. now constructor.
Qed.
Lemma lengths_eq (ts os : list nty) : ((length_z os <? length_z ts) || (length_z ts <? length_z os))%bool = false -> length ts = length os.
Proof. intros E. apply orb_false_iff in E as [E1 E2]. apply Z.ltb_ge in E1, E2. unfold length_z in *. lia. Qed.

Lemma nested_sound L A w k n : forall a b, sides L A w a b -> small k a -> small k b ->
  quiet A k k k (nested W n a b) any /\ ok (nested W n a b) (checked a b).
Proof.
  induction n as [|n IH]; intros a b (Ha & Hb & Hs) Ka Kb; cbn [nested]; [split; [apply q_fail|apply yields_fail]|].
  destruct Ha as [t Ta Fa Oa|args v rets Va Aa Ra], Hb as [u Sb Gb Ob Nb|args' v' rets' Vb Ab Rb].
  - cbn [small] in Ka, Kb. split.
    + apply asgn_quiet; try (intros; lia).
      * destruct Ta as [Ta1 Ta2]. split; [split|split]; auto.
        -- revert Ta2. apply ty_all_impl. intros []; cbn; auto.
        -- revert Ta2. apply ty_all_impl. intros []; cbn; auto.
      * split; auto.
    + intros s x s' E N X. destruct (asgn_sound W L n true t u Ta Sb s x s' E N X) as [G _].
      constructor; [exact G|exact (proj1 Ta)|exact (proj1 Sb)|]. intros H. destruct Nb as [->|Nb]; [|now destruct Nb]. exact (from_any L n true t Ta s x s' E N X).
  - split; [now apply q_ret|]. apply ok_ret. intros E. constructor. eapply takes_in; eauto.
  - split; [now apply q_ret|]. rewrite (no_goes L u Sb). apply ok_false.
  - cbn [small] in Ka, Kb. rewrite !fold_and in Ka, Kb. destruct Ka as [Ka1 Ka2], Kb as [Kb1 Kb2]. rewrite Forall_forall in Ka1, Ka2, Kb1, Kb2.
    assert (PAIRS : forall ts os, (length ts = length os -> Forall2 (sides L A w) ts os) -> (forall t, In t ts -> small k t) -> (forall o, In o os -> small k o) ->
      quiet A k k k (tuple_assignable_tuple (nested W n) ts false os false) any /\ ok (tuple_assignable_tuple (nested W n) ts false os false) (Forall2 checked ts os)).
    { intros ts os F K1 K2. unfold tuple_assignable_tuple. cbn zeta. destruct (_ || _)%bool eqn:E; [split; [now apply q_ret|apply ok_false]|].
      apply lengths_eq in E. specialize (F E). cbn [tuple_head tuple_rest]. rewrite <- E, Nat.max_id.
      assert (B : Forall2 (fun t o => quiet A k k k (nested W n t o) any /\ ok (nested W n t o) (checked t o)) ts os).
      { clear E. induction F as [|t o ts os S _ IHF]; constructor; [apply IH; auto; [apply K1|apply K2]; now left|].
        apply IHF; intros; [apply K1|apply K2]; now right. }
      split; [apply fixed_quiet|apply fixed_ok]; (eapply Forall2_imp; [|exact B]); cbn; tauto. }
    assert (RS : length rets = length rets' -> Forall2 (sides L A w) rets rets').
    { intros EL. destruct w.
      - apply Forall2_forall; auto. intros t o Ht Ho. rewrite Forall_forall in Ra, Rb. repeat split; auto. discriminate.
      - specialize (Hs eq_refl). inversion Hs as [| |? ? ? ? ? ? SR]; subst. clear -SR Ra Rb. revert Ra Rb. induction SR; intros Ra Rb; constructor.
        + inversion Ra; inversion Rb; subst. repeat split; auto.
        + inversion Ra; inversion Rb; subst. auto. }
    destruct (PAIRS rets rets' RS Ka2 Kb2) as [QR OR].
    assert (MR : forall ts v os w, mono (tuple_assignable_tuple (nested W n) ts v os w)).
    { intros. unfold tuple_assignable_tuple. cbn zeta. destruct (_ || _)%bool; [apply mono_ret|]. apply mono_tuple_loop, nested_mono. }
    assert (AS : quiet A k k k (tuple_assignable_tuple (nested W n) args v args' v') any /\
                 ok (tuple_assignable_tuple (nested W n) args v args' v') ((args = args' /\ v = v') \/ (v = false /\ v' = false /\ Forall2 checked args args'))).
    { destruct w.
      - rewrite (Va eq_refl), (Vb eq_refl). destruct (PAIRS args args') as [Q1 O1]; auto.
        + intros EL. apply Forall2_forall; auto. intros t o Ht Ho. pose proof (Aa eq_refl) as Aa'. pose proof (Ab eq_refl) as Ab'. rewrite Forall_forall in Aa', Ab'. repeat split; auto. discriminate.
        + split; auto. eapply ok_imp; [exact O1|]. auto.
      - specialize (Hs eq_refl). inversion Hs; subst. split.
        + intros s x s' I E. assert (s' = s) as ->; [|repeat split; auto].
          unfold tuple_assignable_tuple in E. cbn zeta in E. destruct (_ || _)%bool; [now injection E as _ <-|]. eapply loop_same; eauto.
        + intros s x s' E N X. left. auto. }
    destruct AS as [QA OA]. split.
    + apply q_andm; [now apply q_ret|]. now apply q_andm.
    + eapply ok_andm with (P := True); [now apply ok_ret|apply mono_andm; auto|]. intros _. eapply ok_andm; [exact OA|auto|]. intros CA. eapply ok_imp; [exact OR|].
      intros CR. now constructor.
Qed.

Lemma nested_checked L A w n p a b : sides L A w a b -> (forall q, (p <= q)%nat -> ~ A q) -> nested_assignable W n p a b = Some true -> checked a b.
Proof.
  intros S Hp E. destruct (small_exists a) as [k1 K1], (small_exists b) as [k2 K2].
  destruct (nested_sound L A w (Nat.max k1 k2) n a b S (small_le k1 (Nat.max k1 k2) a (Nat.le_max_l k1 k2) K1) (small_le k2 (Nat.max k1 k2) b (Nat.le_max_r k1 k2) K2)) as [Q O].
  unfold nested_assignable, outcome, with_guard in E.
  set (s0 := set_guard (start p) _) in *. destruct (nested W n a b s0) as [[r s1]|] eqn:E1; [|discriminate]. cbn in E. injection E as ->.
  assert (I0 : inv A (Nat.max k1 k2) (Nat.max k1 k2) (Nat.max k1 k2) s0). { split; [exact Hp|]. cbn. repeat split; constructor. }
  destruct (Q s0 true s1 I0 E1) as (_ & N & _). apply (O s0 true s1 E1); [rewrite N|]; reflexivity.
Qed.

Section Functions.
Variable F : Type.
Variable takes : F -> list (nval F) -> Prop.
Variable gives : F -> list (nval F) -> list (nval F) -> Prop.
Notation mem := (member W F takes gives).

Lemma listed_imp (ts os : list nty) xs : Forall2 (fun t o => forall x, mem t x -> mem o x) ts os -> listed F (map mem ts) false xs -> listed F (map mem os) false xs.
Proof.
  cbn [listed]. intros H. revert xs. induction H as [|t o ts os H _ IH]; intros xs L; inversion L; subst; cbn; constructor; auto.
Qed.
Lemma Forall2_flip {X Y} (P : X -> Y -> Prop) l l' : Forall2 P l l' -> Forall2 (fun y x => P x y) l' l.
Proof. induction 1; constructor; auto. Qed.

Lemma leaf_member t u x : checked (NTy t) (NTy u) -> mem (NTy u) x -> mem (NTy t) x.
Proof.
  intros C. inversion C as [? ? S T1 T2 FN| |]; subst. destruct x as [v|f]; cbn; [|exact FN]. intros (D & Fv & H). repeat split; auto. eapply sub_has; eauto.
Qed.

Theorem nested_mutual_members : forall a b, checked a b -> checked b a -> forall x, mem a x <-> mem b x.
Proof.
  induction a as [t|args v rets rv IA IR] using nty_ind'; intros b C C' x.
  - destruct b as [u|]; [|inversion C']. split; apply leaf_member; auto.
  - destruct b as [u|args' v' rets' rv']; [inversion C|].
    inversion C as [| |? ? ? ? ? ? A1 R1]; inversion C' as [| |? ? ? ? ? ? A2 R2]; subst.
    assert (PW : forall ts os, Forall (fun a => forall b, checked a b -> checked b a -> forall x, mem a x <-> mem b x) ts -> Forall2 checked ts os -> Forall2 checked os ts ->
      Forall2 (fun t o => forall x, mem t x <-> mem o x) ts os).
    { intros ts os HI H1 H2. revert HI H2. induction H1 as [|t o ts os H _ IH]; intros HI H2; constructor.
      - inversion HI; inversion H2; subst. auto.
      - inversion HI; inversion H2; subst. auto. }
    assert (LA : forall xs, listed F (map mem args) v xs <-> listed F (map mem args') v' xs).
    { intros xs. destruct A1 as [[<- <-]|(-> & -> & A1)]; [tauto|]. destruct A2 as [[<- _]|(_ & _ & A2)]; [tauto|]. specialize (PW _ _ IA A1 A2). split; apply listed_imp.
      - eapply Forall2_imp; [|exact PW]. intros ? ? H y. apply H.
      - apply Forall2_flip in PW. eapply Forall2_imp; [|exact PW]. intros ? ? H y. apply H. }
    pose proof (PW _ _ IR R1 R2) as PR.
    assert (LR : forall xs, listed F (map mem rets) false xs <-> listed F (map mem rets') false xs).
    { intros xs. split; apply listed_imp.
      - eapply Forall2_imp; [|exact PR]. intros ? ? H y. apply H.
      - apply Forall2_flip in PR. eapply Forall2_imp; [|exact PR]. intros ? ? H y. apply H. }
    cbn [member]. split; intros (f & E & H); exists f; (split; [exact E|]); intros xs Hx; apply LA in Hx; destruct (H xs Hx) as [H1 H2]; (split; [exact H1|]); intros ys Hy; apply LR; auto.
Qed.

Theorem nested_results_members : forall a b, checked a b -> same_arguments a b -> forall x, mem b x -> mem a x.
Proof.
  induction a as [t|args v rets rv IA IR] using nty_ind'; intros b C SA x M.
  - destruct b as [u|]; [now apply (leaf_member t u)|]. inversion C; subst. destruct M as (f & -> & _). assumption.
  - inversion C as [| |? ? ? args' v' rets' _ R1]; subst. inversion SA as [| |? ? ? ? ? ? SR]; subst.
    assert (PR : Forall2 (fun o t => forall x, mem o x -> mem t x) rets' rets).
    { clear -IR R1 SR. revert IR SR. induction R1 as [|t o ts os H _ IH]; intros IR SR; inversion IR as [|? ? I1 I2]; inversion SR as [|? ? ? ? S1 S2]; subst; constructor; [exact (I1 o H S1)|exact (IH I2 S2)]. }
    destruct M as (f & -> & H). exists f. split; [reflexivity|]. intros xs Hx. destruct (H xs Hx) as [H1 H2]. split; [exact H1|]. intros ys Hy. eapply listed_imp; [exact PR|]. apply H2. exact Hy.
Qed.

Theorem nested_in_place : forall a pos b, checked a b -> differ_in_place W pos a b -> forall x, if pos then mem b x -> mem a x else mem a x -> mem b x.
Proof.
  induction a as [t|args v rets rv IA IR] using nty_ind'; intros pos b C SA x.
  - inversion SA as [? ? u HV HF| |]; subst.
    + destruct x as [v|f]; cbn; [specialize (HV v)|]; destruct pos; tauto.
    + intros M. destruct b as [u|]; [now apply (leaf_member t u)|]. inversion C; subst. destruct M as (f & -> & _). assumption.
  - inversion C as [| |? ? ? args' v' rets' A1 R1]; subst. inversion SA as [| |? ? ? ? ? ? ? ? ? SAA SR]; subst.
    assert (PW : forall q ts os, Forall (fun a => forall pos b, checked a b -> differ_in_place W pos a b -> forall x, if pos then mem b x -> mem a x else mem a x -> mem b x) ts ->
      Forall2 checked ts os -> Forall2 (differ_in_place W q) ts os -> Forall2 (fun t o => forall x, if q then mem o x -> mem t x else mem t x -> mem o x) ts os).
    { intros q ts os HI H1. revert HI. induction H1 as [|t o ts os H _ IH]; intros HI H2; inversion HI as [|? ? I1 I2]; inversion H2 as [|? ? ? ? S1 S2]; subst; constructor; [exact (I1 q o H S1)|exact (IH I2 S2)]. }
    assert (LA : forall xs, if pos then listed F (map mem args) v xs -> listed F (map mem args') v' xs else listed F (map mem args') v' xs -> listed F (map mem args) v xs).
    { intros xs. destruct A1 as [[<- <-]|(-> & -> & A1)]; [destruct pos; auto|]. pose proof (PW (negb pos) _ _ IA A1 SAA) as PA.
      destruct pos; cbn [negb] in PA; [|apply Forall2_flip in PA]; now apply listed_imp. }
    pose proof (PW pos _ _ IR R1 SR) as PR.
    assert (LR : forall xs, if pos then listed F (map mem rets') false xs -> listed F (map mem rets) false xs else listed F (map mem rets) false xs -> listed F (map mem rets') false xs).
    { intros xs. destruct pos; [apply Forall2_flip in PR|]; now apply listed_imp. }
    cbn [member]. destruct pos; intros (f & E & H); exists f; (split; [exact E|]); intros xs Hx; apply LA in Hx; destruct (H xs Hx) as [H1 H2]; (split; [exact H1|]); intros ys Hy; apply LR; auto.
Qed.
End Functions.
End World.

Theorem nested_differ_in_place W F takes gives L A n p a b x :
  wanted L A true a -> given L A true b -> differ_in_place W true a b -> (forall q, (p <= q)%nat -> ~ A q) ->
  nested_assignable W n p a b = Some true -> member W F takes gives b x -> member W F takes gives a x.
Proof.
  intros H1 H2 D Hp E. apply (nested_in_place W F takes gives a true b); auto. eapply (nested_checked W L A true); eauto. repeat split; auto. discriminate.
Qed.

Theorem nested_mutual W F takes gives L A L' A' n p n' p' a b x :
  wanted L A true a -> given L A true b -> (forall q, (p <= q)%nat -> ~ A q) -> wanted L' A' true b -> given L' A' true a -> (forall q, (p' <= q)%nat -> ~ A' q) ->
  nested_assignable W n p a b = Some true -> nested_assignable W n' p' b a = Some true ->
  member W F takes gives a x <-> member W F takes gives b x.
Proof.
  intros H1 H2 Hp H3 H4 Hp' E E'. apply nested_mutual_members.
  - eapply (nested_checked W L A true); eauto. repeat split; auto. discriminate.
  - eapply (nested_checked W L' A' true); eauto. repeat split; auto. discriminate.
Qed.
Theorem nested_results W F takes gives L A n p a b x :
  wanted L A false a -> given L A false b -> same_arguments a b -> (forall q, (p <= q)%nat -> ~ A q) ->
  nested_assignable W n p a b = Some true -> member W F takes gives b x -> member W F takes gives a x.
Proof.
  intros H1 H2 S Hp E. apply nested_results_members; [|exact S]. eapply (nested_checked W L A false); eauto. repeat split; auto.
Qed.

(* ---------- functions where a type of data is expected ---------- *)
Lemma one_in (p : ty -> bool) (P : ty -> Prop) ts : Forall (fun t => p t = true <-> P t) ts ->
  length (filter p ts) = 1%nat <-> exists l1 Q l2, map P ts = l1 ++ Q :: l2 /\ Q /\ Forall (fun R : Prop => ~ R) (l1 ++ l2).
Proof.
  assert (N : forall us, Forall (fun t => p t = true <-> P t) us -> length (filter p us) = 0%nat <-> Forall (fun R : Prop => ~ R) (map P us)).
  { induction 1 as [|t us Ht F IH]; cbn [filter map]; [split; [constructor|reflexivity]|]. destruct (p t).
    - split; [discriminate|]. intros X. inversion X as [|? ? X1 X2]; subst. destruct X1. now apply Ht.
    - rewrite IH. split; [intros X; constructor; [|exact X]|intros X; now inversion X]. intros Y. apply Ht in Y. discriminate. }
  induction 1 as [|t us Ht F IH]; cbn [filter map].
  - split; [discriminate|]. intros (l1 & Q & l2 & E & _). destruct l1; discriminate.
  - destruct (p t) eqn:E; cbn [length].
    + split.
      * intros X. injection X as X. exists [], (P t), (map P us). split; [reflexivity|]. split; [now apply Ht|]. now apply N.
      * intros (l1 & Q & l2 & X & HQ & G). f_equal. apply N; [exact F|]. destruct l1 as [|R l1]; cbn in X, G; injection X as <- X.
        -- now rewrite X.
        -- inversion G as [|? ? G1 G2]; subst. destruct G1. now apply Ht.
    + rewrite IH. split.
      * intros (l1 & Q & l2 & X & HQ & G). exists (P t :: l1), Q, l2. cbn. rewrite X. split; [reflexivity|]. split; [exact HQ|]. constructor; [|exact G]. intros Y. apply Ht in Y. discriminate.
      * intros (l1 & Q & l2 & X & HQ & G). destruct l1 as [|R l1]; cbn in X; injection X as <- X; [apply Ht in HQ; discriminate|]. exists l1, Q, l2. split; [exact X|]. split; [exact HQ|]. cbn in G. now inversion G.
Qed.
Lemma takes_iff : forall t, takes_functions t = true <-> function_in t.
Proof.
  fix IH 1. intros t.
  assert (L : forall ts, Forall (fun t => takes_functions t = true <-> function_in t) ts) by (fix IHs 1; intros [|u r]; constructor; [apply IH|apply IHs]).
  destruct t; cbn [takes_functions function_in]; try (split; [discriminate|contradiction]); try tauto.
  - (* TAllOf *) rewrite forallb_forall. specialize (L ts). clear IH. induction L as [|u r Hu F IHr]; cbn; [tauto|]. rewrite <- IHr, <- Hu. split; [intros X; split; auto|intros [X Y] w [<-|Z]; auto].
  - destruct vs; split; try discriminate; auto.
  - specialize (L ts). clear IH. rewrite existsb_exists. induction L as [|u r Hu F IHr]; cbn; [split; [intros (w & [] & _)|contradiction]|]. rewrite <- IHr, <- Hu.
    split; [intros (w & [<-|Z] & X); eauto|intros [X|(w & X & Y)]; eauto].
  - rewrite Nat.eqb_eq. apply one_in. apply L.
  - rewrite negb_true_iff. rewrite <- (IH t). destruct (takes_functions t); intuition congruence.
Qed.
Theorem functions_assignable W n p t args v rets rv : nested_assignable W (S n) p (NTy t) (NFn args v rets rv) = Some (takes_functions t).
Proof. reflexivity. Qed.
Theorem functions_go W n p t args v rets rv : nested_assignable W (S n) p (NTy t) (NFn args v rets rv) <> None /\
  (nested_assignable W (S n) p (NTy t) (NFn args v rets rv) = Some true <-> function_in t).
Proof. rewrite functions_assignable. split; [discriminate|]. rewrite <- takes_iff. destruct (takes_functions t); intuition congruence. Qed.
