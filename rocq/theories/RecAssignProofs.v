(* Assignable on types that refer to themselves follows the rules. *)
From Coq Require Import ZArith List Bool Lia Relations.
From Verif Require Import Int64 HMap Data DataSpec DataProofs Types TypesSpec SemProofs Graph RecTypes RecTypesSpec RecAssign RecAssignSpec.
From Verif Require Assign.
Import ListNotations.
Open Scope Z_scope.

(* ---------- computations ---------- *)

Definition sat (J : option aguard -> Prop) (m : AM) (Qt Qf : Prop) : Prop :=
  forall s x s', J s -> m s = Some (x, s') -> J s' /\ if x then Qt else Qf.

Section Sat.
Variable J : option aguard -> Prop.
Lemma sat_ret (b : bool) (Qt Qf : Prop) : (if b then Qt else Qf) -> sat J (a_ret b) Qt Qf.
Proof. intros H s x s' Js [= <- <-]. auto. Qed.
Lemma sat_fail Qt Qf : sat J a_fail Qt Qf.
Proof. intros s x s' _ [=]. Qed.
Lemma sat_imp m (Qt Qf Qt' Qf' : Prop) : sat J m Qt Qf -> (Qt -> Qt') -> (Qf -> Qf') -> sat J m Qt' Qf'.
Proof. intros H A B s x s' Js E. destruct (H s x s' Js E) as [J' Q]. split; [exact J'|]. destruct x; auto. Qed.
Lemma sat_bind m f (Qt Qf Rt Rf : Prop) : sat J m Qt Qf -> (Qt -> sat J (f true) Rt Rf) -> (Qf -> sat J (f false) Rt Rf) -> sat J (a_bind m f) Rt Rf.
Proof.
  intros H A B s x s' Js E. unfold a_bind in E. destruct (m s) as [[y s1]|] eqn:M; [|discriminate]. destruct (H s y s1 Js M) as [J1 Q].
  destruct y; [exact (A Q s1 x s' J1 E)|exact (B Q s1 x s' J1 E)].
Qed.
Lemma sat_and m n (Qt Qf Rt Rf : Prop) : sat J m Qt Qf -> sat J n Rt Rf -> sat J (a_and m n) (Qt /\ Rt) (Qf \/ Rf).
Proof.
  intros H H2. apply (sat_bind _ _ Qt Qf); [exact H| |].
  - intros q. apply (sat_imp _ Rt Rf); auto.
  - intros q. apply sat_ret. auto.
Qed.
Lemma sat_or m n (Qt Qf Rt Rf : Prop) : sat J m Qt Qf -> sat J n Rt Rf -> sat J (a_or m n) (Qt \/ Rt) (Qf /\ Rf).
Proof.
  intros H H2. apply (sat_bind _ _ Qt Qf); [exact H| |].
  - intros q. apply sat_ret. auto.
  - intros q. apply (sat_imp _ Rt Rf); auto.
Qed.
Lemma sat_all f l (Qt Qf : nat -> Prop) : (forall x, In x l -> sat J (f x) (Qt x) (Qf x)) -> sat J (a_all f l) (Forall Qt l) (Exists Qf l).
Proof.
  induction l as [|x l IH]; intros H; cbn [a_all]; [apply sat_ret; constructor|].
  eapply sat_imp; [apply sat_and; [apply H; now left|apply IH; intros; apply H; now right]| |].
  - intros [A B]. now constructor.
  - intros [A|A]; [now left|now right].
Qed.
Lemma sat_any f l (Qt Qf : nat -> Prop) : (forall x, In x l -> sat J (f x) (Qt x) (Qf x)) -> sat J (a_any f l) (Exists Qt l) (Forall Qf l).
Proof.
  induction l as [|x l IH]; intros H; cbn [a_any]; [apply sat_ret; constructor|].
  eapply sat_imp; [apply sat_or; [apply H; now left|apply IH; intros; apply H; now right]| |].
  - intros [A|A]; [now left|now right].
  - intros [A B]. now constructor.
Qed.
End Sat.

Definition anything : option aguard -> Prop := fun _ => True.
Lemma sat_with (J K : option aguard -> Prop) f m Qt Qf : (forall s, J s -> K (f s)) -> sat K m Qt Qf -> sat J (with_aguard f m) Qt Qf.
Proof.
  intros HK H s x s' Js E. unfold with_aguard in E. destruct (m (f s)) as [[y s1]|] eqn:M; [|discriminate]. injection E as <- <-.
  split; [exact Js|]. exact (proj2 (H _ _ _ (HK s Js) M)).
Qed.

(* ---------- types without types in them ---------- *)

Section Leafs.
Variable W : world.

Lemma flat_leaf R R' p t u : leaf_type u = true -> Assign.flat_assignable_to W R t u (Assign.start p) = Assign.flat_assignable_to W R' t u (Assign.start p) \/ leaf_type t = false.
Proof. intros H. destruct (leaf_type t) eqn:E; [left|now right]. destruct t; try discriminate E; destruct u; try discriminate H; reflexivity. Qed.

Lemma SFltb_self x : SpecFloat.SFltb x x = false.
Proof. destruct x as [b|b| |b m e]; try (now destruct b); [reflexivity|]. unfold SpecFloat.SFltb. cbn. destruct b; rewrite ?Z.compare_refl, ?Pos.compare_cont_refl; reflexivity. Qed.
Lemma SFleb_self x : x <> SpecFloat.S754_nan -> SpecFloat.SFleb x x = true.
Proof. intros N. destruct x as [b|b| |b m e]; try (now destruct b); [congruence|]. unfold SpecFloat.SFleb. cbn. destruct b; rewrite ?Z.compare_refl, ?Pos.compare_cont_refl; reflexivity. Qed.

Lemma leaf_self t : leaf_type t = true -> type_ok t -> leaf_assign W t t = true.
Proof.
  intros L O. unfold type_ok in O. assert (N : node_ok t) by (destruct t; apply O).
  unfold leaf_assign. destruct t; try discriminate L; cbn [Assign.flat_assignable_to Assign.ret]; try reflexivity.
  - unfold Assign.ret. rewrite Z.ltb_irrefl. apply Z.leb_refl.
  - unfold Assign.ret. rewrite SFltb_self, Bool.eqb_reflx, orb_true_r. apply SFleb_self. apply N.
  - unfold Assign.ret. now rewrite !Z.leb_refl.
  - unfold Assign.orm, Assign.bind, Assign.ret. rewrite (proj2 (bytes_eqb_eq _ _) eq_refl). reflexivity.
  - unfold Assign.ret. now rewrite (proj2 (bytes_eqb_eq _ _) eq_refl).
  - unfold Assign.ret. now rewrite !Z.leb_refl.
  - unfold Assign.orm, Assign.bind, Assign.ret. assert (V : veq v v = true) by (apply veq_refl; exact N). rewrite V. reflexivity.
Qed.
End Leafs.

(* ---------- tuples ---------- *)

Definition nth_or (l : list nat) (d : option nat) (i : nat) : option nat := match nth_error l i with Some t => Some t | None => d end.
Lemma nth_or_0 l d : nth_or l d 0 = match l with t :: _ => Some t | [] => d end.
Proof. now destruct l. Qed.
Lemma nth_or_S l d i : nth_or (tl l) d i = nth_or l d (S i).
Proof. destruct l; [now destruct i|reflexivity]. Qed.
Lemma last_inv (ts : list nat) : ts = [] \/ exists us u, ts = us ++ [u].
Proof. destruct ts as [|x l] using rev_ind; [now left|right; eauto]. Qed.
Lemma t_head_last us u : t_head (us ++ [u]) true = us.
Proof. unfold t_head. rewrite app_length, Nat.add_1_r. cbn [length Nat.pred]. rewrite firstn_app, Nat.sub_diag, firstn_all. apply app_nil_r. Qed.
Lemma t_rest_last us u : t_rest (us ++ [u]) true = Some u.
Proof. unfold t_rest. rewrite app_length, Nat.add_1_r. cbn [length Nat.pred]. rewrite nth_error_app2, Nat.sub_diag; auto. Qed.
Lemma position_iff ts v i t : nth_or (t_head ts v) (t_rest ts v) i = Some t <-> position ts v i t.
Proof.
  unfold position, nth_or. destruct v; [|cbn; destruct (nth_error ts i); split; auto; discriminate].
  destruct (last_inv ts) as [->|(us & u & ->)].
  - cbn. destruct i; split; try discriminate; intros (us & u & E & _); destruct us; discriminate.
  - rewrite t_head_last, t_rest_last. split.
    + destruct (nth_error us i) eqn:E.
      * intros [= <-]. exists us, u. auto.
      * intros [= <-]. exists us, u. apply nth_error_None in E. auto.
    + intros (us' & u' & E & H). apply app_inj_tail in E as [<- <-]. destruct H as [H|[L ->]]; [now rewrite H|].
      apply nth_error_None in L. now rewrite L.
Qed.
Lemma t_head_length ts v : length (t_head ts v) = fixed ts v.
Proof. unfold t_head, fixed. destruct v; [|reflexivity]. rewrite firstn_length. lia. Qed.

Section Parts.
Variable J : option aguard -> Prop.
Variable R : nat -> nat -> AM.
Variable RelT RelF : nat -> nat -> Prop.

Lemma sat_tuples n : forall ts os tv ov,
  (forall i t o, nth_or ts tv i = Some t -> nth_or os ov i = Some o -> sat J (R t o) (RelT t o) (~ RelF t o)) ->
  sat J (a_tuples R n ts os tv ov)
    (forall i, (i < n)%nat -> exists t o, nth_or ts tv i = Some t /\ nth_or os ov i = Some o /\ RelT t o)
    (~ forall i, (i < n)%nat -> exists t o, nth_or ts tv i = Some t /\ nth_or os ov i = Some o /\ RelF t o).
Proof.
  induction n as [|n IH]; intros ts os tv ov H; cbn [a_tuples]; [apply sat_ret; intros; lia|].
  rewrite <- !nth_or_0.
  assert (N : (forall t o, nth_or ts tv 0 = Some t -> nth_or os ov 0 = Some o -> False) ->
    ~ forall i, (i < S n)%nat -> exists t o, nth_or ts tv i = Some t /\ nth_or os ov i = Some o /\ RelF t o).
  { intros F A. destruct (A 0%nat) as (t & o & E1 & E2 & _); [lia|]. eauto. }
  destruct (nth_or ts tv 0) as [t|] eqn:E1; [|apply sat_ret; apply N; discriminate].
  destruct (nth_or os ov 0) as [o|] eqn:E2; [|apply sat_ret; apply N; discriminate].
  eapply sat_imp; [apply sat_and; [apply (H 0%nat); eassumption|apply IH]| |].
  - intros i t' o'. rewrite !nth_or_S. apply H.
  - intros [A B] i Hi. destruct i as [|i]; [eauto|]. destruct (B i) as (t' & o' & F1 & F2 & F3); [lia|]. rewrite nth_or_S in F1, F2. eauto.
  - intros [A|A] B.
    + destruct (B 0%nat) as (t' & o' & F1 & F2 & F3); [lia|]. congruence.
    + apply A. intros i Hi. destruct (B (S i)) as (t' & o' & F1 & F2 & F3); [lia|]. exists t', o'. now rewrite !nth_or_S.
Qed.

(* ---------- structs ---------- *)

Lemma find_some k os o orq : a_find k os = Some (o, orq) -> exists k', In (k', o, orq) os /\ veq k k' = true.
Proof.
  induction os as [|[[k' t] r] os IH]; cbn [a_find]; [discriminate|]. destruct (veq k k') eqn:V.
  - intros [= <- <-]. exists k'. split; [now left|exact V].
  - intros E. destruct (IH E) as (k2 & I & V2). exists k2. split; [now right|exact V2].
Qed.
Lemma find_none k os : a_find k os = None -> forall o, In o os -> veq k (fst (fst o)) = false.
Proof.
  induction os as [|[[k' t] r] os IH]; cbn [a_find]; [intros _ o []|]. destruct (veq k k') eqn:V; [discriminate|].
  intros E o [<-|I]; [exact V|exact (IH E o I)].
Qed.

Notation entry := (value * nat * bool)%type.
Notation key := (fun e : entry => fst (fst e)).
Definition keys_ok (es : list entry) : Prop :=
  Forall (fun e : entry => data veq (fst (fst e))) es /\ ForallOrdPairs (fun e e' : entry => veq (fst (fst e)) (fst (fst e')) = false) es.
Lemma keys_ok_tail e es : keys_ok (e :: es) -> keys_ok es.
Proof. intros [A B]. inversion A; inversion B; split; assumption. Qed.
Lemma keys_unique es : keys_ok es -> forall e e', In e es -> In e' es -> veq (key e) (key e') = true -> e = e'.
Proof.
  intros K. induction es as [|x es IH]; intros e e' I I' V; [destruct I|]. pose proof (keys_ok_tail x es K) as K'. destruct K as [A B]. inversion A as [|? ? Wx A']; inversion B as [|? ? Fx B']; subst.
  rewrite Forall_forall in Fx, A'. destruct I as [<-|I], I' as [<-|I']; auto.
  - rewrite (Fx _ I') in V. discriminate.
  - rewrite veq_sym_eq in V; [|now apply A'|exact Wx]. rewrite (Fx _ I) in V. discriminate.
Qed.

(* the keys of os that some entry of es finds *)
Definition found (os : list entry) (es : list entry) : list value :=
  flat_map (fun e : entry => map (fun o : entry => fst (fst o)) (filter (fun o : entry => veq (fst (fst e)) (fst (fst o))) os)) es.

Lemma found_in os es k : In k (found os es) <-> exists e o, In e es /\ In o os /\ veq (key e) (key o) = true /\ k = key o.
Proof.
  unfold found. rewrite in_flat_map. split.
  - intros (e & I & H). apply in_map_iff in H as (o & <- & H). apply filter_In in H as [H V]. eauto 6.
  - intros (e & o & I & I2 & V & ->). exists e. split; [exact I|]. apply in_map_iff. exists o. split; [reflexivity|]. now apply filter_In.
Qed.
Lemma keys_nodup es : keys_ok es -> NoDup (map key es).
Proof.
  induction es as [|e es IH]; intros K; [constructor|]. cbn [map]. constructor; [|apply IH; now apply keys_ok_tail in K].
  intros I. apply in_map_iff in I as (e' & E & I). destruct K as [A B]. inversion A as [|? ? We _]; inversion B as [|? ? F _]; subst.
  rewrite Forall_forall in F. specialize (F e' I). cbv beta in F, E. rewrite E in F. rewrite veq_refl in F; [discriminate|exact We].
Qed.
Lemma filter_key e os : keys_ok os -> data veq (key e) ->
  (exists o, In o os /\ veq (key e) (key o) = true /\ filter (fun o : entry => veq (fst (fst e)) (fst (fst o))) os = [o]) \/
  ((forall o, In o os -> veq (key e) (key o) = false) /\ filter (fun o : entry => veq (fst (fst e)) (fst (fst o))) os = []).
Proof.
  intros K We. induction os as [|o os IH]; [right; split; [intros o []|reflexivity]|]. pose proof (keys_ok_tail o os K) as K'. specialize (IH K').
  cbn [filter]. destruct (veq (fst (fst e)) (fst (fst o))) eqn:V.
  - left. exists o. split; [now left|]. split; [exact V|]. f_equal. destruct IH as [(o' & I & V' & _)|[_ ->]]; [|reflexivity]. exfalso.
    destruct K as [A B]. inversion A as [|? ? Wo A']; inversion B as [|? ? F _]; subst. rewrite Forall_forall in F, A'. specialize (F o' I). cbv beta in F.
    rewrite (veq_trans (fst (fst o)) (fst (fst e)) (fst (fst o'))) in F; auto; try discriminate. now apply veq_sym.
  - destruct IH as [(o' & I & V' & E)|[N E]].
    + left. exists o'. split; [now right|auto].
    + right. split; [|exact E]. intros o2 [<-|I]; auto.
Qed.
Lemma found_nodup os es : keys_ok os -> keys_ok es -> NoDup (found os es).
Proof.
  intros Ko. induction es as [|e es IH]; intros K; [constructor|]. pose proof (keys_ok_tail e es K) as K'. specialize (IH K').
  destruct K as [A B]. inversion A as [|? ? We A']; inversion B as [|? ? F _]; subst. rewrite Forall_forall in F, A'.
  unfold found in *. cbn [flat_map]. destruct (filter_key e os Ko We) as [(o & I & V & E)|[_ E]]; rewrite E; cbn [map app]; [|exact IH].
  constructor; [|exact IH]. intros H. apply (found_in os es) in H as (e' & o' & I1 & I2 & V' & EK).
  assert (Wo : data veq (fst (fst o))) by (destruct Ko as [Ao _]; rewrite Forall_forall in Ao; now apply Ao).
  specialize (F e' I1). cbv beta in F, EK, V, V'. rewrite <- EK in V'.
  rewrite (veq_trans (fst (fst e)) (fst (fst o)) (fst (fst e'))) in F; auto; try discriminate. apply veq_sym; auto.
Qed.
Lemma found_length os es : keys_ok os -> keys_ok es ->
  (length (found os es) = length os <-> forall o, In o os -> exists e, In e es /\ veq (key e) (key o) = true).
Proof.
  intros Ko K. pose proof (found_nodup os es Ko K) as N. pose proof (keys_nodup os Ko) as No.
  assert (Inc : incl (found os es) (map key os)) by (intros k I; apply found_in in I as (e & o & _ & I & _ & ->); apply in_map_iff; eauto).
  split.
  - intros L o I. assert (I2 : In (key o) (map key os)) by (apply in_map_iff; eauto).
    apply (NoDup_length_incl N) in I2; [|rewrite map_length; lia|exact Inc]. apply found_in in I2 as (e & o' & I1 & I3 & V & E). exists e. split; [exact I1|]. cbv beta in *. now rewrite E.
  - intros C. apply Nat.le_antisymm; [rewrite <- (map_length key os); now apply NoDup_incl_length|].
    rewrite <- (map_length key os). apply NoDup_incl_length; [exact No|]. intros k I. apply in_map_iff in I as (o & <- & I).
    destruct (C o I) as (e & I1 & V). apply found_in. eauto 7.
Qed.

Definition entry_rule (Rel : nat -> nat -> Prop) (oad : bool) (os : list entry) (e : entry) : Prop :=
  (exists o, In o os /\ veq (fst (fst e)) (fst (fst o)) = true /\ (snd e = true -> snd o = true) /\ Rel (snd (fst e)) (snd (fst o))) \/
  ((forall o, In o os -> veq (fst (fst e)) (fst (fst o)) = false) /\ snd e = false /\ oad = false).

Lemma find_unique os k o : keys_ok os -> data veq k -> In o os -> veq k (key o) = true -> a_find k os = Some (snd (fst o), snd o).
Proof.
  intros Ko Wk I V. destruct (a_find k os) as [[t r]|] eqn:E.
  - apply find_some in E as (k' & I' & V'). assert (Q : o = (k', t, r)).
    { apply (keys_unique os Ko o (k', t, r) I I'). cbn [fst]. pose proof (proj1 Ko) as A. rewrite Forall_forall in A.
      apply (veq_trans _ k); auto; [exact (A _ I')|]. apply veq_sym; auto. }
    now rewrite Q.
  - cbv beta in V. rewrite (find_none k os E o I) in V. discriminate.
Qed.

Lemma sat_struct ad oad os : keys_ok os -> forall es oc, keys_ok es ->
  (forall e o, In e es -> In o os -> sat J (R (snd (fst e)) (snd (fst o))) (RelT (snd (fst e)) (snd (fst o))) (~ RelF (snd (fst e)) (snd (fst o)))) ->
  sat J (a_struct R ad es oad os oc)
    (Forall (entry_rule RelT oad os) es /\ (ad = true \/ oc + Z.of_nat (length (found os es)) = Z.of_nat (length os)))
    (~ (Forall (entry_rule RelF oad os) es /\ (ad = true \/ oc + Z.of_nat (length (found os es)) = Z.of_nat (length os)))).
Proof.
  intros Ko. induction es as [|e es IH]; intros oc K H.
  - cbn [a_struct]. apply sat_ret. unfold length_z. destruct ad; [split; [constructor|now left]|]. cbn [orb].
    destruct (oc =? Z.of_nat (length os)) eqn:E; cbn [found flat_map length].
    + apply Z.eqb_eq in E. split; [constructor|right; lia].
    + apply Z.eqb_neq in E. intros [_ [?|?]]; [discriminate|lia].
  - destruct e as [[k t] rq]. cbn [a_struct]. pose proof (keys_ok_tail _ es K) as K'.
    assert (Wk : data veq k) by (destruct K as [A _]; inversion A; assumption).
    assert (IH' : forall oc, sat J (a_struct R ad es oad os oc)
      (Forall (entry_rule RelT oad os) es /\ (ad = true \/ oc + Z.of_nat (length (found os es)) = Z.of_nat (length os)))
      (~ (Forall (entry_rule RelF oad os) es /\ (ad = true \/ oc + Z.of_nat (length (found os es)) = Z.of_nat (length os)))))
      by (intros; apply IH; [exact K'|]; intros; apply H; [now right|assumption]).
    assert (Uniq : forall o Rel, In o os -> veq k (fst (fst o)) = true -> entry_rule Rel oad os (k, t, rq) -> (rq = true -> snd o = true) /\ Rel t (snd (fst o))).
    { intros o Rel I V [(o' & I' & V' & Q)|[N _]].
      - pose proof (find_unique os k o Ko Wk I V) as E1. pose proof (find_unique os k o' Ko Wk I' V') as E2. rewrite E1 in E2. injection E2 as -> ->. exact Q.
      - cbn [fst] in N. rewrite (N o I) in V. discriminate. }
    unfold found. cbn [flat_map]. fold (found os es).
    destruct (filter_key (k, t, rq) os Ko Wk) as [(o & I & V & E)|[N E]]; cbn [fst] in E; cbn [fst]; rewrite E; cbn [map app length].
    + cbn [fst] in V. rewrite (find_unique os k o Ko Wk I V). destruct (rq && negb (snd o)) eqn:Q.
      * apply sat_ret. intros [A _]. inversion A as [|? ? A1 _]; subst. destruct (Uniq o RelF I V A1) as [U _]. destruct rq; [|discriminate]. rewrite U in Q; [discriminate|reflexivity].
      * assert (Q' : rq = true -> snd o = true) by (intros ->; destruct (snd o); [reflexivity|discriminate]).
        apply (sat_bind J _ _ (RelT t (snd (fst o))) (~ RelF t (snd (fst o)))); [apply (H (k, t, rq) o); [now left|exact I]| |].
        -- intros HT. eapply sat_imp; [apply IH'| |].
           ++ intros [A B]. split; [constructor; [left; exists o; auto|exact A]|]. rewrite Nat2Z.inj_succ in *. destruct B; [now left|right; lia].
           ++ intros A [B C]. inversion B; subst. apply A. split; [assumption|]. rewrite Nat2Z.inj_succ in *. destruct C; [now left|right; lia].
        -- intros HF. apply sat_ret. intros [A _]. inversion A as [|? ? A1 _]; subst. destruct (Uniq o RelF I V A1) as [_ U]. auto.
    + assert (Fn : a_find k os = None). { destruct (a_find k os) as [[t' r']|] eqn:F; [|reflexivity]. apply find_some in F as (k' & I & V). specialize (N _ I). cbn [fst] in N. congruence. }
      rewrite Fn. destruct (rq || oad) eqn:Q.
      * apply sat_ret. intros [A _]. inversion A as [|? ? [(o & I & V & _)|(_ & B & C)] _]; subst; [rewrite (N o I) in V; discriminate|]. cbn [snd] in B. subst. discriminate.
      * apply orb_false_iff in Q as [-> ->]. eapply sat_imp; [apply IH'| |].
        -- intros [A B]. split; [constructor; [right; auto|exact A]|exact B].
        -- intros A [B C]. inversion B; subst. apply A. auto.
Qed.
End Parts.

Section Graphs.
Variable W : world.
Variable T : tgraph.
Variable any : nat.
Hypothesis TOK : types_ok T.
Hypothesis TFIT : tuples_fit T.
Hypothesis ANY : nth_error T any = Some (NLeaf TAny).
Notation leafs := (fun t u => leaf_assign W t u = true).
Notation rule := (rule T leafs any).
Notation at_node := (at_node T).
Notation a_step := (a_step W any).
Notation rasgn := (rasgn W T any).

(* which pairs a step asks for with the same guard, apart from the method call for the elements of arrays *)
Inductive asks (a : nat) (na : rnode) (b : nat) (nb : rnode) : nat -> nat -> Prop :=
| ask_parts a' b' : deep_type na = true -> deep_type nb = true -> In a' (refers na) -> In b' (refers nb) -> asks a na b nb a' b'
| ask_choice ts a' : na = NAny ts -> In a' ts -> asks a na b nb a' b
| ask_any k v lo hi a' : na = NMap k v lo hi -> nb = NLeaf TMap -> a' = k \/ a' = v -> asks a na b nb a' any.

Lemma node_type_ok p nd : at_node p nd -> type_node_ok T nd.
Proof. intros E. unfold types_ok in TOK. rewrite Forall_forall in TOK. apply TOK. now apply nth_error_In in E. Qed.

Definition identical (a : nat) (na : rnode) (b : nat) (nb : rnode) : Prop := a = b \/ exists t, na = NLeaf t /\ nb = NLeaf t.

(* the rules, when the nodes are known *)
Definition choices (Rel : nat -> nat -> Prop) (a : nat) (nb : rnode) : Prop := match nb with NAny os => os <> [] /\ Forall (Rel a) os | _ => False end.
Definition rule_of (Rel : nat -> nat -> Prop) (a : nat) (na : rnode) (b : nat) (nb : rnode) : Prop :=
  match na with
  | NLeaf t =>
      match nb with
      | NLeaf u => leaf_assign W t u = true
      | _ =>
          match t with
          | TAny => True
          | TArray => match nb with NArr _ _ _ | NTuple _ _ => True | _ => choices Rel a nb end
          | TMap => match nb with NMap _ _ _ _ => True | _ => choices Rel a nb end
          | TFloat => False
          | _ => choices Rel a nb
          end
      end
  | NSens t => match nb with NSens o => Rel t o | _ => choices Rel a nb end
  | NArr e min max =>
      match nb with
      | NArr o bmin bmax => min <= bmin /\ bmax <= max /\ Rel e o
      | _ => choices Rel a nb
      end
  | NTuple ts v =>
      match nb with
      | NTuple os w => (fixed ts v <= fixed os w)%nat /\ (v = false -> w = false /\ length os = length ts) /\
          (forall i, (i < fixed os w)%nat -> exists t o, position ts v i t /\ position os w i o /\ Rel t o)
      | NArr e min max => Z.of_nat (fixed ts v) <= min /\ (v = false -> max <= Z.of_nat (length ts)) /\ max <= max_int64 /\ Forall (fun t => Rel t e) ts
      | _ => choices Rel a nb
      end
  | NMap k v min max =>
      match nb with
      | NMap ok ov bmin bmax => min <= bmin /\ bmax <= max /\ Rel k ok /\ Rel v ov
      | NLeaf TMap => min <= 0 /\ max_int64 <= max /\ Rel k any /\ Rel v any
      | _ => choices Rel a nb
      end
  | NStruct ad es =>
      match nb with
      | NStruct oad os => Forall (entry_rule Rel oad os) es /\ (ad = true \/ (forall o, In o os -> exists e, In e es /\ veq (fst (fst e)) (fst (fst o)) = true))
      | _ => choices Rel a nb
      end
  | NAny ts =>
      match ts with
      | [] => match nb with NAny _ => True | _ => False end
      | _ => Exists (fun t => Rel t b) ts \/ choices Rel a nb
      end
  | NAll _ | NOne _ | NNot _ => choices Rel a nb
  end.

Lemma rule_choices Rel a na b nb : at_node a na -> at_node b nb -> na <> NLeaf TFloat -> na <> NAny [] -> choices Rel a nb -> rule Rel a b.
Proof. intros A B N1 N2 C. destruct nb; cbn in C; try contradiction. destruct C. eapply by_choices; eauto. Qed.

Lemma rule_of_rule Rel a na b nb : at_node a na -> at_node b nb -> rule_of Rel a na b nb -> rule Rel a b.
Proof.
  intros A B H.
  assert (C : na <> NLeaf TFloat -> na <> NAny [] -> choices Rel a nb -> rule Rel a b) by (intros; eapply rule_choices; eauto).
  destruct na as [t|e lo hi|ts v|k v lo hi|ad es|ts|ts|ts|t|t]; cbn [rule_of] in H.
  - destruct nb as [u| | | | | | | | |]; [eapply by_leafs; eauto|..];
    (destruct t; try (apply C; [discriminate|discriminate|exact H]); try contradiction;
     [eapply by_any; eauto|..]); solve [eapply by_array; eauto|eapply by_tuple; eauto|eapply by_map; eauto|contradiction].
  - destruct nb; try (apply C; [discriminate|discriminate|exact H]). destruct H as (H1 & H2 & H3). eapply by_elements; eauto.
  - destruct nb; try (apply C; [discriminate|discriminate|exact H]).
    + destruct H as (H1 & H2 & H3 & H4). eapply by_all_positions; eauto.
    + destruct H as (H1 & H2 & H3). eapply by_positions; eauto.
  - destruct nb as [u| | | | | | | | |]; try (apply C; [discriminate|discriminate|exact H]).
    + destruct u; try contradiction. destruct H as (H1 & H2 & H3 & H4). eapply by_any_entries; eauto.
    + destruct H as (H1 & H2 & H3 & H4). eapply by_entries; eauto.
  - destruct nb; try (apply C; [discriminate|discriminate|exact H]). destruct H as (H1 & H2). eapply by_keys; eauto.
  - apply C; [discriminate|discriminate|exact H].
  - destruct ts as [|t ts].
    + destruct nb; try contradiction. eapply by_nothing; eauto.
    + destruct H as [H|H]; [|apply C; [discriminate|discriminate|exact H]]. apply Exists_exists in H as (u & I & H). eapply by_choice; eauto.
  - apply C; [discriminate|discriminate|exact H].
  - apply C; [discriminate|discriminate|exact H].
  - destruct nb; try (apply C; [discriminate|discriminate|exact H]). eapply by_wrapped; eauto.
Qed.

Lemma rule_inv Rel a na b nb : at_node a na -> at_node b nb -> rule Rel a b -> identical a na b nb \/ rule_of Rel a na b nb.
Proof.
  unfold RecAssignSpec.at_node. intros A B H. unfold identical.
  destruct H as [nd|t u H H0 H1|nd|e lo hi|os w|k v lo hi|t o H H0 H1|e lo hi o lo' hi'|k v lo hi ok ov lo' hi'|k v lo hi|ts v os w|ts v e lo hi|ad es oad os|ts t nd H H0 H1 H2|nd os H H0 H1 H2 H3 H4|os];
    unfold RecAssignSpec.at_node in *; repeat match goal with H : nth_error T _ = Some _ |- _ => progress (rewrite ?A, ?B in H) end;
    repeat match goal with H : Some _ = Some _ |- _ => injection H as H end; subst; cbn [rule_of]; eauto; try (right; tauto).
  - destruct H1; eauto. subst. eauto.
  - right. destruct nd; auto.
  - right. destruct ts as [|x ts]; [destruct H1|]. left. apply Exists_exists. eauto.
  - right. assert (C : choices Rel a (NAny os)) by (split; assumption). destruct nd as [[]| | | | | |[|]| | |]; cbn [rule_of]; auto; congruence.
Qed.

Lemma sat_check J R RelT RelF a nb :
  (forall os o, nb = NAny os -> In o os -> sat anything (R true a o) (RelT a o) (~ RelF a o)) ->
  sat J (a_check R a nb) (choices RelT a nb) (~ choices RelF a nb).
Proof.
  intros H. destruct nb as [| | | | | |os| | |]; cbn [a_check choices]; try (apply sat_ret; auto).
  apply (sat_with J anything); [now intros|].
  eapply sat_imp; [apply sat_and; [apply sat_all; intros o I; apply (H os o eq_refl I)|apply (sat_ret _ _ (os <> []) (os = []))]| |].
  - destruct os; [reflexivity|discriminate].
  - tauto.
  - intros [E|E] [N F]; [|tauto]. apply Exists_exists in E as (o & I & E). rewrite Forall_forall in F. exact (E (F o I)).
Qed.

Lemma position_in ts v i t : position ts v i t -> In t ts.
Proof.
  unfold position. destruct v; [|apply nth_error_In]. intros (us & u & -> & [H|[_ ->]]); apply in_or_app; [left; now apply nth_error_In in H|right; now left].
Qed.
Lemma fixed_Z ts v : (v = true -> ts <> []) -> t_min ts v = Z.of_nat (fixed ts v).
Proof. unfold t_min, fixed, length_z. destruct v; [|reflexivity]. intros N. destruct ts; [now destruct N|]. cbn [length Nat.pred]. lia. Qed.

Lemma step_sat J R a na b nb RelT RelF : at_node a na -> at_node b nb ->
  (forall a' b', asks a na b nb a' b' -> sat J (R true a' b') (RelT a' b') (~ RelF a' b')) ->
  (forall e lo hi o lo' hi', na = NArr e lo hi -> nb = NArr o lo' hi' -> sat J (R false e o) (RelT e o) (~ RelF e o)) ->
  (forall os o, nb = NAny os -> In o os -> sat anything (R true a o) (RelT a o) (~ RelF a o)) ->
  sat J (a_step R a na b nb) (rule_of RelT a na b nb) (~ rule_of RelF a na b nb).
Proof.
  intros A B HP HE HC. pose proof (node_type_ok a na A) as OA. pose proof (node_type_ok b nb B) as OB.
  pose proof (sat_check J R RelT RelF a nb HC) as C.
  destruct na as [t|e lo hi|ts v|k v lo hi|ad es|ts|ts|ts|t|t]; cbn [RecAssign.a_step rule_of].
  - destruct nb as [u| | | | | | | | |]; [apply sat_ret; destruct (leaf_assign W t u); congruence|..];
      destruct t; try exact C; apply sat_ret; tauto.
  - destruct nb; try exact C; try apply sat_fail. destruct ((lo <=? min) && (max <=? hi)) eqn:Q.
    + apply andb_true_iff in Q as [Q1 Q2]. apply Z.leb_le in Q1, Q2. eapply sat_imp; [eapply HE; reflexivity| |]; tauto.
    + apply sat_ret. intros (Q1 & Q2 & _). apply Z.leb_le in Q1, Q2. rewrite Q1, Q2 in Q. discriminate.
  - assert (Nt : v = true -> ts <> []) by (intros ->; apply OA).
    destruct nb as [|e lo hi|os w| | | | | | |]; try exact C.
    + unfold a_tuple_array. rewrite (fixed_Z ts v Nt). pose proof (TFIT a ts v A) as FT.
      assert (MX : (hi <=? t_max ts v) = true <-> (v = false -> hi <= Z.of_nat (length ts)) /\ hi <= max_int64).
      { rewrite Z.leb_le. unfold t_max, length_z. destruct v; [intuition discriminate|]. split; [intros; split; [auto|lia]|]. intros [X _]. now apply X. }
      destruct ((Z.of_nat (fixed ts v) <=? lo) && (hi <=? t_max ts v)) eqn:Q.
      * apply andb_true_iff in Q as [Q1 Q2]. apply Z.leb_le in Q1. apply MX in Q2.
        assert (All : forall Q : nat -> Prop, Forall Q ts <-> Forall Q (t_head ts v) /\ match t_rest ts v with None => True | Some t => Q t end).
        { intros Q. destruct v; [|cbn; tauto]. destruct (last_inv ts) as [->|(us & u & ->)]; [now destruct (Nt eq_refl)|].
          rewrite t_head_last, t_rest_last, Forall_app. split; intros [X Y]; split; auto. now inversion Y. }
        pose proof (All (fun t => RelT t e)) as AllT. pose proof (All (fun t => RelF t e)) as AllF.
        assert (Sub : forall t, In t (t_head ts v) -> In t ts) by (intros t; unfold t_head; destruct v; [apply In_firstn|auto]).
        assert (Sat : forall t, In t ts -> sat J (R true t e) (RelT t e) (~ RelF t e)) by (intros t I; apply HP; apply ask_parts; auto; now left).
        eapply sat_imp; [apply sat_and; [apply sat_all; intros t I; apply Sat; auto|]| |].
        -- instantiate (1 := match t_rest ts v with None => False | Some t => ~ RelF t e end). instantiate (1 := match t_rest ts v with None => True | Some t => RelT t e end).
           destruct (t_rest ts v) as [t|] eqn:E; [|now apply sat_ret]. apply Sat. unfold t_rest in E. destruct v; [now apply nth_error_In in E|discriminate].
        -- tauto.
        -- intros [X|X] (_ & _ & _ & F); apply AllF in F as [F1 F2].
           ++ apply Exists_exists in X as (o & I & X). rewrite Forall_forall in F1. exact (X (F1 o I)).
           ++ destruct (t_rest ts v); auto.
      * apply sat_ret. intros (Q1 & Q2 & Q3 & _). apply Z.leb_le in Q1. rewrite Q1, (proj2 MX (conj Q2 Q3)) in Q. discriminate.
    + assert (Nu : w = true -> os <> []) by (intros ->; apply OB).
      pose proof (TFIT a ts v A) as FT. pose proof (TFIT b os w B) as FO.
      unfold a_tuple_tuple. rewrite (fixed_Z ts v Nt), (fixed_Z os w Nu).
      assert (MX : (t_max ts v <? t_max os w) = false -> (fixed ts v <= fixed os w)%nat -> v = false -> w = false /\ length os = length ts).
      { intros X L ->. apply Z.ltb_ge in X. unfold t_max, length_z in X. unfold fixed in L. destruct w; [lia|]. split; [reflexivity|lia]. }
      destruct ((Z.of_nat (fixed os w) <? Z.of_nat (fixed ts v)) || (t_max ts v <? t_max os w)) eqn:Q.
      * apply sat_ret. intros (Q1 & Q2 & _). apply orb_true_iff in Q as [Q|Q]; apply Z.ltb_lt in Q; [lia|].
        unfold t_max, length_z in Q. destruct v; [destruct w; lia|]. destruct (Q2 eq_refl) as [-> L]. lia.
      * apply orb_false_iff in Q as [Q1 Q2]. apply Z.ltb_ge in Q1. rewrite !t_head_length. rewrite Nat.max_r by lia.
        eapply sat_imp; [apply (sat_tuples J (R true) RelT RelF)| |].
        -- intros i t o E1 E2. apply position_iff in E1, E2. apply HP. apply ask_parts; auto; cbn [refers]; eapply position_in; eassumption.
        -- intros H. split; [lia|]. split; [apply MX; [exact Q2|lia]|]. intros i Hi. destruct (H i Hi) as (t & o & E1 & E2 & E3).
           apply position_iff in E1, E2. eauto.
        -- intros H (_ & _ & H'). apply H. intros i Hi. destruct (H' i Hi) as (t & o & E1 & E2 & E3). apply position_iff in E1, E2. eauto.
  - destruct nb as [u| | |k' v' lo' hi'| | | | | |]; try exact C; try apply sat_fail.
    + destruct u; try exact C. destruct ((lo <=? 0) && (max_int64 <=? hi)) eqn:Q.
      * apply andb_true_iff in Q as [Q1 Q2]. apply Z.leb_le in Q1, Q2.
        eapply sat_imp; [apply sat_and; apply HP; eapply ask_any; try reflexivity; tauto| |].
        -- tauto.
        -- tauto.
      * apply sat_ret. intros (Q1 & Q2 & _). apply Z.leb_le in Q1, Q2. rewrite Q1, Q2 in Q. discriminate.
    + destruct ((lo <=? lo') && (hi' <=? hi)) eqn:Q.
      * apply andb_true_iff in Q as [Q1 Q2]. apply Z.leb_le in Q1, Q2.
        eapply sat_imp; [apply sat_and; apply HP; apply ask_parts; cbn; auto| |]; tauto.
      * apply sat_ret. intros (Q1 & Q2 & _). apply Z.leb_le in Q1, Q2. rewrite Q1, Q2 in Q. discriminate.
  - destruct nb as [| | | |oad os| | | | |]; try exact C. destruct OA as [_ KA]. destruct OB as [_ KB].
    eapply sat_imp; [apply (sat_struct J (R true) RelT RelF ad oad os KB es 0 KA)| |].
    + intros e o I1 I2. apply HP. apply ask_parts; auto; cbn [refers]; apply in_map_iff; eauto.
    + intros [H1 H2]. split; [exact H1|]. destruct H2 as [H2|H2]; [now left|right]. apply (found_length os es KB KA). lia.
    + intros H [H1 H2]. apply H. split; [exact H1|]. destruct H2 as [H2|H2]; [now left|right]. apply (found_length os es KB KA) in H2. lia.
  - apply sat_fail.
  - destruct ts as [|t ts]; [apply sat_ret; destruct nb; auto|].
    eapply sat_imp; [apply sat_or; [apply sat_any|exact C]| |].
    + intros x I. apply HP. eapply ask_choice; eauto.
    + auto.
    + intros [F N] [X|X]; [|auto]. apply Exists_exists in X as (o & I & X). rewrite Forall_forall in F. exact (F o I X).
  - apply sat_fail.
  - apply sat_fail.
  - destruct nb; try exact C. apply HP. apply ask_parts; cbn; auto.
Qed.

Lemma same_addr_iff a na b nb : at_node a na -> at_node b nb -> (same_addr T a b = true <-> identical a na b nb).
Proof.
  intros A B. unfold same_addr, identical. unfold RecAssignSpec.at_node in A, B. rewrite A, B, orb_true_iff, Nat.eqb_eq. split; (intros [H|H]; [now left|right]).
  - destruct na; try discriminate. destruct nb; try discriminate. unfold Assign.same_type in H. destruct (Assign.type_eq_dec t t0); [subst; eauto|discriminate].
  - destruct H as (t & -> & ->). unfold Assign.same_type. destruct (Assign.type_eq_dec t t); congruence.
Qed.
Lemma identical_rule Rel a na b nb : at_node a na -> at_node b nb -> identical a na b nb -> rule Rel a b.
Proof. intros A B [<-|(t & -> & ->)]; [eapply by_identity; eauto|]. eapply by_leafs; eauto. Qed.
Lemma identical_leaf Rel a na b nb : at_node a na -> at_node b nb -> deep_type na = false -> (forall t, na <> NNot t) -> identical a na b nb -> rule_of Rel a na b nb.
Proof.
  intros A B D N Id. assert (E : exists t, na = NLeaf t /\ nb = NLeaf t).
  { destruct Id as [<-|Id]; [|exact Id]. unfold RecAssignSpec.at_node in *. rewrite A in B. injection B as <-. destruct na; try discriminate D; [eauto|]. now destruct (N t). }
  destruct E as (t & -> & ->). cbn [rule_of]. destruct (node_type_ok a _ A) as [_ [L O]]. now apply leaf_self.
Qed.

(* ---------- nothing that is justified is rejected ---------- *)

Theorem justified_accepted Rel : justified T leafs any Rel -> forall n fn a b, sat anything (rasgn n fn a b) True (~ Rel a b).
Proof.
  intros Ju. induction n as [|n IH]; intros fn a b; cbn [RecAssign.rasgn]; [apply sat_fail|].
  destruct (nth_error T a) as [na|] eqn:A; [|apply sat_fail]. destruct (nth_error T b) as [nb|] eqn:B; [|apply sat_fail].
  pose proof (step_sat anything (rasgn n) a na b nb (fun _ _ => True) Rel A B (fun a' b' _ => IH true a' b') (fun e _ _ o _ _ _ _ => IH false e o) (fun _ o _ _ => IH true a o)) as St.
  assert (Hd : same_addr T a b = false -> sat anything (a_step (rasgn n) a na b nb) True (~ Rel a b)).
  { intros NS. eapply sat_imp; [exact St|auto|]. intros NR RR. apply Ju in RR. destruct (rule_inv Rel a na b nb A B RR) as [Id|RO]; [|auto].
    apply (same_addr_iff a na b nb A B) in Id. congruence. }
  assert (Hl : deep_type na = false -> sat anything (a_step (rasgn n) a na b nb) True (~ Rel a b)).
  { intros D. destruct (match na with NNot _ => true | _ => false end) eqn:Nt.
    - destruct na; try discriminate.
    - eapply sat_imp; [exact St|auto|]. intros NR RR. apply Ju in RR. apply NR. destruct (rule_inv Rel a na b nb A B RR) as [Id|RO]; [|exact RO].
      eapply identical_leaf; eauto. intros t ->. discriminate. }
  destruct fn.
  - destruct (same_addr T a b) eqn:SA; [now apply sat_ret|]. destruct (deep_type na) eqn:D; [|apply (sat_with anything anything); [now intros|now apply Hl]].
    intros s x s' _ E. unfold a_enter in E. destruct (deep_type nb); [|exact (Hd eq_refl s x s' I E)]. destruct s as [g|].
    + destruct (g_append g a b) as [g' c]. destruct (g_hit c); [injection E as <- <-; split; exact I|]. exact (sat_with anything anything _ _ _ _ (fun _ _ => I) (Hd eq_refl) _ _ _ I E).
    + exact (sat_with anything anything _ _ _ _ (fun _ _ => I) (Hd eq_refl) _ _ _ I E).
  - destruct (deep_type na) eqn:D; (apply (sat_with anything anything); [now intros|]); [apply IH|now apply Hl].
Qed.

(* ---------- what is accepted is derived, when the guard is not hit ---------- *)

Section Derived.
Variable Rel : nat -> nat -> Prop.
Hypothesis CL : closed T leafs any Rel.
Hypothesis FLAT : flat_choices T.

(* with a type without types on one side: the guard is not used *)
Lemma leaf_pure n : forall fn a b na nb, at_node a na -> at_node b nb -> deep_type na = false \/ deep_type nb = false -> forall J, sat J (rasgn n fn a b) (Rel a b) True.
Proof.
  induction n as [|n IH]; intros fn a b na nb A B D J; cbn [RecAssign.rasgn]; [apply sat_fail|]. unfold RecAssignSpec.at_node in A, B. rewrite A, B.
  assert (St : forall J, sat J (a_step (rasgn n) a na b nb) (Rel a b) True).
  { intros J'. eapply sat_imp; [eapply (step_sat J' (rasgn n) a na b nb Rel (fun _ _ => False) A B)| |].
    - intros a' b' [a1 b1 D1 D2|ts a1 -> I1|k v lo hi a1 -> -> I1].
      + destruct D; congruence.
      + destruct (FLAT a ts a1 A I1) as [t E]. apply (sat_imp _ _ (Rel a1 b) True); [|auto|auto]. eapply (IH true a1 b _ nb E B); now left.
      + pose proof (node_type_ok a _ A) as [O _]. cbn in O. inversion O as [|? ? O1 O2]; subst. inversion O2 as [|? ? O3 _]; subst.
        assert (Lt : (a1 < length T)%nat) by (destruct I1; subst; assumption). destruct (nth_error T a1) as [n1|] eqn:E; [|apply nth_error_None in E; lia].
        apply (sat_imp _ _ (Rel a1 any) True); [|auto|auto]. eapply (IH true a1 any n1 _ E ANY); now right.
    - intros e lo hi o lo' hi' -> ->. destruct D; discriminate.
    - intros os o -> I1. destruct (FLAT b os o B I1) as [t E]. apply (sat_imp _ _ (Rel a o) True); [|auto|auto]. eapply (IH true a o na _ A E); now right.
    - intros R. apply CL. now apply (rule_of_rule Rel a na b nb A B).
    - auto. }
  destruct fn.
  - destruct (same_addr T a b) eqn:SA.
    + apply sat_ret. apply CL. apply (same_addr_iff a na b nb A B) in SA. eapply identical_rule; eauto.
    + destruct (deep_type na) eqn:Da; [|apply (sat_with J anything); [now intros|apply St]].
      destruct D as [D|D]; [discriminate|]. intros s x s' Js E. unfold a_enter in E. rewrite D in E. exact (St J s x s' Js E).
  - destruct (deep_type na) eqn:Da; (apply (sat_with J anything); [now intros|]); [|apply St]. apply (IH true a b na nb A B). rewrite Da. exact D.
Qed.

(* the side that does not refer to itself *)
Variable left : bool.
Definition side (a b : nat) : nat := if left then a else b.
Definition seen (g : aguard) : list nat := if left then l_seen g else r_seen g.
Definition flag (g : aguard) : bool := if left then in_l g else in_r g.
Definition quiet (L : option (list nat)) (s : option aguard) : Prop :=
  match L, s with
  | None, None => True
  | Some l, Some g => seen g = l /\ flag g = false
  | _, _ => False
  end.

Lemma below_first x y : below T x y -> exists q, uses T x q /\ (q = y \/ below T q y).
Proof.
  intros B. induction B as [x y U|x y z B1 IH1 B2 IH2]; [exists y; auto|].
  destruct IH1 as (q & U & Q). exists q. split; [exact U|right]. destruct Q as [Q|Q]; [subst; exact B2|]. eapply t_trans; eassumption.
Qed.
Lemma ends_not_below p : ends T p -> ~ below T p p.
Proof.
  intros E. induction E as [p _ IH]. intros B. destruct (below_first p p B) as (q & U & [->|Q]).
  - exact (IH p U B).
  - apply (IH q U). eapply t_trans; [exact Q|now apply t_step].
Qed.
Lemma existsb_false p l : ends T p -> Forall (fun q => below T q p) l -> existsb (Nat.eqb p) l = false.
Proof.
  intros E F. destruct (existsb _ _) eqn:X; [|reflexivity]. apply existsb_exists in X as (q & I & Q). apply Nat.eqb_eq in Q. subst q.
  rewrite Forall_forall in F. now destruct (ends_not_below p E (F p I)).
Qed.

Lemma append_quiet g a b l : ends T (side a b) -> Forall (fun q => below T q (side a b)) l -> quiet (Some l) (Some g) ->
  forall g' c, g_append g a b = (g', c) -> quiet (Some l) (Some g') /\ quiet (Some (l ++ [side a b])) (Some c) /\ g_hit c = false.
Proof.
  intros E F [Q1 Q2] g' c. unfold g_append. intros [= <- <-]. unfold quiet, seen, flag, side, g_hit in *.
  destruct left; cbn [l_seen r_seen in_l in_r]; rewrite Q1, Q2, (existsb_false _ l E F); cbn [orb]; rewrite ?andb_false_r; auto.
Qed.

Lemma ends_uses p q : ends T p -> uses T p q -> ends T q.
Proof. intros [p' H] U. auto. Qed.

Theorem accepted_derived n : forall fn a b L, ends T (side a b) -> (match L with None => True | Some l => Forall (fun q => below T q (side a b)) l end) ->
  sat (quiet L) (rasgn n fn a b) (Rel a b) True.
Proof.
  induction n as [|n IH]; intros fn a b L En HL; [apply sat_fail|].
  destruct (nth_error T a) as [na|] eqn:A; [|cbn [RecAssign.rasgn]; rewrite A; apply sat_fail].
  destruct (nth_error T b) as [nb|] eqn:B; [|cbn [RecAssign.rasgn]; rewrite A, B; apply sat_fail].
  destruct (deep_type na) eqn:Da; [|eapply leaf_pure; eauto]. destruct (deep_type nb) eqn:Db; [|eapply leaf_pure; eauto].
  cbn [RecAssign.rasgn]. rewrite A, B, Da, Db. destruct fn; [|apply (sat_with (quiet L) (quiet None)); [intros; exact I|apply IH; auto; exact I]].
  destruct (same_addr T a b) eqn:SA.
  { apply sat_ret. apply CL. apply (same_addr_iff a na b nb A B) in SA. eapply identical_rule; eauto. }
  assert (St : forall l, Forall (fun q => below T q (side a b)) l -> sat (quiet (Some (l ++ [side a b]))) (a_step (rasgn n) a na b nb) (Rel a b) True).
  { intros l Fl. eapply sat_imp; [eapply (step_sat _ (rasgn n) a na b nb Rel (fun _ _ => False) A B)| |].
    - intros a' b' As. apply (sat_imp _ _ (Rel a' b') True); [|auto|auto]. destruct As as [a1 b1 D1 D2 I1 I2|ts a1 -> I1|k v lo hi a1 -> -> I1]; [|..].
      + assert (U : uses T (side a b) (side a1 b1)) by (unfold side; destruct left; [exists na|exists nb]; split; assumption).
        apply IH; [now apply (ends_uses _ _ En)|]. apply Forall_app. split; [|constructor; [now apply t_step|constructor]].
        eapply Forall_impl; [|exact Fl]. intros q Hq. eapply t_trans; [exact Hq|now apply t_step].
      + destruct (FLAT a ts a1 A I1) as [t E]. eapply leaf_pure; eauto.
      + discriminate Db.
    - intros e lo hi o lo' hi' -> ->. apply (sat_imp _ _ (Rel e o) True); [|auto|auto].
      assert (U : uses T (side a b) (side e o)) by (unfold side; destruct left; eexists; (split; [eassumption|now left])).
      apply IH; [now apply (ends_uses _ _ En)|]. apply Forall_app. split; [|constructor; [now apply t_step|constructor]].
      eapply Forall_impl; [|exact Fl]. intros q Hq. eapply t_trans; [exact Hq|now apply t_step].
    - intros os o -> I1. destruct (FLAT b os o B I1) as [t E]. apply (sat_imp _ _ (Rel a o) True); [|auto|auto]. eapply leaf_pure; eauto.
    - intros R. apply CL. now apply (rule_of_rule Rel a na b nb A B).
    - auto. }
  intros s x s' Q E. unfold a_enter in E. destruct L as [l|], s as [g|]; try contradiction.
  - destruct (g_append g a b) as [g' c] eqn:Ap. destruct (append_quiet g a b l En HL Q g' c Ap) as (Q1 & Q2 & Q3). rewrite Q3 in E.
    exact (sat_with (quiet (Some l)) _ _ _ _ _ (fun _ _ => Q2) (St l HL) _ _ _ Q1 E).
  - assert (Q0 : quiet (Some ([] ++ [side a b])) (Some {| l_seen := [a]; r_seen := [b]; in_l := false; in_r := false |})) by (unfold quiet, seen, flag, side; destruct left; cbn; auto).
    exact (sat_with (quiet None) _ _ _ _ _ (fun _ _ => Q0) (St [] (Forall_nil _)) _ _ _ Q E).
Qed.
End Derived.
End Graphs.
