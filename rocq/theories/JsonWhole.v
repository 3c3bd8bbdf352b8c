(* Streaming, writing and reading together. *)
From Coq Require Import ZArith List Bool Lia Floats.SpecFloat Strings.String.
From Verif Require Import Print Int64 Utf8 TextSpec Data DataSpec DataProofs Convert Graph GraphSpec Stream StreamSpec StreamProofs StreamEnds RichProofs Json JsonSpec JsonProofs.
Import ListNotations.
Open Scope nat_scope.
Notation length := List.length.

Lemma plain_collector : forall (n p : nat) (c : coll) (m : list (value * gval)), nth_error (heap c) p = Some (GMap m) -> True -> no_decoding p c = Done c.
Proof. reflexivity. Qed.

Lemma get_text_none k (m : list (value * gval)) : ~ In (VStr k) (map fst m) -> get_text k m = None.
Proof.
  intros N. unfold get_text, get_with. induction m as [|[a b] m IH]; [reflexivity|]. cbn [find fst].
  destruct (veq (VStr k) a) eqn:E; [|apply IH; cbn in N; tauto].
  destruct a; try discriminate. cbn in E. apply bytes_eqb_eq in E. subst. cbn in N. tauto.
Qed.
Lemma plain_decoder W D : forall (n p : nat) (c : coll) (m : list (value * gval)), nth_error (heap c) p = Some (GMap m) -> ~ In (VStr (d_type D)) (map fst m) -> decoding W D n p c = Done c.
Proof. intros n p c m E N. unfold decoding. rewrite E. now rewrite get_text_none. Qed.

(* ---------- well formed ---------- *)

Lemma start_level_max C lv : c_complex C = false -> start_level C lv <> MaxDedup.
Proof. intros E. destruct lv; cbn; try discriminate. rewrite E. discriminate. Qed.
Lemma emits_well_formed : forall whole W D op g n lv x e ts st,
  (o_aliases op = true -> forall t, ~ In (SType t None) g) ->
  emits W D json_consumer op g n lv x = Done e -> write whole e FirstInArray = Done (ts, st) -> json_value ts.
Proof.
  intros whole W D op g n lv x e ts st N H Wr. unfold emits in H. undo H. injection H as <-.
  apply (emit_tidy W D json_consumer op g eq_refl N) in E; [|now apply start_level_max].
  destruct (write_well_formed whole _ E _ _ Wr) as (ts' & R & J). cbn in R. injection R as -> _. exact J.
Qed.
Lemma marshal_well_formed : forall whole W D n g x ts, marshal whole W D n g x = Done ts -> json_value ts.
Proof.
  intros whole W D n g x ts H. unfold marshal in H. undo H. undo H. injection H as <-. eapply emits_well_formed; eauto. discriminate.
Qed.

Lemma key_without_value : forall whole W t,
  exists e, emits W dgo_dialect json_consumer {| o_rich := true; o_aliases := true |} [SType t None] 2 NoKeyDedup (SRef 0) = Done e /\
    write whole e FirstInArray = Done ([JOpenObject; JString (lit "__type"); JCloseObject], AfterElement) /\
    ~ json_value [JOpenObject; JString (lit "__type"); JCloseObject].
Proof.
  intros whole W t. eexists. split; [reflexivity|]. split; [vm_compute; reflexivity|].
  intros J. inversion J as [| | | | | | | |ts M Z]. destruct M as [k ts V|k ts r V M]; cbn in Z; injection Z as _ Z; destruct ts; discriminate.
Qed.

(* ---------- the round trip ---------- *)

Section Trip.
Variable whole : spec_float -> option Z.
Variable to_float : Z -> spec_float.
Variable W : codec.
Variable D : dialect.
Variable g : objects.
Variable x : sval.
Hypothesis g_json : Forall (json_object W D whole) g.
Hypothesis D_json : json_dialect D.
Hypothesis x_json : json_leaf whole x.

(* what is collected from the calls is collected from the text *)
Lemma text_collected (Q : graph -> gval -> Prop) n0 :
  (forall n m, n0 <= n -> n0 <= m -> exists e h y, emits W D json_consumer json_options g n NoKeyDedup x = Done e /\ collects m (decoding W D m) e = Done (h, y) /\ Q h y) ->
  forall n, n0 <= n -> exists e, emits W D json_consumer json_options g n NoKeyDedup x = Done e /\
    ((Z.of_nat (calls e) <= max_int64)%Z ->
     exists ts, marshal whole W D n g x = Done ts /\
       exists m0, forall m, m0 <= m -> exists h y, unmarshal to_float W D m ts = Done (h, y) /\ Q h y).
Proof.
  intros H n L. destruct (H n n L L) as (e & _ & _ & E & _). exists e. split; [assumption|]. intros B.
  assert (R : readable whole (d_ref D) e) by (apply (emits_readable W D json_consumer json_options g whole) with (n := n) (lv := NoKeyDedup) (x := x); auto).
  destruct D_json as (_ & _ & _ & _ & _ & _ & Er & _).
  destruct (read_write whole to_float (d_ref D) Er e R) as (ts & st & Wr & Rd). exists ts. split; [unfold marshal; rewrite E; cbn [bind]; now rewrite Wr|].
  exists (Nat.max n0 (length ts)). intros m Lm. destruct (H n m L ltac:(lia)) as (e' & h & y & E' & Cl & Hq). rewrite E in E'. injection E' as <-.
  exists h, y. split; [|assumption]. unfold unmarshal. rewrite Rd by lia. exact Cl.
Qed.
End Trip.

Lemma graph_round_trip : forall whole to_float W D g x,
  Forall (plain (fun ks => ~ In (VStr (d_type D)) ks) D json_consumer g) g -> Forall (json_object W D whole) g -> json_dialect D ->
  valid g x -> json_leaf whole x ->
  exists n0, forall n, n0 <= n -> exists e, emits W D json_consumer json_options g n NoKeyDedup x = Done e /\
    ((Z.of_nat (calls e) <= max_int64)%Z ->
     exists ts, marshal whole W D n g x = Done ts /\
       exists m0, forall m, m0 <= m -> exists h y, unmarshal to_float W D m ts = Done (h, y) /\ same_graph g x h y).
Proof.
  intros whole to_float W D g x Pl Js Dj V Jl.
  destruct (graph_collected W D json_consumer json_options g (decoding W D) _ (plain_decoder W D) Pl NoKeyDedup x) as (n0 & H); [discriminate|assumption|].
  exists n0. now apply text_collected.
Qed.

Lemma rich_round_trip : forall whole to_float W D g x v,
  meaning g x v -> Forall (encodable W D json_consumer g) g -> proper D -> encoded_once json_consumer g x ->
  Forall (json_object W D whole) g -> json_dialect D -> json_leaf whole x ->
  exists n0, forall n, n0 <= n -> exists e, emits W D json_consumer json_options g n NoKeyDedup x = Done e /\
    ((Z.of_nat (calls e) <= max_int64)%Z ->
     exists ts, marshal whole W D n g x = Done ts /\
       exists m0, forall m, m0 <= m -> exists h y, unmarshal to_float W D m ts = Done (h, y) /\ stands h y v).
Proof.
  intros whole to_float W D g x v M G P On Js Dj Jl.
  destruct (rich_collected W D json_consumer json_options g NoKeyDedup x v M G P eq_refl (or_intror On)) as (n0 & H).
  exists n0. now apply (text_collected whole to_float W D g x Js Dj Jl (fun h y => stands h y v)).
Qed.

(* ---------- an endless search ---------- *)

Lemma endless_loop orig repl h : orig <> 2 -> nth_error h 2 = Some (GArr [GRef 2]) -> forall n, replace orig repl n (GRef 2) h = Stuck.
Proof.
  intros N E. induction n as [|n IH]; [reflexivity|]. cbn [replace]. destruct (Nat.eqb_spec 2 orig); [congruence|]. rewrite E. cbn [replace_list]. now rewrite IH.
Qed.
Lemma endless_replace : forall W n, 1 <= n -> exists e,
  emits W dgo_dialect json_consumer json_options [SMap [(SVal (VInt 1), SRef 1)]; SArr [SRef 1]] 9 NoKeyDedup (SRef 0) = Done e /\ collects n (decoding W dgo_dialect n) e = Stuck.
Proof.
  intros W [|n] L; [lia|]. eexists. split; [vm_compute; reflexivity|].
  match goal with |- ?a = _ => let b := eval cbv -[replace] in a in change (b = @Stuck (graph * gval)) end.
  cbn [replace Nat.eqb nth_error map snd replace_list]. rewrite endless_loop; [reflexivity|discriminate|reflexivity].
Qed.
