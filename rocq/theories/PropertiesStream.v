(* Streaming (C38) and JSON (C39, C40). *)
From Coq Require Import ZArith List Bool Lia Floats.SpecFloat Strings.String.
From Verif Require Import Print Int64 Utf8 TextSpec Data DataSpec Convert Graph GraphSpec Stream StreamSpec StreamProofs StreamEnds Json JsonSpec JsonProofs JsonWhole.
Import ListNotations.
Open Scope Z_scope.
Notation length := List.length.

(* ---------- C38: what a streamer sends to a collector is put together again ---------- *)

(* Any level of deduplication, any consumer: a finite value that needs no encoding is collected as a value that stands for
   the same. *)
Theorem C38_value_collected_partial : forall W D C op g lv x v,
  Forall (plain (fun _ => True) D C g) g -> valid g x -> meaning g x v ->
  exists n0, forall n m, (n0 <= n)%nat -> (n0 <= m)%nat ->
    exists e h y, emits W D C op g n lv x = Done e /\ collects m no_decoding e = Done (h, y) /\ stands h y v.
Proof. intros W D C op g lv x v G V M. exact (finite_collected W D C op g (fun _ => no_decoding) _ plain_collector G lv x v M V). Qed.
Print Assumptions C38_value_collected_partial.

(* If objects are deduplicated then the value may be cyclic, and what is collected is the same graph: two values are one object
   if and only if they were one object. *)
Theorem C38_graph_collected_partial : forall W D C op g lv x,
  Forall (plain (fun _ => True) D C g) g -> valid g x -> lv <> NoDedup ->
  exists n0, forall n m, (n0 <= n)%nat -> (n0 <= m)%nat ->
    exists e h y, emits W D C op g n lv x = Done e /\ collects m no_decoding e = Done (h, y) /\ same_graph g x h y.
Proof. intros W D C op g lv x G V N. exact (graph_collected W D C op g (fun _ => no_decoding) _ plain_collector G lv x N V). Qed.
Print Assumptions C38_graph_collected_partial.

(* The decoder: the same, if no map has the type key. *)
Theorem C38_graph_decoded_partial : forall W D C op g lv x,
  Forall (plain (fun ks => ~ In (VStr (d_type D)) ks) D C g) g -> valid g x -> lv <> NoDedup ->
  exists n0, forall n m, (n0 <= n)%nat -> (n0 <= m)%nat ->
    exists e h y, emits W D C op g n lv x = Done e /\ collects m (decoding W D m) e = Done (h, y) /\ same_graph g x h y.
Proof. intros W D C op g lv x G V N. exact (graph_collected W D C op g (decoding W D) _ (plain_decoder W D) G lv x N V). Qed.
Print Assumptions C38_graph_decoded_partial.

(* a codec for the examples *)
Definition toy_codec : codec := {| w_format := fun s n z => [48; 49]; w_parse := fun t => Some (3, 4, 0); w_named := fun _ => false |}.
(* x = [m, m, x, long, long] with m = {a: [x], b: nil}: shared and cyclic *)
Definition long := lit "a string that is longer than twenty bytes".
Definition knot : objects :=
  [SArr [SRef 1; SRef 1; SRef 0; SVal (VStr long); SVal (VStr long)]; SMap [(SVal (VStr (lit "a")), SRef 2); (SVal (VStr (lit "b")), SVal VNil)]; SArr [SRef 0]].
(* one goal for each object *)
Ltac nodes := match goal with |- Forall _ (_ :: _) => apply Forall_cons; [|nodes] | |- Forall _ [] => apply Forall_nil end.
Lemma knot_plain C (ok : list value -> Prop) : ok [VStr (lit "a"); VStr (lit "b")] -> Forall (plain ok dgo_dialect C knot) knot.
Proof.
  intros K. unfold knot at 2. nodes; cbn [plain].
  - repeat constructor; cbn; lia.
  - split; [repeat constructor; cbn; lia|]. split; [|split; [right; repeat constructor; cbn; eauto|intros i; discriminate]].
    exists [VStr (lit "a"); VStr (lit "b")]. split; [repeat constructor|]. split; [repeat constructor|exact K].
  - repeat constructor; cbn; lia.
Qed.
Example C38_graph_example : exists n0, forall n m, (n0 <= n)%nat -> (n0 <= m)%nat ->
  exists e h y, emits toy_codec dgo_dialect data_collector json_options knot n MaxDedup (SRef 0) = Done e /\ collects m no_decoding e = Done (h, y) /\ same_graph knot (SRef 0) h y.
Proof. apply C38_graph_collected_partial; [now apply knot_plain|cbn; lia|discriminate]. Qed.
Example C38_graph_example_run :
  (do e <- emits toy_codec dgo_dialect data_collector json_options knot 9 MaxDedup (SRef 0); collects 9 no_decoding e) =
  Done ([GArr [GRef 1; GRef 1; GRef 0; GLeaf (VStr long); GLeaf (VStr long)]; GMap [(VStr (lit "a"), GRef 2); (VStr (lit "b"), GLeaf VNil)]; GArr [GRef 0]], GRef 0).
Proof. vm_compute. reflexivity. Qed.
Example C38_decoded_example : exists n0, forall n m, (n0 <= n)%nat -> (n0 <= m)%nat ->
  exists e h y, emits toy_codec dgo_dialect collector json_options knot n NoKeyDedup (SRef 2) = Done e /\ collects m (decoding toy_codec dgo_dialect m) e = Done (h, y) /\ same_graph knot (SRef 2) h y.
Proof. apply C38_graph_decoded_partial; [apply knot_plain; intros [Z|[Z|[]]]; discriminate|cbn; lia|discriminate]. Qed.
(* {[1]: s, 2.5: [s, binary]} where s is one array, without deduplication *)
Definition keyed : objects :=
  [SMap [(SRef 1, SRef 2); (SVal (VFloat (S754_finite false 5629499534213120 (-51))), SRef 3)]; SArr [SVal (VInt 1)]; SArr [SVal VNil]; SArr [SRef 2; SRef 4]; SBin [7; 8]].
Definition keyed_value : value :=
  VMap [(VArr [VInt 1], VArr [VNil]); (VFloat (S754_finite false 5629499534213120 (-51)), VArr [VArr [VNil]; VBin [7; 8]])].
Ltac means := repeat first [apply Forall2_cons | apply Forall2_nil | split | (apply mean_simple; exact I) | (eapply mean_arr; [reflexivity|]) | (eapply mean_map; [reflexivity|]) |
  (eapply mean_sens; [reflexivity|]) | (eapply mean_bin; reflexivity) | (eapply mean_time; reflexivity)].
Lemma keyed_means : meaning keyed (SRef 0) keyed_value.
Proof. unfold keyed_value. means. Qed.
Lemma keyed_plain : Forall (plain (fun _ => True) dgo_dialect collector keyed) keyed.
Proof.
  unfold keyed at 2. nodes; cbn [plain]; try (repeat constructor; cbn; lia).
  split; [repeat constructor; cbn; lia|]. split; [|split; [now left|intros i; discriminate]].
  exists [VArr [VInt 1]; VFloat (S754_finite false 5629499534213120 (-51))]. split; [means|]. split; [repeat constructor|exact I].
Qed.
Example C38_value_example : exists n0, forall n m, (n0 <= n)%nat -> (n0 <= m)%nat ->
  exists e h y, emits toy_codec dgo_dialect collector json_options keyed n NoDedup (SRef 0) = Done e /\ collects m no_decoding e = Done (h, y) /\ stands h y keyed_value.
Proof. apply C38_value_collected_partial; [exact keyed_plain|cbn; lia|exact keyed_means]. Qed.
Example C38_value_example_run :
  (do e <- emits toy_codec dgo_dialect collector json_options keyed 9 MaxDedup (SRef 0); collects 9 no_decoding e) =
  Done ([GMap [(VArr [VInt 1], GRef 2); (VFloat (S754_finite false 5629499534213120 (-51)), GRef 3)]; GArr [GLeaf (VInt 1)]; GArr [GLeaf VNil]; GArr [GRef 2; GLeaf (VBin [7; 8])]], GRef 0).
Proof. vm_compute. reflexivity. Qed.

(* The property is false of other values. A collector gets a map for a sensitive value, whatever it is able to do. *)
Theorem C38_sensitive_refuted : forall W lv,
  (do e <- emits W dgo_dialect collector json_options [SSens (SVal (VInt 1))] 9 lv (SRef 0); collects 9 no_decoding e) =
  Done ([GMap [(VStr (lit "__type"), GLeaf (VStr (lit "sensitive"))); (VStr (lit "__value"), GLeaf (VInt 1))]], GRef 0).
Proof. intros W []; vm_compute; reflexivity. Qed.
Print Assumptions C38_sensitive_refuted.
(* [s, s] where s is one sensitive value: the decoder gives [s, {__type: sensitive, __value: 1}]. ReplaceLast replaces the last
   value of the stack, but the references are looked up in Values. *)
Theorem C38_shared_sensitive_refuted : forall W,
  (do e <- emits W dgo_dialect collector json_options [SArr [SRef 1; SRef 1]; SSens (SVal (VInt 1))] 9 NoKeyDedup (SRef 0); collects 9 (decoding W dgo_dialect 9) e) =
  Done ([GArr [GRef 2; GRef 1]; GMap [(VStr (lit "__type"), GLeaf (VStr (lit "sensitive"))); (VStr (lit "__value"), GLeaf (VInt 1))]; GSens (GLeaf (VInt 1))], GRef 0).
Proof. intros W. vm_compute. reflexivity. Qed.
Print Assumptions C38_shared_sensitive_refuted.
(* A map with the reference key and an integer is sent as a reference, and is collected as something else, or not at all. *)
Theorem C38_reference_map_refuted : forall W lv,
  (do e <- emits W dgo_dialect collector json_options [SArr [SVal (VStr (lit "a")); SRef 1]; SMap [(SVal (VStr (lit "__ref")), SVal (VInt 1))]] 9 lv (SRef 0); collects 9 no_decoding e) =
    Done ([GArr [GLeaf (VStr (lit "a")); GLeaf (VStr (lit "a"))]], GRef 0) /\
  (do e <- emits W dgo_dialect collector json_options [SMap [(SVal (VStr (lit "__ref")), SVal (VInt 1))]] 9 lv (SRef 0); collects 9 no_decoding e) = Panics.
Proof. intros W []; vm_compute; auto. Qed.
Print Assumptions C38_reference_map_refuted.
(* {1: a} with a = [a] sent to the decoder by a consumer that has no complex keys: replaceInstance never comes to an end. *)
Definition endless : objects := [SMap [(SVal (VInt 1), SRef 1)]; SArr [SRef 1]].
Theorem C38_cyclic_value_refuted : forall W n, (1 <= n)%nat -> exists e,
  emits W dgo_dialect json_consumer json_options endless 9 NoKeyDedup (SRef 0) = Done e /\ collects n (decoding W dgo_dialect n) e = Stuck.
Proof. exact endless_replace. Qed.
Print Assumptions C38_cyclic_value_refuted.

(* ---------- C39: the text is well formed ---------- *)

Theorem C39_well_formed_partial : forall whole W D op g n lv x e ts st,
  (o_aliases op = true -> forall t, ~ In (SType t None) g) ->
  emits W D json_consumer op g n lv x = Done e -> write whole e FirstInArray = Done (ts, st) -> json_value ts.
Proof. exact emits_well_formed. Qed.
Print Assumptions C39_well_formed_partial.
Theorem C39_marshal_well_formed : forall whole W D n g x ts, marshal whole W D n g x = Done ts -> json_value ts.
Proof. exact marshal_well_formed. Qed.
Print Assumptions C39_marshal_well_formed.
(* floats that are written without a fraction *)
Definition toy_whole (f : spec_float) : option Z :=
  match f with S754_finite false m (Zneg k) => if Z.pos m mod 2 ^ Z.pos k =? 0 then Some (Z.pos m / 2 ^ Z.pos k) else None | _ => None end.
Definition rich_objects : objects := [SArr [SRef 1; SVal (VBool true); SRef 1]; SMap [(SVal (VInt 1), SRef 2)]; SSens (SVal VNil)].
Example C39_example : marshal toy_whole toy_codec dgo_dialect 9 rich_objects (SRef 0) =
  Done [JOpenArray;
        JOpenObject; JString (lit "__type"); JColon; JString (lit "map"); JComma; JString (lit "__value"); JColon;
          JOpenArray; JInt 1; JComma; JOpenObject; JString (lit "__type"); JColon; JString (lit "sensitive"); JComma; JString (lit "__value"); JColon; JNull; JCloseObject; JCloseArray;
        JCloseObject; JComma; JBool true; JComma;
        JOpenObject; JString (lit "__ref"); JColon; JInt 1; JCloseObject;
        JCloseArray].
Proof. vm_compute. reflexivity. Qed.
(* A type streamed with an alias map that has no name for it: a key without a value is written. *)
Theorem C39_type_refuted : forall whole W t,
  exists e, emits W dgo_dialect json_consumer {| o_rich := true; o_aliases := true |} [SType t None] 2 NoKeyDedup (SRef 0) = Done e /\
    write whole e FirstInArray = Done ([JOpenObject; JString (lit "__type"); JCloseObject], AfterElement) /\
    ~ json_value [JOpenObject; JString (lit "__type"); JCloseObject].
Proof. exact key_without_value. Qed.
Print Assumptions C39_type_refuted.

(* ---------- C40: the round trip ---------- *)

(* Values that need no encoding, shared and cyclic ones too: the same graph is read back. *)
Theorem C40_graph_round_trip_partial : forall whole to_float W D g x,
  Forall (plain (fun ks => ~ In (VStr (d_type D)) ks) D json_consumer g) g -> Forall (json_object W D whole) g -> json_dialect D ->
  valid g x -> json_leaf whole x ->
  exists n0, forall n, (n0 <= n)%nat -> exists e, emits W D json_consumer json_options g n NoKeyDedup x = Done e /\
    (Z.of_nat (calls e) <= max_int64 ->
     exists ts, marshal whole W D n g x = Done ts /\
       exists m0, forall m, (m0 <= m)%nat -> exists h y, unmarshal to_float W D m ts = Done (h, y) /\ same_graph g x h y).
Proof. exact graph_round_trip. Qed.
Print Assumptions C40_graph_round_trip_partial.
Lemma knot_json : Forall (json_object toy_codec dgo_dialect toy_whole) knot.
Proof.
  assert (U : forall s, forallb (fun c => (0 <=? c) && (c <? 128)) s = true -> utf8 s).
  { intros s H. apply ascii_utf8. apply Forall_forall. intros c Ic. rewrite forallb_forall in H. specialize (H c Ic). lia. }
  unfold knot. nodes; cbn [json_object].
  - repeat (apply Forall_cons || apply Forall_nil); cbn; auto; apply U; reflexivity.
  - split; [|intros k v r [= <- _ _]; discriminate]. repeat (apply Forall_cons || apply Forall_nil); cbn; split; auto; apply U; reflexivity.
  - repeat constructor.
Qed.
Lemma dgo_json : json_dialect dgo_dialect.
Proof.
  assert (U : forall s, forallb (fun c => (0 <=? c) && (c <? 128)) s = true -> utf8 s).
  { intros s H. apply ascii_utf8. apply Forall_forall. intros c Ic. rewrite forallb_forall in H. specialize (H c Ic). lia. }
  unfold json_dialect. repeat match goal with |- _ /\ _ => split end; try (apply U; reflexivity); [reflexivity|discriminate].
Qed.
Example C40_graph_example : exists n0, forall n, (n0 <= n)%nat -> exists e, emits toy_codec dgo_dialect json_consumer json_options knot n NoKeyDedup (SRef 0) = Done e /\
    (Z.of_nat (calls e) <= max_int64 ->
     exists ts, marshal toy_whole toy_codec dgo_dialect n knot (SRef 0) = Done ts /\
       exists m0, forall m, (m0 <= m)%nat -> exists h y, unmarshal (fun _ => S754_nan) toy_codec dgo_dialect m ts = Done (h, y) /\ same_graph knot (SRef 0) h y).
Proof. apply C40_graph_round_trip_partial; [apply knot_plain; intros [Z|[Z|[]]]; discriminate|exact knot_json|exact dgo_json|cbn; lia|exact I]. Qed.
Example C40_graph_example_run : (do ts <- marshal toy_whole toy_codec dgo_dialect 9 knot (SRef 0); unmarshal (fun _ => S754_nan) toy_codec dgo_dialect 40 ts) =
  Done ([GArr [GRef 1; GRef 1; GRef 0; GLeaf (VStr long); GLeaf (VStr long)]; GMap [(VStr (lit "a"), GRef 2); (VStr (lit "b"), GLeaf VNil)]; GArr [GRef 0]], GRef 0).
Proof. vm_compute. reflexivity. Qed.

Definition trip (W : codec) (D : dialect) (g : objects) (x : sval) : outcome (graph * gval) :=
  do ts <- marshal toy_whole W D 9 g x; unmarshal (fun _ => S754_nan) W D 40 ts.
(* The full property is false. A float without fraction becomes an integer, which is not Equal to it. *)
Theorem C40_float_refuted : forall W, trip W dgo_dialect [] (SVal (VFloat (S754_finite false 4503599627370496 (-52)))) = Done ([], GLeaf (VInt 1)).
Proof. intros W. vm_compute. reflexivity. Qed.
Print Assumptions C40_float_refuted.
(* The bytes of a string that is not UTF-8 become U+FFFD. *)
Theorem C40_string_refuted : forall W, trip W dgo_dialect [] (SVal (VStr [255])) = Done ([], GLeaf (VStr [239; 191; 189])).
Proof. intros W. vm_compute. reflexivity. Qed.
Print Assumptions C40_string_refuted.
(* Maps with the keys that the dialect uses *)
Theorem C40_reserved_keys_refuted : forall W,
  trip W dgo_dialect [SArr [SVal (VStr (lit "a")); SRef 1]; SMap [(SVal (VStr (lit "__ref")), SVal (VInt 1))]] (SRef 0) =
    Done ([GArr [GLeaf (VStr (lit "a")); GLeaf (VStr (lit "a"))]], GRef 0) /\
  trip W dgo_dialect [SMap [(SVal (VStr (lit "__ref")), SVal (VStr (lit "a")))]] (SRef 0) = Panics /\
  trip W dgo_dialect [SMap [(SVal (VStr (lit "__type")), SVal (VStr (lit "sensitive"))); (SVal (VStr (lit "__value")), SVal (VInt 1))]] (SRef 0) =
    Done ([GMap [(VStr (lit "__type"), GLeaf (VStr (lit "sensitive"))); (VStr (lit "__value"), GLeaf (VInt 1))]; GSens (GLeaf (VInt 1))], GRef 1).
Proof. intros W. vm_compute. auto. Qed.
Print Assumptions C40_reserved_keys_refuted.
(* [s, s] where s is one sensitive value *)
Theorem C40_shared_sensitive_refuted : forall W,
  trip W dgo_dialect [SArr [SRef 1; SRef 1]; SSens (SVal (VInt 1))] (SRef 0) =
  Done ([GArr [GRef 2; GRef 1]; GMap [(VStr (lit "__type"), GLeaf (VStr (lit "sensitive"))); (VStr (lit "__value"), GLeaf (VInt 1))]; GSens (GLeaf (VInt 1))], GRef 0).
Proof. intros W. vm_compute. reflexivity. Qed.
Print Assumptions C40_shared_sensitive_refuted.
(* [a, a] where a is one array, with the pcore dialect: the reference is written with the key of the dgo dialect, and read as a
   map. *)
Theorem C40_pcore_refuted : forall W,
  trip W pcore_dialect [SArr [SRef 1; SRef 1]; SArr []] (SRef 0) =
  Done ([GArr [GRef 1; GRef 2]; GArr []; GMap [(VStr (lit "__ref"), GLeaf (VInt 1))]], GRef 0).
Proof. intros W. vm_compute. reflexivity. Qed.
Print Assumptions C40_pcore_refuted.
(* MarshalJSON panics on floats that are infinite or not a number. *)
Theorem C40_nan_panics : forall whole W, marshal whole W dgo_dialect 9 [] (SVal (VFloat S754_nan)) = Panics.
Proof. reflexivity. Qed.
Print Assumptions C40_nan_panics.
