(* Property C77. Only statements, [exact], assumptions and examples. *)
From Coq Require Import ZArith List Bool Lia Floats.SpecFloat Strings.String.
From Verif Require Import Print Int64 Utf8 TextSpec Data DataSpec Convert ConvertSpec Graph Stream StreamSpec Json JsonSpec JsonProofs PropertiesStream PropertiesRich NamedStream NamedStreamSpec NamedStreamProofs NamedStreamJson.
Import ListNotations.
Open Scope Z_scope.

(* C77: a value with objects of named types in it, streamed to any consumer at any level of deduplication, is decoded as the same value. Partial: the objects are
   [streamable], no object occurs twice, no alias map is given. *)
Theorem C77_named_round_trip_partial :
  forall W D C op M, proper D -> o_rich op = true -> o_aliases op = false ->
  forall lv x, streamable W D C M x -> exists e, emits_rv W D C op lv x = Done e /\ decodes W D M e = Done x.
Proof. exact named_round_trip. Qed.
Print Assumptions C77_named_round_trip_partial.

(* C77: the JSON text is well formed. Partial: ExtractInitArg gives no maps with keys other than strings. *)
Theorem C77_json_well_formed_partial : forall whole W D x ts, string_args x -> marshal_rv whole W D x = Done ts -> json_value ts.
Proof. exact named_well_formed. Qed.
Print Assumptions C77_json_well_formed_partial.

(* C77: MarshalJSON and UnmarshalJSON give the same value back. Partial as above, and as C40. *)
Theorem C77_json_round_trip_partial :
  forall whole to_float W D M x, proper D -> json_dialect D -> streamable W D json_consumer M x -> string_args x -> jsonable W D whole x ->
  exists e, emits_rv W D json_consumer json_options NoKeyDedup x = Done e /\
    (Z.of_nat (calls e) <= max_int64 ->
     exists ts, marshal_rv whole W D x = Done ts /\ json_value ts /\ forall n, (List.length ts <= n)%nat -> unmarshal_rv to_float W D M n ts = Done x).
Proof. exact named_json_round_trip. Qed.
Print Assumptions C77_json_round_trip_partial.

(* ---------- examples ---------- *)

Definition obj_codec : codec := {| w_format := fun s n z => [48; 49]; w_parse := fun t => Some (3, 4, 0); w_named := fun _ => true |}.
(* constructors that are inverse to the extractors *)
Definition obj_makers : makers := {| m_new := fun n a => Some (RObj n a); m_type := fun t => Some (RType t) |}.
Definition str (s : string) : rv := text_key (lit s).
Definition num (i : Z) : rv := RLeaf (VInt i).
(* [point{x: 1, y: sensitive point 2}, {1: point 2}, a text of more than 20 bytes, the text again, type int] *)
Definition points : rv :=
  RArr [RObj (lit "point") (RMap [(str "x", num 1); (str "y", RSens (RObj (lit "point") (num 2)))]);
        RMap [(num 1, RObj (lit "point") (num 2))]; str "a text of more than twenty bytes"; str "a text of more than twenty bytes"; RType (lit "int")].
Lemma point_name : name_ok obj_codec dgo_dialect (lit "point").
Proof. split; [reflexivity|]. cbn. intros [E|[E|[E|[E|[E|[]]]]]]; discriminate E. Qed.
Example points_streamable : streamable obj_codec dgo_dialect json_consumer obj_makers points.
Proof.
  cbn. repeat split; try exact (proj2 point_name); try discriminate; try (intros [E|[E|[]]]; discriminate E).
  - exists [VStr (lit "x"); VStr (lit "y")]. split; [reflexivity|repeat constructor].
  - exists [VInt 1]. split; [reflexivity|repeat constructor].
  - intros t [E|[]]. discriminate E.
Qed.
Example points_string_args : string_args points.
Proof. cbn. repeat split. repeat constructor; eexists; reflexivity. Qed.
Example points_round : exists e, emits_rv obj_codec dgo_dialect json_consumer json_options NoKeyDedup points = Done e /\ decodes obj_codec dgo_dialect obj_makers e = Done points.
Proof. exact (C77_named_round_trip_partial obj_codec dgo_dialect json_consumer json_options obj_makers dgo_proper eq_refl eq_refl NoKeyDedup points points_streamable). Qed.
Definition trip_rv (x : rv) : outcome rv := do e <- emits_rv obj_codec dgo_dialect json_consumer json_options NoKeyDedup x; decodes obj_codec dgo_dialect obj_makers e.
Example points_run : trip_rv points = Done points. Proof. vm_compute. reflexivity. Qed.
Example points_json : match marshal_rv toy_whole obj_codec dgo_dialect points with
  | Done ts => unmarshal_rv (fun _ => S754_nan) obj_codec dgo_dialect obj_makers (List.length ts) ts = Done points
  | _ => False
  end.
Proof. vm_compute. reflexivity. Qed.

Example points_jsonable : jsonable obj_codec dgo_dialect toy_whole points.
Proof.
  assert (U : forall s, forallb (fun c => (0 <=? c) && (c <? 128)) s = true -> utf8 s).
  { intros s H. apply ascii_utf8. apply Forall_forall. intros c Ic. rewrite forallb_forall in H. specialize (H c Ic). lia. }
  unfold points, str, num, text_key. cbn -[utf8 in64 text_key lit].
  repeat match goal with |- _ /\ _ => split end; try exact I; try (unfold in64, min_int64, max_int64; lia); try (apply U; reflexivity); try (intros k v r [=]).
Qed.
Example points_json_round : exists e, emits_rv obj_codec dgo_dialect json_consumer json_options NoKeyDedup points = Done e /\
    (Z.of_nat (calls e) <= max_int64 ->
     exists ts, marshal_rv toy_whole obj_codec dgo_dialect points = Done ts /\ json_value ts /\
       forall n, (List.length ts <= n)%nat -> unmarshal_rv (fun _ => S754_nan) obj_codec dgo_dialect obj_makers n ts = Done points).
Proof.
  exact (C77_json_round_trip_partial toy_whole (fun _ => S754_nan) obj_codec dgo_dialect obj_makers points dgo_proper dgo_json points_streamable points_string_args points_jsonable).
Qed.

(* ---------- what is not so ---------- *)

(* streamer.go:130-134, decoder.go:45-47: an object with an empty map as its argument is decoded as a type, whatever the constructor does *)
Theorem C77_empty_argument_refuted :
  forall W D C op M lv name t, o_rich op = true -> m_type M name = Some (RType t) ->
  exists e, emits_rv W D C op lv (RObj name (RMap [])) = Done e /\ decodes W D M e = Done (RType t).
Proof.
  intros W D C op M lv name t R T. eexists. unfold emits_rv. cbn. rewrite R. split; [reflexivity|]. unfold decodes. cbn. unfold decoded. cbn. rewrite bytes_same. unfold decode_rv. cbn. now rewrite T.
Qed.
Print Assumptions C77_empty_argument_refuted.
(* decoder.go:48-51: if the map has the key for values, New gets only the value of that key *)
Theorem C77_value_key_refuted :
  trip_rv (RObj (lit "point") (RMap [(str "x", num 1); (str "__value", num 2)])) = Done (RObj (lit "point") (num 2)).
Proof. vm_compute. reflexivity. Qed.
Print Assumptions C77_value_key_refuted.
(* basiccollector.go:53: if the map has the key for types, the object is decoded as an object of another type *)
Theorem C77_type_key_refuted :
  trip_rv (RObj (lit "point") (RMap [(str "x", num 1); (str "__type", str "line")])) = Done (RObj (lit "line") (RMap [(str "x", num 1)])).
Proof. vm_compute. reflexivity. Qed.
Print Assumptions C77_type_key_refuted.
(* decoder.go:55-81: the names of the dialect can be given to named types *)
Theorem C77_reserved_name_refuted :
  trip_rv (RObj (lit "sensitive") (num 1)) = Done (RSens (num 1)) /\ trip_rv (RObj (lit "map") (RArr [num 1; num 2])) = Done (RMap [(num 1, num 2)]) /\
  trip_rv (RObj (lit "binary") (num 1)) = Panics.
Proof. repeat split; vm_compute; reflexivity. Qed.
Print Assumptions C77_reserved_name_refuted.
(* streamer.go:132: keys go to the consumer as they are; the JSON text has a number as a key *)
Theorem C77_json_keys_refuted :
  exists x ts, streamable obj_codec dgo_dialect json_consumer obj_makers x /\ marshal_rv toy_whole obj_codec dgo_dialect x = Done ts /\ ~ json_value ts.
Proof.
  exists (RObj (lit "point") (RMap [(num 1, num 2)])). eexists. split; [|split; [vm_compute; reflexivity|]].
  - cbn. repeat split; try exact (proj2 point_name); try discriminate; try (intros [E|[]]; discriminate E). exists [VInt 1]. split; [reflexivity|repeat constructor].
  - apply colons_malformed. reflexivity.
Qed.
Print Assumptions C77_json_keys_refuted.
