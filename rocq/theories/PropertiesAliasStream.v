(* Property C100. Only statements, [exact], assumptions and examples. *)
From Coq Require Import ZArith List Bool Strings.String.
From Verif Require Import Print Int64 Data DataSpec Convert Graph Stream StreamSpec Json PropertiesStream PropertiesRich NamedStream NamedStreamSpec PropertiesNamedStream AliasStream AliasStreamSpec AliasStreamProofs.
Import ListNotations.
Open Scope Z_scope.

(* C100: a value with types in it, streamed with an alias map to any consumer, is decoded as the same value, and the names of its types are added in the order in
   which they occur. Partial: all types have names, and as in C77. *)
Theorem C100_alias_round_trip_partial :
  forall W D C op M, proper D -> o_rich op = true -> forall names adder, o_aliases op = true -> alias_word D ->
  forall lv x, streamable W D C M x -> all_named names x ->
  exists e, emits_al W D C op names lv x = Done e /\ decodes_al W D M adder e = Done (x, if adder then declared names x else []).
Proof. exact alias_round_trip. Qed.
Print Assumptions C100_alias_round_trip_partial.

(* C100: then every type of the value has its name in the alias map that is collected, whatever it had before. Partial: no two types of the value have the same name. *)
Theorem C100_names_restored_partial :
  forall names a x, names_differ names x -> forall t n, In t (types_in x) -> names t = Some n ->
  get_text (type_of_name (collect a (declared names x))) n = Some t /\ get_text (name_of_type (collect a (declared names x))) t = Some n.
Proof. exact names_restored. Qed.
Print Assumptions C100_names_restored_partial.

Theorem C100_others_kept :
  forall names a x,
  (forall n, (forall t, In t (types_in x) -> names t <> Some n) -> get_text (type_of_name (collect a (declared names x))) n = get_text (type_of_name a) n) /\
  (forall t, ~ In t (types_in x) -> get_text (name_of_type (collect a (declared names x))) t = get_text (name_of_type a) t).
Proof. exact others_kept. Qed.
Print Assumptions C100_others_kept.

(* ---------- examples ---------- *)

Definition al_options : options := {| o_rich := true; o_aliases := true |}.
(* the types string[1] and int are named ne and a long name *)
Definition al_names (t : list Z) : option (list Z) :=
  if bytes_eqb t (lit "string[1]") then Some (lit "ne")
  else if bytes_eqb t (lit "int") then Some (lit "a name of more than twenty bytes")
  else None.
(* [string[1], a text that is the name of the next type, {k: sensitive int}, point{t: string[1]}] *)
Definition al_value : rv :=
  RArr [RType (lit "string[1]"); str "a name of more than twenty bytes"; RMap [(str "k", RSens (RType (lit "int")))]; RObj (lit "point") (RMap [(str "t", RType (lit "string[1]"))])].
Example al_value_streamable : streamable obj_codec dgo_dialect json_consumer obj_makers al_value.
Proof.
  cbn. repeat split; try exact (proj2 point_name); try discriminate; try (intros [E|[]]; discriminate E).
  - exists [VStr (lit "k")]. split; [reflexivity|repeat constructor].
  - intros t [E|[]]. discriminate E.
  - exists [VStr (lit "t")]. split; [reflexivity|repeat constructor].
Qed.
Example al_value_named : all_named al_names al_value.
Proof. repeat constructor; vm_compute; discriminate. Qed.
Example al_word : alias_word dgo_dialect.
Proof. vm_compute. intuition discriminate. Qed.
Definition al_trip (names : list Z -> option (list Z)) (x : rv) : outcome (rv * adds) :=
  do e <- emits_al obj_codec dgo_dialect json_consumer al_options names NoKeyDedup x; decodes_al obj_codec dgo_dialect obj_makers true e.
Example al_value_run : al_trip al_names al_value =
  Done (al_value, [(lit "ne", lit "string[1]"); (lit "a name of more than twenty bytes", lit "int"); (lit "ne", lit "string[1]")]).
Proof. vm_compute. reflexivity. Qed.
Example al_value_differ : names_differ al_names al_value.
Proof.
  intros t t' n I I'. cbn [al_value types_in flat_map fst snd app str text_key] in I, I'. 
  destruct I as [<-|[<-|[<-|[]]]], I' as [<-|[<-|[<-|[]]]]; vm_compute; congruence.
Qed.
Example al_value_restored :
  let a := collect {| type_of_name := []; name_of_type := [] |} (declared al_names al_value) in
  get_text (type_of_name a) (lit "ne") = Some (lit "string[1]") /\ get_text (name_of_type a) (lit "int") = Some (lit "a name of more than twenty bytes").
Proof. vm_compute. auto. Qed.

(* ---------- findings ---------- *)

(* A type that has no name in the alias map of the streamer is decoded as the map {__type: nil}. *)
Theorem C100_unnamed_refuted :
  exists W D C op M names x, proper D /\ o_rich op = true /\ o_aliases op = true /\ alias_word D /\ streamable W D C M x /\
  exists e, emits_al W D C op names NoKeyDedup x = Done e /\ decodes_al W D M true e = Done (RMap [(text_key (d_type D), RLeaf VNil)], []).
Proof.
  exists obj_codec, dgo_dialect, json_consumer, al_options, obj_makers, al_names, (RType (lit "float")).
  split; [exact dgo_proper|]. split; [reflexivity|]. split; [reflexivity|]. split; [exact al_word|]. split; [reflexivity|].
  eexists. split; vm_compute; reflexivity.
Qed.
Print Assumptions C100_unnamed_refuted.

(* Two types that answer to the same name, as they do after the alias has been declared again: the first has no name after decoding. *)
Theorem C100_names_restored_refuted :
  exists names a x t n, In t (types_in x) /\ names t = Some n /\ all_named names x /\ get_text (name_of_type (collect a (declared names x))) t = None.
Proof.
  exists (fun _ => Some (lit "a")), {| type_of_name := []; name_of_type := [] |}, (RArr [RType (lit "int"); RType (lit "float")]), (lit "int"), (lit "a").
  split; [now left|]. split; [reflexivity|]. split; [repeat constructor; discriminate|]. vm_compute. reflexivity.
Qed.
Print Assumptions C100_names_restored_refuted.
