(* Streaming (C38) and JSON (C40) of values that are encoded: sensitive values, binaries, times and maps whose keys are not strings. *)
From Coq Require Import ZArith List Bool Lia Floats.SpecFloat Strings.String.
From Verif Require Import Print Int64 Utf8 TextSpec Data DataSpec Convert Graph GraphSpec Stream StreamSpec StreamProofs StreamEnds RichProofs Json JsonSpec JsonProofs JsonWhole PropertiesStream.
Import ListNotations.
Open Scope Z_scope.
Notation length := List.length.

(* Any consumer, with rich data: a finite value is decoded as a value that stands for the same, if there is no deduplication or if no
   object that has to be encoded is shared. Other objects may be shared. Missing, and refuted: encoded objects that are shared
   (C38_shared_sensitive_refuted), cyclic values with them (C38_cyclic_value_refuted). Missing, and not modelled: types. *)
Theorem C38_rich_decoded_partial : forall W D C op g lv x v,
  meaning g x v -> Forall (encodable W D C g) g -> proper D -> o_rich op = true -> (lv = NoDedup \/ encoded_once C g x) ->
  exists n0, forall n m, (n0 <= n)%nat -> (n0 <= m)%nat ->
    exists e h y, emits W D C op g n lv x = Done e /\ collects m (decoding W D m) e = Done (h, y) /\ stands h y v.
Proof. exact rich_collected. Qed.
Print Assumptions C38_rich_decoded_partial.

(* The same through the text. *)
Theorem C40_rich_round_trip_partial : forall whole to_float W D g x v,
  meaning g x v -> Forall (encodable W D json_consumer g) g -> proper D -> encoded_once json_consumer g x ->
  Forall (json_object W D whole) g -> json_dialect D -> json_leaf whole x ->
  exists n0, forall n, (n0 <= n)%nat -> exists e, emits W D json_consumer json_options g n NoKeyDedup x = Done e /\
    (Z.of_nat (calls e) <= max_int64 ->
     exists ts, marshal whole W D n g x = Done ts /\
       exists m0, forall m, (m0 <= m)%nat -> exists h y, unmarshal to_float W D m ts = Done (h, y) /\ stands h y v).
Proof. exact rich_round_trip. Qed.
Print Assumptions C40_rich_round_trip_partial.

(* [sensitive {a: p}, binary, time, p, p, {[1]: p, 2: sensitive 9}] where p is one array *)
Definition mixed : objects :=
  [SArr [SRef 1; SRef 2; SRef 3; SRef 4; SRef 4; SRef 5]; SSens (SRef 6); SBin [1; 255]; STime 3 4 0; SArr [SVal VNil];
   SMap [(SRef 7, SRef 4); (SVal (VInt 2), SRef 8)]; SMap [(SVal (VStr (lit "a")), SRef 4)]; SArr [SVal (VInt 1)]; SSens (SVal (VInt 9))].
Definition mixed_value : value :=
  VArr [VSens (VMap [(VStr (lit "a"), VArr [VNil])]); VBin [1; 255]; VTime 3 4 0; VArr [VNil]; VArr [VNil];
        VMap [(VArr [VInt 1], VArr [VNil]); (VInt 2, VSens (VInt 9))]].
Lemma mixed_means : meaning mixed (SRef 0) mixed_value.
Proof. unfold mixed_value. means. Qed.
Lemma mixed_encodable C : c_complex C = false -> Forall (encodable toy_codec dgo_dialect C mixed) mixed.
Proof.
  intros Cx. unfold mixed at 2. nodes; cbn [encodable]; try exact I.
  - intros _. repeat (apply Forall_cons || apply Forall_nil); unfold byte; lia.
  - intros _. reflexivity.
  - split; [|intros i; discriminate]. exists [VArr [VInt 1]; VInt 2]. split; [means|]. split; [repeat constructor|]. cbn. rewrite Cx. discriminate.
  - split; [|intros i; discriminate]. exists [VStr (lit "a")]. split; [means|]. split; [repeat constructor|]. intros _ [Z|[]]. discriminate.
Qed.
Lemma dgo_proper : proper dgo_dialect.
Proof. split; [discriminate|]. repeat (apply NoDup_cons; [cbn; intuition discriminate|]). apply NoDup_nil. Qed.
Lemma mixed_once C : c_complex C = false -> c_binary C = false -> c_time C = false -> encoded_once C mixed (SRef 0).
Proof.
  intros Cx Cb Ct. unfold encoded_once. cbn. rewrite Cx, Cb, Ct. cbn. repeat (apply NoDup_cons; [cbn; lia|]). apply NoDup_nil.
Qed.
Example C38_rich_example : exists n0, forall n m, (n0 <= n)%nat -> (n0 <= m)%nat ->
  exists e h y, emits toy_codec dgo_dialect data_collector json_options mixed n MaxDedup (SRef 0) = Done e /\ collects m (decoding toy_codec dgo_dialect m) e = Done (h, y) /\ stands h y mixed_value.
Proof. apply C38_rich_decoded_partial; [exact mixed_means|now apply mixed_encodable|exact dgo_proper|reflexivity|right; now apply mixed_once]. Qed.
(* p is one array again *)
Example C38_rich_example_run :
  match (do e <- emits toy_codec dgo_dialect data_collector json_options mixed 9 MaxDedup (SRef 0); collects 9 (decoding toy_codec dgo_dialect 9) e) with
  | Done (h, GRef 0) => nth_error h 0 = Some (GArr [GRef 4; GLeaf (VBin [1; 255]); GLeaf (VTime 3 4 0); GRef 3; GRef 3; GRef 12]) /\
      nth_error h 3 = Some (GArr [GLeaf VNil]) /\ nth_error h 4 = Some (GSens (GRef 2)) /\ nth_error h 12 = Some (GMap [(VArr [VInt 1], GRef 3); (VInt 2, GRef 11)])
  | _ => False
  end.
Proof. vm_compute. repeat split. Qed.
(* The same object with an encoded key twice, without deduplication. *)
Definition twice : objects := [SArr [SRef 1; SRef 1]; SMap [(SRef 2, SVal VNil)]; SBin [7]].
Definition twice_value : value := VArr [VMap [(VBin [7], VNil)]; VMap [(VBin [7], VNil)]].
Example C38_nodedup_example : exists n0, forall n m, (n0 <= n)%nat -> (n0 <= m)%nat ->
  exists e h y, emits toy_codec dgo_dialect json_consumer json_options twice n NoDedup (SRef 0) = Done e /\ collects m (decoding toy_codec dgo_dialect m) e = Done (h, y) /\ stands h y twice_value.
Proof.
  apply C38_rich_decoded_partial; [unfold twice_value; means| |exact dgo_proper|reflexivity|now left]. unfold twice at 2. nodes; cbn [encodable].
  - exact I.
  - split; [|intros i; discriminate]. exists [VBin [7]]. split; [means|]. split; [repeat constructor|]. discriminate.
  - intros _. repeat (apply Forall_cons || apply Forall_nil); unfold byte; lia.
Qed.
Lemma mixed_json : Forall (json_object toy_codec dgo_dialect toy_whole) mixed.
Proof.
  assert (U : forall s, forallb (fun c => (0 <=? c) && (c <? 128)) s = true -> utf8 s).
  { intros s H. apply ascii_utf8. apply Forall_forall. intros c Ic. rewrite forallb_forall in H. specialize (H c Ic). lia. }
  unfold mixed. nodes; cbn [json_object]; try (repeat constructor; cbn; lia).
  - apply U. reflexivity.
  - split; [|intros k v r; discriminate]. repeat (apply Forall_cons || apply Forall_nil); cbn; unfold in64, min_int64, max_int64; split; auto; lia.
  - split; [|intros k v r [= <- _ _]; discriminate]. repeat (apply Forall_cons || apply Forall_nil); cbn; split; auto; apply U; reflexivity.
Qed.
Example C40_rich_example : exists n0, forall n, (n0 <= n)%nat -> exists e, emits toy_codec dgo_dialect json_consumer json_options mixed n NoKeyDedup (SRef 0) = Done e /\
    (Z.of_nat (calls e) <= max_int64 ->
     exists ts, marshal toy_whole toy_codec dgo_dialect n mixed (SRef 0) = Done ts /\
       exists m0, forall m, (m0 <= m)%nat -> exists h y, unmarshal (fun _ => S754_nan) toy_codec dgo_dialect m ts = Done (h, y) /\ stands h y mixed_value).
Proof.
  apply C40_rich_round_trip_partial; [exact mixed_means|now apply mixed_encodable|exact dgo_proper|now apply mixed_once|exact mixed_json|exact dgo_json|exact I].
Qed.
