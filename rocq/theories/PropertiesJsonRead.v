(* Property C87. Only statements, [exact], assumptions and examples. *)
From Coq Require Import Strings.Ascii Strings.String.
From Coq Require Import ZArith List Bool Lia.
From Coq Require Import Floats.SpecFloat.
From Verif Require Import Int64 Data Print Graph GraphSpec Stream Json JsonReadSpec JsonReadProofs.
Import ListNotations.
Open Scope Z_scope.

(* C87. A JSON document that does not use the words of the dialect is read as the value that it says, whatever follows it. *)
Theorem C87_document_read_partial : forall to_float W D d rest n,
  no_words (d_type D) (d_ref D) d -> (length (doc_tokens d) <= n)%nat ->
  exists h y, unmarshal to_float W D n (doc_tokens d ++ rest) = Done (h, y) /\ stands h y (doc_value to_float d).
Proof. exact unmarshal_doc. Qed.
Print Assumptions C87_document_read_partial.

(* No text is accepted but one that starts with brackets that match, and with at least one token. *)
Theorem C87_brackets_match : forall to_float W D n ts h y,
  unmarshal to_float W D n ts = Done (h, y) -> exists pre rest, ts = pre ++ rest /\ pre <> [] /\ balanced pre.
Proof. exact unmarshal_balanced. Qed.
Print Assumptions C87_brackets_match.

(* {"a": [1, {}], "b": 1.5, "a": 9223372036854775808} *)
Definition a_doc : doc :=
  DObject [(lit "a", DArray [DInteger 1; DObject []]); (lit "b", DNumber (S754_finite false 6755399441055744 (-52))); (lit "a", DInteger (max_int64 + 1))].
Definition no_codec : codec := Build_codec (fun _ _ _ => []) (fun _ => None) (fun _ => false).
Example C87_example :
  no_words (d_type dgo_dialect) (d_ref dgo_dialect) a_doc /\
  doc_tokens a_doc = [JOpenObject; JString (lit "a"); JColon; JOpenArray; JInt 1; JComma; JOpenObject; JCloseObject; JCloseArray; JComma;
    JString (lit "b"); JColon; JFloat (S754_finite false 6755399441055744 (-52)); JComma; JString (lit "a"); JColon; JInt 9223372036854775808; JCloseObject] /\
  doc_value (fun _ => S754_infinity false) a_doc = VMap [(VStr (lit "a"), VFloat (S754_infinity false)); (VStr (lit "b"), VFloat (S754_finite false 6755399441055744 (-52)))] /\
  unmarshal (fun _ => S754_infinity false) no_codec dgo_dialect 30 (doc_tokens a_doc) =
    Done ([GMap [(VStr (lit "a"), GLeaf (VFloat (S754_infinity false))); (VStr (lit "b"), GLeaf (VFloat (S754_finite false 6755399441055744 (-52))))]; GArr [GLeaf (VInt 1); GRef 2]; GMap []], GRef 0).
Proof.
  split; [|split; [vm_compute; reflexivity|split; vm_compute; reflexivity]].
  split; [intros k x r E; assert (k = lit "a") as -> by congruence; vm_compute; discriminate|]. repeat split; vm_compute; try discriminate; auto.
Qed.

(* A text with something after the document is accepted: 1 2 is read as 1. The decoder asks for no further token (json.go:63-65). *)
Theorem C87_trailing_text_refuted : forall to_float W D,
  unmarshal to_float W D 5 [JInt 1; JInt 2] = Done ([], GLeaf (VInt 1)) /\ unmarshal to_float W D 5 [JInt 1; JCloseArray; JCloseObject] = Done ([], GLeaf (VInt 1)).
Proof. now split. Qed.
Print Assumptions C87_trailing_text_refuted.
(* With the words of the dialect a document says something else: {"__ref": null} panics, {"__type": "sensitive", "a": 1} is sensitive, and {"a": 1, "__type": "x"} panics. *)
Theorem C87_words_refuted : forall to_float,
  unmarshal to_float no_codec dgo_dialect 20 (doc_tokens (DObject [(lit "__ref", DNull)])) = Panics /\
  (exists h, unmarshal to_float no_codec dgo_dialect 20 (doc_tokens (DObject [(lit "__type", DText (lit "sensitive")); (lit "a", DInteger 1)])) = Done (h, GRef 2) /\ nth_error h 2 = Some (GSens (GRef 1))) /\
  unmarshal to_float no_codec dgo_dialect 20 (doc_tokens (DObject [(lit "a", DInteger 1); (lit "__type", DText (lit "x"))])) = Panics.
Proof. intros to_float. split; [vm_compute; reflexivity|]. split; [eexists; split; vm_compute; reflexivity|vm_compute; reflexivity]. Qed.
Print Assumptions C87_words_refuted.
