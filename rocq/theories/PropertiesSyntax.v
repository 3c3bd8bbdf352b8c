(* Properties C37 and C63. Only statements, [exact], assumptions and examples. *)
From Coq Require Import Strings.Ascii Strings.String.
From Coq Require Import ZArith List Bool Lia.
From Coq Require Import Floats.SpecFloat.
From Verif Require Import Int64 Utf8 Text TextSpec HMap Data DataSpec Types TypesSpec Construct Print Lexer LexerSpec Syntax SyntaxSpec ParserProofs CoreProofs RenewProofs.
Import ListNotations.
Open Scope Z_scope.

(* C37. Partial: for the types that are [readable]; the parser and the stringer without aliases, function types, native types and
   error types. The type that is read is equal, and is written in the same way. The refutations below show that the
   conditions of [readable] are needed. *)
Theorem C37_type_round_trip_partial :
  forall E t, readable E t -> type_ok t ->
  exists t', parse_type E (type_string E t) = POk t' LEnd /\ type_eq t t' = true /\ type_string E t' = type_string E t.
Proof. exact round_trip. Qed.
Print Assumptions C37_type_round_trip_partial.
(* Exactly which type is read: the same one in new objects. *)
Theorem C37_type_read_partial : forall E t, readable E t -> parse_type E (type_string E t) = POk (renewed t) LEnd.
Proof. exact type_read. Qed.
Print Assumptions C37_type_read_partial.

(* C63. The parser ends on every text, whatever its bytes. *)
Theorem C63_parser_ends : forall E s, parse_type E s <> PStuck.
Proof. exact parse_ends. Qed.
Print Assumptions C63_parser_ends.

(* an environment in which the float 2.5 has a text *)
Definition two_and_half : spec_float := S754_finite false 5629499534213120 (-51).
Definition toy : env := {|
  e_print := fun _ => true;
  e_ftoa := fun f => if SFeqb f two_and_half then lit "2.5" else lit "0.0";
  e_time := fun _ => lit "2019-10-06 07:15:00 +0000 UTC";
  e_float := fun s => if bytes_eqb s (lit "2.5") then two_and_half else S754_zero false;
  e_compiles := fun _ => true;
  e_lower := fun s => s;
  e_known := fun _ => false
|}.

(* {"a":int,"b"?:[1,5](string|/x/|!bool),...}, map[string,0,3]{2.5,...type[1..9]} and (any^("q"&~"w"))^sensitive[binary] *)
Example C37_example_struct : ty :=
  TStruct 7 true [(VStr (lit "a"), TInt, true); (VStr (lit "b"), TArrSized 8 (TAnyOf 9 [TString; TPattern (lit "x"); TNot 10 TBool]) 1 5, false)].
Example C37_example_map : ty := TMapSized 5 TString (TTuple 6 [TExact 4 (VFloat two_and_half); TMeta (Some (TIntRange 1 9 true))] true) 0 3.
Example C37_example_ternary : ty :=
  TOneOf 5 [TOneOf 6 [TAny; TAllOf 7 [TExact 8 (VStr (lit "q")); TCiStr (lit "w")]]; TSens 9 (TBinary 0 max_int64)].

Example C37_example_struct_hypotheses : readable toy C37_example_struct /\ type_ok C37_example_struct /\
  type_string toy C37_example_struct = lit "{""a"":int,""b""?:[1,5](string|/x/|!bool),...}".
Proof.
  split; [|split; [unfold type_ok, C37_example_struct; cbn; repeat constructor; cbn; repeat constructor; discriminate|vm_compute; reflexivity]].
  cbn. split; [|discriminate]. split; [|split; [|exact I]].
  - split; [exists (lit "a"); split; [vm_compute; reflexivity|]|auto]. repeat constructor; vm_compute; intuition discriminate.
  - split; [exists (lit "b"); split; [vm_compute; reflexivity|]; repeat constructor; vm_compute; intuition discriminate|]. split; [|exact I].
    split; [|split; [unfold bounds, max_int64; lia|split; [intros (? & _); discriminate|split; [intros (_ & ? & _); discriminate|reflexivity]]]].
    split; [|lia]. split; [exact I|]. split; [|repeat split; exact I]. split; [|reflexivity]. exists (lit "x"). split; [vm_compute; reflexivity|]. repeat constructor; vm_compute; intuition discriminate.
Qed.
Example C37_example_map_hypotheses : readable toy C37_example_map /\ type_ok C37_example_map /\
  type_string toy C37_example_map = lit "map[string,0,3]{2.5,...type[1..9]}".
Proof.
  split; [|split; [unfold type_ok, C37_example_map; cbn; repeat constructor; cbn; repeat constructor; discriminate|vm_compute; reflexivity]].
  cbn. split; [exact I|]. split; [|split; [unfold bounds, max_int64; lia|split; [intros (_ & ? & _); discriminate|reflexivity]]].
  split; [|split; [discriminate|split; [discriminate|reflexivity]]]. split; [|split; [|exact I]].
  - exists false. split; [|vm_compute; reflexivity]. exists [], [50], [46; 53], []. split; [vm_compute; reflexivity|]. split; [now left|]. split; [discriminate|]. split; [reflexivity|]. split; [|split; [reflexivity|discriminate]]. right. exists [53]. split; [reflexivity|]. split; [discriminate|reflexivity].
  - unfold in64, min_int64, max_int64. lia.
Qed.
Example C37_example_ternary_hypotheses : readable toy C37_example_ternary /\ type_ok C37_example_ternary /\
  type_string toy C37_example_ternary = lit "(any^(""q""&~""w""))^sensitive[binary]".
Proof.
  split; [|split; [unfold type_ok, C37_example_ternary; cbn; repeat constructor; cbn; repeat constructor; discriminate|vm_compute; reflexivity]].
  cbn. split; [|lia]. split; [|split; [repeat split|exact I]]. split; [|lia]. split; [exact I|split; [|exact I]]. split; [|lia]. split; [|split; [|exact I]].
  - exists (lit "q"); split; [vm_compute; reflexivity|]; repeat constructor; vm_compute; intuition discriminate.
  - split; [|reflexivity]. exists (lit "w"); split; [vm_compute; reflexivity|]; repeat constructor; vm_compute; intuition discriminate.
Qed.
Example C37_examples_read :
  parse_type toy (type_string toy C37_example_struct) = POk (renewed C37_example_struct) LEnd /\
  parse_type toy (type_string toy C37_example_map) = POk (renewed C37_example_map) LEnd /\
  parse_type toy (type_string toy C37_example_ternary) = POk (renewed C37_example_ternary) LEnd.
Proof. vm_compute. auto. Qed.
Example C63_example : parse_type toy (lit "map[{((") = PPanic /\ parse_type toy (lit "{...int,...,string}") = PPanic.
Proof. vm_compute. auto. Qed.

(* ---------- types that are not read back ---------- *)

(* written as [s], which the parser rejects *)
Definition rejected (E : env) (t : ty) (s : string) : Prop := type_string E t = lit s /\ parse_type E (lit s) = PPanic.
(* written as [s], which is read as the other type t' *)
Definition becomes (E : env) (t : ty) (s : string) (t' : ty) : Prop :=
  type_string E t = lit s /\ parse_type E (lit s) = POk t' LEnd /\ type_eq t t' = false.

(* Binaries with a size, and exact binaries *)
Theorem C37_binary_refuted : rejected toy (TBinary 1 2) "binary[1,2]" /\ rejected toy (TExact 5 (VBin [1; 2; 3])) "binary ""AQID""".
Proof. vm_compute. auto. Qed.
Print Assumptions C37_binary_refuted.
(* Times and regular expressions: the names are no types. *)
Theorem C37_time_and_regexp_refuted :
  rejected toy TTime "time" /\ rejected toy TRegexp "regexp" /\ rejected toy (TExact 5 (VRegexp (lit "a"))) "regexp[""a""]" /\
  rejected toy (TExact 5 (VTime 63705942900 0 0)) "time[""2019-10-06 07:15:00 +0000 UTC""]".
Proof. vm_compute. auto. Qed.
Print Assumptions C37_time_and_regexp_refuted.
(* The type of the empty array and the empty tuple are read as the type of the empty map. *)
Theorem C37_empty_tuple_refuted :
  becomes toy empty_tuple "{}" (TExact 0 (VMap [])) /\ becomes toy (TExact 5 (VArr [])) "{}" (TExact 0 (VMap [])).
Proof. vm_compute. auto. Qed.
Print Assumptions C37_empty_tuple_refuted.
(* A tuple that starts with a range is read as a variadic tuple. *)
Theorem C37_range_in_tuple_refuted :
  becomes toy (TTuple 5 [TIntRange min_int64 5 false] false) "{...5}" (TTuple 0 [TExact 0 (VInt 5)] true).
Proof. vm_compute. auto. Qed.
Print Assumptions C37_range_in_tuple_refuted.
(* Elements and map values that start with an operator *)
Theorem C37_operator_in_element_refuted :
  rejected toy (TArrSized 5 (TNot 6 TInt) 0 max_int64) "[]!int" /\ rejected toy (TArrSized 5 (TCiStr (lit "a")) 0 max_int64) "[]~""a""" /\
  rejected toy (TMapSized 5 TString (TNot 6 TInt) 0 max_int64) "map[string]!int".
Proof. vm_compute. auto. Qed.
Print Assumptions C37_operator_in_element_refuted.
(* After a float range without upper end the parser skips a token. *)
Theorem C37_open_float_range_refuted : rejected toy (TTuple 5 [TFloatRange two_and_half max_float true; TInt] false) "{2.5..,int}".
Proof. vm_compute. auto. Qed.
Print Assumptions C37_open_float_range_refuted.
(* Struct keys that are numbers or booleans are read as strings. *)
Theorem C37_struct_key_refuted :
  becomes toy (TStruct 5 false [(VInt 1, TInt, false)]) "{1?:int}" (TStruct 0 false [(VStr (lit "1"), TInt, false)]) /\
  becomes toy (TStruct 5 false [(VBool true, TInt, true)]) "{true:int}" (TStruct 0 false [(VStr (lit "true"), TInt, true)]) /\
  becomes toy (TExact 5 (VMap [(VBool true, VInt 1)])) "{true:1}" (TExact 0 (VMap [(VStr (lit "true"), VInt 1)])).
Proof. vm_compute. auto. Qed.
Print Assumptions C37_struct_key_refuted.
(* Sensitive types of exact types *)
Theorem C37_sensitive_refuted : rejected toy (TSens 5 (TExact 6 (VInt 5))) "sensitive[5]" /\ rejected toy (TSens 5 TNil) "sensitive[nil]".
Proof. vm_compute. auto. Qed.
Print Assumptions C37_sensitive_refuted.
(* A pattern with a backslash *)
Theorem C37_pattern_refuted : becomes toy (TPattern (lit "\d")) "/\\d/" (TPattern (lit "\\d")).
Proof. vm_compute. auto. Qed.
Print Assumptions C37_pattern_refuted.
(* The meta type of the meta type without operand *)
Theorem C37_meta_refuted : becomes toy (TMeta None) "type[type]" (TMeta (Some (TMeta (Some TAny)))).
Proof. vm_compute. auto. Qed.
Print Assumptions C37_meta_refuted.
(* The parser accepts texts that are no types. *)
Theorem C37_wrong_syntax_accepted :
  parse_type toy (lit "{a?}") = POk empty_tuple LEnd /\ parse_type toy (lit "{{?}") = POk empty_tuple LEnd.
Proof. vm_compute. auto. Qed.
Print Assumptions C37_wrong_syntax_accepted.
