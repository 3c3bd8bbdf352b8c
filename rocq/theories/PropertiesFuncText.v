(* Property C85. Only statements, [exact], assumptions and examples. *)
From Coq Require Import Strings.Ascii Strings.String.
From Coq Require Import ZArith List Bool Lia.
From Coq Require Import Floats.SpecFloat.
From Verif Require Import Int64 Utf8 Text TextSpec HMap Data DataSpec Types TypesSpec Construct Print Lexer LexerSpec Syntax SyntaxSpec Func FuncText FuncTextSpec FuncTextProofs PropertiesSyntax.
Import ListNotations.
Open Scope Z_scope.

(* C85. Partial: for function types that are [readable_func], whose arguments and results are no function types. The type that is read
   has equal arguments and results, and is written in the same way. The refutations below show why the conditions are needed. *)
Theorem C85_func_round_trip_partial :
  forall E f, readable_func E f -> Forall type_ok (f_args f) -> Forall type_ok (f_rets f) ->
  exists g, parse_func E (func_string E f) = POk g LEnd /\ same_func f g /\ func_string E g = func_string E f.
Proof. exact func_round. Qed.
Print Assumptions C85_func_round_trip_partial.
(* Exactly which type is read: the same one in new objects. *)
Theorem C85_func_read_partial : forall E f, readable_func E f -> parse_func E (func_string E f) = POk (renewed_func f) LEnd.
Proof. exact func_read. Qed.
Print Assumptions C85_func_read_partial.
(* The text tells the type. *)
Theorem C85_func_text_injective_partial :
  forall E f g, readable_func E f -> readable_func E g -> func_string E f = func_string E g -> renewed_func f = renewed_func g.
Proof. exact func_injective. Qed.
Print Assumptions C85_func_text_injective_partial.
(* The parser ends on every text that starts with a function type, whatever its bytes. *)
Theorem C85_func_parser_ends : forall E s, parse_func E s <> PStuck.
Proof. exact func_ends. Qed.
Print Assumptions C85_func_parser_ends.

(* func(string,{"a":int},...(int|nil)) ("a",bool), func(1,"y") (...any) and func() !int&any *)
Example C85_example_two : fty :=
  FTy [TString; TStruct 7 false [(VStr (lit "a"), TInt, true)]; TAnyOf 8 [TInt; TNil]] true [TExact 3 (VStr (lit "a")); TBool] false.
Example C85_example_any : fty := FTy [TExact 4 (VInt 1); TExact 5 (VStr (lit "y"))] false [TAny] true.
Example C85_example_one : fty := FTy [] false [TAllOf 9 [TNot 8 TInt; TAny]] false.
Example C85_example_hypotheses :
  readable_func toy C85_example_two /\ Forall type_ok (f_args C85_example_two) /\ Forall type_ok (f_rets C85_example_two) /\
  func_string toy C85_example_two = lit "func(string,{""a"":int},...int|nil) (""a"",bool)".
Proof.
  split; [|split; [|split]]; [|cbn; repeat constructor; cbn; auto; lia|cbn; repeat constructor|reflexivity].
  unfold readable_func, readable_list. cbn. repeat split; try discriminate; repeat constructor; try discriminate; try (intros [= ]).
  all: try (exists (lit "a")); try split; try reflexivity; repeat constructor; try (cbn; lia); try discriminate.
Qed.
Example C85_example_any_read : parse_func toy (func_string toy C85_example_any) = POk (renewed_func C85_example_any) LEnd /\ func_string toy C85_example_any = lit "func(1,""y"") (...any)".
Proof. vm_compute. auto. Qed.
Example C85_example_one_hypotheses : readable_func toy C85_example_one /\ func_string toy C85_example_one = lit "func() !int&any".
Proof. split; [|reflexivity]. unfold readable_func, readable_list. cbn. repeat split; try discriminate; repeat constructor; auto. Qed.

(* Operands that are no function types are written as those of the types of C37. *)
Theorem C85_operands_text :
  forall E p l, any_of_text E (map XTy l) = type_text E 0 (TAnyOf p l) /\ all_of_text E (map XTy l) = type_text E 0 (TAllOf p l).
Proof. exact operands_text. Qed.
Print Assumptions C85_operands_text.
Example C85_operands_example : any_of_text toy [XFn (FTy [] false [] false); XTy (TAllOf 1 [TInt; TAny]); XTy (TAnyOf 2 [TInt; TString])] = lit "func()|(int&any)|(int|string)".
Proof. vm_compute. reflexivity. Qed.

(* The result is written without parentheses, so that an operator after it belongs to it: the text of the type
   func() int or string is that of a function. *)
Theorem C85_func_operand_refuted :
  let l := [XFn (FTy [] false [TInt] false); XTy TString] in
  any_of_text toy l = lit "func() int|string" /\
  parse_func toy (any_of_text toy l) = POk (FTy [] false [TAnyOf 0 [TInt; TString]] false) LEnd.
Proof. vm_compute. auto. Qed.
Print Assumptions C85_func_operand_refuted.
(* A result that starts with a parenthesis: the text is also that of an operator on a function type. *)
Theorem C85_func_parenthesis_refuted :
  let f := FTy [] false [TAllOf 1 [TAnyOf 2 [TInt; TString]; TAny]] false in
  let g := [XFn (FTy [] false [TAnyOf 2 [TInt; TString]] false); XTy TAny] in
  func_string toy f = lit "func() (int|string)&any" /\ all_of_text toy g = func_string toy f.
Proof. vm_compute. auto. Qed.
Print Assumptions C85_func_parenthesis_refuted.
(* An argument that starts with dots makes the function variadic. *)
Theorem C85_func_range_refuted :
  let f := FTy [TIntRange min_int64 5 false] false [] false in
  func_string toy f = lit "func(...5)" /\ parse_func toy (func_string toy f) = POk (FTy [TExact 0 (VInt 5)] true [] false) LEnd.
Proof. vm_compute. auto. Qed.
Print Assumptions C85_func_range_refuted.
(* The parser panics when all types of a list are exact and one is nil. *)
Theorem C85_func_nil_refuted :
  func_string toy (FTy [] false [TNil] false) = lit "func() nil" /\ parse_func toy (lit "func() nil") = PPanic /\ parse_func toy (lit "func(nil)") = PPanic /\
  parse_func toy (lit "func(nil,int)") = POk (FTy [TNil; TInt] false [] false) LEnd.
Proof. vm_compute. auto. Qed.
Print Assumptions C85_func_nil_refuted.
