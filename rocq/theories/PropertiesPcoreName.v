(* Property C95. Only statements, [exact], assumptions and examples. *)
From Coq Require Import Strings.Ascii Strings.String.
From Coq Require Import ZArith List Bool Lia.
From Coq Require Import Floats.SpecFloat.
From Verif Require Import Int64 Utf8 Text Data Types Print Lexer Syntax Pcore PcoreSpec PcoreName PcoreNameSpec PcoreNameProofs PropertiesPcore.
Import ListNotations.
Open Scope Z_scope.

(* C95: every name has a name in dgo. Partial: the character 6 is excluded, see below. *)
Theorem C95_translates_partial : forall s t, ~ In 6 s -> delivers (pc_tokens s) t -> t_type t = k_name -> exists d, to_dgo_name (t_value t) = Some d.
Proof. exact names_translate. Qed.
Print Assumptions C95_translates_partial.
(* C95: different names have different names in dgo. *)
Theorem C95_distinct_partial : forall s s' t t' d, ~ In 6 s -> ~ In 6 s' ->
  delivers (pc_tokens s) t -> delivers (pc_tokens s') t' -> t_type t = k_name -> t_type t' = k_name ->
  to_dgo_name (t_value t) = Some d -> to_dgo_name (t_value t') = Some d -> t_value t = t_value t'.
Proof. exact names_differ. Qed.
Print Assumptions C95_distinct_partial.
(* C95: the name in dgo is an identifier there. Partial: for names without ::. *)
Theorem C95_identifier_partial : forall s t, ~ In 6 s -> delivers (pc_tokens s) t -> t_type t = k_name -> ~ In 58 (t_value t) ->
  exists d, to_dgo_name (t_value t) = Some d /\ tokens d = LTok (mk_token d t_identifier) LEnd.
Proof. exact simple_names_are_read. Qed.
Print Assumptions C95_identifier_partial.

(* the character 6 is taken for a name without characters, and its translation slices an empty string *)
Theorem C95_control_character_refuted : delivers (pc_tokens [6]) (mk_token [] k_name) /\ to_dgo_name [] = None.
Proof. vm_compute. auto. Qed.
Print Assumptions C95_control_character_refuted.
(* the name of the type My::Type in dgo is my.type, which dgo can not read *)
Theorem C95_qualified_refuted :
  delivers (pc_tokens (lit "type My::Type = Integer")) (mk_token (lit "My::Type") k_name) /\
  to_dgo_name (lit "My::Type") = Some (lit "my.type") /\ parse_type toy (lit "my.type") = PPanic.
Proof. vm_compute. auto. Qed.
Print Assumptions C95_qualified_refuted.
(* the name of the type Int, which Puppet does not have, is that of a type of dgo, and so is Bool: a declared type Int is written as int *)
Theorem C95_builtin_refuted :
  delivers (pc_tokens (lit "type Int = String")) (mk_token (lit "Int") k_name) /\
  to_dgo_name (lit "Int") = Some (lit "int") /\ parse_type toy (lit "int") = POk TInt LEnd /\
  to_dgo_name (lit "Bool") = Some (lit "bool") /\ parse_type toy (lit "bool") = POk TBool LEnd.
Proof. vm_compute. repeat split; auto. Qed.
Print Assumptions C95_builtin_refuted.

Example ex_C95 : ~ In 6 (lit "type Foo_1::Bar = Integer[0]") /\ delivers (pc_tokens (lit "type Foo_1::Bar = Integer[0]")) (mk_token (lit "Foo_1::Bar") k_name) /\
  to_dgo_name (lit "Foo_1::Bar") = Some (lit "foo_1.bar").
Proof. vm_compute. repeat split; auto. intros H. repeat destruct H as [H|H]; try discriminate H. exact H. Qed.
(* A::b would have the dgo name of A::B, but the lexer does not accept it as a name *)
Example ex_C95_distinct : to_dgo_name (lit "FOO") = Some (lit "fOO") /\ to_dgo_name (lit "Foo") = Some (lit "foo") /\ to_dgo_name (lit "A::B") = to_dgo_name (lit "A::b") /\ pc_tokens (lit "A::b") = LPanic.
Proof. vm_compute. repeat split; auto. Qed.
Example ex_C95_identifier : delivers (pc_tokens (lit "[MyType]")) (mk_token (lit "MyType") k_name) /\ ~ In 58 (lit "MyType") /\
  tokens (lit "myType") = LTok (mk_token (lit "myType") t_identifier) LEnd.
Proof. vm_compute. repeat split; auto. intros H. repeat destruct H as [H|H]; try discriminate H. exact H. Qed.
