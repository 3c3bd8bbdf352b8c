(* Property C64. Only statements, [exact], assumptions and examples. *)
From Coq Require Import Strings.Ascii Strings.String.
From Coq Require Import ZArith List Bool Lia.
From Coq Require Import Floats.SpecFloat.
From Verif Require Import Int64 Utf8 Text TextSpec HMap Data DataSpec Types TypesSpec Construct Graph GraphSpec Print PrintSpec Lexer LexerSpec Syntax SyntaxSpec ReadBack IndentRead.
Import ListNotations.
Open Scope Z_scope.

(* C64. The text of an array or a map, with any indentation, is read as the exact type of the value, however its parts are shared.
   Partial: for the values that are [readable_value]; the refutations show that the conditions are needed. *)
Theorem C64_printed_value_read_partial :
  forall E P ind g a v n, same_library E P -> Forall (fun c => TextSpec.blank c = true) ind ->
  closed g -> points g a -> stands g a v -> (length g < n)%nat -> collection v -> readable_value E v ->
  exists b, string_of P ind g n a = Some b /\ parse_type E b = POk (TExact 0 v) LEnd.
Proof. exact indented_string_read. Qed.
Print Assumptions C64_printed_value_read_partial.

(* Two values that are printed alike are the same value, even if they are indented differently. *)
Theorem C64_printed_alike_partial :
  forall E P ind ind' v w, same_library E P -> Forall (fun c => TextSpec.blank c = true) ind -> Forall (fun c => TextSpec.blank c = true) ind' ->
  collection v -> collection w -> readable_value E v -> readable_value E w ->
  finish (value_text P ind 0 v) = finish (value_text P ind' 0 w) -> v = w.
Proof.
  intros E P ind ind' v w L I1 I2 Cv Cw Rv Rw H. pose proof (indented_read E P ind L I1 v Cv Rv) as A. pose proof (indented_read E P ind' L I2 w Cw Rw) as B. rewrite H in A. rewrite A in B. now injection B.
Qed.
Print Assumptions C64_printed_alike_partial.

Definition two_and_half : spec_float := S754_finite false 5629499534213120 (-51).
Definition toy : env := {|
  e_print := fun _ => true;
  e_ftoa := fun f => if SFeqb f two_and_half then lit "2.5" else lit "0.0";
  e_time := fun _ => lit "2019-10-06 07:15:00 +0000 UTC";
  e_float := fun s => if bytes_eqb s (lit "2.5") then two_and_half else S754_zero false;
  e_compiles := fun _ => true;
  e_lower := fun s => s;
  e_known := fun _ => false
|}.
Definition toy_printers : printers := {|
  Print.p_float := fun v => match v with VFloat f => e_ftoa toy f | _ => [] end;
  Print.p_quote := quote_bytes toy;
  Print.p_time := fun _ => lit "2019-10-06T07:15:00Z"
|}.

(* x := {1, 2.5}, {"a": x, -7: {x, true, "b"}} *)
Definition graph1 : graph := [GMap [(VStr (lit "a"), GRef 1); (VInt (-7), GRef 2)]; GArr [GLeaf (VInt 1); GLeaf (VFloat two_and_half)]; GArr [GRef 1; GLeaf (VBool true); GLeaf (VStr (lit "b"))]].
Definition value1 : value :=
  let x := VArr [VInt 1; VFloat two_and_half] in VMap [(VStr (lit "a"), x); (VInt (-7), VArr [x; VBool true; VStr (lit "b")])].
Example C64_ex :
  same_library toy toy_printers /\ closed graph1 /\ points graph1 (GRef 0) /\ stands graph1 (GRef 0) value1 /\ collection value1 /\ readable_value toy value1 /\
  string_of toy_printers [] graph1 4 (GRef 0) = Some (lit "{""a"":{1,2.5},-7:{{1,2.5},true,""b""}}").
Proof.
  assert (F : float_ok toy false two_and_half).
  { split; [|vm_compute; reflexivity]. exists [], [50], [46; 53], []. split; [vm_compute; reflexivity|]. split; [now left|]. split; [discriminate|]. split; [reflexivity|]. split; [|split; [reflexivity|discriminate]]. right. exists [53]. split; [reflexivity|]. split; [discriminate|reflexivity]. }
  assert (In : in64 1 /\ in64 (-7)) by (unfold in64, min_int64, max_int64; lia).
  assert (Ta : text_ok toy (lit "a") /\ text_ok toy (lit "b")).
  { split; [exists (lit "a")|exists (lit "b")]; (split; [vm_compute; reflexivity|]; repeat constructor; vm_compute; intuition discriminate). }
  split; [split; [reflexivity|reflexivity]|]. split; [repeat (cbn; constructor)|]. split; [cbn; lia|]. split; [|split; [exact I|split; [|vm_compute; reflexivity]]].
  - assert (S1 : stands graph1 (GRef 1) (VArr [VInt 1; VFloat two_and_half])) by (eapply stands_arr; [reflexivity|]; repeat (constructor; cbn; auto)).
    eapply stands_map; [reflexivity|]. constructor; [split; [reflexivity|exact S1]|]. constructor; [split; [reflexivity|]|constructor].
    eapply stands_arr; [reflexivity|]. constructor; [exact S1|]. repeat (constructor; cbn; auto).
  - cbn. repeat split; try tauto; try discriminate; try (exists false; exact F). repeat constructor.
Qed.

(* the same value over several lines *)
Example C64_ex_indented : option_map (fun b => (b, parse_type toy b)) (string_of toy_printers (lit "  ") graph1 4 (GRef 0)) =
  Some (lit "{" ++ [10] ++ lit "  ""a"": {" ++ [10] ++ lit "    1," ++ [10] ++ lit "    2.5" ++ [10] ++ lit "  }," ++ [10] ++ lit "  -7: {" ++ [10] ++ lit "    {" ++ [10] ++ lit "      1," ++ [10] ++
    lit "      2.5" ++ [10] ++ lit "    }," ++ [10] ++ lit "    true," ++ [10] ++ lit "    ""b""" ++ [10] ++ lit "  }" ++ [10] ++ lit "}", POk (TExact 0 value1) LEnd).
Proof. vm_compute. reflexivity. Qed.

(* ---------- values that are not read back ---------- *)

(* printed as [s], which the parser rejects *)
Definition rejected (v : value) (s : string) : Prop := finish (value_text toy_printers [] 0 v) = lit s /\ parse_type toy (lit s) = PPanic.
(* printed as [s], which is read as a type that is not the type of the value *)
Definition read_as_other (v : value) (s : string) (t : ty) : Prop :=
  finish (value_text toy_printers [] 0 v) = lit s /\ parse_type toy (lit s) = POk t LEnd /\ type_eq t (type_of 0 v) = false.

(* Arrays with nil, binaries, times, regular expressions and sensitive values *)
Theorem C64_nil_refuted : rejected (VArr [VNil; VInt 1]) "{nil,1}".
Proof. vm_compute. auto. Qed.
Print Assumptions C64_nil_refuted.
Theorem C64_rich_values_refuted :
  rejected (VArr [VBin [1; 2; 3]]) "{AQID}" /\ rejected (VArr [VTime 63705942900 0 0]) "{2019-10-06T07:15:00Z}" /\
  rejected (VArr [VRegexp (lit "a|b")]) "{a|b}" /\ rejected (VArr [VSens (VInt 1)]) "{sensitive [value redacted]}".
Proof. vm_compute. auto. Qed.
Print Assumptions C64_rich_values_refuted.
(* The empty array is printed as the empty map, a key that is a boolean is read as a string. *)
Theorem C64_empty_array_refuted : read_as_other (VArr []) "{}" (TExact 0 (VMap [])).
Proof. vm_compute. auto. Qed.
Print Assumptions C64_empty_array_refuted.
Theorem C64_boolean_key_refuted : read_as_other (VMap [(VBool true, VInt 1)]) "{true:1}" (TExact 0 (VMap [(VStr (lit "true"), VInt 1)])).
Proof. vm_compute. auto. Qed.
Print Assumptions C64_boolean_key_refuted.
(* A string by itself is given without quotes: String of the string int is the type int. *)
Theorem C64_string_refuted : forall g, string_of toy_printers [] g 1 (GLeaf (VStr (lit "int"))) = Some (lit "int") /\ parse_type toy (lit "int") = POk TInt LEnd.
Proof. intros g. vm_compute. auto. Qed.
Print Assumptions C64_string_refuted.
