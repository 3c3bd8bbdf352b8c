(* Properties C69 to C71. Only statements, [exact], assumptions and examples. *)
From Coq Require Import Strings.Ascii Strings.String.
From Coq Require Import ZArith List Bool Lia.
From Coq Require Import Floats.SpecFloat.
From Verif Require Import Int64 Utf8 Text TextSpec HMap Data DataSpec Types TypesSpec ConstructSpec Construct Print Lexer LexerSpec Syntax SyntaxSpec
  Pcore PcoreSpec PcoreLex PcoreProofs PcoreTypes.
Import ListNotations.
Open Scope Z_scope.

(* C69. The lexer gives all tokens up to the end or to an error, and the parser ends on every text, whatever its bytes. The
   fuel of the model is no bound on either: with more of it the result is the same. *)
Theorem C69_lexer_ends : forall s, complete (pc_tokens s).
Proof. exact pc_tokens_complete. Qed.
Print Assumptions C69_lexer_ends.
Theorem C69_parser_ends : forall E W s, pc_parse E W s <> PStuck.
Proof. exact pc_parse_ends. Qed.
Print Assumptions C69_parser_ends.
Theorem C69_fuel_is_no_bound :
  forall E W s n, (8 * length s + 64 <= n)%nat -> pc_parse_tokens E W n (pc_tokens s) = pc_parse E W s.
Proof. exact pc_parse_fuel. Qed.
Print Assumptions C69_fuel_is_no_bound.

(* C70. Partial: integers in range, keys that differ, and what [layout] allows between tokens; the refutations below show that this is needed. A text that consists of the tokens of a literal, with blanks, newlines and comments anywhere between them, is read as
   what the literal denotes. *)
Theorem C70_tokens : forall xs cs, layout xs cs -> pc_tokens (encode cs) = feed xs LEnd.
Proof. exact pc_tokens_layout. Qed.
Print Assumptions C70_tokens.
Theorem C70_literal_is_read_partial :
  forall E W e cs v, layout (lexemes e) cs -> denotes E e v -> pc_parse E W (encode cs) = POk (PV v) LEnd.
Proof. exact parse_data. Qed.
Print Assumptions C70_literal_is_read_partial.
(* an entry k => e that is the whole text is a map *)
Theorem C70_entry_is_read_partial :
  forall E W k e cs v w, layout (lexemes k ++ LRocket :: lexemes e) cs -> denotes E k v -> denotes E e w ->
  pc_parse E W (encode cs) = POk (PV (VMap [(v, w)])) LEnd.
Proof. exact parse_entry. Qed.
Print Assumptions C70_entry_is_read_partial.

(* ---------- examples ---------- *)

Definition two_and_half : spec_float := S754_finite false 5629499534213120 (-51).
Definition toy : env := {|
  e_print := fun _ => true;
  e_ftoa := fun f => lit "2.5";
  e_time := fun _ => [];
  e_float := fun s => if bytes_eqb s (lit "2.5") then two_and_half else if bytes_eqb s (lit "1e999") then S754_infinity false else S754_zero false;
  e_compiles := fun _ => true;
  e_lower := fun s => s;
  e_known := fun _ => false
|}.
Definition toy_world : world := {| w_parses := fun _ => false; w_lower := fun s => s; w_fold := bytes_eqb; w_match := fun _ _ => true |}.
(* what is read from a text *)
Definition read (s : string) : pres pval := pc_parse toy toy_world (lit s).
Definition line (a b : string) : list Z := lit a ++ 10 :: lit b.

(* texts that no literal has end, too *)
Example C69_example : read "Array[[[{a=>" = PPanic /\ complete (pc_tokens (lit "a 'b [1 #")) /\ read "Array[[[{a=>" <> PStuck.
Proof. split; [reflexivity|]. split; [apply C69_lexer_ends|apply C69_parser_ends]. Qed.

(* the word type is a string unless a name follows; then an = must follow *)
Example C69_ex_type : read "[type, 1]" = POk (PV (VArr [VStr (lit "type"); VInt 1])) LEnd /\ read "type A 3" = PPanic /\ read "type A = Integer" = PSkip.
Proof. vm_compute. auto. Qed.

(* {'a' => [+1, x => true, 2.5,], b => /a\/b/} *)
Definition example_literal : pexp :=
  EHash [(EString 39 (lit "a"), EArray [(None, EInt true 1); (Some (EWord (lit "x")), EWord (lit "true")); (None, EFloat (lit "2.5"))] true);
         (EWord (lit "b"), EPattern [Plain 97; Slash; Plain 98])] false.
Definition example_value : value :=
  VMap [(VStr (lit "a"), VArr [VInt 1; VMap [(VStr (lit "x"), VBool true)]; VFloat two_and_half]); (VStr (lit "b"), VRegexp (lit "a/b"))].
Example C70_example_denotes : denotes toy example_literal example_value.
Proof.
  unfold example_literal, example_value. apply d_hash.
  - constructor; [|constructor; [|constructor]]; split; cbn [fst snd].
    + apply (d_string toy 39 (lit "a")).
    + apply d_array. apply parts_value; [apply d_int|].
      apply (parts_entries toy [(EWord (lit "x"), EWord (lit "true"))] [(VStr (lit "x"), VBool true)]).
      * discriminate.
      * constructor; [|constructor]. split; [apply d_word; cbn; intuition discriminate|apply d_true].
      * repeat constructor.
      * exact I.
      * apply parts_value; [apply (d_float toy (lit "2.5"))|apply parts_end].
    + apply d_word. cbn. intuition discriminate.
    + apply (d_pattern toy [Plain 97; Slash; Plain 98]). reflexivity.
  - repeat constructor.
Qed.
Example C70_example_read :
  pc_parse toy toy_world (line "{ 'a' => [+1,x=>true, 2.5,], # a comment" "b=>/a\/b/}") = POk (PV example_value) LEnd.
Proof. vm_compute. reflexivity. Qed.

Example C70_example_entry : pc_parse toy toy_world (lit "a => [1]") = POk (PV (VMap [(VStr (lit "a"), VArr [VInt 1])])) LEnd.
Proof. vm_compute. reflexivity. Qed.

(* a layout of a smaller literal: a newline and a comment between the tokens *)
Example C70_example_layout : layout (lexemes (EArray [(None, EInt false 7); (None, EWord (lit "x"))] false)) (line "[ 7,#c" " x]").
Proof.
  unfold line. cbn [lexemes map commas app].
  apply (layout_token [] (LChar 91) _ (lit " 7,#c" ++ 10 :: lit " x]")).
  - constructor.
  - cbn. auto.
  - exact I.
  - apply (layout_token (lit " ") (LInt false 7) _ (lit ",#c" ++ 10 :: lit " x]")).
    + apply gap_blank; [cbn; auto|constructor].
    + split; [vm_compute; split; discriminate|discriminate].
    + cbn. repeat split; discriminate.
    + apply (layout_token [] (LChar 44) _ (lit "#c" ++ 10 :: lit " x]")); [constructor|cbn; auto|exact I|].
      apply (layout_token (lit "#c" ++ 10 :: lit " ") (LWord (lit "x")) _ (lit "]")).
      * apply (gap_comment (lit "c") (lit " ")).
        -- repeat constructor; unfold char; vm_compute; intuition discriminate.
        -- cbn; intuition discriminate.
        -- cbn; intuition discriminate.
        -- apply gap_blank; [cbn; auto|constructor].
      * cbn. split; [vm_compute; split; discriminate|constructor].
      * cbn. split; [unfold word_char, upper, lower; lia|discriminate].
      * apply (layout_token [] (LChar 93) [] []); [constructor|cbn; tauto|exact I|]. apply layout_end. constructor.
Qed.

(* ---------- what the conditions of [layout] and [denotes] exclude ---------- *)

(* a hash with the same key twice has two entries for it: {a=>1,a=>2} *)
Theorem C70_same_key_refuted :
  read "{a=>1,a=>2}" = POk (PV (VMap [(VStr (lit "a"), VInt 1); (VStr (lit "a"), VInt 2)])) LEnd.
Proof. vm_compute. reflexivity. Qed.
Print Assumptions C70_same_key_refuted.
(* an integer that does not fit is read as the nearest one that does, an octal integer with the digit 8 as 0 *)
Theorem C70_number_refuted :
  read "9223372036854775808" = POk (PV (VInt 9223372036854775807)) LEnd /\ read "08" = POk (PV (VInt 0)) LEnd.
Proof. vm_compute. split; reflexivity. Qed.
Print Assumptions C70_number_refuted.
(* the text after a zero byte is ignored, a carriage return is not white space *)
Theorem C70_zero_byte_refuted : pc_parse toy toy_world (lit "1" ++ 0 :: lit "]]") = POk (PV (VInt 1)) LEnd.
Proof. vm_compute. reflexivity. Qed.
Print Assumptions C70_zero_byte_refuted.
Theorem C70_carriage_return_refuted : pc_parse toy toy_world (lit "1" ++ [13; 10]) = PPanic.
Proof. vm_compute. reflexivity. Qed.
Print Assumptions C70_carriage_return_refuted.
(* a control character is read as a token of the type that has its number: 1 is the integer 0, 4 an empty pattern, 5 an empty word *)
Theorem C70_control_character_refuted :
  pc_parse toy toy_world [91; 1; 44; 4; 44; 5; 93] = POk (PV (VArr [VInt 0; VRegexp []; VStr []])) LEnd.
Proof. vm_compute. reflexivity. Qed.
Print Assumptions C70_control_character_refuted.
(* an entry may have an entry as its key, which is not a Puppet literal: [a => b => c] *)
Theorem C70_nested_entry_refuted :
  read "[a => b => c]" = POk (PA [PM [(PE (PV (VStr (lit "a"))) (PV (VStr (lit "b"))), PV (VStr (lit "c")))]]) LEnd.
Proof. vm_compute. reflexivity. Qed.
Print Assumptions C70_nested_entry_refuted.

(* ---------- types ---------- *)

(* C71. Partial: [proper] leaves out expressions for which it is false, see the refutations below, and Type, Callable, aliases
   and named types, which have no meaning on data. The type that is read from a type expression accepts exactly the values that
   belong to it. *)
Theorem C71_type_meaning_partial :
  forall E W T cs, proper E T -> layout (lexemes (expr T)) cs ->
  exists t, pc_parse E W (encode cs) = POk (PT t) LEnd /\
  forall v, data veq v -> sound v -> exists N, forall n p, (N <= n)%nat -> exists r, Assign.instance W n p t v = Some r /\ (r = true <-> means E W T v).
Proof. exact type_accepts. Qed.
Print Assumptions C71_type_meaning_partial.

(* Struct[{'a'=>Integer[0,10],Optional[b]=>Array[Variant[String[1],Undef],0,2]}] *)
Definition example_type : ytype :=
  YStruct [(false, Quoted 39 (lit "a"), YInteger (RBoth (YInt false 0) (YInt false 10)));
           (true, Bare (lit "b"), YArrayOf (YVariant [YString (RMin (YInt false 1)); YUndef]) (RBoth (YInt false 0) (YInt false 2)))].
Example C71_example_proper : proper toy example_type.
Proof.
  cbn. repeat split; try (unfold in64, min_int64, max_int64; lia); try discriminate; try (intuition discriminate).
  repeat constructor; cbn; intuition discriminate.
Qed.
Definition example_member : value := VMap [(VStr (lit "b"), VArr [VNil; VStr (lit "x")]); (VStr (lit "a"), VInt 7)].
Definition example_other : value := VMap [(VStr (lit "b"), VArr [VNil; VStr []]); (VStr (lit "a"), VInt 7)].
(* a text without anything between the tokens *)
Fixpoint fits (xs : list lexeme) : Prop :=
  match xs with [] => True | x :: r => lexeme_ok x /\ lexeme_ends x (flat_map spelling r) /\ fits r end.
Example fits_layout xs : fits xs -> layout xs (flat_map spelling xs).
Proof. induction xs as [|x xs IH]; [intros _; apply layout_end; constructor|]. intros (O & N & F). apply (layout_token []); auto. constructor. Qed.
Ltac fits_solve :=
  repeat match goal with
  | |- _ /\ _ => split
  | |- True => exact I
  | |- name_rest _ [] => apply rest_end
  | |- name_rest _ (_ :: _) => apply rest_char
  | |- in64 _ => vm_compute; split; discriminate
  | |- Forall _ _ => constructor
  | |- char _ => unfold char; vm_compute; intuition discriminate
  | |- word_char _ => unfold word_char, upper, lower; lia
  | |- upper _ => unfold upper; lia
  | |- lower _ => unfold lower; lia
  | |- ~ word_char _ => unfold word_char, upper, lower; lia
  | |- _ <> _ => discriminate
  end; try (cbn; intuition discriminate).
(* what the type read from a text says about a value *)
Definition accepts (s : string) (v : value) : option bool :=
  match read s with POk (PT t) LEnd => Assign.instance toy_world 50%nat 0%nat t v | _ => None end.
Example C71_example : exists text,
  layout (lexemes (expr example_type)) (lit text) /\ accepts text example_member = Some true /\ accepts text example_other = Some false.
Proof.
  exists "Struct[{'a'=>Integer[0,10],Optional[b]=>Array[Variant[String[1],Undef],0,2]}]"%string. split; [|vm_compute; split; reflexivity].
  replace (lit _) with (flat_map spelling (lexemes (expr example_type))) by (vm_compute; reflexivity). apply fits_layout. cbn. fits_solve.
Qed.

(* what [proper] leaves out *)

(* the sizes of a tuple type are dropped: Tuple[Integer,String,1,2] accepts three elements, Tuple[Integer,String,2] one,
   Tuple[Integer,0,3] four, and Tuple[Integer,String,0] does not accept the empty array *)
Theorem C71_tuple_size_refuted :
  accepts "Tuple[Integer,String,1,2]" (VArr [VInt 1; VStr []; VStr []]) = Some true /\
  accepts "Tuple[Integer,String,2]" (VArr [VInt 1]) = Some true /\
  accepts "Tuple[Integer,0,3]" (VArr [VInt 1; VInt 1; VInt 1; VInt 1]) = Some true /\
  accepts "Tuple[Integer,String,0]" (VArr []) = Some false /\
  accepts "Tuple[Integer,String,default,2]" (VArr [VInt 1]) = Some false.
Proof. vm_compute. repeat split. Qed.
Print Assumptions C71_tuple_size_refuted.
(* a lower bound that is the word default makes the types of strings, and only these, unreadable *)
Theorem C71_default_refuted : read "String[default,3]" = PPanic /\ accepts "Array[default,3]" (VArr []) = Some true /\ accepts "Integer[default,3]" (VInt (-1)) = Some true.
Proof. vm_compute. repeat split. Qed.
Print Assumptions C71_default_refuted.
(* the string 'default' is taken for the word default *)
Theorem C71_quoted_default_refuted : read "Integer['default',3]" = read "Integer[default,3]".
Proof. vm_compute. reflexivity. Qed.
Print Assumptions C71_quoted_default_refuted.
(* types that only undef belongs to make constructors panic *)
Theorem C71_undef_refuted :
  read "Tuple[Undef]" = PPanic /\ read "Array[Undef,1,1]" = PPanic /\ read "Struct[{a=>Undef}]" = PPanic /\
  accepts "Array[Undef,1,2]" (VArr [VNil]) = Some true /\ accepts "Struct[{a=>Undef,b=>Any}]" (VMap [(VStr (lit "a"), VNil); (VStr (lit "b"), VNil)]) = Some true.
Proof. vm_compute. repeat split. Qed.
Print Assumptions C71_undef_refuted.
(* Number with bounds that are no integers, or that floats cannot hold: 2 is less than 2.5, and 2^53 less than 2^53+1 *)
Theorem C71_number_refuted :
  accepts "Number[2.5]" (VInt 2) = Some true /\ accepts "Number[9007199254740993]" (VInt 9007199254740992) = Some true.
Proof. vm_compute. repeat split. Qed.
Print Assumptions C71_number_refuted.
(* a bound that is given by the word default is the largest or smallest finite number, bounds in the wrong order are swapped *)
Theorem C71_float_refuted :
  accepts "Float[default,2.5]" (VFloat (S754_infinity true)) = Some false /\ accepts "Float[1e999]" (VFloat two_and_half) = Some false /\
  accepts "Float[1e999]" (VFloat (S754_finite false 9007199254740991 971)) = Some true /\ accepts "Integer[3,1]" (VInt 2) = Some true.
Proof. vm_compute. repeat split. Qed.
Print Assumptions C71_float_refuted.
(* NotUndef with a string, and names as required keys of structs, are Puppet types that are not read; Enum[true] is read as a type without values *)
Theorem C71_not_read_refuted :
  read "NotUndef['x']" = PPanic /\ read "Struct[{NotUndef[a]=>Integer}]" = PPanic /\ read "Tuple[]" = PPanic /\ read "Integer['a']" = PPanic /\
  accepts "Enum[true]" (VStr (lit "true")) = Some false.
Proof. vm_compute. repeat split. Qed.
Print Assumptions C71_not_read_refuted.
