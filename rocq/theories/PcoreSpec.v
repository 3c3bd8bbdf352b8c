(* The Puppet type language, stated without reference to how it is read: the tokens and what may stand between them, the
   expressions that the tokens form, and the data and the types that the expressions stand for. *)
From Coq Require Import Strings.Ascii Strings.String.
From Coq Require Import ZArith List Bool.
From Coq Require Import Floats.SpecFloat.
From Verif Require Import Int64 Utf8 Text TextSpec HMap Data DataSpec Types TypesSpec ConstructSpec Print Lexer LexerSpec Syntax SyntaxSpec.
Import ListNotations.
Open Scope Z_scope.

(* ---------- tokens ---------- *)

(* an element of a pattern: a character, a slash, or an escaped character *)
Inductive pat := Plain (c : Z) | Slash | Esc (c : Z).
(* A token. A string has a quote around it, single or double. An integer may have a plus. *)
Inductive lexeme :=
| LString (q : Z) (cs : list Z) | LPattern (ps : list pat) | LInt (plus : bool) (z : Z) | LFloat (s : list Z)
| LWord (l : list Z) | LName (l : list Z) | LRocket | LChar (c : Z).

Definition string_char (q c : Z) : list Z := if (c =? q) || (c =? 92) then [92; c] else if c =? 10 then [92; 110] else [c].
Definition pat_text (p : pat) : list Z := match p with Plain c => [c] | Slash => [92; 47] | Esc c => [92; c] end.
(* what the regular expression gets *)
Definition pat_value (p : pat) : list Z := match p with Plain c => [c] | Slash => [47] | Esc c => [92; c] end.
Definition spelling (x : lexeme) : list Z :=
  match x with
  | LString q cs => q :: flat_map (string_char q) cs ++ [q]
  | LPattern ps => 47 :: flat_map pat_text ps ++ [47]
  | LInt plus z => (if plus then [43] else []) ++ itoa z
  | LFloat s => s
  | LWord l | LName l => l
  | LRocket => [61; 62]
  | LChar c => [c]
  end.

Definition upper (c : Z) : Prop := 65 <= c <= 90.
Definition lower (c : Z) : Prop := 97 <= c <= 122.
Definition word_char (c : Z) : Prop := upper c \/ lower c \/ 48 <= c <= 57 \/ c = 95.
(* the rest of a name like Foo::Bar, or of a word like foo::bar *)
Inductive name_rest (up : bool) : list Z -> Prop :=
| rest_end : name_rest up []
| rest_char c r : word_char c -> name_rest up r -> name_rest up (c :: r)
| rest_part c r : (if up then upper c else lower c \/ c = 95) -> name_rest up r -> name_rest up (58 :: 58 :: c :: r).
Definition name_text (up : bool) (l : list Z) : Prop :=
  match l with [] => False | c :: r => (if up then upper c else lower c) /\ name_rest up r end.
Definition pat_ok (p : pat) : Prop :=
  match p with Plain c => char c /\ c <> 0 /\ c <> 10 /\ c <> 47 /\ c <> 92 | Slash => True | Esc c => char c /\ c <> 0 /\ c <> 47 end.
Definition lexeme_ok (x : lexeme) : Prop :=
  match x with
  | LString q cs => (q = 39 \/ q = 34) /\ Forall (fun c => char c /\ c <> 0) cs
  | LPattern ps => Forall pat_ok ps
  | LInt plus z => in64 z /\ (plus = true -> 0 <= z)
  | LFloat s => exists expo, float_shape expo s
  | LWord l => name_text false l
  | LName l => name_text true l
  | LRocket => True
  | LChar c => In c [44; 91; 93; 123; 125]
  end.
(* the text after the token does not belong to it *)
Definition ends_name (rest : list Z) : Prop := match rest with [] => True | c :: _ => ~ word_char c /\ c <> 58 end.
Definition ends_exponent (rest : list Z) : Prop :=
  match rest with [] => True | c :: _ => is_digit c = false /\ is_letter c = false /\ c <> 46 end.
Definition lexeme_ends (x : lexeme) (rest : list Z) : Prop :=
  match x with
  | LInt _ _ => ends_number rest
  | LFloat s => exists expo, float_shape expo s /\ if expo then ends_exponent rest else ends_number rest
  | LWord _ | LName _ => ends_name rest
  | _ => True
  end.

(* what may stand between tokens: blanks, tabs, newlines and comments up to the end of a line *)
Inductive gap : list Z -> Prop :=
| gap_none : gap []
| gap_blank c g : In c [32; 9; 10] -> gap g -> gap (c :: g)
| gap_comment cs g : Forall char cs -> ~ In 0 cs -> ~ In 10 cs -> gap g -> gap (35 :: cs ++ 10 :: g).
(* the text consists of the tokens *)
Inductive layout : list lexeme -> list Z -> Prop :=
| layout_end g : gap g -> layout [] g
| layout_comment g cs : gap g -> Forall char cs -> ~ In 0 cs -> ~ In 10 cs -> layout [] (g ++ 35 :: cs)
| layout_token g x xs rest : gap g -> lexeme_ok x -> lexeme_ends x rest -> layout xs rest -> layout (x :: xs) (g ++ spelling x ++ rest).

(* ---------- expressions ---------- *)

(* literals, words, arrays of values and entries with a key, hashes, and types with or without arguments; [comma] is a comma
   after the last element *)
Inductive pexp :=
| EInt (plus : bool) (z : Z) | EFloat (s : list Z) | EString (q : Z) (cs : list Z) | EPattern (ps : list pat) | EWord (l : list Z)
| EArray (l : list (option pexp * pexp)) (comma : bool)
| EHash (l : list (pexp * pexp)) (comma : bool)
| EType (n : list Z) (args : option (list (option pexp * pexp) * bool)).

Fixpoint commas (l : list (list lexeme)) (last : bool) : list lexeme :=
  match l with
  | [] => []
  | x :: r => x ++ match r with [] => if last then [LChar 44] else [] | _ => LChar 44 :: commas r last end
  end.
Fixpoint lexemes (e : pexp) : list lexeme :=
  let items := map (fun i : option pexp * pexp => match i with (Some k, v) => lexemes k ++ LRocket :: lexemes v | (None, v) => lexemes v end) in
  match e with
  | EInt plus z => [LInt plus z]
  | EFloat s => [LFloat s]
  | EString q cs => [LString q cs]
  | EPattern ps => [LPattern ps]
  | EWord l => [LWord l]
  | EArray l comma => LChar 91 :: commas (items l) comma ++ [LChar 93]
  | EHash l comma => LChar 123 :: commas (map (fun e : pexp * pexp => lexemes (fst e) ++ LRocket :: lexemes (snd e)) l) comma ++ [LChar 125]
  | EType n None => [LName n]
  | EType n (Some (l, comma)) => LName n :: LChar 91 :: commas (items l) comma ++ [LChar 93]
  end.

(* the value of a literal; the entries that follow each other in an array are a map *)
Section Data.
Variable E : env.
Definition entry_of (P : pexp -> value -> Prop) (e : pexp * pexp) (p : value * value) : Prop := P (fst e) (fst p) /\ P (snd e) (snd p).
Definition keys_differ (m : list (value * value)) : Prop := ForallOrdPairs (fun p q => veq (fst q) (fst p) = false) m.
Inductive denotes : pexp -> value -> Prop :=
| d_int plus z : denotes (EInt plus z) (VInt z)
| d_float s : denotes (EFloat s) (VFloat (e_float E s))
| d_string q cs : denotes (EString q cs) (VStr (encode cs))
| d_pattern ps : e_compiles E (encode (flat_map pat_value ps)) = true -> denotes (EPattern ps) (VRegexp (encode (flat_map pat_value ps)))
| d_true : denotes (EWord (lit "true")) (VBool true)
| d_false : denotes (EWord (lit "false")) (VBool false)
| d_undef : denotes (EWord (lit "undef")) VNil
| d_word l : ~ In l [lit "true"; lit "false"; lit "undef"; lit "type"] -> denotes (EWord l) (VStr l)
| d_array l comma vs : parts l vs -> denotes (EArray l comma) (VArr vs)
| d_hash l comma m : Forall2 (entry_of denotes) l m -> keys_differ m -> denotes (EHash l comma) (VMap m)
with parts : list (option pexp * pexp) -> list value -> Prop :=
| parts_end : parts [] []
| parts_value e v l vs : denotes e v -> parts l vs -> parts ((None, e) :: l) (v :: vs)
| parts_entries es m l vs : es <> [] -> Forall2 (entry_of denotes) es m -> keys_differ m ->
    (match l with (Some _, _) :: _ => False | _ => True end) -> parts l vs -> parts (map (fun e => (Some (fst e), snd e)) es ++ l) (VMap m :: vs).
End Data.

(* ---------- types ---------- *)

(* a string in quotes or a word, a pattern given by a string or between slashes *)
Inductive ytext := Quoted (q : Z) (cs : list Z) | Bare (l : list Z).
Inductive ypat := PatText (s : ytext) | PatSlash (ps : list pat).
(* bounds: the word default, an integer, for floats also a float *)
Inductive ybound := YDefault | YInt (plus : bool) (z : Z).
Inductive yfbound := YFDefault | YFInt (plus : bool) (z : Z) | YFFloat (s : list Z).
(* no bound, a lower bound, both *)
Inductive yrange (A : Type) := RNone | RMin (b : A) | RBoth (b c : A).
Arguments RNone {A}. Arguments RMin {A} b. Arguments RBoth {A} b c.

(* Type expressions. The names without arguments that differ in meaning from those with arguments are own cases; an element of a
   struct is given by whether it is optional, its key and its type; [YTupleFrom l plus n] is Tuple[l..., n]. *)
Inductive ytype :=
| YAny | YUndef | YBoolean | YTrue | YFalse | YTimestamp
| YInteger (r : yrange ybound) | YFloat (r : yrange yfbound) | YNumber (r : yrange ybound)
| YString (r : yrange ybound) | YStringOf (s : ytext) | YEnum (l : list ytext) (ci : option bool) | YEnumAny
| YPattern (l : list ypat) | YPatternAny | YRegexp (p : ypat) | YRegexpAny | YBinary (r : yrange ybound)
| YArray (r : yrange ybound) | YArrayOf (t : ytype) (r : yrange ybound)
| YHash (r : yrange ybound) | YHashOf (k v : ytype) (r : yrange ybound)
| YStruct (l : list (bool * ytext * ytype)) | YStructAny
| YTuple (l : list ytype) | YTupleFrom (l : list ytype) (plus : bool) (n : Z) | YTupleAny
| YOptional (t : ytype) | YOptionalText (s : ytext) | YOptionalAny
| YNotUndef (t : ytype) | YNotUndefAny
| YVariant (l : list ytype) | YSensitive (t : ytype) | YSensitiveAny.

(* how they are written *)
Definition text_expr (s : ytext) : pexp := match s with Quoted q cs => EString q cs | Bare l => EWord l end.
Definition pat_expr (p : ypat) : pexp := match p with PatText s => text_expr s | PatSlash ps => EPattern ps end.
Definition bound_expr (b : ybound) : pexp := match b with YDefault => EWord (lit "default") | YInt plus z => EInt plus z end.
Definition fbound_expr (b : yfbound) : pexp := match b with YFDefault => EWord (lit "default") | YFInt plus z => EInt plus z | YFFloat s => EFloat s end.
Definition range_exprs {A} (f : A -> pexp) (r : yrange A) : list pexp := match r with RNone => [] | RMin b => [f b] | RBoth b c => [f b; f c] end.
Definition bare (n : string) : pexp := EType (lit n) None.
Definition brackets (n : string) (l : list pexp) : pexp := EType (lit n) (Some (map (fun e => (None, e)) l, false)).
Definition maybe (n : string) (l : list pexp) : pexp := match l with [] => bare n | _ => brackets n l end.
Definition flag_expr (b : bool) : pexp := EWord (if b then lit "true" else lit "false").
Definition key_expr (optional : bool) (s : ytext) : pexp := if optional then brackets "Optional" [text_expr s] else text_expr s.
Fixpoint expr (t : ytype) : pexp :=
  match t with
  | YAny => bare "Any" | YUndef => bare "Undef" | YBoolean => bare "Boolean" | YTrue => bare "True" | YFalse => bare "False"
  | YTimestamp => bare "Timestamp"
  | YInteger r => maybe "Integer" (range_exprs bound_expr r)
  | YFloat r => maybe "Float" (range_exprs fbound_expr r)
  | YNumber r => maybe "Number" (range_exprs bound_expr r)
  | YString r => maybe "String" (range_exprs bound_expr r)
  | YStringOf s => brackets "String" [text_expr s]
  | YEnum l ci => brackets "Enum" (map text_expr l ++ match ci with Some b => [flag_expr b] | None => [] end)
  | YEnumAny => bare "Enum"
  | YPattern l => brackets "Pattern" (map pat_expr l)
  | YPatternAny => bare "Pattern"
  | YRegexp p => brackets "Regexp" [pat_expr p]
  | YRegexpAny => bare "Regexp"
  | YBinary r => maybe "Binary" (range_exprs bound_expr r)
  | YArray r => maybe "Array" (range_exprs bound_expr r)
  | YArrayOf t r => brackets "Array" (expr t :: range_exprs bound_expr r)
  | YHash r => maybe "Hash" (range_exprs bound_expr r)
  | YHashOf k v r => brackets "Hash" (expr k :: expr v :: range_exprs bound_expr r)
  | YStruct l => brackets "Struct" [EHash (map (fun e : bool * ytext * ytype => (key_expr (fst (fst e)) (snd (fst e)), expr (snd e))) l) false]
  | YStructAny => bare "Struct"
  | YTuple l => brackets "Tuple" (map expr l)
  | YTupleFrom l plus n => brackets "Tuple" (map expr l ++ [EInt plus n])
  | YTupleAny => bare "Tuple"
  | YOptional t => brackets "Optional" [expr t]
  | YOptionalText s => brackets "Optional" [text_expr s]
  | YOptionalAny => bare "Optional"
  | YNotUndef t => brackets "NotUndef" [expr t]
  | YNotUndefAny => bare "NotUndef"
  | YVariant l => brackets "Variant" (map expr l)
  | YSensitive t => brackets "Sensitive" [expr t]
  | YSensitiveAny => bare "Sensitive"
  end.

Definition text_value (s : ytext) : list Z := match s with Quoted _ cs => encode cs | Bare l => l end.
Definition pat_regexp (p : ypat) : list Z := match p with PatText s => text_value s | PatSlash ps => encode (flat_map pat_value ps) end.
Definition at_least (b : ybound) (z : Z) : Prop := match b with YDefault => True | YInt _ m => m <= z end.
Definition at_most (b : ybound) (z : Z) : Prop := match b with YDefault => True | YInt _ m => z <= m end.
Definition in_range (r : yrange ybound) (z : Z) : Prop :=
  match r with RNone => True | RMin b => at_least b z | RBoth b c => at_least b z /\ at_most c z end.
Definition size_of {A} (l : list A) : Z := Z.of_nat (List.length l).

Section Meaning.
Variable E : env.
Variable W : world.

Definition f_at_least (b : yfbound) (f : spec_float) : Prop :=
  match b with YFDefault => True | YFInt _ z => SFleb (float_of_int z) f = true | YFFloat s => SFleb (e_float E s) f = true end.
Definition f_at_most (b : yfbound) (f : spec_float) : Prop :=
  match b with YFDefault => True | YFInt _ z => SFleb f (float_of_int z) = true | YFFloat s => SFleb f (e_float E s) = true end.
Definition f_in_range (r : yrange yfbound) (f : spec_float) : Prop :=
  match r with RNone => True | RMin b => f_at_least b f | RBoth b c => f_at_least b f /\ f_at_most c f end.
Definition as_float (b : ybound) : yfbound := match b with YDefault => YFDefault | YInt plus z => YFInt plus z end.
Definition range_map {A B} (f : A -> B) (r : yrange A) : yrange B := match r with RNone => RNone | RMin b => RMin (f b) | RBoth b c => RBoth (f b) (f c) end.

(* Which values belong to a type. The length of a string is that in bytes; Timestamp are the times. Letter case is ignored as
   strings.EqualFold does with the lower case string. *)
Fixpoint means (t : ytype) (v : value) {struct t} : Prop :=
  match t with
  | YAny => True
  | YUndef => v = VNil
  | YBoolean => exists b, v = VBool b
  | YTrue => v = VBool true
  | YFalse => v = VBool false
  | YTimestamp => exists s n z, v = VTime s n z
  | YInteger r => exists z, v = VInt z /\ in_range r z
  | YFloat r => exists f, v = VFloat f /\ f_in_range r f
  | YNumber r => (exists z, v = VInt z /\ in_range r z) \/ (exists f, v = VFloat f /\ f_in_range (range_map as_float r) f)
  | YString r => exists s, v = VStr s /\ in_range r (size_of s)
  | YStringOf s => v = VStr (text_value s)
  | YEnum l ci => exists s x, v = VStr s /\ In x l /\ if match ci with Some b => b | None => false end then w_fold W (w_lower W (text_value x)) s = true else s = text_value x
  | YEnumAny | YPatternAny => exists s, v = VStr s
  | YPattern l => exists s p, v = VStr s /\ In p l /\ w_match W (pat_regexp p) s = true
  | YRegexp p => v = VRegexp (pat_regexp p)
  | YRegexpAny => exists s, v = VRegexp s
  | YBinary r => exists s, v = VBin s /\ in_range r (size_of s)
  | YArray r => exists l, v = VArr l /\ in_range r (size_of l)
  | YArrayOf t r => exists l, v = VArr l /\ in_range r (size_of l) /\ Forall (means t) l
  | YHash r => exists m, v = VMap m /\ in_range r (size_of m)
  | YHashOf k x r => exists m, v = VMap m /\ in_range r (size_of m) /\ Forall (fun e => means k (fst e) /\ means x (snd e)) m
  (* the keys that are not optional are there, the values have the types, and there are no other keys *)
  | YStruct l => exists m, v = VMap m /\
      Forall (fun e : bool * ytext * (value -> Prop) =>
                match assoc veq m (VStr (text_value (snd (fst e)))) with Some x => snd e x | None => fst (fst e) = true end)
             (map (fun e => (fst e, means (snd e))) l) /\
      forall k x, In (k, x) m -> exists e, In e l /\ k = VStr (text_value (snd (fst e)))
  | YStructAny => exists m, v = VMap m
  | YTuple l => exists vs, v = VArr vs /\ Forall2 (fun (P : value -> Prop) x => P x) (map means l) vs
  (* at least n elements, the last type is that of all further ones *)
  | YTupleFrom l _ n => exists vs, v = VArr vs /\ n <= size_of vs /\
      exists Ps P l1 l2, map means l = Ps ++ [P] /\ vs = l1 ++ l2 /\ Forall2 (fun (P : value -> Prop) x => P x) Ps l1 /\ Forall P l2
  | YTupleAny => exists l, v = VArr l
  | YOptional t => v = VNil \/ means t v
  | YOptionalText s => v = VNil \/ v = VStr (text_value s)
  | YOptionalAny => True
  | YNotUndef t => v <> VNil /\ means t v
  | YNotUndefAny => v <> VNil
  | YVariant l => Exists (fun P : value -> Prop => P v) (map means l)
  | YSensitive t => exists x, v = VSens x /\ means t x
  | YSensitiveAny => exists x, v = VSens x
  end.

(* the conditions: words that are no literals, bounds in order *)
Definition text_ok (s : ytext) : Prop := match s with Quoted _ _ => True | Bare l => ~ In l [lit "true"; lit "false"; lit "undef"; lit "type"] end.
Definition ypat_ok (p : ypat) : Prop := (match p with PatText s => text_ok s | PatSlash _ => True end) /\ e_compiles E (pat_regexp p) = true.
Definition bound_ok (b : ybound) : Prop := match b with YDefault => True | YInt _ z => in64 z end.
Definition range_ok (r : yrange ybound) : Prop :=
  match r with
  | RNone => True
  | RMin b => bound_ok b
  | RBoth b c => bound_ok b /\ bound_ok c /\ match b, c with YInt _ x, YInt _ y => x <= y | _, _ => True end
  end.
(* sizes: the upper bound is not negative *)
Definition sizes_ok (r : yrange ybound) : Prop := range_ok r /\ match r with RBoth _ (YInt _ z) => 0 <= z | _ => True end.
Definition small (b : ybound) : Prop := match b with YDefault => True | YInt _ z => - 2 ^ 53 <= z <= 2 ^ 53 end.
Definition each {A} (P : A -> Prop) (r : yrange A) : Prop := match r with RNone => True | RMin b => P b | RBoth b c => P b /\ P c end.
Definition given_bound (b : ybound) : Prop := b <> YDefault.
(* a finite number *)
Definition finite (f : spec_float) : Prop := SFleb (S754_finite true 9007199254740991 971) f = true /\ SFleb f (S754_finite false 9007199254740991 971) = true.
Definition fbound_value (dflt : spec_float) (b : yfbound) : spec_float :=
  match b with YFDefault => dflt | YFInt _ z => float_of_int z | YFFloat s => e_float E s end.
Definition fbound_ok (b : yfbound) : Prop := match b with YFDefault => True | YFInt _ z => in64 z | YFFloat s => finite (e_float E s) end.
Definition frange_ok (r : yrange yfbound) : Prop :=
  match r with
  | RNone => True
  | RMin b => fbound_ok b
  | RBoth b c => fbound_ok b /\ fbound_ok c /\
      SFleb (fbound_value (S754_finite true 9007199254740991 971) b) (fbound_value (S754_finite false 9007199254740991 971) c) = true
  end.
(* only undef belongs to it, in a way that the constructors of tuples cannot handle *)
Fixpoint undef_only (t : ytype) : bool :=
  match t with YUndef => true | YOptional t => undef_only t | YVariant [t] => undef_only t | _ => false end.
Definition no_undef (t : ytype) : Prop := undef_only t = false.
Fixpoint proper (t : ytype) : Prop :=
  match t with
  | YInteger r => range_ok r
  | YFloat r => frange_ok r
  | YNumber r => range_ok r /\ each small r
  | YString r => sizes_ok r /\ each given_bound r
  | YStringOf s | YOptionalText s => text_ok s
  | YEnum l _ => l <> [] /\ Forall text_ok l
  | YPattern l => l <> [] /\ Forall ypat_ok l
  | YRegexp p => ypat_ok p
  | YBinary r | YArray r | YHash r => sizes_ok r
  | YArrayOf t r => proper t /\ sizes_ok r /\ match r with RBoth (YInt _ 1) (YInt _ 1) => no_undef t | _ => True end
  | YHashOf k v r => proper k /\ proper v /\ sizes_ok r
  | YStruct l =>
      fold_right and True (map (fun e => text_ok (snd (fst e)) /\ no_undef (snd e) /\ proper (snd e)) l) /\
      NoDup (map (fun e : bool * ytext * ytype => text_value (snd (fst e))) l)
  | YTuple l => l <> [] /\ fold_right and True (map (fun t => no_undef t /\ proper t) l)
  | YTupleFrom l _ n => l <> [] /\ n = size_of l - 1 /\ fold_right and True (map proper l)
  | YOptional t | YNotUndef t | YSensitive t => proper t
  | YVariant l => fold_right and True (map proper l)
  | _ => True
  end.

(* a value that fits a machine: integers of 64 bits, floats that are finite, lengths that are ints *)
Fixpoint sound (v : value) : Prop :=
  match v with
  | VInt z => in64 z
  | VFloat f => finite f
  | VStr s | VBin s => size_of s <= max_int64
  | VArr l => size_of l <= max_int64 /\ fold_right and True (map sound l)
  | VMap m => size_of m <= max_int64 /\ fold_right and True (map (fun e => sound (fst e) /\ sound (snd e)) m)
  | VSens x => sound x
  | _ => True
  end.
End Meaning.
