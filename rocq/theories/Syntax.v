(* The syntax of types: the stringer (/repo/stringer/typestring.go) and the parser (/repo/parser/parser.go).

   Left out: aliases, named types, function types, native types and error types. The parser has an own outcome
   for texts that use them (PSkip). A type that contains itself only occurs with aliases, so the list of types
   that the stringer has seen (typestring.go:408-413) never has the type that it looks for. *)
From Coq Require Import Strings.Ascii Strings.String.
From Coq Require Import ZArith List Bool.
From Coq Require Import Floats.SpecFloat.
From Verif Require Import Int64 Utf8 Text HMap Data Types Convert Print Lexer Construct.
Import ListNotations.
Open Scope Z_scope.

(* What the code asks the Go library, and which names are known: unicode.IsPrint beyond ASCII, util.Ftoa
   (util/string.go:9-18), Time.String, strconv.ParseFloat without its error (parser.go:796-799), whether
   regexp.MustCompile accepts its argument, strings.ToLower, whether there is a named type or an alias with the name
   (parser.go:720-726) *)
Record env := {
  e_print : Z -> bool;
  e_ftoa : spec_float -> list Z;
  e_time : value -> list Z;
  e_float : list Z -> spec_float;
  e_compiles : list Z -> bool;
  e_lower : list Z -> list Z;
  e_known : list Z -> bool
}.

Section Syntax.
Variable E : env.

(* ---------- the stringer ---------- *)

(* strconv.Quote (Go library) on bytes: bytes that are not UTF-8 are written in hexadecimal *)
Fixpoint quote_loop (fuel : nat) (s : list Z) : list Z :=
  match fuel, s with
  | O, _ | _, [] => []
  | S fuel, b :: _ =>
      let (c, w) := decode_rune s in
      (if (c =? rune_error) && Nat.eqb w 1 then [92; 120] ++ hex_n 2 b else encode (quote_char (e_print E) c))
        ++ quote_loop fuel (skipn w s)
  end.
Definition quote_bytes (s : list Z) : list Z := [34] ++ quote_loop (length s) s ++ [34].

(* internal.RegexpSlashQuote (internal/regexp.go:138-161) on bytes *)
Fixpoint slash_loop (fuel : nat) (s : list Z) : list Z :=
  match fuel, s with
  | O, _ | _, [] => []
  | S fuel, _ => let (c, w) := decode_rune s in encode (slash_char c) ++ slash_loop fuel (skipn w s)
  end.
Definition slash_bytes (s : list Z) : list Z := [47] ++ slash_loop (length s) s ++ [47].

(* joinX, typestring.go:303-314 *)
Fixpoint join (sep : list Z) (l : list (list Z)) : list Z :=
  match l with
  | [] => []
  | [x] => x
  | x :: r => x ++ sep ++ join sep r
  end.

(* writeSizeBoundaries, typestring.go:333-339 *)
Definition size_text (min max : Z) : list Z := itoa min ++ (if max =? max_int64 then [] else lit "," ++ itoa max).
(* writeIntRange, typestring.go:341-353 *)
Definition dots (incl : bool) : list Z := if incl then lit ".." else lit "...".
Definition int_range_text (min max : Z) (incl : bool) : list Z :=
  (if min =? min_int64 then [] else itoa min) ++ dots incl ++ (if max =? max_int64 then [] else itoa max).
(* writeFloatRange, typestring.go:355-367 *)
Definition float_range_text (min max : spec_float) (incl : bool) : list Z :=
  (if SFeqb min min_float then [] else e_ftoa E min) ++ dots incl ++ (if SFeqb max max_float then [] else e_ftoa E max).

(* writeTernary, typestring.go:390-398; [l] are the texts of the operands *)
Definition ternary_text (prio : Z) (op : string) (l : list (list Z)) : list Z :=
  if 1 <=? prio then lit "(" ++ join (lit op) l ++ lit ")" else join (lit op) l.

(* writeTupleArgs, typestring.go:369-388, on the texts of the elements *)
Fixpoint variadic_text (l : list (list Z)) : list Z :=
  match l with
  | [] => []
  | [x] => lit "..." ++ x
  | x :: r => x ++ lit "," ++ variadic_text r
  end.
Definition tuple_text (variadic : bool) (l : list (list Z)) : list Z :=
  lit "{" ++ (if variadic then variadic_text l else join (lit ",") l) ++ lit "}".

(* Unbounded, e.g. array.go:277 *)
Definition unbounded (min max : Z) : bool := (min =? 0) && (max =? max_int64).

(* buildTypeString (typestring.go:400-421) with the functions that it calls (44-255) and the names of the other types
   (typeidentifier.go:147-191). [ev] gives the text of an exact type. *)
Fixpoint type_text_with (ev : value -> list Z) (prio : Z) (t : ty) {struct t} : list Z :=
  match t with
  | TAny => lit "any"
  | TNil => lit "nil"
  | TBool => lit "bool"
  | TInt => lit "int"
  | TIntRange min max incl => int_range_text min max incl
  | TFloat => lit "float"
  | TFloatRange min max incl => float_range_text min max incl
  | TString => lit "string"
  | TDgoString => lit "dgo"
  | TStrSized min max => lit "string" ++ (if unbounded min max then [] else lit "[" ++ size_text min max ++ lit "]")
  | TCiStr s => lit "~" ++ quote_bytes s
  | TPattern s => slash_bytes s
  | TBinary min max => lit "binary" ++ (if unbounded min max then [] else lit "[" ++ size_text min max ++ lit "]")
  | TTime => lit "time"
  | TRegexp => lit "regexp"
  | TExact _ v => ev v
  | TSens _ t => lit "sensitive" ++ (if is_any t then [] else lit "[" ++ type_text_with ev prio t ++ lit "]")
  | TArray => lit "[]any"
  | TArrSized _ e min max =>
      (if unbounded min max then lit "[]" else lit "[" ++ size_text min max ++ lit "]") ++ type_text_with ev 4 e
  | TTuple _ ts variadic => tuple_text variadic (map (type_text_with ev 0) ts)
  | TMap => lit "map[any]any"
  | TMapSized _ k v min max =>
      lit "map[" ++ type_text_with ev 0 k ++ (if unbounded min max then [] else lit "," ++ size_text min max) ++ lit "]" ++
      type_text_with ev 4 v
  | TStruct _ additional es =>
      lit "{" ++ join (lit ",") (map (fun e : value * ty * bool =>
        ev (fst (fst e)) ++ (if snd e then [] else lit "?") ++ lit ":" ++ type_text_with ev 0 (snd (fst e))) es) ++
      (if additional then match es with [] => [] | _ => lit "," end ++ lit "..." else []) ++ lit "}"
  | TAllOf _ ts => ternary_text prio "&" (map (type_text_with ev 3) ts)
  | TAllOfValue _ vs => ternary_text prio "&" (map ev vs)
  | TAnyOf _ ts => ternary_text prio "|" (map (type_text_with ev 1) ts)
  | TOneOf _ ts => ternary_text prio "^" (map (type_text_with ev 2) ts)
  | TNot _ t => lit "!" ++ type_text_with ev 4 t
  | TMeta None => lit "type[type]"
  | TMeta (Some t) => lit "type" ++ (if is_any t then [] else lit "[" ++ type_text_with ev prio t ++ lit "]")
  end.

(* The text of v.Type() for a value that is not a collection: exactValue, stringExact, binaryExact, timeExact, regexpExact
   (typestring.go:88-100, 150-175). *)
Definition leaf_type_text (v : value) : list Z :=
  match v with
  | VNil => lit "nil"
  | VBool b => if b then lit "true" else lit "false"
  | VInt z => itoa z
  | VFloat f => e_ftoa E f
  | VStr s => quote_bytes s
  | VBin s => lit "binary """ ++ encode_binary s ++ lit """"
  | VTime _ _ _ => lit "time[" ++ quote_bytes (e_time E v) ++ lit "]"
  | VRegexp s => lit "regexp[" ++ quote_bytes s ++ lit "]"
  | _ => []
  end.
(* The text of v.Type(): arrayExact, mapExact, mapEntryExact (typestring.go:72-76, 114-118, 133-138). The type of a
   sensitive value is generic and holds no values but binaries. *)
Fixpoint exact_text (v : value) : list Z :=
  match v with
  | VSens x => type_text_with leaf_type_text 0 (TSens 0%nat (gen_value 0%nat x))
  | VArr l => lit "{" ++ join (lit ",") (map exact_text l) ++ lit "}"
  | VMap m => lit "{" ++ join (lit ",") (map (fun e => exact_text (fst e) ++ lit ":" ++ exact_text (snd e)) m) ++ lit "}"
  | _ => leaf_type_text v
  end.
Definition type_text : Z -> ty -> list Z := type_text_with exact_text.
(* TypeString, typestring.go:33-42 *)
Definition type_string (t : ty) : list Z := type_text 0 t.

(* ---------- the parser ---------- *)

(* What a function of the parser does: a result and the tokens that are left, a panic, no result with the given
   fuel, or something that is not modelled. *)
Inductive pres (A : Type) := POk (x : A) (l : lexed) | PPanic | PStuck | PSkip.
Arguments POk {A}. Arguments PPanic {A}. Arguments PStuck {A}. Arguments PSkip {A}.
Definition pbind {A B} (m : pres A) (f : A -> lexed -> pres B) : pres B :=
  match m with POk x l => f x l | PPanic => PPanic | PStuck => PStuck | PSkip => PSkip end.
Notation "'pdo' x , l <- m ; f" := (pbind m (fun x l => f)) (at level 200, x name, l name, m at level 100, f at level 200).

(* NextToken, PeekToken (parser.go:204-227). After its end the text gives more end tokens. *)
Definition end_token : token := mk_token [] t_end.
Definition p_next (l : lexed) : pres token :=
  match l with LTok t l => POk t l | LEnd => POk end_token LEnd | LPanic => PPanic | LStuck => PStuck end.
Definition p_peek (l : lexed) : pres token :=
  match l with LTok t _ => POk t l | LEnd => POk end_token l | LPanic => PPanic | LStuck => PStuck end.
Definition is_tok (c : Z) (t : token) : bool := t_type t =? c.

(* What is on the stack of the parser: values, types and map entries. The value of an entry is an optionalValue
   (parser.go:44-46) when opt holds. *)
Inductive pval := PV (v : value) | PT (t : ty) | PE (k v : pval) (opt : bool).

(* PopLastType (parser.go:233-242), allTypes (801-813), AsType (type.go:58-63) *)
Definition as_type (v : pval) : option ty :=
  match v with PV v => Some (type_of 0%nat v) | PT t => Some t | PE _ _ _ => None end.
Fixpoint as_types (l : list pval) : option (list ty) :=
  match l with
  | [] => Some []
  | v :: r => match as_type v, as_types r with Some t, Some ts => Some (t :: ts) | _, _ => None end
  end.
Definition skip_none {A} (o : option A) (l : lexed) : pres A := match o with Some x => POk x l | None => PSkip end.
Definition panic_none {A} (o : option A) (l : lexed) : pres A := match o with Some x => POk x l | None => PPanic end.

(* v.(dgo.ArrayType).ElementType() in makeTupleType (parser.go:334): array.go:137, 200, 287-296, 482-498. The result is
   Some None for a type that is not a dgo.ArrayType. Types with more than one element are not modelled. *)
Definition last_element_type (t : ty) : option (option ty) :=
  match t with
  | TArray | TTuple _ [] _ | TExact _ (VArr []) => Some (Some TAny)
  | TArrSized _ e _ _ | TTuple _ [e] _ => Some (Some e)
  | TExact _ (VArr [v]) => Some (Some (type_of 0%nat v))
  | TTuple _ _ _ | TExact _ (VArr _) => None
  | _ => Some None
  end.

(* makeTupleType, parser.go:321-339 *)
Definition make_tuple (vs : list pval) (variadic : bool) (l : lexed) : pres pval :=
  pdo ts, l <- skip_none (as_types vs) l;
  if variadic then
    pdo e, l <- skip_none (last_element_type (last ts TAny)) l;
    pdo e, l <- panic_none e l;
    pdo t, l <- panic_none (variadic_tuple_type 0%nat (removelast ts ++ [e])) l;
    POk (PT t) l
  else pdo t, l <- panic_none (tuple_type 0%nat ts) l; POk (PT t) l.

(* makeStructType, parser.go:341-364; hn := as[i].(dgo.MapEntry) *)
Fixpoint struct_entries (vs : list pval) : option (list (ty * ty * bool)) :=
  match vs with
  | [] => Some []
  | PE k v opt :: r =>
      match as_type k, as_type v, struct_entries r with
      | Some kt, Some vt, Some es => Some ((kt, vt, negb opt) :: es)
      | _, _, _ => None
      end
  | _ => None
  end.
(* A key that is not exact makes Replace panic at the end (parser.go:174-176, mapstruct.go:142-149), here
   the type is refused at once. *)
Definition make_struct (vs : list pval) (additional : bool) (l : lexed) : pres pval :=
  pdo es, l <- panic_none (struct_entries vs) l;
  pdo t, l <- panic_none (struct_map_type 0%nat additional es) l;
  POk (PT t) l.

(* the end of list, parser.go:300-318 *)
Definition finish_list (vs : list pval) (ellipsis : bool) (expect : Z) (l : lexed) : pres pval :=
  match vs with
  | [] => if expect =? 0 then POk (PT empty_tuple) l else make_struct [] ellipsis l
  | _ => if expect =? 2 then make_struct vs ellipsis l else make_tuple vs ellipsis l
  end.

(* the integer arguments of ArrayType, MapType and StringType: Value(x).(dgo.Integer) *)
Definition arg_int (v : pval) : option Z := match v with PV (VInt z) => Some z | _ => None end.

(* ArrayType on a type and the given arguments, array.go:45-103 *)
Definition array_of (t : ty) (args : list pval) : option ty :=
  match args with
  | [] => new_array_type 0%nat (Some t) 0 max_int64
  | [a] => match arg_int a with Some min => new_array_type 0%nat (Some t) min max_int64 | None => None end
  | [a; b] => match arg_int a, arg_int b with Some min, Some max => new_array_type 0%nat (Some t) min max | _, _ => None end
  | _ => None
  end.
(* MapType on a key type, a value type and the given arguments, map.go:910-994 *)
Definition map_of (k v : ty) (args : list pval) : option ty :=
  match args with
  | [] => Some (new_map_type 0%nat (Some k) (Some v) 0 max_int64)
  | [a] => match arg_int a with Some min => Some (new_map_type 0%nat (Some k) (Some v) min max_int64) | None => None end
  | [a; b] => match arg_int a, arg_int b with Some min, Some max => Some (new_map_type 0%nat (Some k) (Some v) min max) | _, _ => None end
  | _ => None
  end.
(* StringType, string.go:338-361 *)
Definition string_of_args (args : list pval) : option ty :=
  match args with
  | [] => Some TString
  | [PV (VStr s)] => Some (TExact 0%nat (VStr s))
  | [a] => match arg_int a with Some min => Some (sized_string_type min max_int64) | None => None end
  | [a; b] => match arg_int a, arg_int b with Some min, Some max => Some (sized_string_type min max) | _, _ => None end
  | _ => None
  end.
(* SensitiveType, sensitive.go:23-34 *)
Definition sensitive_of_args (args : list pval) : option ty :=
  match args with
  | [] => Some default_sensitive
  | [PT t] => Some (TSens 0%nat t)
  | _ => None
  end.

(* ExactValue, type.go:67-72: array.go:335, binary.go:178, ..., string.go:284, 438. A type that is not exact remains; types
   as values are not modelled. *)
Definition exact_of (v : pval) : option value :=
  match v with
  | PV v => Some v
  | PT (TExact _ v) => Some v
  | PT (TCiStr s) => Some (VStr s)
  | PT (TPattern s) => Some (VRegexp s)
  | _ => None
  end.

(* identifierToTypeMap, parser.go:597-607 *)
Definition identifier_value (s : list Z) : option pval :=
  if bytes_eqb s (lit "any") then Some (PT TAny)
  else if bytes_eqb s (lit "bool") then Some (PT TBool)
  else if bytes_eqb s (lit "int") then Some (PT TInt)
  else if bytes_eqb s (lit "float") then Some (PT TFloat)
  else if bytes_eqb s (lit "dgo") then Some (PT TDgoString)
  else if bytes_eqb s (lit "binary") then Some (PT (TBinary 0 max_int64))
  else if bytes_eqb s (lit "true") then Some (PV (VBool true))
  else if bytes_eqb s (lit "false") then Some (PV (VBool false))
  else if bytes_eqb s (lit "nil") then Some (PV VNil)
  else None.

(* some alias is declared in what follows *)
Fixpoint declares (l : lexed) : bool := match l with LTok t l => is_tok 61 t || declares l | _ => false end.

(* The functions of the parser that call each other, and the loops in them. The first token of an expression has been
   read already. *)
Inductive call :=
| CAny (t : token)                       (* anyOf *)
| COr (vs : list pval)                   (* the loop of anyOf, after the operands vs *)
| COne (t : token)                       (* oneOf *)
| CXor (vs : list pval)
| CAll (t : token)                       (* allOf *)
| CAnd (vs : list pval)
| CUnary (t : token)                     (* unary *)
| CType (t : token)                      (* typeExpression *)
| CList (stop : Z) (vs : list pval) (ellipsis : bool) (expect : Z) (* list, with its local variables *)
| CParams (vs : list pval)               (* params *)
| CElem (t : token) (expect : Z).        (* arrayElement *)

(* what they return: what they push on the stack; arrayElement may push nothing and returns expectEntry *)
Definition ret (c : call) : Type :=
  match c with
  | CParams _ => list pval
  | CElem _ _ => (option pval * Z)%type
  | _ => pval
  end.

Section Rec.
(* the calls *)
Variable rec : forall c, lexed -> pres (ret c).

(* anyOf, parser.go:431-444; oneOf, 446-459; allOf, 461-474 *)
Definition p_any (t : token) (l : lexed) : pres pval := pdo v, l <- rec (COne t) l; rec (COr [v]) l.
Definition p_one (t : token) (l : lexed) : pres pval := pdo v, l <- rec (CAll t) l; rec (CXor [v]) l.
Definition p_all (t : token) (l : lexed) : pres pval := pdo v, l <- rec (CUnary t) l; rec (CAnd [v]) l.
(* the end of the loops *)
Definition operands (make : list ty -> ty) (vs : list pval) (l : lexed) : pres pval :=
  match vs with
  | [v] => POk v l
  | _ => pdo ts, l <- skip_none (as_types vs) l; POk (PT (make ts)) l
  end.
Definition p_or (vs : list pval) (l : lexed) : pres pval :=
  pdo t, l <- p_peek l;
  if is_tok 124 t then
    pdo t, l <- p_next l; pdo t, l <- p_next l; pdo v, l <- rec (COne t) l; rec (COr (vs ++ [v])) l
  else operands (any_of_type 0%nat) vs l.
Definition p_xor (vs : list pval) (l : lexed) : pres pval :=
  pdo t, l <- p_peek l;
  if is_tok 94 t then
    pdo t, l <- p_next l; pdo t, l <- p_next l; pdo v, l <- rec (CAll t) l; rec (CXor (vs ++ [v])) l
  else operands (one_of_type 0%nat) vs l.
Definition p_and (vs : list pval) (l : lexed) : pres pval :=
  pdo t, l <- p_peek l;
  if is_tok 38 t then
    pdo t, l <- p_next l; pdo t, l <- p_next l; pdo v, l <- rec (CUnary t) l; rec (CAnd (vs ++ [v])) l
  else operands (all_of_type 0%nat) vs l.

(* unary, parser.go:476-501 *)
Definition p_ci (t : token) (l : lexed) : pres pval :=
  if is_tok 126 t then
    pdo t, l <- p_next l;
    pdo v, l <- rec (CType t) l;
    match v with PV (VStr s) => POk (PT (TCiStr (e_lower E s))) l | _ => PPanic end
  else rec (CType t) l.
Definition p_unary (t : token) (l : lexed) : pres pval :=
  if is_tok 33 t then
    pdo t, l <- p_next l;
    pdo v, l <- p_ci t l;
    pdo t, l <- skip_none (as_type v) l;
    POk (PT (not_type 0%nat t)) l
  else p_ci t l.

(* the value that a call pushed, as a type *)
Definition p_type_of (m : pres pval) : pres ty := pdo v, l <- m; skip_none (as_type v) l.
(* if t.Type != c { panic(badSyntax(t, ...)) } *)
Definition p_expect (c : Z) (l : lexed) : pres unit := pdo t, l <- p_next l; if is_tok c t then POk tt l else PPanic.

(* mapExpression, parser.go:503-529 *)
Definition p_map (l : lexed) : pres pval :=
  pdo u, l <- p_expect 91 l;
  pdo t, l <- p_next l;
  pdo k, l <- p_type_of (rec (CAny t) l);
  pdo n, l <- p_next l;
  pdo args, l <- (if is_tok 44 n then rec (CParams []) l else if is_tok 93 n then POk [] l else PPanic);
  pdo t, l <- p_next l;
  pdo v, l <- p_type_of (rec (CType t) l);
  pdo m, l <- panic_none (map_of k v args) l;
  POk (PT m) l.
(* meta, parser.go:531-545; MetaType and DefaultMetaType, meta.go:17-22 *)
Definition p_meta (l : lexed) : pres pval :=
  pdo t, l <- p_peek l;
  if is_tok 91 t then
    pdo t, l <- p_next l; pdo t, l <- p_next l;
    pdo t, l <- p_type_of (rec (CAny t) l);
    pdo u, l <- p_expect 93 l;
    POk (PT (TMeta (Some t))) l
  else POk (PT (TMeta (Some TAny))) l.
(* string, parser.go:547-556 *)
Definition p_string (l : lexed) : pres pval :=
  pdo t, l <- p_peek l;
  if is_tok 91 t then
    pdo t, l <- p_next l; pdo args, l <- rec (CParams []) l; pdo t, l <- panic_none (string_of_args args) l; POk (PT t) l
  else POk (PT TString) l.
(* sensitive, parser.go:558-571 *)
Definition p_sensitive (l : lexed) : pres pval :=
  pdo t, l <- p_peek l;
  if is_tok 91 t then
    pdo t, l <- p_next l; pdo args, l <- rec (CParams []) l; pdo t, l <- panic_none (sensitive_of_args args) l; POk (PT t) l
  else if negb (is_expression_end (t_type t)) then
    pdo t, l <- p_next l;
    pdo v, l <- rec (CAny t) l;
    pdo v, l <- skip_none (exact_of v) l;
    POk (PV (VSens v)) l
  else POk (PT default_sensitive) l.

(* identifier, parser.go:609-632. Function types (634) are not modelled. A name that is not known becomes an alias, and
   unless it is declared later, Replace panics at the end (parser.go:174-176, alias.go:213-217); here the name is refused at
   once. *)
Definition p_identifier (t : token) (l : lexed) : pres pval :=
  match identifier_value (t_value t) with
  | Some v => POk v l
  | None =>
      if bytes_eqb (t_value t) (lit "map") then p_map l
      else if bytes_eqb (t_value t) (lit "type") then p_meta l
      else if bytes_eqb (t_value t) (lit "string") then p_string l
      else if bytes_eqb (t_value t) (lit "sensitive") then p_sensitive l
      else if bytes_eqb (t_value t) (lit "func") || e_known E (t_value t) || declares l then PSkip
      else PPanic
  end.

(* float, parser.go:646-665; the token after a range without upper end is skipped *)
Definition p_float (t : token) (l : lexed) : pres pval :=
  let f := e_float E (t_value t) in
  pdo n, l <- p_peek l;
  if is_tok t_dotdot n || is_tok t_dotdotdot n then
    let incl := is_tok t_dotdot n in
    pdo n, l <- p_next l;
    pdo n, l <- p_next l;
    let max := if is_tok t_integer n || is_tok t_float n then e_float E (t_value n) else max_float in
    pdo t, l <- panic_none (float_type 0%nat f max incl) l;
    POk (PT t) l
  else POk (PV (VFloat f)) l.
(* integer, parser.go:667-689 *)
Definition p_integer (t : token) (l : lexed) : pres pval :=
  let i := token_int (t_value t) in
  pdo n, l <- p_peek l;
  if is_tok t_dotdot n || is_tok t_dotdotdot n then
    let incl := is_tok t_dotdot n in
    pdo n, l <- p_next l;
    pdo x, l <- p_peek l;
    if is_tok t_integer x then
      pdo x, l <- p_next l; pdo t, l <- panic_none (integer_type 0%nat i (token_int (t_value x)) incl) l; POk (PT t) l
    else if is_tok t_float x then
      pdo x, l <- p_next l; pdo t, l <- panic_none (float_type 0%nat (float_of_int i) (e_float E (t_value x)) incl) l; POk (PT t) l
    else pdo t, l <- panic_none (integer_type 0%nat i max_int64 incl) l; POk (PT t) l
  else POk (PV (VInt i)) l.
(* dotRange, parser.go:691-706 *)
Definition p_dots (t : token) (l : lexed) : pres pval :=
  let incl := is_tok t_dotdot t in
  pdo n, l <- p_next l;
  if is_tok t_integer n then pdo t, l <- panic_none (integer_type 0%nat min_int64 (token_int (t_value n)) incl) l; POk (PT t) l
  else if is_tok t_float n then pdo t, l <- panic_none (float_type 0%nat min_float (e_float E (t_value n)) incl) l; POk (PT t) l
  else PPanic.
(* array, parser.go:708-714 *)
Definition p_array (l : lexed) : pres pval :=
  pdo args, l <- rec (CParams []) l;
  pdo t, l <- p_next l;
  pdo e, l <- p_type_of (rec (CType t) l);
  pdo t, l <- panic_none (array_of e args) l;
  POk (PT t) l.

(* typeExpression, parser.go:747-789; alias references and declarations are not modelled *)
Definition p_type (t : token) (l : lexed) : pres pval :=
  if is_tok 123 t then rec (CList 125 [] false 1) l
  else if is_tok 40 t then pdo t, l <- p_next l; pdo v, l <- rec (CAny t) l; pdo u, l <- p_expect 41 l; POk v l
  else if is_tok 91 t then p_array l
  else if is_tok 60 t then PSkip
  else if is_tok t_integer t then p_integer t l
  else if is_tok t_float t then p_float t l
  else if is_tok t_dotdot t || is_tok t_dotdotdot t then p_dots t l
  else if is_tok t_identifier t then
    pdo n, l <- p_peek l; if is_tok 61 n then PSkip else p_identifier t l
  else if is_tok t_string t then POk (PV (VStr (t_value t))) l
  else if is_tok t_regexp t then if e_compiles E (t_value t) then POk (PT (TPattern (t_value t))) l else PPanic
  else PPanic.

(* arrayElement, parser.go:388-429 *)
Definition p_elem (t : token) (expect : Z) (l : lexed) : pres (option pval * Z) :=
  pdo n, l <- p_peek l;
  let named := (is_tok t_identifier t && is_tok 58 n) || is_tok 63 n in
  if named && (expect =? 0) then PPanic
  else
    pdo key, l <- (if named then POk (PV (VStr (t_value t))) l else rec (CAny t) l);
    pdo n, l <- p_peek l;
    let optional := is_tok 63 n in
    pdo u, l <- (if optional then p_next l else POk n l);
    pdo n, l <- p_peek l;
    if is_tok 58 n then
      if expect =? 0 then PPanic
      else pdo n, l <- p_next l; pdo t, l <- p_next l; pdo v, l <- rec (CAny t) l; POk (Some (PE key v optional), 2) l
    else if expect =? 2 then PPanic
    else POk (if named then None else Some key, 0) l.

(* the loop of list, parser.go:270-298, from the element on that starts with t *)
Definition p_list_from (stop : Z) (vs : list pval) (ellipsis : bool) (expect : Z) (t : token) (l : lexed) : pres pval :=
  if is_tok stop t then finish_list vs ellipsis expect l
  else
    pdo r, l <- rec (CElem t expect) l;
    let vs := vs ++ match fst r with Some v => [v] | None => [] end in
    pdo t, l <- p_next l;
    if is_tok stop t then finish_list vs ellipsis (snd r) l
    else if is_tok 44 t then rec (CList stop vs ellipsis (snd r)) l
    else PPanic.
(* list, parser.go:263-319 *)
Definition p_list (stop : Z) (vs : list pval) (ellipsis : bool) (expect : Z) (l : lexed) : pres pval :=
  pdo t, l <- p_next l;
  if is_tok t_dotdotdot t then
    pdo t, l <- p_next l;
    if is_tok stop t && negb (expect =? 0) then finish_list vs true expect l
    else if expect =? 2 then PPanic
    else
      pdo e, l <- p_type_of (rec (CAny t) l);
      pdo t, l <- p_next l;
      pdo a, l <- panic_none (array_of e [PV (VInt 0); PV (VInt max_int64)]) l;
      p_list_from stop (vs ++ [PT a]) true 0 t l
  else p_list_from stop vs ellipsis expect t l.

(* params, parser.go:366-386 *)
Definition p_params (vs : list pval) (l : lexed) : pres (list pval) :=
  pdo t, l <- p_next l;
  if is_tok 93 t then POk vs l
  else
    pdo r, l <- rec (CElem t 0) l;
    let vs := vs ++ match fst r with Some v => [v] | None => [] end in
    pdo t, l <- p_next l;
    if is_tok 93 t then POk vs l
    else if is_tok 44 t then rec (CParams vs) l
    else PPanic.

Definition p_call (c : call) : lexed -> pres (ret c) :=
  match c with
  | CAny t => p_any t
  | COr vs => p_or vs
  | COne t => p_one t
  | CXor vs => p_xor vs
  | CAll t => p_all t
  | CAnd vs => p_and vs
  | CUnary t => p_unary t
  | CType t => p_type t
  | CList stop vs ellipsis expect => p_list stop vs ellipsis expect
  | CParams vs => p_params vs
  | CElem t expect => p_elem t expect
  end.
End Rec.

(* the calls; [n] bounds their depth *)
Fixpoint run (n : nat) (c : call) (l : lexed) : pres (ret c) :=
  match n with O => PStuck | S n => p_call (run n) c l end.

(* Parse (parser.go:255-261) and DoParse (147-181) *)
Definition parse_tokens (n : nat) (l : lexed) : pres pval :=
  pdo t, l <- p_next l; pdo v, l <- run n (CAny t) l; pdo t, l <- p_next l; if is_tok t_end t then POk v l else PPanic.
(* a bound that suffices for all texts *)
Definition parse_fuel (s : list Z) : nat := 12 * (4 + length s).
(* tf.ParseType, tf/type.go:21-23 *)
Definition parse_type (s : list Z) : pres ty := p_type_of (parse_tokens (parse_fuel s) (tokens s)).
End Syntax.

Arguments POk {A}. Arguments PPanic {A}. Arguments PStuck {A}. Arguments PSkip {A}.
Notation "'pdo' x , l <- m ; f" := (pbind m (fun x l => f)) (at level 200, x name, l name, m at level 100, f at level 200).
