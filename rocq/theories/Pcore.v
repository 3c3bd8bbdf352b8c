(* The parser of the Puppet type language: /repo/streamer/pcore/lexer.go and parser.go.

   Left out: aliases and named types, function types (Callable) and calls of types. The parser has an own outcome for
   texts that use them (PSkip). *)
From Coq Require Import Strings.Ascii Strings.String.
From Coq Require Import ZArith List Bool.
From Coq Require Import Floats.SpecFloat.
From Verif Require Import Int64 Utf8 Text HMap Data Types Convert Print Lexer Construct Syntax Assign.
Import ListNotations.
Open Scope Z_scope.

(* again, since Assign has a bind as well *)
Notation "'do' c , r <- m ; f" := (Lexer.bind m (fun c r => f)) (at level 200, c name, r name, m at level 100, f at level 200).

(* ---------- the lexer ---------- *)

(* lexer.go:12-21; the types up to 5 have the numbers that they have in the package parser *)
Definition k_name := 6. Definition k_rocket := 7.

(* parser.IsUpperCase, IsLowerCase, IsLetterOrDigit: /repo/parser/lexer.go:188-215 *)
Definition is_upper (c : Z) : bool := Utf8.between 65 c 90.
Definition is_lower (c : Z) : bool := Utf8.between 97 c 122.

(* consumeLineComment, lexer.go:114-121 *)
Fixpoint line_comment (fuel : nat) (r : reader) : res unit :=
  match fuel with
  | O => Stuck
  | S fuel => do c, r <- rd_next r; if (c =? 0) || (c =? 10) then Ok tt r else line_comment fuel r
  end.

(* consumeIdentifier (lexer.go:123-152) and consumeTypeName (154-183), after the first character; [up] tells which *)
Fixpoint name_loop (up : bool) (fuel : nat) (r : reader) (buf : list Z) : res (list Z) :=
  match fuel with
  | O => Stuck
  | S fuel =>
      do c, r <- rd_peek r;
      if c =? 0 then Ok buf r
      else if c =? 58 then
        do c0, r <- rd_next r;
        do c1, r <- rd_next r;
        if c1 =? 58 then
          do c2, r <- rd_next r;
          if (if up then is_upper c2 else (c2 =? 95) || is_lower c2)
          then name_loop up fuel r (((buf ++ write_rune c) ++ write_rune c1) ++ write_rune c2)
          else Panic
        else Panic
      else if (c =? 95) || (is_letter c || is_digit c) then do c', r <- rd_next r; name_loop up fuel r (buf ++ write_rune c)
      else Ok buf r
  end.

(* buildToken, lexer.go:95-112 *)
Definition pc_build (fuel : nat) (c : Z) (r : reader) : res token :=
  if is_digit c then do bt, r <- consume_number fuel r c [] t_integer; Ok (mk_token (fst bt) (snd bt)) r
  else if is_upper c then do b, r <- name_loop true fuel r (write_rune c); Ok (mk_token b k_name) r
  else if is_lower c then do b, r <- name_loop false fuel r (write_rune c); Ok (mk_token b t_identifier) r
  else Ok (mk_token [] c) r.

(* nextToken, lexer.go:55-93 *)
Fixpoint pc_next (fuel : nat) (r : reader) : res token :=
  match fuel with
  | O => Stuck
  | S fuel =>
      do c, r <- rd_next r;
      if c =? 0 then Ok (mk_token [] t_end) r
      else if (c =? 32) || (c =? 9) || (c =? 10) then pc_next fuel r
      else if c =? 35 then do u, r <- line_comment fuel r; pc_next fuel r
      else if (c =? 39) || (c =? 34) then do b, r <- consume_string fuel r c []; Ok (mk_token b t_string) r
      else if c =? 47 then do b, r <- consume_regexp fuel r []; Ok (mk_token b t_regexp) r
      else if c =? 61 then
        do c1, r <- rd_peek r;
        if c1 =? 62 then do c', r <- rd_next r; Ok (mk_token (lit "=>") k_rocket) r
        else Ok (mk_token [] c) r
      else if (c =? 45) || (c =? 43) then
        do n, r <- rd_next r;
        if is_digit n then
          do bt, r <- consume_number fuel r n (write_rune c) t_integer;
          Ok (mk_token (fst bt) (snd bt)) r
        else Panic
      else pc_build fuel c r
  end.

(* the loops read a byte in each round, until the zeros at the end *)
Definition pc_lex (r : reader) : res token := pc_next (2 + length (r_s r)) r.
(* the tokens, which the parser gets one by one (/repo/parser/parser.go:204-222) *)
Fixpoint pc_lex_all (n : nat) (r : reader) : lexed :=
  match n with
  | O => LStuck
  | S n => match pc_lex r with
           | Ok t r => if t_type t =? t_end then LEnd else LTok t (pc_lex_all n r)
           | Panic => LPanic
           | Stuck => LStuck
           end
  end.
Definition pc_tokens (s : list Z) : lexed := pc_lex_all (2 + length s) (new_reader s).

(* strconv.ParseInt (Go library) with base 0 and 64 bits, without its error, in parser.go:211: as token_int, but a sign +
   is in the text, too *)
Definition pc_int (s : list Z) : Z := match s with 43 :: r => match r with 45 :: _ => 0 | _ => token_int r end | _ => token_int s end.

(* ---------- values ---------- *)

(* What is on the stack of the parser: values, types, arrays and maps that have types in them, map entries. *)
Inductive pval := PV (v : value) | PT (t : ty) | PA (l : list pval) | PM (m : list (pval * pval)) | PE (k v : pval).

(* an array or a map of values is a value *)
Fixpoint plain (l : list pval) : option (list value) :=
  match l with
  | [] => Some []
  | PV v :: r => match plain r with Some vs => Some (v :: vs) | None => None end
  | _ => None
  end.
Fixpoint plain_entries (l : list (pval * pval)) : option (list (value * value)) :=
  match l with
  | [] => Some []
  | (PV k, PV v) :: r => match plain_entries r with Some m => Some ((k, v) :: m) | None => None end
  | _ => None
  end.
Definition p_array (l : list pval) : pval := match plain l with Some vs => PV (VArr vs) | None => PA l end.
Definition p_map (m : list (pval * pval)) : pval := match plain_entries m with Some vs => PV (VMap vs) | None => PM m end.

(* Put on a map; the equality of keys that are not plain values is not modelled (None) *)
Fixpoint p_put (m : list (pval * pval)) (k v : pval) : option (list (pval * pval)) :=
  match m with
  | [] => Some [(k, v)]
  | (k', v') :: r =>
      match k, k' with
      | PV a, PV b => if veq a b then Some ((k', v) :: r) else match p_put r k v with Some r' => Some ((k', v') :: r') | None => None end
      | _, _ => None
      end
  end.
(* convertMapEntries, parser.go:723-746. [en] is the map that is being built. *)
Definition flush (en : option (list (pval * pval))) : list pval := match en with Some m => [p_map m] | None => [] end.
Fixpoint convert_entries (en : option (list (pval * pval))) (l : list pval) : option (list pval) :=
  match l with
  | [] => Some (flush en)
  | PE k v :: r =>
      match p_put match en with Some m => m | None => [] end k v with
      | Some m => convert_entries (Some m) r
      | None => None
      end
  | x :: r => match convert_entries None r with Some l' => Some (flush en ++ x :: l') | None => None end
  end.

(* AsType(Value(x)), type.go:56-65, for StructMapEntry (mapstruct.go:455-465); arrays and maps with types in them are not modelled *)
Definition pc_type (v : pval) : option ty := match v with PV v => Some (type_of 0%nat v) | PT t => Some t | _ => None end.

(* ---------- the arguments of types ---------- *)

(* What a function for a type does *)
Inductive tres := TDone (t : ty) | TPanic | TSkip.
Definition t_panic (o : option ty) : tres := match o with Some t => TDone t | None => TPanic end.

(* the word default, an identifier or a string *)
Definition is_default (s : list Z) : bool := bytes_eqb s (lit "default").
(* getIfInt (parser.go:748-758), getInt (760-772): None is false for the first, a panic for the second *)
Definition get_int (dflt : Z) (v : pval) : option Z :=
  match v with
  | PV (VInt z) => Some z
  | PV (VStr s) => if is_default s then Some dflt else None
  | _ => None
  end.
(* getFloat, parser.go:774-788 *)
Definition get_float (dflt : spec_float) (v : pval) : option spec_float :=
  match v with
  | PV (VInt z) => Some (float_of_int z)
  | PV (VFloat f) => Some f
  | PV (VStr s) => if is_default s then Some dflt else None
  | _ => None
  end.
(* args.Arg(..., typ.Type) *)
Definition arg_type (v : pval) : option ty := match v with PT t => Some t | _ => None end.
Fixpoint arg_types (l : list pval) : option (list ty) :=
  match l with
  | [] => Some []
  | PT t :: r => match arg_types r with Some ts => Some (t :: ts) | None => None end
  | _ => None
  end.
(* args.Arg(..., typ.String) *)
Fixpoint arg_strings (l : list pval) : option (list (list Z)) :=
  match l with
  | [] => Some []
  | PV (VStr s) :: r => match arg_strings r with Some ss => Some (s :: ss) | None => None end
  | _ => None
  end.
Definition obind {A B} (o : option A) (f : A -> option B) : option B := match o with Some x => f x | None => None end.

Section Pcore.
(* the Go library: strconv.ParseFloat without its error, regexp.MustCompile, and the world of types *)
Variable E : env.
Variable W : world.

(* tp.Assignable(typ.Nil); the fuel suffices (Totality.v) *)
Definition takes_nil (t : ty) : bool := match assignable W (4 * type_size t + 8) 0%nat t TNil with Some b => b | None => false end.

(* arrayType, parser.go:253-285, with the arguments in brackets, if any *)
Definition array_args (args : option (list pval)) : option ty :=
  match args with
  | None => Some TArray
  | Some [a] =>
      match get_int 0 a with
      | Some min => new_array_type 0%nat (Some TAny) min max_int64
      | None => obind (arg_type a) (fun t => new_array_type 0%nat (Some t) 0 max_int64)
      end
  | Some [a; b] =>
      match get_int 0 a with
      | Some min => obind (get_int max_int64 b) (fun max => new_array_type 0%nat (Some TAny) min max)
      | None => obind (arg_type a) (fun t => obind (get_int 0 b) (fun min => new_array_type 0%nat (Some t) min max_int64))
      end
  | Some [a; b; c] =>
      obind (arg_type a) (fun t => obind (get_int 0 b) (fun min => obind (get_int max_int64 c) (fun max => new_array_type 0%nat (Some t) min max)))
  | Some _ => None
  end.
(* binaryType, parser.go:287-302 *)
Definition binary_args (args : option (list pval)) : option ty :=
  match args with
  | None => Some (TBinary 0 max_int64)
  | Some [a] => obind (get_int 0 a) (fun min => Some (sized_binary_type min max_int64))
  | Some [a; b] => obind (get_int 0 a) (fun min => obind (get_int max_int64 b) (fun max => Some (sized_binary_type min max)))
  | Some _ => None
  end.
(* enumType, parser.go:350-374 *)
Definition enum_args (args : option (list pval)) : option ty :=
  match args with
  | None => Some TString
  | Some l =>
      match rev l with
      | [] => None
      | PV (VBool ci) :: r => obind (arg_strings (rev r)) (fun ss => Some (if ci then ci_enum_type W 0%nat ss else enum_type 0%nat ss))
      | _ => obind (arg_strings l) (fun ss => Some (enum_type 0%nat ss))
      end
  end.
(* floatType, parser.go:376-391 *)
Definition float_args (args : option (list pval)) : option ty :=
  match args with
  | None => Some TFloat
  | Some [a] => obind (get_float min_float a) (fun from => float_type 0%nat from max_float true)
  | Some [a; b] => obind (get_float min_float a) (fun from => obind (get_float max_float b) (fun to => float_type 0%nat from to true))
  | Some _ => None
  end.
(* hashType, parser.go:393-419; MapType with a single integer (map.go:911-918) or two (920-938) has no key and value types *)
Definition hash_args (args : option (list pval)) : option ty :=
  match args with
  | None => Some TMap
  | Some [a] => obind (get_int 0 a) (fun min => Some (new_map_type 0%nat None None min max_int64))
  | Some [a; b] =>
      match get_int 0 a with
      | Some min => obind (get_int max_int64 b) (fun max => Some (new_map_type 0%nat None None min max))
      | None => obind (arg_type a) (fun k => obind (arg_type b) (fun v => Some (new_map_type 0%nat (Some k) (Some v) 0 max_int64)))
      end
  | Some [a; b; c] =>
      obind (arg_type a) (fun k => obind (arg_type b) (fun v => obind (get_int 0 c) (fun min => Some (new_map_type 0%nat (Some k) (Some v) min max_int64))))
  | Some [a; b; c; d] =>
      obind (arg_type a) (fun k => obind (arg_type b) (fun v => obind (get_int 0 c) (fun min => obind (get_int max_int64 d) (fun max =>
        Some (new_map_type 0%nat (Some k) (Some v) min max)))))
  | Some _ => None
  end.
(* integerType, parser.go:421-436 *)
Definition integer_args (args : option (list pval)) : option ty :=
  match args with
  | None => Some TInt
  | Some [a] => obind (get_int min_int64 a) (fun from => integer_type 0%nat from max_int64 true)
  | Some [a; b] => obind (get_int min_int64 a) (fun from => obind (get_int max_int64 b) (fun to => integer_type 0%nat from to true))
  | Some _ => None
  end.
(* Min and Max of a dgo.FloatType: float.go:109-123, 153-159, 207-213 *)
Definition float_min (t : ty) : spec_float := match t with TFloatRange min _ _ => min | TExact _ (VFloat f) => f | _ => min_float end.
Definition float_max (t : ty) : spec_float := match t with TFloatRange _ max _ => max | TExact _ (VFloat f) => f | _ => max_float end.
(* numberType, parser.go:438-445 *)
Definition number_args (args : option (list pval)) : option ty :=
  obind (float_args args) (fun tp =>
    let max := if SFeqb (float_max tp) max_float then max_int64 else float_to_int (float_max tp) in
    obind (integer_type 0%nat (float_to_int (float_min tp)) max true) (fun i => Some (any_of_type 0%nat [i; tp]))).
(* notUndefType, parser.go:447-463 *)
Definition not_undef_args (args : option (list pval)) : option ty :=
  match args with
  | None => Some (not_type 0%nat TNil)
  | Some [PT t] =>
      if is_any t then Some (not_type 0%nat TNil)
      else if takes_nil t then Some (all_of_type 0%nat [not_type 0%nat TNil; t]) else Some t
  | Some _ => None
  end.
(* optionalType, parser.go:465-485 *)
Definition optional_args (args : option (list pval)) : option ty :=
  let opt t := if takes_nil t then t else any_of_type 0%nat [TNil; t] in
  match args with
  | None => Some TAny
  | Some [PT t] => Some (opt t)
  | Some [PV (VStr s)] => Some (opt (type_of 0%nat (VStr s)))
  | Some _ => None
  end.
(* sensitiveType, parser.go:487-495; SensitiveType, sensitive.go:23-34 *)
Definition sensitive_args (args : option (list pval)) : option ty :=
  match args with
  | None | Some [] => Some default_sensitive
  | Some [PT t] => Some (TSens 0%nat t)
  | Some _ => None
  end.
(* tupleFromArgs, parser.go:497-537. The last arguments may be a minimum and a maximum; Get with the index -1 panics. *)
Definition tuple_bounds (l : list pval) : option (list pval * Z * Z) :=
  match rev l with
  | [] => None
  | a :: r =>
      match get_int (-1) a with
      | Some n =>
          match r with
          | [] => None
          | b :: r2 =>
              match get_int (-1) b with
              | Some m =>
                  let k := Z.of_nat (length r2) in
                  Some (rev r2, (if m =? -1 then k else m), (if n =? -1 then k else n))
              | None =>
                  let k := Z.of_nat (length r) in
                  Some (rev r, (if n =? -1 then k else n), max_int64)
              end
          end
      | None => Some (l, Z.of_nat (length l), Z.of_nat (length l))
      end
  end.
Definition tuple_from_args (l : list pval) : option ty :=
  obind (tuple_bounds l) (fun b => let '(types, min, max) := b in
    obind (arg_types types) (fun ts =>
      if (min =? Z.of_nat (length ts)) && (min =? max) then tuple_type 0%nat ts else variadic_tuple_type 0%nat ts)).
(* tupleType, parser.go:539-547 *)
Definition tuple_args (args : option (list pval)) : option ty :=
  match args with None => Some default_tuple | Some l => tuple_from_args l end.
(* toRegexp, parser.go:821-831 *)
Fixpoint arg_patterns (l : list pval) : option (list (list Z)) :=
  match l with
  | [] => Some []
  | PV (VStr s) :: r => if e_compiles E s then obind (arg_patterns r) (fun ps => Some (s :: ps)) else None
  | PV (VRegexp s) :: r => obind (arg_patterns r) (fun ps => Some (s :: ps))
  | _ => None
  end.
(* patternType, parser.go:549-560 *)
Definition pattern_args (args : option (list pval)) : option ty :=
  match args with
  | None => Some TString
  | Some [] => None
  | Some l => obind (arg_patterns l) (fun ps => Some (any_of_type 0%nat (map TPattern ps)))
  end.
(* regexpType, parser.go:562-572 *)
Definition regexp_args (args : option (list pval)) : option ty :=
  match args with
  | None => Some TRegexp
  | Some [a] => match arg_patterns [a] with Some [s] => Some (TExact 0%nat (VRegexp s)) | _ => None end
  | Some _ => None
  end.
(* stringType, parser.go:574-584; StringType, string.go:338-361 *)
Definition string_args (args : option (list pval)) : option ty :=
  let int v := match v with PV (VInt z) => Some z | _ => None end in
  match args with
  | None => Some TString
  | Some [PV (VStr s)] => Some (TExact 0%nat (VStr s))
  | Some [a] => obind (int a) (fun min => Some (sized_string_type min max_int64))
  | Some [a; b] => obind (int a) (fun min => obind (int b) (fun max => Some (sized_string_type min max)))
  | Some _ => None
  end.
(* optionalValue, parser.go:790-800, on what StructMapEntry makes of the key *)
Definition optional_key (k : ty) : ty * bool := match k with TAnyOf _ [TNil; t] => (t, true) | _ => (k, false) end.
Fixpoint struct_entries (m : list (pval * pval)) : option (list (ty * ty * bool)) :=
  match m with
  | [] => Some []
  | (k, v) :: r =>
      obind (pc_type k) (fun kt => obind (pc_type v) (fun vt => obind (struct_entries r) (fun es =>
        let (kt, optional) := optional_key kt in Some ((kt, vt, negb optional) :: es))))
  end.
(* structType, parser.go:586-604 *)
Definition struct_args (args : option (list pval)) : tres :=
  let make m := match struct_entries m with Some es => t_panic (struct_map_type 0%nat false es) | None => TSkip end in
  match args with
  | None => t_panic (struct_map_type 0%nat true [])
  | Some [PM m] => make m
  | Some [PV (VMap m)] => make (map (fun e => (PV (fst e), PV (snd e))) m)
  | Some _ => TPanic
  end.
(* typeType, parser.go:606-616 *)
Definition type_args (args : option (list pval)) : option ty :=
  match args with
  | None => Some (TMeta (Some TAny))
  | Some [PT t] => Some (TMeta (Some t))
  | Some _ => None
  end.
(* variantType, parser.go:618-632; DefaultAnyOfType (ternary.go:23), at the address 4 *)
Definition variant_args (args : option (list pval)) : option ty :=
  match args with
  | None => Some (TAnyOf 4%nat [])
  | Some l => obind (arg_types l) (fun ts => Some (any_of_type 0%nat ts))
  end.

(* identifierToTypeMap, parser.go:634-641 *)
Definition constant_type (s : list Z) : option ty :=
  if bytes_eqb s (lit "Any") then Some TAny
  else if bytes_eqb s (lit "Boolean") then Some TBool
  else if bytes_eqb s (lit "False") then Some (TExact 0%nat (VBool false))
  else if bytes_eqb s (lit "Timestamp") then Some TTime
  else if bytes_eqb s (lit "True") then Some (TExact 0%nat (VBool true))
  else if bytes_eqb s (lit "Undef") then Some TNil
  else None.
(* identifierToFuncMap, parser.go:643-666 *)
Definition type_function (s : list Z) : option (option (list pval) -> tres) :=
  let f g := Some (fun args => t_panic (g args)) in
  if bytes_eqb s (lit "Array") then f array_args
  else if bytes_eqb s (lit "Binary") then f binary_args
  else if bytes_eqb s (lit "Callable") then Some (fun _ => TSkip)
  else if bytes_eqb s (lit "Float") then f float_args
  else if bytes_eqb s (lit "Enum") then f enum_args
  else if bytes_eqb s (lit "Hash") then f hash_args
  else if bytes_eqb s (lit "Integer") then f integer_args
  else if bytes_eqb s (lit "Number") then f number_args
  else if bytes_eqb s (lit "NotUndef") then f not_undef_args
  else if bytes_eqb s (lit "Optional") then f optional_args
  else if bytes_eqb s (lit "Pattern") then f pattern_args
  else if bytes_eqb s (lit "Regexp") then f regexp_args
  else if bytes_eqb s (lit "Sensitive") then f sensitive_args
  else if bytes_eqb s (lit "String") then f string_args
  else if bytes_eqb s (lit "Struct") then Some struct_args
  else if bytes_eqb s (lit "Tuple") then f tuple_args
  else if bytes_eqb s (lit "Type") then f type_args
  else if bytes_eqb s (lit "Variant") then f variant_args
  else None.

(* ---------- the parser ---------- *)

(* The functions of the parser that call each other, and the loops in them. *)
Inductive call :=
| CElem (t : token)                                                         (* element *)
| CList (stop : Z) (vs : list pval) (lhs : option pval) (entries : bool)    (* the loop of list with its variables *)
| CHash (vs : list (pval * pval)).                                          (* the loop of hash *)
Definition ret (c : call) : Type :=
  match c with CElem _ => pval | CList _ _ _ _ => list pval | CHash _ => list (pval * pval) end.

Section Rec.
Variable rec : forall c, lexed -> pres (ret c).

(* the end of list, parser.go:146-151 *)
Definition list_end (vs : list pval) (entries : bool) (l : lexed) : pres (list pval) :=
  if entries then match convert_entries None vs with Some vs => POk vs l | None => PSkip end else POk vs l.
(* list, parser.go:112-152; array and params are calls of it. An entry is made as soon as its value is there. *)
Definition pc_list (stop : Z) (vs : list pval) (lhs : option pval) (entries : bool) (l : lexed) : pres (list pval) :=
  pdo t, l <- p_next l;
  if match lhs with None => is_tok stop t | Some _ => false end then list_end vs entries l
  else
    pdo v, l <- rec (CElem t) l;
    let x := match lhs with Some k => PE k v | None => v end in
    let entries := match lhs with Some _ => true | None => entries end in
    pdo t, l <- p_next l;
    if is_tok stop t then list_end (vs ++ [x]) entries l
    else if is_tok 44 t then rec (CList stop (vs ++ [x]) None entries) l
    else if is_tok k_rocket t then rec (CList stop vs (Some x) entries) l
    else PPanic.
(* hash, parser.go:154-184. Equal keys are not looked for (ToMap, array.go:1308-1339). *)
Definition pc_hash (vs : list (pval * pval)) (l : lexed) : pres (list (pval * pval)) :=
  pdo t, l <- p_next l;
  if is_tok 125 t then POk vs l
  else
    pdo k, l <- rec (CElem t) l;
    pdo t, l <- p_next l;
    if negb (is_tok k_rocket t) then PPanic
    else
      pdo t, l <- p_next l;
      pdo v, l <- rec (CElem t) l;
      pdo t, l <- p_next l;
      if is_tok 125 t then POk (vs ++ [(k, v)]) l
      else if is_tok 44 t then rec (CHash (vs ++ [(k, v)])) l
      else PPanic.

(* the arguments of a type: if p.PeekToken().Type == '[' { p.NextToken(); p.array(); ... p.PopLast() ... } *)
Definition type_params (l : lexed) : pres (option (list pval)) :=
  pdo t, l <- p_peek l;
  if is_tok 91 t then pdo t, l <- p_next l; pdo vs, l <- rec (CList 93 [] None false) l; POk (Some vs) l
  else POk None l.
(* name (parser.go:680-692) with knownType (668-678); other names and calls are not modelled *)
Definition pc_name (s : list Z) (l : lexed) : pres pval :=
  pdo t, l <-
    match constant_type s with
    | Some t => POk t l
    | None =>
        match type_function s with
        | Some f =>
            pdo args, l <- type_params l;
            match f args with TDone t => POk t l | TPanic => PPanic | TSkip => PSkip end
        | None => PSkip
        end
    end;
  pdo n, l <- p_peek l;
  if is_tok 40 n then PSkip else POk (PT t) l.
(* identifier, parser.go:229-251. Declarations of aliases are not modelled, beyond the test for the = *)
Definition pc_identifier (s : list Z) (l : lexed) : pres pval :=
  if bytes_eqb s (lit "true") then POk (PV (VBool true)) l
  else if bytes_eqb s (lit "type") then
    pdo n, l <- p_peek l;
    if is_tok k_name n then
      pdo n, l <- p_next l; pdo e, l <- p_next l; if is_tok 61 e then PSkip else PPanic
    else POk (PV (VStr s)) l
  else if bytes_eqb s (lit "false") then POk (PV (VBool false)) l
  else if bytes_eqb s (lit "undef") then POk (PV VNil) l
  else POk (PV (VStr s)) l.
(* element, parser.go:204-227 *)
Definition pc_elem (t : token) (l : lexed) : pres pval :=
  if is_tok 123 t then pdo m, l <- rec (CHash []) l; POk (p_map m) l
  else if is_tok 91 t then pdo vs, l <- rec (CList 93 [] None false) l; POk (p_array vs) l
  else if is_tok t_integer t then POk (PV (VInt (pc_int (t_value t)))) l
  else if is_tok t_float t then POk (PV (VFloat (e_float E (t_value t)))) l
  else if is_tok t_identifier t then pc_identifier (t_value t) l
  else if is_tok t_string t then POk (PV (VStr (t_value t))) l
  else if is_tok t_regexp t then if e_compiles E (t_value t) then POk (PV (VRegexp (t_value t))) l else PPanic
  else if is_tok k_name t then pc_name (t_value t) l
  else PPanic.

Definition pc_call (c : call) : lexed -> pres (ret c) :=
  match c with
  | CElem t => pc_elem t
  | CList stop vs lhs entries => pc_list stop vs lhs entries
  | CHash vs => pc_hash vs
  end.
End Rec.

Fixpoint run (fuel : nat) : forall c, lexed -> pres (ret c) :=
  match fuel with
  | O => fun _ _ => PStuck
  | S fuel => pc_call (run fuel)
  end.

(* Parse, parser.go:87-102; DoParse (/repo/parser/parser.go:146-177) takes the value from the stack *)
Definition pc_parse_tokens (n : nat) (l : lexed) : pres pval :=
  pdo t, l <- p_next l;
  pdo v, l <- run n (CElem t) l;
  pdo t, l <- p_next l;
  if is_tok k_rocket t then
    pdo t, l <- p_next l;
    pdo w, l <- run n (CElem t) l;
    pdo t, l <- p_next l;
    if is_tok t_end t then POk (p_map [(v, w)]) l else PPanic
  else if is_tok t_end t then POk v l else PPanic.
(* Parse, parser.go:65-70 *)
Definition pc_parse (s : list Z) : pres pval := pc_parse_tokens (8 * length s + 64) (pc_tokens s).
End Pcore.
