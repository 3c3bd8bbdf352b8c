(* Type expressions with names: /repo/parser/parser.go with the aliases of /repo/internal/alias.go.

   The parser of Syntax.v once more, but types are objects of a heap (Resolve.v), so that a name may be used before it is declared and
   within its own declaration. Types that Resolve.v does not have (function types, values of sensitive and of named types, constants between
   slashes or after a tilde) are left out. *)
From Coq Require Import Strings.Ascii Strings.String.
From Coq Require Import ZArith List Bool.
From Coq Require Import Floats.SpecFloat.
From Verif Require Import Int64 Utf8 Text HMap Data Types Construct Print Lexer Syntax Graph RecTypes Resolve.
Import ListNotations.
Open Scope Z_scope.

(* the heap, and aliasAdder.namedTypes (alias.go:20-23) *)
Record pstate := { ps_heap : heap; ps_names : list (list Z * nat) }.
(* what a function of the parser does: see pres in Syntax.v *)
Inductive ares (A : Type) := AOk (x : A) (l : lexed) (s : pstate) | APanic | AStuck | ASkip.
Arguments AOk {A}. Arguments APanic {A}. Arguments AStuck {A}. Arguments ASkip {A}.
Definition AM (A : Type) := lexed -> pstate -> ares A.
Definition a_ret {A} (x : A) : AM A := fun l s => AOk x l s.
Definition a_panic {A} : AM A := fun _ _ => APanic.
Definition a_skip {A} : AM A := fun _ _ => ASkip.
Definition a_bind {A B} (m : AM A) (f : A -> AM B) : AM B :=
  fun l s => match m l s with AOk x l s => f x l s | APanic => APanic | AStuck => AStuck | ASkip => ASkip end.
Notation "'ado' x '<-' m ; f" := (a_bind m (fun x => f)) (at level 200, x name, m at level 100, f at level 200).
(* a computation without heap *)
Definition a_lift {A} (m : lexed -> pres A) : AM A :=
  fun l s => match m l with POk x l => AOk x l s | PPanic => APanic | PStuck => AStuck | PSkip => ASkip end.
(* NextToken, PeekToken (parser.go:204-227) *)
Definition a_next : AM token := a_lift p_next.
Definition a_peek : AM token := a_lift p_peek.
Definition a_option {A} (o : option A) : AM A := match o with Some x => a_ret x | None => a_panic end.

(* a new object; types without parts have no identity *)
Definition a_new (n : hnode) : AM nat := fun l s => AOk (length (ps_heap s)) l {| ps_heap := ps_heap s ++ [n]; ps_names := ps_names s |}.
Definition a_get (p : nat) : AM (option hnode) := fun l s => AOk (nth_error (ps_heap s) p) l s.
(* the type, if it has no parts *)
Definition leaf_of (n : option hnode) : option ty := match n with Some (HNode (NLeaf t)) => Some t | _ => None end.
Definition a_leaf (p : nat) : AM (option ty) := ado n <- a_get p; a_ret (leaf_of n).

(* Put of a hash map (map.go:599-638, C01) on the entries *)
Fixpoint put_name (l : list (list Z * nat)) (n : list Z) (p : nat) : list (list Z * nat) :=
  match l with
  | [] => [(n, p)]
  | (n', p') :: r => if bytes_eqb n n' then (n', p) :: r else (n', p') :: put_name r n p
  end.
Fixpoint get_name (l : list (list Z * nat)) (n : list Z) : option nat :=
  match l with
  | [] => None
  | (n', p) :: r => if bytes_eqb n n' then Some p else get_name r n
  end.
(* aliasAdder.Add, alias.go:198-200 *)
Definition a_add (n : list Z) (p : nat) : AM unit := fun l s => AOk tt l {| ps_heap := ps_heap s; ps_names := put_name (ps_names s) n p |}.

(* what is on the stack of the parser: values, types, and map entries; see pval in Syntax.v *)
Inductive aval := AV (v : value) | AT (p : nat) | AE (k v : aval) (opt : bool).
(* PopLastType (parser.go:233-242), allTypes (801-813) *)
Definition a_type (v : aval) : AM nat :=
  match v with AV v => a_new (HNode (NLeaf (type_of 0%nat v))) | AT p => a_ret p | AE _ _ _ => a_skip end.
Fixpoint a_types (l : list aval) : AM (list nat) :=
  match l with
  | [] => a_ret []
  | v :: r => ado p <- a_type v; ado ps <- a_types r; a_ret (p :: ps)
  end.
Fixpoint a_leaves (l : list nat) : AM (list (option ty)) :=
  match l with
  | [] => a_ret []
  | p :: r => ado t <- a_leaf p; ado ts <- a_leaves r; a_ret (t :: ts)
  end.
Definition exact_leaf (t : option ty) : bool := match t with Some t => is_exact t | None => false end.
Definition any_leaf (t : option ty) : bool := match t with Some t => is_any t | None => false end.
Fixpoint leaf_values (ts : list (option ty)) : option (list value) :=
  match ts with
  | [] => Some []
  | Some t :: r => match exact_value t, leaf_values r with Some v, Some l => Some (v :: l) | _, _ => None end
  | None :: _ => None
  end.

Section Declare.
Variable E : env.
(* the address of DefaultAnyType *)
Variable any : nat.
(* the types of the alias map (backingMap.GetType), alias.go:191-196 *)
Variable backing : list Z -> option nat.
(* whether NamedType (named.go:87-92) knows the name *)
Variable named : list Z -> bool.

(* aliasAdder.GetType, alias.go:202-207 *)
Definition get_type (names : list (list Z * nat)) (n : list Z) : option nat :=
  match get_name names n with Some p => Some p | None => backing n end.

(* newArrayType, array.go:104-127 *)
Definition a_array (e : nat) (min max : Z) : AM nat :=
  let min := if min <? 0 then 0 else min in
  let max := if max <? 0 then 0 else max in
  let (min, max) := if max <? min then (max, min) else (min, max) in
  ado t <- a_leaf e;
  if (min =? 0) && (max =? max_int64) && any_leaf t then a_new (HNode (NLeaf TArray))
  else if (min =? 1) && (min =? max) && exact_leaf t then
    ado vs <- a_option (leaf_values [t]); a_new (HNode (NLeaf (TExact 0%nat (VArr vs))))
  else a_new (HNode (NArr e min max)).
(* the integer arguments of ArrayType and MapType *)
Definition arg_int (v : aval) : option Z := match v with AV (VInt z) => Some z | _ => None end.
(* ArrayType, array.go:45-103, and MapType, map.go:910-994: the bounds *)
Definition size_of_args (args : list aval) : option (Z * Z) :=
  match args with
  | [] => Some (0, max_int64)
  | [a] => match arg_int a with Some min => Some (min, max_int64) | None => None end
  | [a; b] => match arg_int a, arg_int b with Some min, Some max => Some (min, max) | _, _ => None end
  | _ => None
  end.
(* newMapType, map.go:996-1021 *)
Definition a_map (k v : nat) (min max : Z) : AM nat :=
  let min := if min <? 0 then 0 else min in
  let max := if max <? 0 then 0 else max in
  let (min, max) := if max <? min then (max, min) else (min, max) in
  ado kt <- a_leaf k;
  ado vt <- a_leaf v;
  if (min =? 0) && (max =? max_int64) && (any_leaf kt && any_leaf vt) then a_new (HNode (NLeaf TMap)) else a_new (HNode (NMap k v min max)).
(* newTupleType, array.go:373-397 *)
Definition a_tuple (ts : list nat) (variadic : bool) : AM nat :=
  match ts with
  | [] => a_new (HNode (NTuple [] false))
  | _ =>
      ado ls <- a_leaves ts;
      if variadic && Nat.eqb (length ts) 1 && forallb any_leaf ls then a_new (HNode (NTuple [any] true))
      else if negb variadic && forallb exact_leaf ls then
        ado vs <- a_option (leaf_values ls); a_new (HNode (NLeaf (TExact 0%nat (VArr vs))))
      else a_new (HNode (NTuple ts variadic))
  end.
(* v.(dgo.ArrayType).ElementType() in makeTupleType, parser.go:334 *)
Definition a_element (p : nat) : AM nat :=
  ado n <- a_get p;
  match n with
  | Some (HNode (NArr e _ _)) => a_ret e
  | Some (HNode (NLeaf TArray)) => a_ret any
  | Some (HNode (NTuple _ _)) | Some (HNode (NLeaf (TExact _ (VArr _)))) => a_skip
  | _ => a_panic
  end.
(* makeTupleType, parser.go:321-339 *)
Definition a_make_tuple (vs : list aval) (variadic : bool) : AM aval :=
  ado ts <- a_types vs;
  if variadic then
    ado e <- a_element (last ts any);
    ado p <- a_tuple (removelast ts ++ [e]) true;
    a_ret (AT p)
  else ado p <- a_tuple ts false; a_ret (AT p).

(* makeStructType, parser.go:341-364: the entries. Keys are values here; types as keys, exact or not, are left out. *)
Fixpoint a_entries (vs : list aval) : AM (list (value * nat * bool)) :=
  match vs with
  | [] => a_ret []
  | AE k v opt :: r =>
      match k with
      | AV k => ado p <- a_type v; ado es <- a_entries r; a_ret ((k, p, negb opt) :: es)
      | _ => a_skip
      end
  | _ => a_panic
  end.
Fixpoint put_all (m l : list (value * value)) : list (value * value) :=
  match l with [] => m | (k, v) :: r => put_all (put_entry m k v) r end.
(* StructMapTypeUnresolved, mapstruct.go:30-57, with createExactMap (59-66) *)
Definition a_make_struct (vs : list aval) (additional : bool) : AM aval :=
  ado es <- a_entries vs;
  ado ls <- a_leaves (map (fun e => snd (fst e)) es);
  if negb additional && forallb snd es && forallb exact_leaf ls then
    ado xs <- a_option (leaf_values ls);
    ado p <- a_new (HNode (NLeaf (TExact 0%nat (VMap (put_all [] (combine (map (fun e => fst (fst e)) es) xs))))));
    a_ret (AT p)
  else ado p <- a_new (HNode (NStruct additional es)); a_ret (AT p).

(* the end of list, parser.go:300-318 *)
Definition a_finish_list (vs : list aval) (ellipsis : bool) (expect : Z) : AM aval :=
  match vs with
  | [] => if expect =? 0 then ado p <- a_new (HNode (NTuple [] false)); a_ret (AT p) else a_make_struct [] ellipsis
  | _ => if expect =? 2 then a_make_struct vs ellipsis else a_make_tuple vs ellipsis
  end.

(* the functions that call each other, as in Syntax.v *)
Inductive acall :=
| BAny (t : token) | BOr (vs : list aval) | BOne (t : token) | BXor (vs : list aval) | BAll (t : token) | BAnd (vs : list aval)
| BUnary (t : token) | BType (t : token)
| BList (stop : Z) (vs : list aval) (ellipsis : bool) (expect : Z)
| BParams (vs : list aval)
| BElem (t : token) (expect : Z).
Definition aret (c : acall) : Type :=
  match c with BParams _ => list aval | BElem _ _ => (option aval * Z)%type | _ => aval end.

Section Rec.
Variable rec : forall c, AM (aret c).

(* anyOf, parser.go:431-444; oneOf, 446-459; allOf, 461-474 *)
Definition a_any (t : token) : AM aval := ado v <- rec (BOne t); rec (BOr [v]).
Definition a_one (t : token) : AM aval := ado v <- rec (BAll t); rec (BXor [v]).
Definition a_all (t : token) : AM aval := ado v <- rec (BUnary t); rec (BAnd [v]).
(* the end of the loops, with AnyOfType (ternary.go:251-265), OneOfType (360-374) and AllOfType (29-43) *)
Definition a_operands (make : list nat -> rnode) (vs : list aval) : AM aval :=
  match vs with
  | [v] => a_ret v
  | _ => ado ts <- a_types vs; ado p <- a_new (HNode (make ts)); a_ret (AT p)
  end.
Definition a_or (vs : list aval) : AM aval :=
  ado t <- a_peek;
  if is_tok 124 t then ado t <- a_next; ado t <- a_next; ado v <- rec (BOne t); rec (BOr (vs ++ [v])) else a_operands NAny vs.
Definition a_xor (vs : list aval) : AM aval :=
  ado t <- a_peek;
  if is_tok 94 t then ado t <- a_next; ado t <- a_next; ado v <- rec (BAll t); rec (BXor (vs ++ [v])) else a_operands NOne vs.
Definition a_and (vs : list aval) : AM aval :=
  ado t <- a_peek;
  if is_tok 38 t then ado t <- a_next; ado t <- a_next; ado v <- rec (BUnary t); rec (BAnd (vs ++ [v])) else a_operands NAll vs.

(* NotType, not.go:17-23 *)
Definition a_not (p : nat) : AM nat :=
  ado n <- a_get p;
  match n with Some (HNode (NNot q)) => a_ret q | _ => a_new (HNode (NNot p)) end.
(* unary, parser.go:476-501; case independent strings are left out *)
Definition a_unary (t : token) : AM aval :=
  if is_tok 33 t then
    ado t <- a_next;
    if is_tok 126 t then a_skip else ado v <- rec (BType t); ado p <- a_type v; ado q <- a_not p; a_ret (AT q)
  else if is_tok 126 t then a_skip
  else rec (BType t).

Definition a_expect (c : Z) : AM unit := ado t <- a_next; if is_tok c t then a_ret tt else a_panic.
(* mapExpression, parser.go:503-529 *)
Definition a_map_expression : AM aval :=
  ado u <- a_expect 91;
  ado t <- a_next;
  ado k <- rec (BAny t);
  ado k <- a_type k;
  ado n <- a_next;
  ado args <- (if is_tok 44 n then rec (BParams []) else if is_tok 93 n then a_ret [] else a_panic);
  ado t <- a_next;
  ado v <- rec (BType t);
  ado v <- a_type v;
  ado b <- a_option (size_of_args args);
  ado p <- a_map k v (fst b) (snd b);
  a_ret (AT p).
(* meta, parser.go:531-545 *)
Definition a_meta : AM aval :=
  ado t <- a_peek;
  if is_tok 91 t then
    ado t <- a_next; ado t <- a_next;
    ado v <- rec (BAny t); ado q <- a_type v; ado u <- a_expect 93; ado p <- a_new (HMeta q); a_ret (AT p)
  else ado p <- a_new (HMeta any); a_ret (AT p).
(* string, parser.go:547-556, with StringType, string.go:338-361 *)
Definition a_string : AM aval :=
  ado t <- a_peek;
  if is_tok 91 t then
    ado t <- a_next;
    ado args <- rec (BParams []);
    match args with
    | [AV (VStr s)] => ado p <- a_new (HNode (NLeaf (TExact 0%nat (VStr s)))); a_ret (AT p)
    | _ =>
        ado b <- a_option (size_of_args args);
        ado p <- a_new (HNode (NLeaf (match args with [] => TString | _ => sized_string_type (fst b) (snd b) end)));
        a_ret (AT p)
    end
  else ado p <- a_new (HNode (NLeaf TString)); a_ret (AT p).
(* sensitive, parser.go:558-571, with SensitiveType, sensitive.go:23-34 *)
Definition a_sensitive : AM aval :=
  ado t <- a_peek;
  if is_tok 91 t then
    ado t <- a_next;
    ado args <- rec (BParams []);
    match args with
    | [] => ado p <- a_new (HNode (NSens any)); a_ret (AT p)
    | [AT q] => ado p <- a_new (HNode (NSens q)); a_ret (AT p)
    | _ => a_panic
    end
  else if negb (is_expression_end (t_type t)) then a_skip
  else ado p <- a_new (HNode (NSens any)); a_ret (AT p).

(* aliasReference, parser.go:716-728 *)
Definition a_reference (t : token) : AM aval :=
  if is_tok t_identifier t then
    if named (t_value t) then a_skip
    else fun l s =>
      match get_type (ps_names s) (t_value t) with
      | Some p => AOk (AT p) l s
      | None => (ado p <- a_new (HAlias (t_value t)); a_ret (AT p)) l s
      end
  else a_panic.
(* identifierToTypeMap, parser.go:597-607, and the words of identifier (615-625) *)
Definition reserved (s : list Z) : bool :=
  existsb (bytes_eqb s) (map lit ["any"; "bool"; "int"; "float"; "dgo"; "binary"; "true"; "false"; "nil"; "map"; "type"; "string"; "sensitive"; "func"]%string).
Definition a_value (v : pval) : AM aval :=
  match v with PV v => a_ret (AV v) | PT t => ado p <- a_new (HNode (NLeaf t)); a_ret (AT p) | PE _ _ _ => a_skip end.
(* identifier, parser.go:609-632, with namedType (634-644) *)
Definition a_identifier (t : token) : AM aval :=
  match identifier_value (t_value t) with
  | Some v => a_value v
  | None =>
      if bytes_eqb (t_value t) (lit "map") then a_map_expression
      else if bytes_eqb (t_value t) (lit "type") then a_meta
      else if bytes_eqb (t_value t) (lit "string") then a_string
      else if bytes_eqb (t_value t) (lit "sensitive") then a_sensitive
      else if bytes_eqb (t_value t) (lit "func") then a_skip
      else a_reference t
  end.
(* aliasDeclaration, parser.go:730-745. For reserved words identifier reads on, but a panic follows in any case. *)
Definition a_declaration (t : token) : AM aval :=
  let n := t_value t in
  fun l s =>
  if reserved n || named n || match get_type (ps_names s) n with Some _ => true | None => false end then APanic
  else
    (ado u <- a_next;
     ado a <- a_new (HAlias n);
     ado u <- a_add n a;
     ado t <- a_next;
     ado v <- rec (BAny t);
     ado p <- a_type v;
     ado u <- a_add n p;
     a_ret (AT p)) l s.

(* array, parser.go:708-714 *)
Definition a_array_expression : AM aval :=
  ado args <- rec (BParams []);
  ado t <- a_next;
  ado v <- rec (BType t);
  ado e <- a_type v;
  ado b <- a_option (size_of_args args);
  ado p <- a_array e (fst b) (snd b);
  a_ret (AT p).

(* typeExpression, parser.go:747-789; patterns are left out. float (646-665), integer (667-689) and dotRange (691-706) are those of
   Syntax.v *)
Definition a_type_expression (t : token) : AM aval :=
  if is_tok 123 t then rec (BList 125 [] false 1)
  else if is_tok 40 t then ado t <- a_next; ado v <- rec (BAny t); ado u <- a_expect 41; a_ret v
  else if is_tok 91 t then a_array_expression
  else if is_tok 60 t then ado t <- a_next; ado v <- a_reference t; ado u <- a_expect 62; a_ret v
  else if is_tok t_integer t then ado v <- a_lift (p_integer E t); a_value v
  else if is_tok t_float t then ado v <- a_lift (p_float E t); a_value v
  else if is_tok t_dotdot t || is_tok t_dotdotdot t then ado v <- a_lift (p_dots E t); a_value v
  else if is_tok t_identifier t then ado n <- a_peek; if is_tok 61 n then a_declaration t else a_identifier t
  else if is_tok t_string t then a_ret (AV (VStr (t_value t)))
  else if is_tok t_regexp t then a_skip
  else a_panic.

(* arrayElement, parser.go:388-429 *)
Definition a_elem (t : token) (expect : Z) : AM (option aval * Z) :=
  ado n <- a_peek;
  let key_given := (is_tok t_identifier t && is_tok 58 n) || is_tok 63 n in
  if key_given && (expect =? 0) then a_panic
  else
    ado key <- (if key_given then a_ret (AV (VStr (t_value t))) else rec (BAny t));
    ado n <- a_peek;
    let optional := is_tok 63 n in
    ado u <- (if optional then a_next else a_ret n);
    ado n <- a_peek;
    if is_tok 58 n then
      if expect =? 0 then a_panic
      else ado n <- a_next; ado t <- a_next; ado v <- rec (BAny t); a_ret (Some (AE key v optional), 2)
    else if expect =? 2 then a_panic
    else a_ret (if key_given then None else Some key, 0).

(* the loop of list, parser.go:270-298, from the element on that starts with t *)
Definition a_list_from (stop : Z) (vs : list aval) (ellipsis : bool) (expect : Z) (t : token) : AM aval :=
  if is_tok stop t then a_finish_list vs ellipsis expect
  else
    ado r <- rec (BElem t expect);
    let vs := vs ++ match fst r with Some v => [v] | None => [] end in
    ado t <- a_next;
    if is_tok stop t then a_finish_list vs ellipsis (snd r)
    else if is_tok 44 t then rec (BList stop vs ellipsis (snd r))
    else a_panic.
(* list, parser.go:263-319 *)
Definition a_list (stop : Z) (vs : list aval) (ellipsis : bool) (expect : Z) : AM aval :=
  ado t <- a_next;
  if is_tok t_dotdotdot t then
    ado t <- a_next;
    if is_tok stop t && negb (expect =? 0) then a_finish_list vs true expect
    else if expect =? 2 then a_panic
    else
      ado v <- rec (BAny t);
      ado e <- a_type v;
      ado t <- a_next;
      ado p <- a_array e 0 max_int64;
      a_list_from stop (vs ++ [AT p]) true 0 t
  else a_list_from stop vs ellipsis expect t.
(* params, parser.go:366-386 *)
Definition a_params (vs : list aval) : AM (list aval) :=
  ado t <- a_next;
  if is_tok 93 t then a_ret vs
  else
    ado r <- rec (BElem t 0);
    let vs := vs ++ match fst r with Some v => [v] | None => [] end in
    ado t <- a_next;
    if is_tok 93 t then a_ret vs
    else if is_tok 44 t then rec (BParams vs)
    else a_panic.

Definition a_call (c : acall) : AM (aret c) :=
  match c with
  | BAny t => a_any t
  | BOr vs => a_or vs
  | BOne t => a_one t
  | BXor vs => a_xor vs
  | BAll t => a_all t
  | BAnd vs => a_and vs
  | BUnary t => a_unary t
  | BType t => a_type_expression t
  | BList stop vs ellipsis expect => a_list stop vs ellipsis expect
  | BParams vs => a_params vs
  | BElem t expect => a_elem t expect
  end.
End Rec.

(* the calls; [n] bounds their depth *)
Fixpoint a_run (n : nat) (c : acall) : AM (aret c) :=
  match n with O => fun _ _ => AStuck | S n => a_call (a_run n) c end.

(* Parse (parser.go:255-261) *)
Definition a_parse (n : nat) : AM nat :=
  ado t <- a_next; ado v <- a_run n (BAny t); ado t <- a_next; if is_tok t_end t then a_type v else a_panic.
(* The rest of DoParse (parser.go:147-177) and AddAliases (alias.go:50-58) with update (158-180): the result and the types with new names are
   resolved, one after the other. The new names and the types they stand for are returned with the type that was read. *)
Inductive dres := DOk (p : nat) (names : list (list Z * nat)) (h : heap) | DPanic | DStuck | DSkip.
Definition declare (n m : nat) (l : lexed) (h : heap) : dres :=
  match a_parse n l {| ps_heap := h; ps_names := [] |} with
  | AOk p _ s =>
      match update any (get_type (ps_names s)) m (p :: map snd (ps_names s)) (ps_heap s) [] with
      | HOk (p' :: ps) h' _ => DOk p' (combine (map fst (ps_names s)) ps) h'
      | HOk [] _ _ => DStuck
      | HPanic _ => DPanic
      | HStuck => DStuck
      end
  | APanic => DPanic
  | AStuck => DStuck
  | ASkip => DSkip
  end.
(* tf.ParseType (tf/type.go:21-23), with bounds *)
Definition declare_text (n m : nat) (s : list Z) (h : heap) : dres := declare n m (tokens s) h.
End Declare.
Arguments AOk {A}. Arguments APanic {A}. Arguments AStuck {A}. Arguments ASkip {A}.
Notation "'ado' x '<-' m ; f" := (a_bind m (fun x => f)) (at level 200, x name, m at level 100, f at level 200).
