(* Function types as text: the stringer (/repo/stringer/typestring.go) and the parser (/repo/parser/parser.go). *)
From Coq Require Import Strings.Ascii Strings.String.
From Coq Require Import ZArith List Bool.
From Verif Require Import Int64 Data Types Construct Print Lexer Syntax Accessors Func.
Import ListNotations.
Open Scope Z_scope.

Section FuncText.
Variable E : env.

(* writeTupleArgs, typestring.go:369-388, with parentheses. A variadic tuple has an element (array.go:365-371). *)
Definition args_text (variadic : bool) (l : list (list Z)) : list Z :=
  lit "(" ++ (if variadic then variadic_text l else join (lit ",") l) ++ lit ")".
(* function, typestring.go:226-239, for argument and result types that are no function types *)
Definition func_text (prio : Z) (f : fty) : list Z :=
  lit "func" ++ args_text (f_variadic f) (map (type_text E 0) (f_args f)) ++
  match f_rets f with
  | [] => []
  | [t] => lit " " ++ if f_rets_variadic f then args_text true [type_text E 0 t] else type_text E prio t
  | ts => lit " " ++ args_text (f_rets_variadic f) (map (type_text E 0) ts)
  end.
(* String() of a function type, function.go:267-269, typestring.go:33-42 *)
Definition func_string (f : fty) : list Z := func_text 0 f.

(* PopLastType().(dgo.TupleType), parser.go:579, 587: the element types and Variadic() of a tuple type or the exact type of an
   array, Accessors.tuple_parts *)
Definition pop_tuple (m : pres pval) : pres (list ty * bool) :=
  pdo t, l <- p_type_of m;
  panic_none (tuple_parts 0%nat t) l.

(* funcExpression, parser.go:573-595 *)
Definition p_func (n : nat) (l : lexed) : pres fty :=
  pdo u, l <- p_expect 40 l;
  pdo args, l <- pop_tuple (run E n (CList 41 [] false 0) l);
  pdo t, l <- p_peek l;
  pdo rets, l <-
    (if is_tok 40 t then pdo t, l <- p_next l; pop_tuple (run E n (CList 41 [] false 0) l)
     else if is_expression_end (t_type t) then POk ([], false) l
     else
       pdo t, l <- p_next l;
       pdo t, l <- p_type_of (run E n (CAny t) l);
       pdo tt, l <- panic_none (tuple_type 0%nat [t]) l;
       panic_none (tuple_parts 0%nat tt) l);
  panic_none (new_function (fst args) (snd args) (fst rets) (snd rets)) l.

(* Parse (parser.go:255-261, 609-632) of a text whose first word is func and that is a function type as a whole. Other texts, and
   those where an operator or an equals sign follows, are skipped. *)
Definition parse_func_tokens (n : nat) (l : lexed) : pres fty :=
  pdo t, l <- p_next l;
  if is_tok t_identifier t && bytes_eqb (t_value t) (lit "func") then
    pdo k, l <- p_peek l;
    if is_tok 61 k then PSkip
    else
      pdo f, l <- p_func n l;
      pdo t, l <- p_next l;
      if is_tok t_end t then POk f l
      else if is_tok 38 t || is_tok 94 t || is_tok 124 t then PSkip
      else PPanic
  else PSkip.
(* tf.ParseType, tf/type.go:21-23, of such a text *)
Definition parse_func (s : list Z) : pres fty := parse_func_tokens (parse_fuel s) (tokens s).

(* The text of a type where a function type stands beside others: anyOf, typestring.go:44-46, 390-398 with orPrio, and allOf. *)
Inductive xty := XTy (t : ty) | XFn (f : fty).
Definition x_text (prio : Z) (x : xty) : list Z := match x with XTy t => type_text E prio t | XFn f => func_text prio f end.
Definition any_of_text (l : list xty) : list Z := join (lit "|") (map (x_text 1) l).
Definition all_of_text (l : list xty) : list Z := join (lit "&") (map (x_text 3) l).
End FuncText.
