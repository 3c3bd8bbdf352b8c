(* Which function types are written so that the parser reads them back, stated on the types. *)
From Coq Require Import ZArith List Bool.
From Verif Require Import Int64 Data Types Construct Syntax SyntaxSpec Func.
Import ListNotations.
Open Scope Z_scope.

Section Spec.
Variable E : env.

(* A list in parentheses: every type is readable, none but the last of a variadic list starts with dots, and a list of only
   exact types does not contain the type of nil. *)
Definition readable_list (ts : list ty) (variadic : bool) : Prop :=
  Forall (readable E) ts /\ (variadic = true -> ts <> []) /\
  forallb (fun t => negb (starts_open t)) (if variadic then removelast ts else ts) = true /\
  (variadic = false -> forallb is_exact ts = true -> ~ In TNil ts).

(* written with a parenthesis at the start: an operator whose first operand has an operator too *)
Definition operator (t : ty) : bool := match t with TAllOf _ _ | TAnyOf _ _ | TOneOf _ _ => true | _ => false end.
Definition starts_paren (t : ty) : bool :=
  match t with TAllOf _ (x :: _) | TAnyOf _ (x :: _) | TOneOf _ (x :: _) => operator x | _ => false end.

(* The results are a list of the kind, any number of values of any type, or one type. *)
Definition readable_func (f : fty) : Prop :=
  readable_list (f_args f) (f_variadic f) /\
  match f_rets f with
  | [] => f_rets_variadic f = false
  | [t] => if f_rets_variadic f then t = TAny else readable E t /\ t <> TNil /\ starts_paren t = false
  | ts => f_rets_variadic f = false /\ readable_list ts false
  end.
End Spec.

(* the function type that is read: new objects, SyntaxSpec.renewed *)
Definition renewed_func (f : fty) : fty := FTy (map renewed (f_args f)) (f_variadic f) (map renewed (f_rets f)) (f_rets_variadic f).

(* the same number of arguments and results, each equal, and variadic alike *)
Definition same_func (f g : fty) : Prop :=
  Forall2 (fun a b => type_eq a b = true) (f_args f) (f_args g) /\ f_variadic f = f_variadic g /\
  Forall2 (fun a b => type_eq a b = true) (f_rets f) (f_rets g) /\ f_rets_variadic f = f_rets_variadic g.
