(* Go functions as dgo values: exactFunctionType and goFunc, /repo/internal/function.go:11-354.

   The Go types and values are those of Reflect.v. *)
From Coq Require Import ZArith List Bool.
From Coq Require Import Floats.SpecFloat.
From Verif Require Import Int64 Data Types Construct Convert Reflect TypeReflect Func.
Import ListNotations.
Open Scope Z_scope.

(* A Go func: the address of its code, its type, and what it does with the values of its parameters (Panic: it panics). The last parameter of a
   variadic function is a slice (Go language). Functions made of the same func literal have the same address (reflect.Value.Pointer). *)
Record go_func := { gf_code : Z; gf_in : list gty; gf_variadic : bool; gf_out : list gty; gf_run : list gval -> res (list gval) }.

(* Type.Elem (package reflect) of the type of the last parameter *)
Definition elem_of (g : gty) : gty := match g with RSlice e => e | g => g end.

(* exactFunctionTuple.Element, function.go:44-53, and typeSlice, 119-131 *)
Fixpoint param_types (ts : list gty) (variadic : bool) : list ty :=
  match ts with
  | [] => []
  | [t] => [type_from (if variadic then elem_of t else t)]
  | t :: r => type_from t :: param_types r variadic
  end.
(* In, function.go:155-158, and Out, 171-174, as tuple types *)
Definition in_type (f : go_func) : ty := TTuple 0%nat (param_types (gf_in f) (gf_variadic f)) (gf_variadic f).
Definition out_type (f : go_func) : ty := TTuple 0%nat (map type_from (gf_out f)) false.

(* ---------- Call ---------- *)

(* re.Interface().(dgo.Value), function.go:308 *)
Definition is_dgo (t : gty) (x : gval) : bool :=
  match t, x with
  | (RValue | RSens), XDgo _ => true
  | RAny, XAny (RValue | RSens) (XDgo _) => true
  | _, _ => false
  end.

Section Call.
(* sort.Slice on the entries of a Go map, see Reflect.v *)
Variable arrange : list (value * value) -> list (value * value).

(* convertReturn, function.go:302-316; None is the Go nil *)
Definition convert_return (outs : list gty) (rs : list gval) : res (list (option value)) :=
  rlist (map (fun p => rbind (from_go arrange (fst p) (snd p)) (fun v =>
    Done (match v with VNil => if is_dgo (fst p) (snd p) then Some v else None | _ => Some v end))) (combine outs rs)).

(* rr[i] = reflect.New(t.In(i)).Elem(); ReflectTo(args.Get(i), rr[i]): function.go:327-330, 349-352 *)
Definition reflect_args (ts : list gty) (args : list value) : res (list gval) :=
  rlist (map (fun p => to_go (snd p) (fst p)) (combine ts args)).

(* Call, function.go:301-354 *)
Definition call (f : go_func) (args : list value) : res (list (option value)) :=
  let mx := length args in
  if gf_variadic f then
    let nv := (length (gf_in f) - 1)%nat in
    if (mx <? nv)%nat then Panic
    else
      rbind (reflect_args (firstn nv (gf_in f)) args) (fun xs =>
      let vt := elem_of (nth nv (gf_in f) RAny) in
      rbind (rlist (map (fun a => to_go a vt) (skipn nv args))) (fun ys =>
      rbind (gf_run f (xs ++ [XSlice ys])) (convert_return (gf_out f))))
  else if negb (mx =? length (gf_in f))%nat then Panic
  else rbind (reflect_args (gf_in f) args) (fun xs => rbind (gf_run f xs) (convert_return (gf_out f))).
End Call.

(* ---------- Equals and HashCode ---------- *)

(* goFunc.Equals, function.go:283-291, and HashCode, 297-299 *)
Definition func_eq (f g : go_func) : bool := gf_code f =? gf_code g.
Definition func_hash (f : go_func) : Z := gf_code f.

(* A dgo.FunctionType: a functionType (function.go:12-16) or the exactFunctionType (18-21) of Go functions with this type *)
Inductive ftype := FDynamic (f : fty) | FExact (ins : list gty) (variadic : bool) (outs : list gty).
(* In and Out: function.go:155-158, 171-174, 246-248, 258-260 *)
Definition ft_in (t : ftype) : ty :=
  match t with FDynamic f => TTuple 0%nat (f_args f) (f_variadic f) | FExact ins b _ => TTuple 0%nat (param_types ins b) b end.
Definition ft_out (t : ftype) : ty :=
  match t with FDynamic f => TTuple 0%nat (f_rets f) (f_rets_variadic f) | FExact _ _ outs => TTuple 0%nat (map type_from outs) false end.
(* exactFunctionType.Equals, function.go:141-146; functionType.Equals with deepEqual, 224-233: an exactFunctionType is no deepEqual, so equals (compare.go:126-130) says no *)
Definition ft_eq (a b : ftype) : bool :=
  match a, b with
  | FDynamic _, FExact _ _ _ => false
  | _, _ => type_eq (ft_in a) (ft_in b) && type_eq (ft_out a) (ft_out b)
  end.
(* HashCode, function.go:148-153, 235-244; TiFunction is 13 *)
Definition ft_hash (t : ftype) : Z := w64 (w64 (13 * 31 + thash (ft_in t)) * 31 + thash (ft_out t)).
