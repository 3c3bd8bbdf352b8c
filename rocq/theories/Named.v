(* Named types, /repo/internal/named.go and exact.go: Assignable, Instance, Equals, HashCode, Generic and New of the types named, parameterized
   and exactNamed, and of the alternatives on the right hand side of Assignable.

   What applications give to NewNamedType is part of the world: the functions, the Go types, and the methods of the objects that implement dgo.Value.
   The parameters of a parameterized type are values of Data.v, and never nil. None is a panic. *)
From Coq Require Import ZArith List Bool.
From Verif Require Import Int64 Data Types.
Import ListNotations.
Open Scope Z_scope.

(* an object of an application: its Go type and what is in it *)
Record obj := { o_go : Z; o_content : value }.
Inductive nval := Plain (v : value) | Object (o : obj).

(* named (named.go:13-20) is found at an address; parameterized and exactNamed (named.go:22-31) are objects with an address as well. Alternatives are
   anyOfType, oneOfType and allOfType (ternary.go). NOther is a type without alternatives at its top and without named types. *)
Inductive nty :=
| NNamed (d : nat)
| NParam (p : nat) (t : nty) (ps : list value)
| NExact (p : nat) (t : nty) (x : nval)
| NAnyOf (p : nat) (ts : list nty)
| NOneOf (p : nat) (ts : list nty)
| NAllOf (p : nat) (ts : list nty)
| NOther (t : ty).

(* named.go:13-20; the Go types are None if they are nil *)
Record ndef := {
  nd_name : list Z;
  nd_ctor : option (nval -> option nval);
  nd_extract : option (nval -> option nval);
  nd_impl : option Z;
  nd_ifd : option Z;
  nd_check : option (nty -> nty -> option bool)
}.
Record nworld := {
  w_defs : nat -> option ndef;        (* the objects *named *)
  w_go : Z -> Z -> bool;              (* AssignableTo of package reflect *)
  w_obj_type : obj -> nty;            (* the method Type of an object *)
  w_obj_eq : obj -> nval -> bool;     (* the method Equals of an object *)
  w_obj_hash : obj -> Z;              (* the method HashCode of an object *)
  w_inst : ty -> value -> bool        (* Instance of types without named types (Types.v) *)
}.

Section World.
Variable W : nworld.

(* Type() *)
Definition ntype_of (x : nval) : nty := match x with Plain v => NOther (type_of 0%nat v) | Object o => w_obj_type W o end.
(* Equals of a value; no value of Data.v is Equal to an object *)
Definition nveq (x y : nval) : bool :=
  match x with Object o => w_obj_eq W o y | Plain v => match y with Plain w => veq v w | Object _ => false end end.
Definition nvhash (x : nval) : Z := match x with Plain v => vhash v | Object o => w_obj_hash W o end.

(* the assertion other.(dgo.NamedType) *)
Definition is_named (t : nty) : bool := match t with NNamed _ | NParam _ _ _ | NExact _ _ _ => true | _ => false end.
(* The object *named that a named type embeds: named.go:22-31. The methods Name, AssignableType and ExtractInitArg are its methods. *)
Fixpoint def_of (t : nty) : option ndef :=
  match t with NNamed d => w_defs W d | NParam _ t _ | NExact _ t _ => def_of t | _ => None end.
(* ReflectType, named.go:163-165, 244-246; parameterized has that of the named type *)
Definition reflect_n (t : nty) : option Z := match def_of t with Some d => nd_impl d | None => None end.
(* AssignableType, named.go:114-119 *)
Definition assignable_type (d : ndef) : option Z := match nd_ifd d with Some g => Some g | None => nd_impl d end.

(* defaultAsgChecker, named.go:36-41. AssignableTo of a nil reflect.Type panics, and so does AssignableTo(nil). *)
Definition default_checker (d : ndef) (other : nty) : option bool :=
  if is_named other then
    match reflect_n other, assignable_type d with Some g, Some h => Some (w_go W g h) | _, _ => None end
  else Some false.
(* the first operand of named.Assignable and parameterized.Assignable, named.go:121-127, 193-199 *)
Definition checked (d : ndef) (t other : nty) : option bool :=
  match nd_check d with Some f => f t other | None => default_checker d other end.
(* the interfaces contain the same pointer *)
Definition same_object (a b : nty) : bool :=
  match a, b with
  | NNamed d, NNamed d' => Nat.eqb d d'
  | NParam p _ _, NParam p' _ _ | NExact p _ _, NExact p' _ _ => Nat.eqb p p'
  | _, _ => false
  end.
(* Equals of named types: named.go:133-138, 201-206, exact.go:19-24. No other type has the identifiers TiNamed and TiNamedExact. *)
Fixpoint neq (a b : nty) : option bool :=
  match a, b with
  | NNamed d, NNamed d' =>
      match w_defs W d, w_defs W d' with Some x, Some y => Some (bytes_eqb (nd_name x) (nd_name y)) | _, _ => None end
  | NParam _ t ps, NParam _ t' ps' => match neq t t' with Some true => Some (veq (VArr ps) (VArr ps')) | r => r end
  | NExact _ _ x, NExact _ _ y => Some (nveq x y)
  | _, _ => Some false
  end.
(* HashCode: named.go:140-142, 212-214, exact.go:26-28 *)
Fixpoint nhash (t : nty) : option Z :=
  match t with
  | NNamed d => match w_defs W d with Some x => Some (w64 (string_hash (nd_name x) * 7 + 18)) | None => None end
  | NParam _ t ps => match nhash t with Some h => Some (w64 (h * 31 + vhash (VArr ps))) | None => None end
  | NExact _ _ x => Some (w64 (nvhash x * 7 + 40))
  | _ => None
  end.

(* a || b with panics *)
Definition oor (a b : option bool) : option bool := match a with Some false => b | r => r end.
(* what comes before CheckAssignableTo: named.go:121-127, 193-199, exact.go:15-17. parameterized asserts that it embeds a *named. *)
Definition accepts_at (t other : nty) : option bool :=
  match t with
  | NNamed d => match w_defs W d with Some x => checked x t other | None => None end
  | NParam _ (NNamed d) _ => match w_defs W d with Some x => checked x t other | None => None end
  | NExact _ _ _ => neq t other
  | _ => None
  end.
(* the loops of AssignableTo: ternary.go:66-74, 285-293, 403-411 *)
Section All.
Variable f : nty -> option bool.
Fixpoint accepts_all (ts : list nty) : option bool :=
  match ts with [] => Some true | t :: r => match f t with Some true => accepts_all r | x => x end end.
End All.
(* Assignable of a named type t, named.go:121-127, 193-199, exact.go:15-17 with CheckAssignableTo (type.go:15-23), AssignableTo of the alternatives
   and Assignable (compare.go:52-74): t is no DeepAssignable *)
Fixpoint assignable_n (t other : nty) {struct other} : option bool :=
  let each := fun o => if same_object t o then Some true else assignable_n t o in
  oor (accepts_at t other)
    match other with
    | NAnyOf _ ts | NOneOf _ ts => match accepts_all each ts with Some true => Some (match ts with [] => false | _ => true end) | r => r end
    | NAllOf _ ts => accepts_all each ts
    | _ => Some false
    end.

(* Instance: named.go:151-153, 216-218, exact.go:30-32. For a type without named types a value of Data.v, else an object is an instance of any only. *)
Definition instance_n (t : nty) (x : nval) : option bool :=
  match t with
  | NNamed _ | NParam _ _ _ => assignable_n t (ntype_of x)
  | NExact _ _ y => Some (nveq y x)
  | NOther t => match x with Plain v => Some (w_inst W t v) | Object _ => Some (match t with TAny => true | _ => false end) end
  | _ => None
  end.

(* Generic, type.go:78-83 with named.go:208-210, 236-238 *)
Definition generic_n (t : nty) : nty := match t with NParam _ t _ | NExact _ t _ => t | _ => t end.
(* newNamed, named.go:256-266, and New 129-131, 220-222, 240-242. The generic type must be a *named. *)
Definition new_n (t : nty) (arg : nval) : option nval :=
  match generic_n t with
  | NNamed d =>
      match w_defs W d with
      | Some x =>
          match nd_ctor x with
          | None => None
          | Some c =>
              match c arg with
              | None => None
              | Some v =>
                  match nd_check x with
                  | None => Some v
                  | Some f => match f t (ntype_of v) with Some true => Some v | _ => None end
                  end
              end
          end
      | None => None
      end
  | _ => None
  end.

End World.
