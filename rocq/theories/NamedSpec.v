(* What named types mean, stated on the Go types of objects. *)
From Coq Require Import ZArith List Bool.
From Verif Require Import Int64 Data DataSpec Types Named.
Import ListNotations.
Open Scope Z_scope.

(* one of the propositions holds and the others do not *)
Fixpoint exactly_one (l : list Prop) : Prop :=
  match l with [] => False | p :: r => p /\ ~ fold_right or False r \/ ~ p /\ exactly_one r end.

Section World.
Variable W : nworld.

(* a type of the form T or T[...], and its definition *)
Definition defined (t : nty) (d : ndef) : Prop :=
  match t with NNamed a | NParam _ (NNamed a) _ => w_defs W a = Some d | _ => False end.
(* The type of the object is the exact type of the object, made of a type T or T[...] that was defined with the Go type of the object. *)
Definition honest (o : obj) : Prop :=
  exists p t d, w_obj_type W o = NExact p t (Object o) /\ defined t d /\ nd_impl d = Some (o_go o).
(* the interface of the definition, or its Go type if there is none *)
Definition variable_type (d : ndef) (h : Z) : Prop := nd_ifd d = Some h \/ nd_ifd d = None /\ nd_impl d = Some h.

(* x belongs to the type: its Go type can be assigned to the interface or the Go type of the definition; if there is a checker, it accepts the type of x *)
Fixpoint has_n (t : nty) (x : nval) : Prop :=
  match t with
  | NNamed _ | NParam _ _ _ =>
      exists d, defined t d /\
      match nd_check d with
      | Some f => f t (ntype_of W x) = Some true
      | None => exists o h, x = Object o /\ variable_type d h /\ w_go W (o_go o) h = true
      end
  | NExact _ _ y => nveq W y x = true
  | NAnyOf _ ts => fold_right or False (map (fun t => has_n t x) ts)
  | NOneOf _ ts => exactly_one (map (fun t => has_n t x) ts)
  | NAllOf _ ts => fold_right and True (map (fun t => has_n t x) ts)
  | NOther t => match x with Plain v => w_inst W t v = true | Object _ => t = TAny end
  end.

(* ---------- where Assignable means what it says ---------- *)

(* The exact types are those of objects of the Go type of the definition; definitions have a Go type and no interface, and a checker accepts a type only if it
   accepts what belongs to it; allOf has operands. *)
Definition source_node_n (t : nty) : Prop :=
  match t with
  | NNamed _ | NParam _ _ _ => exists d, defined t d /\ nd_ifd d = None /\ nd_check d = None /\ nd_impl d <> None
  | NExact _ t x => exists d o, defined t d /\ x = Object o /\ nd_impl d = Some (o_go o)
  | NAllOf _ ts => ts <> []
  | _ => True
  end.
Fixpoint source_n (t : nty) : Prop :=
  source_node_n t /\ match t with NAnyOf _ ts | NOneOf _ ts | NAllOf _ ts => fold_right and True (map source_n ts) | _ => True end.
(* no checker, and a Go type or an interface *)
Definition unchecked (t : nty) : Prop := exists d h, defined t d /\ nd_check d = None /\ variable_type d h.
(* the checker accepts a type only if the type has nothing that does not belong to t *)
Definition sound_checker (t : nty) : Prop :=
  forall d f o x, defined t d -> nd_check d = Some f -> f t o = Some true -> has_n o x -> f t (ntype_of W x) = Some true.

(* Equals of the objects is an equivalence, and looks at the Go type; equal objects have the same hash code. *)
Record equality : Prop := {
  eq_refl_obj : forall o, w_obj_eq W o (Object o) = true;
  eq_sym_obj : forall o o', w_obj_eq W o (Object o') = true -> w_obj_eq W o' (Object o) = true;
  eq_trans_obj : forall o o' o'', w_obj_eq W o (Object o') = true -> w_obj_eq W o' (Object o'') = true -> w_obj_eq W o (Object o'') = true;
  eq_plain_obj : forall o v, w_obj_eq W o (Plain v) = false;
  eq_go_obj : forall o o', w_obj_eq W o (Object o') = true -> o_go o = o_go o';
  eq_hash_obj : forall o o', w_obj_eq W o (Object o') = true -> w_obj_hash W o = w_obj_hash W o'
}.
(* Go types: a value can be assigned to a variable of its type. Assignments of objects, the types of which have methods, can be composed; in Go that is not so for all types. *)
Record go_types : Prop := {
  go_refl : forall g, w_go W g g = true;
  go_trans : forall g g' h, w_go W g g' = true -> w_go W g' h = true -> w_go W g h = true
}.
(* named types as they are made by the constructors: a named type, T[...], or the exact type of a data value or an object *)
Definition nval_ok (x : nval) : Prop := match x with Plain v => data veq v | Object _ => True end.
Fixpoint named_ok (t : nty) : Prop :=
  match t with
  | NNamed a => exists d, w_defs W a = Some d
  | NParam _ t ps => named_ok t /\ data veq (VArr ps)
  | NExact _ t x => named_ok t /\ nval_ok x
  | _ => False
  end.
(* the values of the exact types, also of those in alternatives *)
Fixpoint values_ok (t : nty) : Prop :=
  match t with
  | NExact _ _ x => nval_ok x
  | NAnyOf _ ts | NOneOf _ ts | NAllOf _ ts => fold_right and True (map values_ok ts)
  | _ => True
  end.
(* allOf has operands *)
Fixpoint some_operands (t : nty) : Prop :=
  match t with
  | NAnyOf _ ts | NOneOf _ ts => fold_right and True (map some_operands ts)
  | NAllOf _ ts => ts <> [] /\ fold_right and True (map some_operands ts)
  | _ => True
  end.
End World.

(* one address is one object *)
Fixpoint one_object (t o : nty) : Prop :=
  match t, o with NParam p _ _, NParam q _ _ | NExact p _ _, NExact q _ _ => p = q -> t = o | _, _ => True end /\
  match o with NAnyOf _ ts | NOneOf _ ts | NAllOf _ ts => fold_right and True (map (one_object t) ts) | _ => True end.
