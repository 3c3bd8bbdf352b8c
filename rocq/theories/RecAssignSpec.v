(* When a type that may refer to itself is assignable from another one. *)
From Coq Require Import ZArith List Bool Relations.
From Verif Require Import Int64 HMap Data DataSpec Types TypesSpec Graph RecTypes RecTypesSpec.
Import ListNotations.
Open Scope Z_scope.

Section Rules.
Variable T : tgraph.
(* which of the types without types in them are assignable from each other: the subject of C24 *)
Variable leafs : ty -> ty -> Prop.
(* DefaultAnyType *)
Variable any : nat.

Definition at_node (p : nat) (nd : rnode) : Prop := nth_error T p = Some nd.

(* the types at position i of a tuple type *)
Definition position (ts : list nat) (variadic : bool) (i : nat) (t : nat) : Prop :=
  if variadic then exists us u, ts = us ++ [u] /\ (nth_error us i = Some t \/ ((length us <= i)%nat /\ t = u))
  else nth_error ts i = Some t.
Definition fixed (ts : list nat) (variadic : bool) : nat := if variadic then Nat.pred (length ts) else length ts.

(* One step: a is assignable from b if the parts are, as told by Rel *)
Inductive rule (Rel : nat -> nat -> Prop) (a b : nat) : Prop :=
| by_identity nd : a = b -> at_node a nd -> rule Rel a b
| by_leafs t u : at_node a (NLeaf t) -> at_node b (NLeaf u) -> t = u \/ leafs t u -> rule Rel a b
| by_any nd : at_node a (NLeaf TAny) -> at_node b nd -> rule Rel a b
| by_array e min max : at_node a (NLeaf TArray) -> at_node b (NArr e min max) -> rule Rel a b
| by_tuple os w : at_node a (NLeaf TArray) -> at_node b (NTuple os w) -> rule Rel a b
| by_map k v min max : at_node a (NLeaf TMap) -> at_node b (NMap k v min max) -> rule Rel a b
| by_wrapped t o : at_node a (NSens t) -> at_node b (NSens o) -> Rel t o -> rule Rel a b
| by_elements e min max o omin omax :
    at_node a (NArr e min max) -> at_node b (NArr o omin omax) -> min <= omin -> omax <= max -> Rel e o -> rule Rel a b
| by_entries k v min max ok ov omin omax :
    at_node a (NMap k v min max) -> at_node b (NMap ok ov omin omax) -> min <= omin -> omax <= max -> Rel k ok -> Rel v ov -> rule Rel a b
| by_any_entries k v min max :
    at_node a (NMap k v min max) -> at_node b (NLeaf TMap) -> min <= 0 -> max_int64 <= max -> Rel k any -> Rel v any -> rule Rel a b
(* both tuples have at least and at most as many elements; at the positions that one of them names, the types must be assignable *)
| by_positions ts v os w :
    at_node a (NTuple ts v) -> at_node b (NTuple os w) -> (fixed ts v <= fixed os w)%nat -> (v = false -> w = false /\ length os = length ts) ->
    (forall i, (i < fixed os w)%nat -> exists t o, position ts v i t /\ position os w i o /\ Rel t o) -> rule Rel a b
| by_all_positions ts v e min max :
    at_node a (NTuple ts v) -> at_node b (NArr e min max) -> Z.of_nat (fixed ts v) <= min -> (v = false -> max <= Z.of_nat (length ts)) -> max <= max_int64 ->
    Forall (fun t => Rel t e) ts -> rule Rel a b
(* a required key is required in b, no key of a is left to the additional entries of b, b has no other keys *)
| by_keys ad es oad os :
    at_node a (NStruct ad es) -> at_node b (NStruct oad os) ->
    Forall (fun e : value * nat * bool =>
      (exists o, In o os /\ veq (fst (fst e)) (fst (fst o)) = true /\ (snd e = true -> snd o = true) /\ Rel (snd (fst e)) (snd (fst o))) \/
      ((forall o, In o os -> veq (fst (fst e)) (fst (fst o)) = false) /\ snd e = false /\ oad = false)) es ->
    ad = true \/ (forall o, In o os -> exists e, In e es /\ veq (fst (fst e)) (fst (fst o)) = true) -> rule Rel a b
| by_choice ts t nd : at_node a (NAny ts) -> at_node b nd -> In t ts -> Rel t b -> rule Rel a b
| by_choices nd os : at_node a nd -> nd <> NLeaf TFloat -> nd <> NAny [] -> at_node b (NAny os) -> os <> [] -> Forall (Rel a) os -> rule Rel a b
| by_nothing os : at_node a (NAny []) -> at_node b (NAny os) -> rule Rel a b.

(* a relation that needs no more than itself to be justified: types that refer to themselves may use it in circles *)
Definition justified (Rel : nat -> nat -> Prop) : Prop := forall a b, Rel a b -> rule Rel a b.
(* a relation that holds whenever the rules give it *)
Definition closed (Rel : nat -> nat -> Prop) : Prop := forall a b, rule Rel a b -> Rel a b.
(* a is assignable from b in finitely many steps *)
Definition derived (a b : nat) : Prop := forall Rel, closed Rel -> Rel a b.

(* ---------- conditions ---------- *)

(* the types that are modelled: no allOf, oneOf and not; not both sized arrays and tuples, not both sized maps and structs *)
Definition assign_types : Prop :=
  (forall p nd, at_node p nd -> match nd with NAll _ | NOne _ | NNot _ => False | _ => True end) /\
  (forall p q e lo hi ts v, at_node p (NArr e lo hi) -> at_node q (NTuple ts v) -> False) /\
  (forall p q k v lo hi ad es, at_node p (NMap k v lo hi) -> at_node q (NStruct ad es) -> False).
(* the lengths of tuple types are ints *)
Definition tuples_fit : Prop := forall p ts v, at_node p (NTuple ts v) -> Z.of_nat (length ts) < max_int64.
(* no type refers to itself through the elements of an array *)
Definition no_array_loop : Prop :=
  exists rank : nat -> nat, forall p nd q, at_node p nd -> In q (refers nd) ->
    (rank q <= rank p)%nat /\ match nd with NArr _ _ _ => (rank q < rank p)%nat | _ => True end.
(* alternatives are types without types in them *)
Definition flat_choices : Prop :=
  forall p ts q, at_node p (NAny ts) -> In q ts -> exists t, at_node q (NLeaf t).
(* q is a type that p refers to *)
Definition uses (p q : nat) : Prop := exists nd, at_node p nd /\ In q (refers nd).
Definition below : nat -> nat -> Prop := clos_trans nat uses.
(* p does not lead to a type that refers to itself *)
Inductive ends : nat -> Prop := is_end p : (forall q, uses p q -> ends q) -> ends p.
(* no tuple is variadic, structs have no additional entries, a choice has alternatives *)
Definition closed_types : Prop :=
  forall p nd, at_node p nd -> match nd with NTuple _ v => v = false | NStruct ad _ => ad = false | NAny ts => ts <> [] | _ => True end.
(* the types without types in them are such that their Assignable is sound (C24) *)
Definition leafs_ok (L : allowed) : Prop := forall p t, at_node p (NLeaf t) -> target_ok L t /\ source_ok L t.
End Rules.

(* lengths of maps are ints *)
Definition leaf_fits (x : gval) : Prop := match x with GLeaf v => fits v | GRef _ => True end.
Definition values_fit (G : graph) : Prop :=
  forall p m, nth_error G p = Some (GMap m) -> Z.of_nat (length m) <= max_int64.
(* the values in D are proper, and D has what they contain *)
Definition domain (G : graph) (D : gval -> Prop) : Prop :=
  (forall x, D x -> val_ok G x /\ leaf_fits x) /\ (forall x y, D x -> part G x y -> D y).
