(* What belongs to a type expression with names. *)
From Coq Require Import Strings.Ascii Strings.String.
From Coq Require Import ZArith List Bool.
From Verif Require Import Int64 Utf8 Text HMap Data DataSpec Types TypesSpec Graph RecTypes RecTypesSpec Print DeclareSpec.
Import ListNotations.
Open Scope Z_scope.

Definition every {A} (R : A -> Prop) : list A -> Prop := fix go l := match l with [] => True | a :: r => R a /\ go r end.
Definition some {A} (R : A -> Prop) : list A -> Prop := fix go l := match l with [] => False | a :: r => R a \/ go r end.
Definition just_one {A} (R : A -> Prop) : list A -> Prop :=
  fix go l := match l with [] => False | a :: r => (R a /\ every (fun b => ~ R b) r) \/ (~ R a /\ go r) end.

Section Belongs.
Variable W : world.
Variable G : graph.
(* N n x: x belongs to what is called n *)
Variable N : list Z -> gval -> Prop.
(* x belongs to the type that the expression describes *)
Fixpoint belongs (e : ex) (x : gval) : Prop :=
  match e with
  | XWord w => exists t, In (w, t) words /\ leaf_holds W G t x
  | XStr cs => x = GLeaf (VStr (encode cs))
  | XInt z => x = GLeaf (VInt z)
  | XRange lo hi incl => exists z, x = GLeaf (VInt z) /\ lo <= z /\ (if incl then z <= hi else z < hi)
  | XString sz => exists s, x = GLeaf (VStr s) /\ fst (size_of sz) <= Z.of_nat (length s) <= snd (size_of sz)
  | XName n | XRef n => N n x
  | XDecl _ e => belongs e x
  | XArr sz e => exists l, elements G x l /\ fst (size_of sz) <= Z.of_nat (length l) <= snd (size_of sz) /\ Forall (belongs e) l
  | XMap sz k v =>
      exists m, entries G x m /\ fst (size_of sz) <= Z.of_nat (length m) <= snd (size_of sz) /\
      Forall (fun y => belongs k (GLeaf (fst y)) /\ belongs v (snd y)) m
  | XTuple es => exists l, elements G x l /\ pairs belongs es l
  | XStruct a fs =>
      exists m, entries G x m /\
      every (fun f => (exists y, In (VStr (fst (fst f)), y) m /\ belongs (snd f) y) \/ (snd (fst f) = false /\ forall y, ~ In (VStr (fst (fst f)), y) m)) fs /\
      (a = true \/ forall k y, In (k, y) m -> exists f, In f fs /\ k = VStr (fst (fst f)))
  | XOr es => some (fun e => belongs e x) es
  | XXor es => just_one (fun e => belongs e x) es
  | XAnd es => every (fun e => belongs e x) es
  | XNot e => ~ belongs e x
  end.
End Belongs.

(* the names that are declared, and what they stand for *)
Fixpoint declarations (e : ex) : list (list Z * ex) :=
  match e with
  | XWord _ | XStr _ | XInt _ | XRange _ _ _ | XString _ | XName _ | XRef _ => []
  | XDecl n e => (n, e) :: declarations e
  | XArr _ e | XNot e => declarations e
  | XMap _ k v => declarations k ++ declarations v
  | XTuple es | XOr es | XXor es | XAnd es => flat_map declarations es
  | XStruct _ fs => flat_map (fun f => declarations (snd f)) fs
  end.

(* not a value: not a boolean, a string, an integer, a name or the negation of a name, nor a tuple, a struct or an array of size one of only these *)
Fixpoint inexact (e : ex) : Prop :=
  match e with
  | XWord w => ~ In w [lit "true"%string; lit "false"%string]
  | XStr _ | XInt _ | XName _ | XRef _ => False
  | XDecl _ e => inexact e
  | XArr sz e => size_of sz <> (1, 1) \/ inexact e
  | XTuple es => some inexact es
  | XStruct a fs => a = true \/ some (fun f => snd (fst f) = false \/ inexact (snd f)) fs
  | XNot e => by_name e = false
  | _ => True
  end.
(* Alternatives are words, strings, integers and their ranges, strings of some sizes, and negations; what is negated is not a name; tuples,
   structs and arrays are not just values. The range of all integers without its end is left out: the end belongs to the type int. *)
Definition flat (e : ex) : Prop := match e with XWord _ | XStr _ | XInt _ | XRange _ _ _ | XString _ | XNot _ => True | _ => False end.
Fixpoint direct (e : ex) : Prop :=
  match e with
  | XWord _ | XStr _ | XInt _ | XString _ | XName _ | XRef _ => True
  | XRange lo hi incl => incl = true \/ lo <> min_int64 \/ hi <> max_int64
  | XDecl _ e => direct e
  | XArr sz e => (size_of sz <> (1, 1) \/ inexact e) /\ direct e
  | XMap _ k v => direct k /\ direct v
  | XTuple es => some inexact es /\ every direct es
  | XStruct a fs => (a = true \/ some (fun f => snd (fst f) = false \/ inexact (snd f)) fs) /\ every (fun f => direct (snd f)) fs
  | XOr es | XXor es | XAnd es => every (fun e => flat e /\ direct e) es
  | XNot e => by_name e = false /\ direct e
  end.

(* Alternatives are anything, and so is what is negated. *)
Fixpoint plain (e : ex) : Prop :=
  match e with
  | XWord _ | XStr _ | XInt _ | XString _ | XName _ | XRef _ => True
  | XRange lo hi incl => incl = true \/ lo <> min_int64 \/ hi <> max_int64
  | XDecl _ e | XNot e => plain e
  | XArr sz e => (size_of sz <> (1, 1) \/ inexact e) /\ plain e
  | XMap _ k v => plain k /\ plain v
  | XTuple es => some inexact es /\ every plain es
  | XStruct a fs => (a = true \/ some (fun f => snd (fst f) = false \/ inexact (snd f)) fs) /\ every (fun f => plain (snd f)) fs
  | XOr es | XXor es | XAnd es => every plain es
  end.
(* no name refers to itself *)
Definition no_loops (e : ex) : Prop :=
  exists rank : list Z -> nat, forall n d m, In (n, d) (declarations e) -> In m (used d) -> In m (declared e) -> (rank m < rank n)%nat.

(* a value that does not contain itself and where integers, and the sizes of strings, arrays and maps, are integers of Go *)
Inductive sized (G : graph) (x : gval) : Prop :=
| is_sized : (forall l, elements G x l -> Z.of_nat (length l) <= max_int64) -> (forall m, entries G x m -> Z.of_nat (length m) <= max_int64) ->
    match x with GLeaf (VStr s) => Z.of_nat (length s) <= max_int64 | GLeaf (VInt z) => min_int64 <= z <= max_int64 | _ => True end ->
    (forall y, part G x y -> sized G y) -> sized G x.
(* the types at the addresses in K; the others are replaced by any *)
Definition only (K : list nat) (T : tgraph) : tgraph := map (fun a => if in_dec Nat.eq_dec a K then nth a T (NLeaf TAny) else NLeaf TAny) (seq 0 (length T)).
(* K has the types that the expression uses, and what these refer to *)
Definition knows (K : list nat) (T : tgraph) (backing : list Z -> option nat) (e : ex) : Prop :=
  (forall n q, In n (used e) -> backing n = Some q -> In q K) /\ (forall a nd q, In a K -> nth_error T a = Some nd -> In q (refers nd) -> In q K).

(* what a value is and contains *)
Inductive within (G : graph) (x : gval) : gval -> Prop :=
| within_same : within G x x
| within_part y z : within G x y -> part G y z -> within G x z.
(* a value, which may contain itself, with such integers and sizes *)
Definition measured (G : graph) (x : gval) : Prop :=
  forall y, within G x y -> (forall l, elements G y l -> Z.of_nat (length l) <= max_int64) /\ (forall m, entries G y m -> Z.of_nat (length m) <= max_int64) /\
  match y with GLeaf (VStr s) => Z.of_nat (length s) <= max_int64 | GLeaf (VInt z) => min_int64 <= z <= max_int64 | _ => True end.

(* the names stand for what their declarations say about the values in D *)
Definition as_declared (W : world) (G : graph) (D : gval -> Prop) (e : ex) (N : list Z -> gval -> Prop) : Prop :=
  forall n d x, In (n, d) (declarations e) -> D x -> val_ok G x -> (N n x <-> belongs W G N d x).
(* the names that are used and were known stand for what Instance of their types says *)
Definition as_known (W : world) (G : graph) (D : gval -> Prop) (e : ex) (T : tgraph) (backing : list Z -> option nat) (N : list Z -> gval -> Prop) : Prop :=
  forall n q x, In n (used e) -> backing n = Some q -> D x -> val_ok G x -> (N n x <-> exists k, rec_instance W T G k q x = Some true).
