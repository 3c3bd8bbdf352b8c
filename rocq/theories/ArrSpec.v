(* Specifications of the array algorithms in terms of lists. *)
From Coq Require Import ZArith List Bool Permutation.
From Coq Require Import Floats.SpecFloat.
From Verif Require Import Int64 Data DataSpec.
Import ListNotations.
Open Scope Z_scope.

Section Spec.
Variables (A : Type) (eq : A -> A -> bool).

(* the elements that equal no element before them, [pre] are the elements before *)
Fixpoint firsts (pre l : list A) : list A :=
  match l with
  | [] => []
  | x :: r => if existsb (eq x) pre then firsts (pre ++ [x]) r else x :: firsts (pre ++ [x]) r
  end.

Inductive subsequence : list A -> list A -> Prop :=
| sub_nil : subsequence [] []
| sub_skip x l l' : subsequence l l' -> subsequence l (x :: l')
| sub_take x l l' : subsequence l l' -> subsequence (x :: l) (x :: l').

(* the same elements in some order *)
Definition same_multiset (a b : list A) : Prop :=
  exists a', Permutation a a' /\ Forall2 (fun x y => eq x y = true) a' b.

(* every element of b has a partner of its own in a *)
Definition contains_multiset (a b : list A) : Prop :=
  exists c d, Permutation a (c ++ d) /\ Forall2 (fun x y => eq x y = true) c b.

(* the part of a list up to and including the first element for which f holds *)
Fixpoint through (f : A -> bool) (l : list A) : list A :=
  match l with
  | [] => []
  | x :: r => if f x then [x] else x :: through f r
  end.

(* what is required of a stable sort by the strict order less *)
Variable less : A -> A -> bool.
Definition equivalent (x y : A) : bool := negb (less x y) && negb (less y x).

Definition ordered (l : list A) : Prop := ForallOrdPairs (fun x y => less y x = false) l.

Definition stable_sorted (l l' : list A) : Prop :=
  Permutation l l' /\ ordered l' /\
  forall x, In x l -> filter (equivalent x) l' = filter (equivalent x) l.

(* less is a strict weak order on the elements of P *)
Record strict_weak (P : A -> Prop) : Prop := {
  sw_irrefl : forall x, P x -> less x x = false;
  sw_trans : forall x y z, P x -> P y -> P z -> less x y = true -> less y z = true -> less x z = true;
  sw_equiv : forall x y z, P x -> P y -> P z ->
    equivalent x y = true -> equivalent y z = true -> equivalent x z = true }.
End Spec.

(* the leaves of a value: itself if it is no array, otherwise those of its elements in order *)
Inductive leaves : value -> list value -> Prop :=
| leaves_self v : (forall l, v <> VArr l) -> leaves v [v]
| leaves_arr l ls : Forall2 leaves l ls -> leaves (VArr l) (concat ls).

(* The arrays that Sort is proved for: nil, booleans, floats and integers up to 2^53, strings,
   binaries, regexps, times, maps, sensitives, and arrays of one kind k; but nil not together with
   maps or sensitives. *)
Definition sort_elem (k : kind) (v : value) : Prop :=
  match v with
  | VFloat f => f <> S754_nan
  | VInt z => - 2 ^ 53 <= z <= 2 ^ 53
  | VArr l => Forall (of_kind k) l
  | _ => True
  end.
Definition sortable (k : kind) (l : list value) : Prop :=
  Forall (sort_elem k) l /\
  (In VNil l -> forall v, In v l -> match v with VMap _ | VSens _ => False | _ => True end).

(* the order of the kinds of values, as listed in /repo/dgo/typeidentifier.go *)
Inductive sort_kind := SKSensitive | SKArray | SKBinary | SKBoolean | SKFloat | SKInteger | SKMap | SKNil | SKRegexp | SKString | SKTime.
Definition sort_kinds := [SKSensitive; SKArray; SKBinary; SKBoolean; SKFloat; SKInteger; SKMap; SKNil; SKRegexp; SKString; SKTime].
Definition kind_of (v : value) : sort_kind :=
  match v with
  | VSens _ => SKSensitive | VArr _ => SKArray | VBin _ => SKBinary | VBool _ => SKBoolean | VFloat _ => SKFloat | VInt _ => SKInteger
  | VMap _ => SKMap | VNil => SKNil | VRegexp _ => SKRegexp | VStr _ => SKString | VTime _ _ _ => SKTime
  end.
Definition kind_before (k k' : sort_kind) : Prop := exists a b c, sort_kinds = a ++ k :: b ++ k' :: c.
