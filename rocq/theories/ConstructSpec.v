(* What the types made by the constructors should mean. *)
From Coq Require Import ZArith List Bool.
From Coq Require Import Floats.SpecFloat.
From Verif Require Import Int64 Data DataSpec Types Assign Construct.
Import ListNotations.
Open Scope Z_scope.

(* z lies between min and max, which may be given in any order; the upper end may be excluded *)
Definition between (min max : Z) (incl : bool) (z : Z) : Prop :=
  Z.min min max <= z /\ (if incl then z <= Z.max min max else z < Z.max min max).

(* the same for floats that are numbers *)
Definition float_between (min max : spec_float) (incl : bool) (f : spec_float) : Prop :=
  (SFleb min f = true /\ (if incl then SFleb f max = true else SFltb f max = true)) \/
  (SFltb max min = true /\ SFleb max f = true /\ (if incl then SFleb f min = true else SFltb f min = true)).

(* the length l is between the bounds, given in any order; a negative bound means 0 *)
Definition length_between (min max : Z) (l : Z) : Prop :=
  Z.max 0 (Z.min min max) <= l <= Z.max 0 (Z.max min max).

(* integers have 64 bits and lengths are ints *)
Definition machine (v : value) : Prop :=
  match v with
  | VInt z => in64 z
  | VStr s | VBin s => Z.of_nat (length s) <= max_int64
  | VArr l => Z.of_nat (length l) <= max_int64
  | VMap m => Z.of_nat (length m) <= max_int64
  | _ => True
  end.

(* Instance(t, v) returns whether v satisfies P, for all proper values v *)
Definition accepts (W : world) (t : ty) (P : value -> Prop) : Prop :=
  forall v, data veq v -> machine v ->
  exists N, forall n p, (N <= n)%nat -> exists r, instance W n p t v = Some r /\ (r = true <-> P v).

(* the one case where the constructor drops the exclusive end *)
Definition full_exclusive (min max : Z) (incl : bool) : Prop :=
  Z.min min max = min_int64 /\ Z.max min max = max_int64 /\ incl = false.

(* an integer type made by the constructor *)
Definition made (a : ty) : Prop :=
  exists q min max incl, in64 min /\ in64 max /\ integer_type q min max incl = Some a.

(* the entries as they are given to the constructor: a key is given by its type *)
Definition given (q : ptr) (e : value * ty * bool) : ty * ty * bool := (type_of q (fst (fst e)), snd (fst e), snd e).
