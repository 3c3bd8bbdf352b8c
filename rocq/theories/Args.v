(* Arguments: /repo/internal/arguments.go with illegalArgumentCount (type.go:94-110).

   An Arguments value has the methods of the array that is a field of it, which know an array only as *array: other Arguments are
   no arrays to them. *)
From Coq Require Import ZArith List Bool.
From Verif Require Import Int64 Data HMap Slices.
Import ListNotations.
Open Scope Z_scope.

(* an array or Arguments, arguments.go:7-9, with elements of Data.v; o: any other value *)
Inductive aval := AArr (l : list value) | AArgs (l : list value) | AOther (v : value).
(* Equals of the first operand, an array or Arguments: array.go:1013-1022 with equals, compare.go:111-132. The operands are never the same pointer,
   as the method of Arguments is that of the field. *)
Definition args_eq (l : list value) (b : aval) : bool := match b with AArr l' => veq (VArr l) (VArr l') | AArgs _ => false | AOther _ => false end.
Definition arr_equals (a b : aval) : bool := match a with AArr l | AArgs l => args_eq l b | AOther _ => false end.
(* HashCode, array.go:1094-1101 *)
Definition arr_hash (a : aval) : Z := match a with AArr l | AArgs l => vhash (VArr l) | AOther v => vhash v end.

(* AssertSize, arguments.go:22-27: true if it returns *)
Definition assert_size (l : list value) (min max : Z) : bool :=
  let n := Z.of_nat (length l) in negb ((n <? min) || (max <? n)).
(* Arg, arguments.go:29-35: None is a panic, also that of the index (array.go:1103-1105) *)
Definition arg (inst : value -> bool) (l : list value) (n : Z) : option value :=
  if (0 <=? n) && (n <? Z.of_nat (length l)) then
    match nth_error l (Z.to_nat n) with Some v => if inst v then Some v else None | None => None end
  else None.

(* what illegalArgumentCount says is expected, type.go:94-105; max-min wraps around *)
Inductive expected := AtLeast (n : Z) | Exactly (n : Z) | Either (n m : Z) | FromTo (n m : Z).
Definition expectation (min max : Z) : expected :=
  if max =? max_int64 then AtLeast min
  else if min =? max then Exactly min
  else if w64 (max - min) =? 1 then Either min max
  else FromTo min max.

(* ---------- storage ---------- *)

Section Store.
Variable V : Type.
Variable eqc : V -> option V -> bool.
Variables fz th : V -> V.
Variable grow : nat -> nat -> nat.

(* an operation of Slices.v or ArgumentsFromArray, which copies the array but not its slice, arguments.go:16-20 *)
Inductive aop := Op (o : op V) | OArguments (a : nat).
Definition astep (w : heap V) (o : aop) : heap V * res V :=
  match o with
  | Op o => step V eqc fz th grow w o
  | OArguments a => with_array V w a (fun x => new_array V w (bufs V w) (Array (aslice x) (afrozen x)))
  end.
Fixpoint arun (w : heap V) (os : list aop) : heap V * list (res V) :=
  match os with
  | [] => (w, [])
  | o :: r => let (w1, x) := astep w o in let (w2, xs) := arun w1 r in (w2, x :: xs)
  end.
End Store.
