(* What C83 requires of Arguments. *)
From Coq Require Import ZArith List Bool.
From Verif Require Import Data Slices SlicesSpec Args.
Import ListNotations.
Open Scope Z_scope.

(* the counts that are said to be expected *)
Definition says (e : expected) (n : Z) : Prop :=
  match e with AtLeast m => m <= n | Exactly m => n = m | Either m m' => n = m \/ n = m' | FromTo m m' => m <= n <= m' end.

Section Store.
Variable V : Type.
Variable eqc : V -> option V -> bool.
Variables fz th : V -> V.
Variable grow : nat -> nat -> nat.

(* Arguments have elements of their own *)
Definition sastep (w : sworld V) (o : aop V) : sworld V * res V :=
  match o with
  | Op _ o => sstep V eqc fz th w o
  | OArguments _ a => sarr V w a (fun fr l => snew V w fr l)
  end.
Fixpoint sarun (w : sworld V) (os : list (aop V)) : sworld V * list (res V) :=
  match os with
  | [] => (w, [])
  | o :: r => let (w1, x) := sastep w o in let (w2, xs) := sarun w1 r in (w2, x :: xs)
  end.
(* the operations find no spare capacity, and Arguments are made of frozen arrays *)
Definition frozen_arguments (w : heap V) (o : aop V) : Prop :=
  match o with
  | Op _ o => no_spare V w o
  | OArguments _ a => forall x, nth_error (arrays V w) a = Some x -> afrozen x = true
  end.
Fixpoint frozen_run (w : heap V) (os : list (aop V)) : Prop :=
  match os with [] => True | o :: r => frozen_arguments w o /\ frozen_run (fst (astep V eqc fz th grow w o)) r end.
End Store.
