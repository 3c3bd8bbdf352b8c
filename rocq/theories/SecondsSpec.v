(* What is expected of numbers for times. *)
From Coq Require Import ZArith Reals.
From Coq Require Import Floats.SpecFloat.
From Verif Require Import Int64 Data.
Open Scope Z_scope.

(* a time: nanoseconds are less than a second, clocks are less than a day ahead or behind *)
Definition is_time (n z : Z) : Prop := 0 <= n < 1000000000 /\ -86400 < z < 86400.
(* the one time is not after the other *)
Definition not_after (s n s' n' : Z) : Prop := s < s' \/ s = s' /\ n <= n'.
(* at most 292276 years before or after 1970 *)
Definition in_microseconds (s : Z) : Prop := -9223372036854 <= s < 9223372036854.
(* the real number that a float stands for *)
Definition real_of (f : spec_float) : R :=
  match f with
  | S754_finite neg m e => let a := (IZR (Zpos m) * powerRZ 2 e)%R in if neg then (- a)%R else a
  | _ => 0%R
  end.
Definition finite (f : spec_float) : Prop := match f with S754_finite _ _ _ | S754_zero _ => True | _ => False end.
