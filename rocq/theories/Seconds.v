(* Times as numbers: /repo/internal/time.go. *)
From Coq Require Import ZArith List Bool.
From Coq Require Import Floats.SpecFloat.
From Verif Require Import Int64 Data.
Open Scope Z_scope.

(* The seconds from 1970 to the start of the years 1679 and 2262, the bounds of time.go:153, and the nanoseconds of a second, time.go:108 and 154. *)
Definition start_1679 : Z := -9183024000.
Definition start_2262 : Z := 9214646400.
Definition second_ns : Z := 1000000000.

(* timeVal.SecondsWithFraction, time.go:148-159. The time has the seconds s since 1970 and n nanoseconds in a location whose clocks are z seconds ahead of UTC at
   that time. Year() is that of the clocks there; it is computed from the seconds by the Go library, only the comparisons of time.go:153 are modelled. UnixNano()
   and the multiplication wrap around. *)
Definition seconds_with_fraction (s n z : Z) : spec_float :=
  if (start_1679 <=? s + z) && (s + z <? start_2262) then SFdiv 53 1024 (float_of_int (w64 (s * second_ns + n))) (float_of_int second_ns)
  else SFdiv 53 1024 (float_of_int (w64 (w64 (s * 1000000) + n / 1000))) (float_of_int 1000000).

(* math.Modf, used in time.go:107: what is behind the point, with the sign of f *)
Definition fraction (f : spec_float) : spec_float :=
  match f with
  | S754_finite neg m e => if 0 <=? e then S754_zero neg else let r := Zpos m mod 2 ^ (- e) in binary_normalize 53 1024 (if neg then - r else r) e neg
  | S754_zero neg => S754_zero neg
  | _ => S754_nan
  end.
(* time.Unix of the Go library, used in time.go:108: seconds and nanoseconds, which may be negative or many *)
Definition unix_time (s n : Z) : Z * Z := (w64 (s + n / second_ns), n mod second_ns).
(* newTime of a float, time.go:106-108 *)
Definition time_of_float (f : spec_float) : Z * Z :=
  unix_time (float_to_int f) (float_to_int (SFmul 53 1024 (fraction f) (float_of_int second_ns))).
