(* Two's complement 64 bit integers represented by mathematical integers.

   Go's int and int64 are modelled by Z; operations that can leave the 64 bit
   range are followed by [w64]. Go reference: the language specification
   (integer overflow wraps around); int is 64 bits wide on the platforms that
   the code supports (math.MaxInt64 is used for int bounds, for instance in
   /repo/internal/map.go:917). *)
From Coq Require Import ZArith Lia Bool.
Open Scope Z_scope.

Definition min_int64 : Z := - 2 ^ 63.
Definition max_int64 : Z := 2 ^ 63 - 1.

(* wrap to the 64 bit two's complement range; models the implicit wrap of
   every Go int operation, e.g. h*31 + x in /repo/internal/array.go:1098 *)
Definition w64 (z : Z) : Z := (z + 2 ^ 63) mod 2 ^ 64 - 2 ^ 63.

Definition in64 (z : Z) : Prop := min_int64 <= z <= max_int64.
Definition in64b (z : Z) : bool := (min_int64 <=? z) && (z <=? max_int64).

Lemma w64_range z : in64 (w64 z).
Proof.
  unfold in64, w64, min_int64, max_int64.
  pose proof (Z.mod_pos_bound (z + 2 ^ 63) (2 ^ 64) ltac:(lia)). lia.
Qed.

Lemma w64_id z : in64 z -> w64 z = z.
Proof.
  unfold in64, w64, min_int64, max_int64. intros H.
  rewrite Z.mod_small; lia.
Qed.

Lemma w64_idem z : w64 (w64 z) = w64 z.
Proof. apply w64_id, w64_range. Qed.

Lemma w64_cong z : exists k, w64 z = z + k * 2 ^ 64.
Proof.
  unfold w64. exists (- ((z + 2 ^ 63) / 2 ^ 64)).
  pose proof (Z.div_mod (z + 2 ^ 63) (2 ^ 64) ltac:(lia)). lia.
Qed.
