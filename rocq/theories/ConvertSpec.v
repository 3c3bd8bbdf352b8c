(* What conversions should do. *)
From Coq Require Import ZArith List Bool.
From Verif Require Import Int64 Data Convert.
Import ListNotations.
Open Scope Z_scope.

(* the numbers of an integer type of Go *)
Definition number_of (k : go_int) (z : Z) : Prop :=
  match k with
  | KInt | KInt64 => - 9223372036854775808 <= z <= 9223372036854775807
  | KInt32 => - 2147483648 <= z <= 2147483647
  | KInt16 => - 32768 <= z <= 32767
  | KInt8 => - 128 <= z <= 127
  | KUint | KUint64 => 0 <= z <= 18446744073709551615
  | KUint32 => 0 <= z <= 4294967295
  | KUint16 => 0 <= z <= 65535
  | KUint8 => 0 <= z <= 255
  end.
