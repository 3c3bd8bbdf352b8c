(* Property C94. Only statements, [exact], assumptions and examples. *)
From Coq Require Import ZArith List Bool Reals Lia.
From Coq Require Import Floats.SpecFloat.
From Verif Require Import Int64 Data Seconds SecondsSpec SecondsProofs.
Open Scope Z_scope.

(* C94, order: the number of a time is not smaller than those of earlier times in the same zone. Partial: within 292276 years from 1970. *)
Theorem C94_ordered_partial :
  forall s n s' n' z, is_time n z -> is_time n' z -> in_microseconds s -> in_microseconds s' -> not_after s n s' n' ->
  finite (seconds_with_fraction s n z) /\ SFleb (seconds_with_fraction s n z) (seconds_with_fraction s' n' z) = true.
Proof. exact seconds_ordered. Qed.
Print Assumptions C94_ordered_partial.
(* C94, accuracy: at most three microseconds off. Partial: in the years 1679 to 2261. *)
Theorem C94_accurate_partial :
  forall s n z, is_time n z -> start_1679 <= s + z < start_2262 ->
  (Rabs (real_of (seconds_with_fraction s n z) - (IZR s + IZR n / 1000000000)) <= 3 / 1000000)%R.
Proof. exact seconds_accurate. Qed.
Print Assumptions C94_accurate_partial.
(* C94, order between zones: times that differ by more than six microseconds have different numbers. Partial: in these years. *)
Theorem C94_distinct_partial :
  forall s n z s' n' z', is_time n z -> is_time n' z' -> start_1679 <= s + z < start_2262 -> start_1679 <= s' + z' < start_2262 ->
  s * 1000000000 + n + 6001 <= s' * 1000000000 + n' -> SFltb (seconds_with_fraction s n z) (seconds_with_fraction s' n' z') = true.
Proof. exact seconds_distinct. Qed.
Print Assumptions C94_distinct_partial.
(* C94, back: New of the number is the time. Partial: for whole seconds from 1823 to 2116. *)
Theorem C94_whole_seconds_partial :
  forall s z, Z.abs s <= 4611686018 -> -86400 < z < 86400 ->
  seconds_with_fraction s 0 z = float_of_int s /\ time_of_float (seconds_with_fraction s 0 z) = (s, 0).
Proof. exact whole_seconds. Qed.
Print Assumptions C94_whole_seconds_partial.

(* In 2117 there are whole seconds whose number has a fraction, and is that of a time after it *)
Theorem C94_whole_seconds_refuted :
  seconds_with_fraction 4656493119 0 0 <> float_of_int 4656493119 /\ time_of_float (seconds_with_fraction 4656493119 0 0) <> (4656493119, 0).
Proof. vm_compute. split; intros E; discriminate E. Qed.
Print Assumptions C94_whole_seconds_refuted.
(* New of the number of a time with milliseconds is an earlier time *)
Theorem C94_milliseconds_refuted : time_of_float (seconds_with_fraction 637897810 890000000 0) = (637897810, 889999985).
Proof. vm_compute. reflexivity. Qed.
Print Assumptions C94_milliseconds_refuted.
(* One time has different numbers in different zones: at the end of 2261 *)
Theorem C94_zone_refuted :
  veq (VTime 9214649907 887965845 0) (VTime 9214649907 887965845 (-7200)) = true /\
  SFltb (seconds_with_fraction 9214649907 887965845 0) (seconds_with_fraction 9214649907 887965845 (-7200)) = true.
Proof. vm_compute. split; reflexivity. Qed.
Print Assumptions C94_zone_refuted.
(* Times more than 292277 years from now have numbers of the past *)
Theorem C94_far_refuted : SFltb (seconds_with_fraction 10000000000000 0 0) (float_of_int 0) = true.
Proof. vm_compute. reflexivity. Qed.
Print Assumptions C94_far_refuted.

(* the last nanosecond of 2261 and the first of 2262 *)
Example ex_C94_ordered : is_time 999999999 3600 /\ is_time 0 3600 /\ in_microseconds 9214642799 /\ not_after 9214642799 999999999 9214642800 0 /\
  SFleb (seconds_with_fraction 9214642799 999999999 3600) (seconds_with_fraction 9214642800 0 3600) = true /\
  SFleb (seconds_with_fraction 9214642800 0 3600) (seconds_with_fraction 9214642799 999000000 3600) = false.
Proof. unfold is_time, in_microseconds, not_after. repeat split; try lia; vm_compute; reflexivity. Qed.
(* 2006-01-02T15:04:05.999999999-07:00 *)
Example ex_C94_accurate : is_time 999999999 (-25200) /\ start_1679 <= 1136239445 + -25200 < start_2262 /\
  seconds_with_fraction 1136239445 999999999 (-25200) = float_of_int 1136239446.
Proof. unfold is_time, start_1679, start_2262. repeat split; try lia; vm_compute; reflexivity. Qed.
Example ex_C94_whole : Z.abs (-1136239445) <= 4611686018 /\ time_of_float (seconds_with_fraction (-1136239445) 0 (-25200)) = (-1136239445, 0).
Proof. split; [lia|]. vm_compute. reflexivity. Qed.
(* half a second before 1970 *)
Example ex_C94_negative : time_of_float (seconds_with_fraction (-1) 500000000 0) = (-1, 500000000).
Proof. vm_compute. reflexivity. Qed.
