(* Property C67. Only statements, [exact], assumptions and examples. *)
From Coq Require Import ZArith List Bool Arith.
From Verif Require Import Int64 Data Share ShareSpec ShareProofs.
Import ListNotations.

(* C67. A value that is frozen or immutable does not change, whatever Go code does with the slices and pointers that it gave
   to the library or got from it. Partial: for frozen binaries, for frozen copies of arrays and for arrays made from a
   slice; for strings and times as long as ReflectTo does not set a pointer. *)
Theorem C67_frozen_binary :
  forall before after i a, nth_error (objects (run start before)) i = Some (OBin true a) ->
  nth_error (objects (run start (before ++ after))) i = Some (OBin true a) /\
  content (run start (before ++ after)) (OBin true a) = content (run start before) (OBin true a).
Proof. exact binary_final. Qed.
Print Assumptions C67_frozen_binary.

Theorem C67_frozen_copy_partial :
  forall before after i a, nth_error (objects (run start before)) i = Some (OArr false a) ->
  let w := run start before in let w' := run start (before ++ FrozenCopy i :: after) in
  exists b, nth_error (objects w') (length (objects w)) = Some (OArr true b) /\ content w' (OArr true b) = content w (OArr false a).
Proof. exact frozen_copy_final. Qed.
Print Assumptions C67_frozen_copy_partial.

Theorem C67_array_of_slice_partial :
  forall before after a, In a (held (run start before)) ->
  let w := run start before in let w' := run start (before ++ NewArray a :: after) in
  exists b, nth_error (objects w') (length (objects w)) = Some (OArr true b) /\ content w' (OArr true b) = load (memory w) a.
Proof. exact array_of_slice_final. Qed.
Print Assumptions C67_array_of_slice_partial.

(* the hash code, which is kept after the first call, is that of the text *)
Theorem C67_string_partial :
  forall before s after, let i := length (objects (run start before)) in Forall (unpointed i) after ->
  let w' := run start (before ++ NewString s :: after) in
  exists o, nth_error (objects w') i = Some o /\ content w' o = s /\ hash_of w' i = Some (string_hash s).
Proof. exact string_final. Qed.
Print Assumptions C67_string_partial.

Theorem C67_time_partial :
  forall before c after, let i := length (objects (run start before)) in Forall (unpointed i) after ->
  let w' := run start (before ++ NewTime c :: after) in
  exists o, nth_error (objects w') i = Some o /\ content w' o = c.
Proof. exact time_final. Qed.
Print Assumptions C67_time_partial.

(* array.go:1058-1069: Freeze keeps the slice that WrapSlice got, or that GoSlice gave away; the frozen array changes *)
Theorem C67_freeze_refuted :
  exists before after i a, nth_error (objects (run start before)) i = Some (OArr true a) /\
    nth_error (objects (run start (before ++ after))) i = Some (OArr true a) /\
    content (run start before) (OArr true a) = [1; 2]%Z /\ content (run start (before ++ after)) (OArr true a) = [1; 3]%Z.
Proof. exists [Make [1; 2]%Z; WrapSlice 0; Freeze 0], [Write 0 [1; 3]%Z], 0%nat, 0%nat. vm_compute. auto. Qed.
Print Assumptions C67_freeze_refuted.
Theorem C67_go_slice_refuted :
  exists before after i a, nth_error (objects (run start before)) i = Some (OArr false a) /\ ~ In a (held (run start before)) /\
    nth_error (objects (run start (before ++ GoSlice i :: Freeze i :: after))) i = Some (OArr true a) /\
    content (run start (before ++ [GoSlice i; Freeze i])) (OArr true a) <> content (run start (before ++ GoSlice i :: Freeze i :: after)) (OArr true a).
Proof.
  exists [Make [1; 2]%Z; NewArray 0; ThawedCopy 0], [Write 2 [7; 2]%Z], 1%nat, 2%nat. vm_compute. intuition discriminate.
Qed.
Print Assumptions C67_go_slice_refuted.

(* string.go:603: a *string that was set by ReflectTo points into the value. The hash code is that of the old text. *)
Theorem C67_string_refuted :
  exists before after i o o', nth_error (objects (run start before)) i = Some o /\ content (run start before) o = [97]%Z /\
    nth_error (objects (run start (before ++ after))) i = Some o' /\ content (run start (before ++ after)) o' = [98]%Z /\
    hash_of (run start (before ++ after)) i = Some (string_hash [97]%Z) /\ string_hash [97]%Z <> string_hash [98]%Z.
Proof. exists [NewString [97]%Z], [HashCode 0; ReflectPtr 0; Write 0 [98]%Z], 0%nat, (OStr 0 0), (OStr 0 (string_hash [97]%Z)). vm_compute. intuition discriminate. Qed.
Print Assumptions C67_string_refuted.

(* time.go:169-176: the same for a *time.Time *)
Theorem C67_time_refuted :
  exists before after i o, nth_error (objects (run start before)) i = Some o /\ nth_error (objects (run start (before ++ after))) i = Some o /\
    content (run start before) o = [0; 0]%Z /\ content (run start (before ++ after)) o = [5; 0]%Z.
Proof. exists [NewTime [0; 0]%Z], [ReflectPtr 0; Write 0 [5; 0]%Z], 0%nat, (OTime 0). vm_compute. auto. Qed.
Print Assumptions C67_time_refuted.

(* struct.go:136-170: a frozen struct, and a frozen copy of a struct, keep the slices of the fields *)
Theorem C67_struct_refuted :
  exists before after i a, nth_error (objects (run start before)) i = Some (OStruct true a) /\
    nth_error (objects (run start (before ++ after))) i = Some (OStruct true a) /\
    content (run start before) (OStruct true a) = [1; 2]%Z /\ content (run start (before ++ after)) (OStruct true a) = [1; 3]%Z.
Proof. exists [Make [1; 2]%Z; NewStruct 0; FrozenCopy 0], [Write 0 [1; 3]%Z], 1%nat, 0%nat. vm_compute. auto. Qed.
Print Assumptions C67_struct_refuted.

(* a slice is wrapped in a binary, given away again, and the binary is frozen; writes to the slice do not reach it *)
Example C67_ex :
  let before := [Make [1; 2; 3]%Z; NewBinary 0 false; GoSlice 0; Freeze 0; GoSlice 0] in
  nth_error (objects (run start before)) 0 = Some (OBin true 1) /\
  content (run start (before ++ [Write 0 [9; 9; 9]%Z; Write 2 [8; 8; 8]%Z])) (OBin true 1) = [1; 2; 3]%Z /\
  load (memory (run start (before ++ [Write 0 [9; 9; 9]%Z; Write 2 [8; 8; 8]%Z]))) 0 = [9; 9; 9]%Z.
Proof. vm_compute. auto. Qed.
Example C67_copy_ex :
  let before := [Make [1; 2]%Z; WrapSlice 0; NewString [97]%Z; HashCode 1] in let after := [Write 0 [5; 5]%Z; Add 0 4%Z true; GoSlice 2] in
  nth_error (objects (run start before)) 0 = Some (OArr false 0) /\ nth_error (objects (run start (before ++ FrozenCopy 0 :: after))) 2 = Some (OArr true 2) /\
  content (run start (before ++ FrozenCopy 0 :: after)) (OArr true 2) = [1; 2]%Z /\ nth_error (objects (run start (before ++ FrozenCopy 0 :: after))) 0 = Some (OArr false 3) /\
  In 0%nat (held (run start before)) /\ Forall (unpointed 1) after.
Proof. vm_compute. repeat split; auto; repeat constructor. Qed.
