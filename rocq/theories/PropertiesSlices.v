(* Properties C14, C18, C19. Only statements, [exact], assumptions and examples. *)
From Coq Require Import ZArith List Bool.
From Verif Require Import HMap Slices SlicesSpec SlicesProofs.
Import ListNotations.
Open Scope Z_scope.

(* C14: whatever sequence of operations is applied to arrays, without Slice, With and WithValues,
   every result is the one given by lists; for every way in which the runtime grows slices. *)
Theorem C14_mutable_array_is_list :
  forall V eqc fz th grow os, Forall (list_op V) os ->
  snd (run V eqc fz th grow (init V) os) = snd (srun V eqc fz th [] os).
Proof. exact arrays_are_lists. Qed.
Print Assumptions C14_mutable_array_is_list.

(* With Slice, With and WithValues too, as long as they find no spare capacity. *)
Theorem C19_arrays_are_independent_partial :
  forall V eqc fz th grow os, no_spare_run V eqc fz th grow (init V) os ->
  snd (run V eqc fz th grow (init V) os) = snd (srun V eqc fz th [] os).
Proof. exact arrays_are_independent. Qed.
Print Assumptions C19_arrays_are_independent_partial.

(* C19: an operation changes no array but the one it is called on. Partial: histories where With
   or WithValues is called on an array with spare capacity, or Slice beyond the length. *)
Theorem C19_no_interference_partial :
  forall V eqc fz th grow os o b, no_spare_run V eqc fz th grow (init V) (os ++ [o]) ->
  target V o <> Some b ->
  (b < length (arrays V (fst (run V eqc fz th grow (init V) os))))%nat ->
  elems V (fst (run V eqc fz th grow (init V) (os ++ [o]))) b =
  elems V (fst (run V eqc fz th grow (init V) os)) b.
Proof. exact no_interference. Qed.
Print Assumptions C19_no_interference_partial.

(* C18: a frozen array keeps its elements. Partial in the same way. *)
Theorem C18_frozen_unchanged_partial :
  forall V eqc fz th grow os os' b, no_spare_run V eqc fz th grow (init V) (os ++ os') ->
  (exists x, nth_error (arrays V (fst (run V eqc fz th grow (init V) os))) b = Some x /\ afrozen x = true) ->
  elems V (fst (run V eqc fz th grow (init V) (os ++ os'))) b =
  elems V (fst (run V eqc fz th grow (init V) os)) b.
Proof. exact frozen_unchanged. Qed.
Print Assumptions C18_frozen_unchanged_partial.

(* integers as elements, and a runtime that doubles the capacity *)
Definition zeq (v : Z) (c : option Z) : bool := match c with Some x => v =? x | None => false end.
Definition zrun := run Z zeq (fun v => v) (fun v => v) (fun c _ => (2 * c)%nat).

(* C18 is false: a = {1, 2, 3} is frozen; a.Slice(0, 2).With(9) changes it to {1, 2, 9}. *)
Theorem C18_frozen_unchanged_refuted :
  let before := [OValues Z true [1; 2; 3]] in
  let after := [OSlice Z 0 0 2; OWith Z 1 9] in
  nth_error (arrays Z (fst (zrun (init Z) before))) 0 = Some (Array (Slice 0 0 3) true) /\
  elems Z (fst (zrun (init Z) before)) 0 = Some [Some 1; Some 2; Some 3] /\
  elems Z (fst (zrun (init Z) (before ++ after))) 0 = Some [Some 1; Some 2; Some 9].
Proof. vm_compute. auto. Qed.
Print Assumptions C18_frozen_unchanged_refuted.

(* C18 is false without Slice too: b = a.With(2) is changed by a.With(3). *)
Theorem C18_frozen_with_refuted :
  let before := [OWithCapacity Z 4; OAdd Z 0 1; OFreeze Z 0; OWith Z 0 2] in
  elems Z (fst (zrun (init Z) before)) 1 = Some [Some 1; Some 2] /\
  elems Z (fst (zrun (init Z) (before ++ [OWith Z 0 3]))) 1 = Some [Some 1; Some 3].
Proof. vm_compute. auto. Qed.
Print Assumptions C18_frozen_with_refuted.

(* C19 is false: b = a.With(2) is changed by a.Add(5). *)
Theorem C19_no_interference_refuted :
  let before := [OValues Z false [1]; OAdd Z 0 2; OAdd Z 0 3; OWith Z 0 4] in
  target Z (OAdd Z 0 5) <> Some 1%nat /\
  elems Z (fst (zrun (init Z) before)) 1 = Some [Some 1; Some 2; Some 3; Some 4] /\
  elems Z (fst (zrun (init Z) (before ++ [OAdd Z 0 5]))) 1 = Some [Some 1; Some 2; Some 3; Some 5].
Proof. split; [discriminate|]. vm_compute. auto. Qed.
Print Assumptions C19_no_interference_refuted.

(* Slice beyond the length does not panic but shows cells behind the elements: the Go nil, or what
   another array has stored there. *)
Theorem C19_slice_bounds_refuted :
  snd (zrun (init Z) [OWithCapacity Z 3; OAdd Z 0 1; OSlice Z 0 0 2; OElems Z 1]) =
  [RArr Z 0; RUnit Z; RArr Z 1; RElems Z [Some 1; None]].
Proof. vm_compute. reflexivity. Qed.
Print Assumptions C19_slice_bounds_refuted.

Example list_history :
  let os := [OValues Z false [1; 2]; OAdd Z 0 3; OInsert Z 0 1 7; OAddAll Z 0 0; ORemove Z 0 2; ORemove Z 0 9;
             OSet Z 0 0 5; OSet Z 0 (-1) 5; ORemoveValue Z 0 7; OPop Z 0; OInsert Z 0 6 8; OInsert Z 0 5 8;
             OCopy Z 0 true; OAdd Z 1 1; OGet Z 0 1; OElems Z 0; OIndexOf Z 0 7] in
  Forall (list_op Z) os /\
  snd (zrun (init Z) os) =
    [RArr Z 0; RUnit Z; RUnit Z; RUnit Z; RVal Z (Some 2); RVal Z None;
     RVal Z (Some 1); RPanic Z; RBool Z true; RVal Z (Some 3); RPanic Z; RUnit Z;
     RArr Z 1; RPanic Z; RVal Z (Some 3); RElems Z [Some 5; Some 3; Some 1; Some 7; Some 2; Some 8]; RLen Z 4].
Proof. split; [repeat constructor|]. vm_compute. reflexivity. Qed.

Example no_spare_history :
  let os := [OValues Z true [1; 2; 3]; OWith Z 0 4; OSlice Z 0 1 3; OWithAll Z 0 2; OElems Z 1; OElems Z 3; OElems Z 0] in
  no_spare_run Z zeq (fun v => v) (fun v => v) (fun c _ => (2 * c)%nat) (init Z) os /\
  snd (zrun (init Z) os) =
    [RArr Z 0; RArr Z 1; RArr Z 2; RArr Z 3;
     RElems Z [Some 1; Some 2; Some 3; Some 4]; RElems Z [Some 1; Some 2; Some 3; Some 2; Some 3];
     RElems Z [Some 1; Some 2; Some 3]].
Proof.
  split; [|vm_compute; reflexivity]. vm_compute. repeat split; intros x H; injection H as <-; [reflexivity|discriminate].
Qed.
