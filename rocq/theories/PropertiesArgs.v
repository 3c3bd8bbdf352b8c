(* Property C83. Only statements, [exact], assumptions and examples. *)
From Coq Require Import ZArith List Bool Lia.
From Verif Require Import Int64 Data DataSpec DataProofs HMap Slices SlicesSpec SlicesProofs Args ArgsSpec ArgsProofs.
Import ListNotations.
Open Scope Z_scope.

(* C83, AssertSize returns exactly for the accepted counts *)
Theorem C83_assert_size : forall l min max, assert_size l min max = true <-> min <= Z.of_nat (length l) <= max.
Proof. exact assert_size_iff. Qed.
Print Assumptions C83_assert_size.

(* C83, Arg returns the argument if it exists and is an instance, and panics otherwise *)
Theorem C83_arg : forall inst l n v, arg inst l n = Some v <-> 0 <= n /\ nth_error l (Z.to_nat n) = Some v /\ inst v = true.
Proof. exact arg_iff. Qed.
Print Assumptions C83_arg.

(* C83, the message of AssertSize names exactly the accepted counts *)
Theorem C83_message :
  forall min max n, in64 min -> in64 max -> 0 <= min <= max -> n <= max_int64 -> (says (expectation min max) n <-> min <= n <= max).
Proof. exact expectation_right. Qed.
Print Assumptions C83_message.

(* C83, Arguments behave like an array of their own in all histories. Partial: Arguments of frozen arrays, and no operation that finds spare capacity (C19). *)
Theorem C83_independent_partial :
  forall V eqc fz th grow os, frozen_run V eqc fz th grow (init V) os ->
  snd (arun V eqc fz th grow (init V) os) = snd (sarun V eqc fz th [] os).
Proof. exact arguments_independent. Qed.
Print Assumptions C83_independent_partial.

(* C83, Arguments are Equal to the arrays with equal elements, and have the hash code of an array. Partial: Arguments as the receiver, an array as the argument. *)
Theorem C83_equal_partial :
  forall l l', arr_equals (AArgs l) (AArr l') = veq (VArr l) (VArr l') /\ arr_hash (AArgs l) = arr_hash (AArr l).
Proof. exact args_equal. Qed.
Print Assumptions C83_equal_partial.

(* C83 is false: Arguments are not Equal to themselves, and an array is not Equal to Arguments that are Equal to it *)
Theorem C83_equal_refuted :
  forall l, arr_equals (AArgs l) (AArgs l) = false /\ arr_equals (AArr l) (AArgs l) = false /\ (wf (VArr l) -> arr_equals (AArgs l) (AArr l) = true).
Proof. intros l. repeat split. apply veq_refl. Qed.
Print Assumptions C83_equal_refuted.

(* integers as elements, and a runtime that doubles the capacity *)
Definition zarun := arun Z (fun v c => match c with Some x => v =? x | None => false end) (fun v => v) (fun v => v) (fun c n => (2 * n)%nat).
(* C83 is false: Set on the array changes the Arguments, and Add on the array and on the Arguments overwrite each other *)
Theorem C83_independent_refuted :
  last (snd (zarun (init Z) [Op Z (OValues Z false [1; 2]); OArguments Z 0; Op Z (OSet Z 0 0 5); Op Z (OElems Z 1)])) (RUnit Z) = RElems Z [Some 5; Some 2] /\
  last (snd (zarun (init Z) [Op Z (OValues Z false [1]); Op Z (OAdd Z 0 2); Op Z (OAdd Z 0 3); OArguments Z 0; Op Z (OAdd Z 0 4); Op Z (OAdd Z 1 5); Op Z (OElems Z 0)])) (RUnit Z) =
    RElems Z [Some 1; Some 2; Some 3; Some 5].
Proof. vm_compute. split; reflexivity. Qed.
Print Assumptions C83_independent_refuted.

(* ---------- examples ---------- *)

Example C83_ex_size : assert_size [VInt 1; VNil] 1 2 = true /\ assert_size [] 1 2 = false /\ expectation 1 2 = Either 1 2 /\ expectation 1 max_int64 = AtLeast 1.
Proof. repeat split. Qed.
Example C83_ex_arg :
  let int v := match v with VInt _ => true | _ => false end in
  arg int [VInt 1; VNil] 0 = Some (VInt 1) /\ arg int [VInt 1; VNil] 1 = None /\ arg int [VInt 1; VNil] 2 = None.
Proof. repeat split. Qed.
Example C83_ex_independent :
  let os := [Op Z (OValues Z true [1; 2]); OArguments Z 0; Op Z (OSet Z 1 0 5); Op Z (OCopy Z 1 false); Op Z (OAdd Z 2 3); Op Z (OElems Z 1); Op Z (OElems Z 2)] in
  frozen_run Z (fun v c => match c with Some x => v =? x | None => false end) (fun v => v) (fun v => v) (fun c n => (2 * n)%nat) (init Z) os /\
  snd (zarun (init Z) os) = [RArr Z 0; RArr Z 1; RPanic Z; RArr Z 2; RUnit Z; RElems Z [Some 1; Some 2]; RElems Z [Some 1; Some 2; Some 3]].
Proof.
  cbv zeta. split; [|vm_compute; reflexivity]. cbn. repeat split; auto. intros x [= <-]. reflexivity.
Qed.
