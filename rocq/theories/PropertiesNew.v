(* Property C86. Only statements, [exact], assumptions and examples. *)
From Coq Require Import Strings.Ascii Strings.String.
From Coq Require Import ZArith List Bool Lia.
From Coq Require Import Floats.SpecFloat.
From Verif Require Import Int64 Data DataSpec Types TypesSpec Assign TextSpec Print Convert ConvertSpec NewSpec NewProofs PropertiesTypes PropertiesConvert.
Import ListNotations.
Open Scope Z_scope.

(* C86. New gives exactly the value that the kind of the type makes of the arguments, provided that it is an instance of
   the type; without such a value it panics. Only the conversion of a sensitive type is not followed by that check (see C34_sensitive_refuted). *)
Theorem C86_new_makes :
  forall W C n p t a v, new W C n p t a = Some v <->
  makes W C (family_of t) (arguments a) v /\ (family_of t = FSensitive \/ instance W n p t v = Some true).
Proof. exact new_iff. Qed.
Print Assumptions C86_new_makes.
(* At most one value is made. *)
Theorem C86_makes_one : forall W C f l v w, makes W C f l v -> makes W C f l w -> v = w.
Proof. exact makes_one. Qed.
Print Assumptions C86_makes_one.

Example C86_example_bool :
  new W0 C0 50 1 TBool (AVal (VStr (lit "no"))) = Some (VBool false) /\ makes W0 C0 (family_of TBool) [VStr (lit "no")] (VBool false) /\
  new W0 C0 50 1 TBool (AVal (VStr (lit "yes"))) = Some (VBool true) /\ new W0 C0 50 1 TBool (AVal (VStr (lit "maybe"))) = None /\
  new W0 C0 50 1 TBool (AVal (VInt 7)) = Some (VBool true).
Proof.
  split; [reflexivity|]. split; [|repeat split; reflexivity]. apply bool_no.
  - right. now left.
  - intros H. inversion H as [? ? H1|? ? H1]; subst; [discriminate|]. inversion H1 as [? ? H2|? ? H2]; subst; [discriminate|]. inversion H2 as [? ? H3|? ? H3]; subst; [discriminate|]. inversion H3.
Qed.
Example C86_example_numbers :
  new W0 C0 50 1 (TIntRange (-3) 3 true) (AVal (VFloat (S754_finite true 6192449487634432 (-51)))) = Some (VInt (-2)) /\
  truncated (S754_finite true 6192449487634432 (-51)) (-2) /\
  new W0 C0 50 1 (TIntRange 0 3 true) (AVal (VFloat (S754_finite true 6192449487634432 (-51)))) = None /\
  new W0 C0 50 1 TMap (AVal (VArr [VStr (lit "a"); VInt 1])) = Some (VMap [(VStr (lit "a"), VInt 1)]) /\
  new W0 C0 50 1 (TBinary 0 4) (AVal (VArr [VInt 1; VInt 255])) = Some (VBin [1; 255]).
Proof.
  split; [reflexivity|]. split; [|repeat split; reflexivity]. exists 2. split; [lia|]. split; [split; vm_compute; congruence|]. split; [reflexivity|]. intros H. destruct H. unfold in64, min_int64, max_int64. lia.
Qed.
