(* Property C79. Only statements, [exact], assumptions and examples. *)
From Coq Require Import ZArith List Bool String Lia.
From Verif Require Import Int64 Data DataSpec Types TypesSpec TypeEqSpec TypeEqProofs Lexer Print Syntax ErrorVal ErrorSpec ErrorProofs.
Import ListNotations.
Open Scope Z_scope.

(* C79, equality: a value made of a Go error is equal to exactly the errors that have the same text *)
Theorem C79_wrapped_equal :
  forall E show g o, err_eq E show (EWrap g) o = true <-> said E show o = Some (g_msg g).
Proof. exact wrapped_equal. Qed.
Print Assumptions C79_wrapped_equal.

(* C79, equality is an equivalence relation. Partial: between errors made of Go errors, and between errors that
   dgo makes itself, with types on which it is one (C58). *)
Theorem C79_equivalence_partial :
  forall E show,
  (forall a, with_types nice a -> err_eq E show a (OErr a) = true) /\
  (forall a b, with_types nice a -> with_types nice b -> same_origin a b -> err_eq E show a (OErr b) = true -> err_eq E show b (OErr a) = true) /\
  (forall a b c, with_types nice a -> with_types nice b -> with_types nice c -> same_origin a b -> same_origin b c ->
     err_eq E show a (OErr b) = true -> err_eq E show b (OErr c) = true -> err_eq E show a (OErr c) = true).
Proof. exact errors_equivalence. Qed.
Print Assumptions C79_equivalence_partial.

(* C79, equal errors have equal hash codes. Partial: as above, with types on which C09 holds. *)
Theorem C79_hash_partial :
  forall E show a b, with_types (fun t => type_ok t /\ proper_tuples t /\ ordered t) a -> with_types (fun t => type_ok t /\ proper_tuples t /\ ordered t) b ->
  same_origin a b -> err_eq E show a (OErr b) = true -> err_hash a = err_hash b.
Proof. exact errors_hash. Qed.
Print Assumptions C79_hash_partial.

(* C79, types: the instances of the error type are the errors, those of an exact type the errors with the text *)
Theorem C79_instances :
  forall E show o,
  (et_instance E show ErrorType o = true <-> said E show o <> None) /\
  (forall g, et_instance E show (ExactError g) o = true <-> said E show o = Some (g_msg g)) /\
  (forall t, said E show o <> None -> et_is_instance E show t o = et_instance E show t o).
Proof. intros E show o. exact (conj (instance_error E show o) (conj (fun g => instance_exact E show g o) (fun t => is_instance E show t o))). Qed.
Print Assumptions C79_instances.

(* C79, types: every error is an instance of its type *)
Theorem C79_own_type : forall E show a, et_instance E show (err_type a) (OErr a) = true.
Proof. exact own_type. Qed.
Print Assumptions C79_own_type.

(* C79, types: Assignable is containment, Equals is having the same instances, and equal types have equal hash codes *)
Theorem C79_assignable : forall E show a b, et_assignable E show a b = true <-> forall o, et_instance E show b o = true -> et_instance E show a o = true.
Proof. exact assignable_contains. Qed.
Print Assumptions C79_assignable.
Theorem C79_types_equal : forall E show a b, et_eq E show a b = true <-> forall o, et_instance E show a o = et_instance E show b o.
Proof. exact types_equal. Qed.
Print Assumptions C79_types_equal.
Theorem C79_types_hash : forall E show a b, et_eq E show a b = true -> et_hash a = et_hash b.
Proof. exact types_hash. Qed.
Print Assumptions C79_types_hash.

(* C79, types: an error is an instance of a type exactly when its type is assignable to it. Partial: errors that dgo makes have the type of
   all errors. *)
Theorem C79_instance_by_type_partial : forall E show t a, is_wrapped a -> et_instance E show t (OErr a) = et_assignable E show t (err_type a).
Proof. exact wrapped_instance. Qed.
Print Assumptions C79_instance_by_type_partial.

(* C79, causes: errors.Is finds in the value what it finds in the Go error. Partial: but for the Go error itself. *)
Theorem C79_causes_partial : forall g target, g_id g <> target -> (err_is (EWrap g) target = true <-> exists f, caused_by g f /\ g_id f = target).
Proof. exact unwrapped. Qed.
Print Assumptions C79_causes_partial.

(* C79, immutability: the value holds the Go error it was made of, and gives it back. Partial: no variable of the type *error was assigned. *)
Theorem C79_kept_partial :
  forall os1 os2 g, Forall no_pointer (os1 ++ os2) ->
  let s1 := erun {| es_held := []; es_given := [] |} os1 in
  let v := List.length (es_held s1) in
  let s := erun s1 (EoValue g :: os2) in
  ewrapped s v = Some (EWrap g) /\ snd (estep s (EoToError v)) = EoGot g.
Proof. exact error_kept. Qed.
Print Assumptions C79_kept_partial.

(* ---------- what is not so ---------- *)

(* typeerror.go:27-32, 50-55, 82-87: an error that dgo makes is not equal to the Go error with its text, which is equal to it *)
Theorem C79_symmetric_refuted :
  forall E show a, ~ is_wrapped a -> let b := EWrap (GErr 0 (message E show a) None) in
  err_eq E show b (OErr a) = true /\ err_eq E show a (OErr b) = false.
Proof. intros E show [g|t u|t k|t n] N b; [destruct N; now exists g| | | ]; (split; [apply wrapped_equal; reflexivity|reflexivity]). Qed.
Print Assumptions C79_symmetric_refuted.

(* their hash codes are different: "a value of type string cannot be assigned to a variable of type int" *)
Theorem C79_hash_refuted :
  forall E show, let a := EType TInt TString in let b := EWrap (GErr 0 (message E show a) None) in
  err_eq E show b (OErr a) = true /\ err_hash b <> err_hash a.
Proof. intros E show a b. split; [apply wrapped_equal; reflexivity|vm_compute; discriminate]. Qed.
Print Assumptions C79_hash_refuted.

(* the error about int|string is equal to the one about string|int, whose text is another; the Go error with the text of the first is equal to the
   first only *)
Theorem C79_transitive_refuted :
  forall E show, let b := EType (TAnyOf 1 [TInt; TString]) TBool in let c := EType (TAnyOf 2 [TString; TInt]) TBool in let a := EWrap (GErr 0 (message E show b) None) in
  err_eq E show a (OErr b) = true /\ err_eq E show b (OErr c) = true /\ err_eq E show a (OErr c) = false.
Proof. intros E show b c a. split; [apply wrapped_equal; reflexivity|]. split; vm_compute; reflexivity. Qed.
Print Assumptions C79_transitive_refuted.

(* typeerror.go:46-48, 78-80, 102-104: such an error is an instance of an exact type that its type is not assignable to *)
Theorem C79_instance_by_type_refuted :
  forall E show a, ~ is_wrapped a -> let t := ExactError (GErr 0 (message E show a) None) in
  et_instance E show t (OErr a) = true /\ et_assignable E show t (err_type a) = false.
Proof. intros E show [g|t u|t k|t n] N x; [destruct N; now exists g| | | ]; (split; [apply instance_exact; reflexivity|reflexivity]). Qed.
Print Assumptions C79_instance_by_type_refuted.

(* error.go:119-126: Unwrap passes over the Go error that the value holds. errors.Is does not find it, if it is not its own cause. *)
Theorem C79_causes_refuted :
  forall g, (forall c, g_cause g = Some c -> forall f, caused_by c f -> g_id f <> g_id g) -> err_is (EWrap g) (g_id g) = false /\ go_is g (g_id g) = true.
Proof. intros g H. split; [now apply unwrapped_self|]. apply caused_is. constructor. Qed.
Print Assumptions C79_causes_refuted.

(* error.go:107-109: the pointer leads to the field of the value *)
Theorem C79_kept_refuted :
  forall g h, let s := erun {| es_held := []; es_given := [] |} [EoValue g; EoToPointer 0; EoAssign 0 h] in ewrapped s 0 = Some (EWrap h).
Proof. reflexivity. Qed.
Print Assumptions C79_kept_refuted.

(* ---------- examples ---------- *)

Definition eof : gerr := GErr 1 (lit "EOF") None.
Definition read_failed : gerr := GErr 2 (lit "read: EOF") (Some eof).
Example C79_ex_equal : forall E show, said E show (OGo (GErr 7 (lit "EOF") None)) = Some (g_msg eof) /\ err_eq E show (EWrap eof) (OErr (EWrap (GErr 8 (lit "EOF") (Some eof)))) = true.
Proof. split; reflexivity. Qed.
Example C79_ex_types :
  let a := EType (TArrSized 1 TString 0 5) (TExact 2 (VInt 3)) in let b := EType (TArrSized 3 TString 0 5) (TExact 4 (VInt 3)) in
  with_types nice a /\ with_types nice b /\ same_origin a b /\ (forall E show, err_eq E show a (OErr b) = true) /\ err_hash a = err_hash b.
Proof. repeat split; try exact I; try constructor; try (cbn; unfold max_int64; lia). Qed.
Example C79_ex_message :
  forall E show, message E show (EType TInt TString) = lit "a value of type string cannot be assigned to a variable of type int".
Proof. reflexivity. Qed.
Example C79_ex_causes : err_is (EWrap read_failed) 1 = true /\ g_id read_failed <> 1%nat /\ caused_by read_failed eof.
Proof. split; [reflexivity|]. split; [discriminate|]. constructor. constructor. Qed.
Example C79_ex_kept :
  Forall no_pointer ([EoValue eof; EoToError 0] ++ [EoToError 1; EoAssign 0 eof; EoValue eof]) /\
  snd (estep (erun {| es_held := []; es_given := [] |} [EoValue eof; EoToError 0; EoValue read_failed; EoAssign 0 read_failed]) (EoToError 1)) = EoGot read_failed.
Proof. split; [repeat constructor|reflexivity]. Qed.
Example C79_ex_containment : forall E show, et_assignable E show (ExactError eof) (ExactError (GErr 9 (lit "EOF") None)) = true /\ et_assignable E show (ExactError eof) ErrorType = false.
Proof. split; reflexivity. Qed.
