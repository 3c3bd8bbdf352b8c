(* Errors: errw, errType and exactErrorType (/repo/internal/error.go), and the errors that dgo makes itself,
   /repo/internal/typeerror.go.

   Types are those of Types.v, texts of types those of Syntax.v. *)
From Coq Require Import ZArith List Bool String.
From Verif Require Import Int64 Data Types Lexer Print Syntax.
Import ListNotations.
Open Scope Z_scope.

(* A Go error: the identity of the object (==), what Error() returns, and what Unwrap() returns, if it has that method and the
   result is not nil. *)
Inductive gerr := GErr (id : nat) (msg : list Z) (cause : option gerr).
Definition g_id (e : gerr) : nat := match e with GErr i _ _ => i end.
Definition g_msg (e : gerr) : list Z := match e with GErr _ m _ => m end.
Definition g_cause (e : gerr) : option gerr := match e with GErr _ _ c => c end.

(* The values that are errors: errw (error.go:11-13), which holds a Go error that is no dgo value (value.go:33-46, 67-68), and
   typeError, mapKeyError and sizeError (typeerror.go:10-25). The key of a mapKeyError is the type of the key (typeerror.go:111-114). *)
Inductive everr :=
| EWrap (e : gerr)
| EType (expected actual : ty)
| EKey (t : ty) (key : ty)
| ESize (t : ty) (n : Z).

(* what Equals and Instance can be asked about: a Go error, an error, or another value *)
Inductive operand := OGo (e : gerr) | OErr (e : everr) | OVal (v : value).

Section Text.
Variable E : env.
(* String() of the value of an exact type, %s of package fmt *)
Variable show : value -> list Z.

(* Error(): errw error.go:103-105, mapKeyError typeerror.go:34-36, typeError 57-68, sizeError 89-92 (%d in base 10, which is String() of an
   integer). actual is the type of a value (typeerror.go:107-109), so that the only types with an ExactValue are the exact types. *)
Definition what (actual : ty) : list Z :=
  match actual with
  | TExact _ (VStr s) => lit "the string " ++ quote_bytes E s
  | TExact _ v => lit "the value " ++ show v
  | t => lit "a value of type " ++ type_string E t
  end.
Definition message (e : everr) : list Z :=
  match e with
  | EWrap g => g_msg g
  | EType expected actual => what actual ++ lit " cannot be assigned to a variable of type " ++ type_string E expected
  | EKey t k => lit "key " ++ type_string E k ++ lit " cannot added to type " ++ type_string E t
  | ESize t n => lit "size constraint violation on type " ++ type_string E t ++ lit " when attempting resize to " ++ show (VInt n)
  end.

(* Equals: errw error.go:89-97, mapKeyError typeerror.go:27-32, typeError 50-55, sizeError 82-87 *)
Definition err_eq (a : everr) (o : operand) : bool :=
  match a, o with
  | EWrap g, OGo h => bytes_eqb (g_msg g) (g_msg h)
  | EWrap g, OErr b => bytes_eqb (g_msg g) (message b)
  | EType t u, OErr (EType t' u') => type_eq t t' && type_eq u u'
  | EKey t k, OErr (EKey t' k') => type_eq t t' && type_eq k k'
  | ESize t n, OErr (ESize t' n') => type_eq t t' && (n =? n')
  | _, _ => false
  end.

(* HashCode: errw error.go:99-101, mapKeyError typeerror.go:38-40, typeError 70-72, sizeError 94-96 *)
Definition err_hash (a : everr) : Z :=
  match a with
  | EWrap g => string_hash (g_msg g)
  | EType t u => w64 (thash t * 31 + thash u)
  | EKey t k => w64 (thash t * 31 + thash k)
  | ESize t n => w64 (thash t * 7 + n)
  end.

(* ---------- types ---------- *)

(* DefaultErrorType and exactErrorType, error.go:10-24 *)
Inductive etype := ErrorType | ExactError (g : gerr).
(* Type(): error.go:128-132, typeerror.go:46-48, 78-80, 102-104 *)
Definition err_type (a : everr) : etype := match a with EWrap g => ExactError g | _ => ErrorType end.
(* Instance: error.go:48-51; exact.go:30-32 *)
Definition et_instance (t : etype) (o : operand) : bool :=
  match t, o with
  | ErrorType, (OGo _ | OErr _) => true
  | ErrorType, OVal _ => false
  | ExactError g, o => err_eq (EWrap g) o
  end.
(* IsInstance: error.go:53-55, 73-75; it is given an error *)
Definition et_is_instance (t : etype) (o : operand) : bool :=
  match t with ErrorType => true | ExactError g => err_eq (EWrap g) o end.
(* Equals: error.go:32-34; exact.go:19-24 *)
Definition et_eq (a b : etype) : bool :=
  match a, b with
  | ErrorType, ErrorType => true
  | ExactError g, ExactError h => err_eq (EWrap g) (OErr (EWrap h))
  | _, _ => false
  end.
(* HashCode: error.go:36-38; exact.go:26-28; TiError is 10 and TiErrorExact is 34 (typeidentifier.go:7-145) *)
Definition et_hash (t : etype) : Z :=
  match t with ErrorType => 10 | ExactError g => w64 (string_hash (g_msg g) * 7 + 34) end.
(* Assignable: error.go:40-46; exact.go:15-17. CheckAssignableTo says no to these types. *)
Definition et_assignable (a b : etype) : bool :=
  match a with ErrorType => true | ExactError _ => et_eq a b end.
End Text.

(* ---------- Unwrap ---------- *)

(* errors.Is (package errors) of a Go error: one of the errors that Unwrap leads to is the target *)
Fixpoint go_is (e : gerr) (target : nat) : bool :=
  match e with
  | GErr i _ c => Nat.eqb i target || match c with Some c => go_is c target | None => false end
  end.
(* errw.Unwrap, error.go:119-126; the other errors have no such method *)
Definition unwrap (a : everr) : option gerr := match a with EWrap g => g_cause g | _ => None end.
(* errors.Is of an error that is a value; a Go error that is no value is another object than the value itself *)
Definition err_is (a : everr) (target : nat) : bool := match unwrap a with Some c => go_is c target | None => false end.

(* ---------- ReflectTo ---------- *)

(* The Go errors that the errw values hold, by the number of the value, and the pointers to them that ReflectTo has given away. *)
Record estate := { es_held : list gerr; es_given : list nat }.
Inductive eop :=
| EoValue (g : gerr)             (* vf.Value of a Go error, value.go:67-68 *)
| EoToError (v : nat)            (* vf.FromValue into a variable of the type error, error.go:111 *)
| EoToPointer (v : nat)          (* vf.FromValue into a variable of the type *error, error.go:108-109 *)
| EoAssign (v : nat) (g : gerr). (* Go code assigns to the target of such a pointer *)
Inductive eout := EoNone | EoGot (g : gerr) | EoBad.
Fixpoint set_nth (l : list gerr) (n : nat) (g : gerr) : list gerr :=
  match l, n with [], _ => [] | _ :: r, O => g :: r | x :: r, S n => x :: set_nth r n g end.
Definition estep (s : estate) (o : eop) : estate * eout :=
  match o with
  | EoValue g => ({| es_held := es_held s ++ [g]; es_given := es_given s |}, EoNone)
  | EoToError v => (s, match nth_error (es_held s) v with Some g => EoGot g | None => EoBad end)
  | EoToPointer v =>
      match nth_error (es_held s) v with
      | Some _ => ({| es_held := es_held s; es_given := v :: es_given s |}, EoNone)
      | None => (s, EoBad)
      end
  | EoAssign v g =>
      if existsb (Nat.eqb v) (es_given s) then ({| es_held := set_nth (es_held s) v g; es_given := es_given s |}, EoNone) else (s, EoBad)
  end.
Definition erun (s : estate) (os : list eop) : estate := fold_left (fun s o => fst (estep s o)) os s.
Definition ewrapped (s : estate) (v : nat) : option everr := option_map EWrap (nth_error (es_held s) v).
