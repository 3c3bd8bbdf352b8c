(* Validate and ValidateVerbose of struct map types, /repo/internal/mapstruct.go:361-441. *)
From Coq Require Import ZArith List Bool.
From Verif Require Import Int64 Data Types Assign Construct.
Import ListNotations.
Open Scope Z_scope.

(* the errors of validate, mapstruct.go:369-396; the label of the key (parameterLabel 357-359, or a function
   given by the caller) is represented by the key *)
Inductive verror :=
  | ENotMap
  | EInstance (k : value) (t : ty)
  | EMissing (k : value)
  | EUnknown (k : value).

(* a call returns, panics, or exceeds the bound on the depth of Instance *)
Inductive vresult (A : Type) :=
  | Done (x : A)
  | Panics
  | Bound.
Arguments Done {A}. Arguments Panics {A}. Arguments Bound {A}.
Definition vmap {A B} (f : A -> B) (r : vresult A) : vresult B :=
  match r with Done x => Done (f x) | Panics => Panics | Bound => Bound end.

(* Each: structType mapstruct.go:208-215, exactMapType map.go:1211-1215. The key and value of an entry
   are types. None: not a StructMapType. *)
Definition each (p : ptr) (t : ty) : option (list (ty * ty * bool)) :=
  match t with
  | TStruct _ _ es => Some (map (fun e => (type_of p (fst (fst e)), snd (fst e), snd e)) es)
  | TExact _ (VMap m) => Some (map (fun e => (type_of p (fst e), type_of p (snd e), true)) m)
  | _ => None
  end.

(* Get(key) != nil: structType mapstruct.go:273-283 with array.IndexOf (array.go:1107-1116), exactMapType
   map.go:1230-1239 *)
Definition has_entry (p : ptr) (t : ty) (k : value) : bool :=
  match t with
  | TStruct _ _ es => existsb (fun e => type_eq (type_of p k) (type_of p (fst (fst e)))) es
  | TExact _ (VMap m) => match get_with (veq k) m with Some _ => true | None => false end
  | _ => false
  end.

Section World.
Variable W : world.

(* the function given to t.Each, mapstruct.go:379-389 *)
Fixpoint check_entries (n : nat) (p : ptr) (es : list (ty * ty * bool)) (m : list (value * value)) : vresult (list verror) :=
  match es with
  | [] => Done []
  | (kt, vt, required) :: r =>
      match exact_value kt with
      | None => Panics
      | Some ek =>
          match get_with (veq ek) m with
          | Some x =>
              match instance W n p vt x with
              | None => Bound
              | Some true => check_entries n p r m
              | Some false => vmap (cons (EInstance ek vt)) (check_entries n p r m)
              end
          | None =>
              if required then vmap (cons (EMissing ek)) (check_entries n p r m)
              else check_entries n p r m
          end
      end
  end.

(* the function given to pm.EachKey, mapstruct.go:390-394 *)
Fixpoint check_keys (p : ptr) (t : ty) (m : list (value * value)) : list verror :=
  match m with
  | [] => []
  | (k, _) :: r => if has_entry p t k then check_keys p t r else EUnknown k :: check_keys p t r
  end.

(* validate, mapstruct.go:369-396. The value is a dgo.Value; the conversion of other Go values by
   Value(value) is not modelled here. *)
Definition validate (n : nat) (p : ptr) (t : ty) (v : value) : vresult (list verror) :=
  match v with
  | VMap m =>
      match each p t with
      | None => Panics
      | Some es => vmap (fun errs => errs ++ check_keys p t m) (check_entries n p es m)
      end
  | _ => Done [ENotMap]
  end.

(* what validateVerbose writes, mapstruct.go:398-441: the calls of Append, Printf and NewLine on out and inner *)
Inductive vline :=
  | LNotMap
  | LValidating (k : value) (t : option ty)
  | LKey (k : value)
  | LOk
  | LFailed
  | LKeyFailed (k : value)
  | LExpected (t got : ty)
  | LRequired
  | LNotFound
  | LNewLine (inner : bool).

(* mapstruct.go:406-427; ok is the variable of the enclosing function *)
Fixpoint verbose_entries (n : nat) (p : ptr) (es : list (ty * ty * bool)) (m : list (value * value)) (ok : bool) : vresult (bool * list vline) :=
  match es with
  | [] => Done (ok, [])
  | (kt, vt, required) :: r =>
      match exact_value kt with
      | None => Panics
      | Some ek =>
          let head := [LValidating ek (Some vt); LNewLine true; LKey ek] in
          let go (lines : list vline) (ok : bool) :=
            vmap (fun x => (fst x, head ++ lines ++ [LNewLine false] ++ snd x)) (verbose_entries n p r m ok) in
          match get_with (veq ek) m with
          | Some x =>
              match instance W n p vt x with
              | None => Bound
              | Some true => go [LOk] ok
              | Some false => go [LFailed; LNewLine true; LExpected vt (type_of p x)] false
              end
          | None => if required then go [LFailed; LNewLine true; LRequired] false else go [] ok
          end
      end
  end.

(* mapstruct.go:428-438 *)
Fixpoint verbose_keys (p : ptr) (t : ty) (m : list (value * value)) (ok : bool) : bool * list vline :=
  match m with
  | [] => (ok, [])
  | (k, _) :: r =>
      if has_entry p t k then verbose_keys p t r ok
      else let (b, l) := verbose_keys p t r false in
           (b, [LValidating k None; LNewLine true; LKeyFailed k; LNewLine true; LNotFound; LNewLine false] ++ l)
  end.

(* validateVerbose, mapstruct.go:398-441 *)
Definition validate_verbose (n : nat) (p : ptr) (t : ty) (v : value) : vresult (bool * list vline) :=
  match v with
  | VMap m =>
      match each p t with
      | None => Panics
      | Some es =>
          vmap (fun x => let (b, l) := verbose_keys p t m (fst x) in (b, snd x ++ l)) (verbose_entries n p es m true)
      end
  | _ => Done (false, [LNotMap])
  end.
End World.
