(* What C84 requires of the things that types say about themselves. *)
From Coq Require Import Strings.Ascii Strings.String.
From Coq Require Import ZArith List Bool.
From Coq Require Import Floats.SpecFloat.
From Verif Require Import Int64 Data DataSpec Types TypesSpec Print.
Import ListNotations.
Open Scope Z_scope.

(* the size of a value that has one *)
Definition size (v : value) : option Z :=
  match v with
  | VStr s | VBin s => Some (Z.of_nat (length s))
  | VArr l => Some (Z.of_nat (length l))
  | VMap m => Some (Z.of_nat (length m))
  | _ => None
  end.
(* strings and binaries also have lengths that are ints *)
Definition text_fits (v : value) : Prop := match v with VStr s | VBin s => Z.of_nat (length s) <= max_int64 | _ => True end.

(* a number between two others, the end included or not *)
Definition in_ints (b : Z * Z * bool) (z : Z) : Prop := let '(lo, hi, incl) := b in lo <= z /\ if incl then z <= hi else z < hi.
Definition in_floats (b : spec_float * spec_float * bool) (f : spec_float) : Prop :=
  let '(lo, hi, incl) := b in SFleb lo f = true /\ if incl : bool then SFleb f hi = true else SFltb f hi = true.

(* the lengths in the value of an exact type are ints *)
Definition fits_type (t : ty) : Prop := match t with TExact _ v => fits v | _ => True end.

(* array types that do not have more than one element type *)
Definition simple_array (t : ty) : Prop :=
  match t with
  | TTuple _ (_ :: _ :: _) _ | TExact _ (VArr (_ :: _ :: _)) => False
  | TArray | TArrSized _ _ _ _ | TTuple _ _ _ | TExact _ (VArr _) => True
  | _ => False
  end.
(* map types that do not have more than one type of keys or values *)
Definition simple_map (t : ty) : Prop :=
  match t with
  | TMap | TMapSized _ _ _ _ _ | TExact _ (VMap []) | TExact _ (VMap [_]) | TStruct _ false [] | TStruct _ false [_] => True
  | _ => False
  end.

(* what a type is called, from what it is; an exact type is called as the type of its values *)
Definition value_word (v : value) : list Z :=
  match v with
  | VNil => lit "nil" | VBool _ => lit "bool" | VInt _ => lit "int" | VFloat _ => lit "float" | VStr _ => lit "string" | VBin _ => lit "binary"
  | VTime _ _ _ => lit "time" | VRegexp _ => lit "regexp" | VSens _ => lit "sensitive" | VArr _ => lit "slice" | VMap _ => lit "map"
  end.
Definition type_word (t : ty) : list Z :=
  match t with
  | TAny => lit "any" | TNil => lit "nil" | TBool => lit "bool" | TInt => lit "int" | TIntRange _ _ _ => lit "int range" | TFloat => lit "float"
  | TFloatRange _ _ _ => lit "float range" | TString | TStrSized _ _ | TCiStr _ => lit "string" | TDgoString => lit "dgo" | TPattern _ => lit "pattern"
  | TBinary _ _ => lit "binary" | TTime => lit "time" | TRegexp => lit "regexp" | TExact _ v => value_word v | TSens _ _ => lit "sensitive"
  | TArray | TArrSized _ _ _ _ => lit "slice" | TTuple _ _ _ => lit "tuple" | TMap | TMapSized _ _ _ _ _ => lit "map" | TStruct _ _ _ => lit "struct"
  | TAllOf _ _ | TAllOfValue _ _ => lit "all of" | TAnyOf _ _ => lit "any of" | TOneOf _ _ => lit "one of" | TNot _ _ => lit "not" | TMeta _ => lit "type"
  end.
