(* What a map that describes a struct type should mean. *)
From Coq Require Import ZArith List Bool String.
From Verif Require Import Int64 HMap Data DataSpec Types TypesSpec Construct ConstructSpec StructFrom Print.
Import ListNotations.
Local Open Scope string_scope.
Local Open Scope list_scope.
Open Scope Z_scope.

Section Spec.
Variable parses : list Z -> bool.
Variable parse : list Z -> parsed.

(* A type is given as it is or by its text; the text of a value gives the type of that value. *)
Inductive gives (q : ptr) : described -> ty -> Prop :=
| GivesType t : gives q (DTy t) t
| GivesText s t : s <> [] -> parses s = true -> parse s = PType t -> gives q (DStr s) t
| GivesValue s v : s <> [] -> parses s = true -> parse s = PValue v -> gives q (DStr s) (type_of q v).

(* The entry with a key; the keys of a map are different, so that it is the only one *)
Definition entry_is (fs : list (list Z * described)) (k : list Z) (d : described) : Prop := exists a b, fs = a ++ (k, d) :: b /\ ~ In k (map fst a).
Definition no_entry (fs : list (list Z * described)) (k : list Z) : Prop := ~ In k (map fst fs).
Definition k_type : list Z := lit "type".
Definition k_required : list Z := lit "required".

(* An entry is described by its type, and is then required, or by a map with a type, where it is required unless it says otherwise. *)
Inductive describes (q : ptr) : described -> ty -> bool -> Prop :=
| DescType d t : gives q d t -> describes q d t true
| DescMap fs d t : entry_is fs k_type d -> gives q d t -> no_entry fs k_required -> describes q (DMap fs) t true
| DescRequired fs d t b : entry_is fs k_type d -> gives q d t -> entry_is fs k_required (DVal (VBool b)) -> describes q (DMap fs) t b.

(* The entries of the struct type are described by the map: the keys are strings. *)
Inductive entry_described (q : ptr) : value * described -> value * ty * bool -> Prop :=
| EntryDescribed s d t r : describes q d t r -> entry_described q (VStr s, d) (VStr s, t, r).
End Spec.

(* The maps that can not be made into a type: they describe a single value with nil in it *)
Definition nil_constant (additional : bool) (xs : list (value * ty * bool)) : Prop :=
  additional = false /\ Forall (fun x => snd x = true /\ is_exact (snd (fst x)) = true) xs /\ Exists (fun x => snd (fst x) = TNil) xs.
