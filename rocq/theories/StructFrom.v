(* Struct types made from a map that describes their entries: StructMapTypeFromMap of /repo/internal/mapstruct.go. *)
From Coq Require Import ZArith List Bool.
From Verif Require Import Int64 HMap Data Types Construct.
Import ListNotations.
Open Scope Z_scope.

(* A value of the map that is given: a string, a type, a map with strings as keys, or anything else. Maps with other keys are left out;
   they have an entry with the key type or not, like the others. *)
Inductive described := DStr (s : list Z) | DTy (t : ty) | DMap (fs : list (list Z * described)) | DVal (v : value).

(* What Parse returns for a text (type.go Parse, /repo/parser): a type, or another value *)
Inductive parsed := PType (t : ty) | PValue (v : value).

(* The result: a type, the panic of IllegalAssignment (typeerror.go), or the panic of a type assertion *)
Inductive from_map := FType (t : ty) | FIllegal | FBroken.

(* map.Get of a string, map.go:579-594; the keys of a map are different *)
Fixpoint field (fs : list (list Z * described)) (k : list Z) : option described :=
  match fs with
  | [] => None
  | (k', d) :: r => if bytes_eqb k' k then Some d else field r k
  end.

Definition type_key : list Z := [116; 121; 112; 101].                           (* mapstruct.go:121 *)
Definition required_key : list Z := [114; 101; 113; 117; 105; 114; 101; 100].   (* mapstruct.go:122 *)

Section From.
(* if Parse(s) returns without a panic (string.go:107-128), and what it returns *)
Variable parses : list Z -> bool.
Variable parse : list Z -> parsed.

(* dgo|type: a string that is not empty and can be parsed (string.go:107-128), or a type *)
Definition is_source (d : described) : bool :=
  match d with DStr s => negb (Nat.eqb (length s) 0) && parses s | DTy _ => true | _ => false end.

(* {type:dgo|type,required?:bool,...} *)
Definition is_spec (d : described) : bool :=
  match d with
  | DMap fs =>
      match field fs type_key with Some x => is_source x | None => false end &&
      match field fs required_key with None | Some (DVal (VBool _)) => true | _ => false end
  | _ => false
  end.

(* mapstruct.go:81-86 StructFromMapType, and its Instance for the entries: map[string](dgo|type|{type:dgo|type,required?:bool,...}).
   What Instance returns is written out here; the general Instance is modelled in Types.v for values that contain no types. *)
Definition legal_entry (e : value * described) : bool :=
  match fst e with VStr _ => is_source (snd e) || is_spec (snd e) | _ => false end.

(* mapstruct.go:100-113 asType; a value that is no string has its exact type, but never gets here *)
Definition as_type (q : ptr) (d : described) : ty :=
  match d with
  | DTy t => t
  | DStr s => match parse s with PType t => t | PValue v => type_of q v end
  | DVal v => type_of q v
  | DMap _ => TMap
  end.

(* mapstruct.go:116-135: one call of the callback of EachEntry, with the flag exact, and the types of key and value and if it is required *)
Definition from_entry (q : ptr) (e : value * described) (exact : bool) : bool * (ty * ty * bool) :=
  let kt := type_of q (fst e) in
  let '(vt, rq) :=
    match snd e with
    | DMap fs =>
        (match field fs type_key with Some d => as_type q d | None => TNil end,
         match field fs required_key with Some (DVal (VBool b)) => b | _ => true end)
    | d => (as_type q d, true)
    end in
  (if exact && negb (rq && is_exact kt && is_exact vt) then false else exact, (kt, vt, rq)).

Fixpoint from_entries (q : ptr) (es : list (value * described)) (exact : bool) : bool * list (ty * ty * bool) :=
  match es with
  | [] => (exact, [])
  | e :: r => let (exact, x) := from_entry q e exact in let (exact, xs) := from_entries q r exact in (exact, x :: xs)
  end.

(* mapstruct.go:89-149 StructMapTypeFromMap with createExactMap (59-66) and checkExactKeys (151-158); the panic of checkExactKeys is FBroken *)
Definition struct_from_map (p q : ptr) (additional : bool) (es : list (value * described)) : from_map :=
  if negb (forallb legal_entry es) then FIllegal
  else
    let (exact, xs) := from_entries q es (negb additional) in
    if exact then
      match exact_map xs [] with Some m => FType (TExact p (VMap m)) | None => FBroken end
    else if forallb (fun x : ty * ty * bool => is_exact (fst (fst x))) xs then
      match exact_values (map (fun x : ty * ty * bool => fst (fst x)) xs) with
      | Some ks => FType (TStruct p additional (combine (combine ks (map (fun x : ty * ty * bool => snd (fst x)) xs)) (map snd xs)))
      | None => FBroken
      end
    else FBroken.
End From.
