(* What streaming types with an alias map should do. *)
From Coq Require Import ZArith List Bool.
From Verif Require Import Int64 Data DataSpec Convert Stream StreamSpec NamedStream NamedStreamSpec AliasStream.
Import ListNotations.
Open Scope Z_scope.

(* the types in a value, in the order in which they occur *)
Fixpoint types_in (x : rv) : list (list Z) :=
  match x with
  | RArr l => flat_map types_in l
  | RMap m => flat_map (fun e => types_in (fst e) ++ types_in (snd e)) m
  | RSens x => types_in x
  | RType t => [t]
  | RObj _ arg => types_in arg
  | _ => []
  end.

(* Each of the types has a name. *)
Definition all_named (names : list Z -> option (list Z)) (x : rv) : Prop := Forall (fun t => names t <> None) (types_in x).
(* the names that are to be declared, with their types *)
Definition declared (names : list Z -> option (list Z)) (x : rv) : list (list Z * list Z) :=
  flat_map (fun t => match names t with Some n => [(n, t)] | None => [] end) (types_in x).
(* the word for aliases is different from the others *)
Definition alias_word (D : dialect) : Prop := ~ In (d_alias D) [d_map D; d_sensitive D; d_binary D; d_time D].
(* no name is used for two types *)
Definition names_differ (names : list Z -> option (list Z)) (x : rv) : Prop :=
  forall t t' n, In t (types_in x) -> In t' (types_in x) -> names t = Some n -> names t' = Some n -> t = t'.
