(* What equality of entries means. *)
From Coq Require Import ZArith List Bool.
From Verif Require Import EntryEq.

Section Spec.
Variable L : Type.
Variable leq : L -> L -> bool.
Variable lfrozen : L -> bool.

(* An entry that is not a struct entry is answered for by any entry with an equal key and an equal value; a struct entry by a struct entry that is required as well, or as
   little. *)
Inductive means : value L -> value L -> Prop :=
| m_leaf x y : leq x y = true -> means (Leaf x) (Leaf y)
| m_map k v k' v' : means k k' -> means v v' -> means (MapE k v) (MapE k' v')
| m_any k v r k' v' : means k k' -> means v v' -> means (MapE k v) (StructE r k' v')
| m_struct r k v k' v' : means k k' -> means v v' -> means (StructE r k v) (StructE r k' v').

(* The struct entries are at the same places. *)
Inductive same_kinds : value L -> value L -> Prop :=
| s_leaf x y : same_kinds (Leaf x) (Leaf y)
| s_map k v k' v' : same_kinds k k' -> same_kinds v v' -> same_kinds (MapE k v) (MapE k' v')
| s_struct r r' k v k' v' : same_kinds k k' -> same_kinds v v' -> same_kinds (StructE r k v) (StructE r' k' v').

(* The value has no struct entries in it, or none outside of the keys of entries. *)
Fixpoint plain (a : value L) : Prop :=
  match a with Leaf _ => True | MapE _ v => plain v | StructE _ _ _ => False end.

(* Nothing in the value can change. *)
Fixpoint constant (a : value L) : Prop :=
  match a with Leaf x => lfrozen x = true | MapE k v | StructE _ k v => constant k /\ constant v end.
(* The keys of the entry, and of the entries that are its value, can not change. *)
Fixpoint constant_keys (a : value L) : Prop :=
  match a with Leaf _ => True | MapE k v | StructE _ k v => constant k /\ constant_keys v end.
End Spec.
