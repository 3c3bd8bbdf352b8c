(* Equals, HashCode and FrozenCopy of entries (/repo/internal/map.go:93-132, 142-149, mapstruct.go:467-478), and entries as keys of maps. *)
From Coq Require Import ZArith List Bool.
From Verif Require Import Int64 HMap.
Import ListNotations.
Open Scope Z_scope.

Section Entries.
Variable L : Type.
(* Equals and HashCode of the values that are not entries (C06, C07) *)
Variable leq : L -> L -> bool.
Variable lhash : L -> Z.
(* Frozen and FrozenCopy of these values; values that are not Freezable are frozen *)
Variable lfrozen : L -> bool.
Variable lcopy : L -> L.

(* A value that may be an entry: mapEntry and hashNode, which embeds mapEntry and its methods (map.go:36-51), and structEntry (mapstruct.go:21-24), which embeds
   mapEntry and has its own deepEqual. Simplified: entries do not contain themselves, so `seen` is never hit; values that are not entries do not contain entries. *)
Inductive value :=
| Leaf (x : L)
| MapE (k v : value)
| StructE (required : bool) (k v : value).

(* other.(dgo.MapEntry) and its Key() and Value(): all entries are, dgo/map.go:5-19 *)
Definition as_entry (b : value) : option (value * value) :=
  match b with Leaf _ => None | MapE k v | StructE _ k v => Some (k, v) end.
(* other.(dgo.StructMapEntry) *)
Definition as_struct_entry (b : value) : option (bool * value * value) :=
  match b with StructE r k v => Some (r, k, v) | _ => None end.

(* equals, compare.go:111-132, with deepEqual of mapEntry (map.go:97-102) and of structEntry (mapstruct.go:471-478) *)
Fixpoint equals (a b : value) {struct a} : bool :=
  match a with
  | Leaf x => match b with Leaf y => leq x y | _ => false end
  | MapE k v => match as_entry b with
                | Some (k', v') => equals k k' && equals v v'
                | None => false
                end
  | StructE r k v => match as_struct_entry b with
                     | Some (r', k', v') => Bool.eqb r r' && equals k k' && equals v v'
                     | None => false
                     end
  end.

(* deepHashCode of an entry, map.go:108-110, which structEntry inherits *)
Fixpoint hash_code (a : value) : Z :=
  match a with
  | Leaf x => lhash x
  | MapE k v | StructE _ k v => Z.lxor (hash_code k) (hash_code v)
  end.

(* Frozen of an entry, map.go:118-123, which structEntry and hashNode inherit: the key is not asked *)
Fixpoint frozen (a : value) : bool :=
  match a with Leaf x => lfrozen x | MapE _ v | StructE _ _ v => frozen v end.
(* FrozenCopy, map.go:125-132 with copyFreeze (177-181), and 142-149 for hashNode. A structEntry inherits the method of the mapEntry that it embeds, so
   that the receiver v that is returned if it is frozen is that mapEntry. *)
Fixpoint frozen_copy (a : value) : value :=
  match a with
  | Leaf x => Leaf (if lfrozen x then x else lcopy x)
  | MapE k v | StructE _ k v => MapE k (if frozen v then v else frozen_copy v)
  end.

Variable V : Type.
(* Put, map.go:599-638, as HMap.hput, but the chain is searched for the key, while its frozen copy is stored. The code computes the hash
   code of the key only; that of the copy is the same (C102_frozen_copy_partial with C102_equivalence_partial). *)
Definition put (s : list (node value V)) (g0 : hmap) (k : value) (v : V) : option (list (node value V) * hmap * option V) :=
  let g := match htbl g0 with
           | [] => HMap (repeat None (Z.to_nat (tableSizeFor 1))) (hlen g0) (hfirst g0) (hlast g0) (hfrozen g0)
           | _ => g0
           end in
  match nth_error (htbl g) (hidx value hash_code (htbl g) k) with
  | None => None
  | Some e =>
    match find_chain value V equals (fuel_of s) s k e with
    | None => None
    | Some (Some i) =>
      match nth_error s i with
      | None => None
      | Some nd => Some (upd s i (set_val nd v), g, Some (nval nd))
      end
    | Some None =>
      match (if over_load (hlen g + 1) (tlen (htbl g)) then hresize value V hash_code s g g 1 else Some (s, g)) with
      | None => None
      | Some (s1, g1) =>
        match append_node value V hash_code s1 g1 (frozen_copy k) v with
        | None => None
        | Some (s2, g2) => Some (s2, HMap (htbl g2) (hlen g2 + 1) (hfirst g2) (hlast g2) (hfrozen g2), None)
        end
      end
    end
  end.
(* a program that puts entries into a map (map.go:599-638) *)
Fixpoint puts (s : list (node value V)) (g : hmap) (l : list (value * V)) : option (list (node value V) * hmap) :=
  match l with
  | [] => Some (s, g)
  | (k, v) :: r => match put s g k v with Some (s, g, _) => puts s g r | None => None end
  end.
End Entries.
Arguments Leaf {L}. Arguments MapE {L}. Arguments StructE {L}.
