(* Mutable arrays as keys of maps: Put stores a frozen copy (/repo/internal/map.go:599-638, 900-905), ToMap (array.go:1308-1339) does not.

   A key is a value that can not change, or a mutable array, whose content changes when the array does. What HashCode and Equals return depends on
   the content only. Maps are those of HMap.v, where the content of the keys is fixed during an operation, but not between operations. *)
From Coq Require Import ZArith List Bool.
From Verif Require Import Int64 HMap.
Import ListNotations.
Open Scope Z_scope.

Section Keys.
Variables (X V : Type).
(* Equals and HashCode of contents *)
Variable xeq : X -> X -> bool.
Variable xhash : X -> Z.
(* the other parameters of HMap.v *)
Variable veq : V -> V -> bool.
Variable vnil : V -> bool.
Variables vfreeze vthaw : V -> V.

(* a dgo.Value that is used as a key: frozen, or the mutable array p (array.go:15-18) *)
Inductive mkey := Fixed (x : X) | Shared (p : nat).
(* the contents of the mutable arrays (array.go:15-18, the slice) and what a key contains now *)
Definition contents := nat -> X.
Definition content (h : contents) (k : mkey) : X := match k with Fixed x => x | Shared p => h p end.
(* k.Equals(k') and k.HashCode(), array.go:1013-1022, 1090-1101 *)
Definition keq_at (h : contents) (a b : mkey) : bool := xeq (content h a) (content h b).
Definition khash_at (h : contents) (k : mkey) : Z := xhash (content h k).
(* frozenCopy(k), map.go:900-905, with FrozenCopy of an array, array.go:935-954, 1075-1077: the copy never changes, which leaves out
   elements that are not Freezable and change nevertheless (native values), and mutable elements of frozen arrays (C20_with_refuted) *)
Definition frozen_copy (h : contents) (k : mkey) : mkey := Fixed (content h k).

(* what a program does: it changes an array by any of its methods (array.go), or calls a method of the map m *)
Inductive action :=
| Change (p : nat) (x : X)
| NewMap (capacity : Z)
| ToMap (kvs : list (mkey * V))
| Put (m : nat) (k : mkey) (v : V)
| Remove (m : nat) (k : mkey)
| Get (m : nat) (k : mkey).

(* the operation of HMap.v; Put looks for the key itself, which finds what its frozen copy finds, and stores the copy *)
Definition op_of (h : contents) (a : action) : option (op mkey V) :=
  match a with
  | Change _ _ => None
  | NewMap c => Some (OpNew c)
  | ToMap kvs => Some (OpToMap kvs false)
  | Put m k v => Some (OpPut m (frozen_copy h k) v)
  | Remove m k => Some (OpRemove m k)
  | Get m k => Some (OpGet m k)
  end.

(* the array p has the content x from now on, however it was changed (array.go Add, Set, Insert, Remove, ...) *)
Definition changed (h : contents) (p : nat) (x : X) : contents := fun q => if Nat.eqb q p then x else h q.

(* one action (map.go and array.go as cited in HMap.v), and what it returns *)
Definition act (h : contents) (w : world mkey V) (a : action) : contents * world mkey V * list (out mkey V) :=
  match a with
  | Change p x => (changed h p x, w, [])
  | _ => match op_of h a with
         | Some o => let (w', r) := step mkey V (keq_at h) (khash_at h) veq vnil vfreeze vthaw w o in (h, w', [r])
         | None => (h, w, [])
         end
  end.
(* a program, the actions of which are executed one after the other *)
Fixpoint acts (h : contents) (w : world mkey V) (l : list action) : contents * world mkey V * list (out mkey V) :=
  match l with
  | [] => (h, w, [])
  | a :: r => let '(h, w, x) := act h w a in let '(h, w, xs) := acts h w r in (h, w, x ++ xs)
  end.
End Keys.
Arguments Fixed {X}. Arguments Shared {X}.
Arguments Change {X V}. Arguments NewMap {X V}. Arguments ToMap {X V}. Arguments Put {X V}. Arguments Remove {X V}. Arguments Get {X V}.
