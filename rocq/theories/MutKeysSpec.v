(* What a map with mutable arrays as keys should do. *)
From Coq Require Import ZArith List Bool.
From Verif Require Import Int64 HMap HMapSpec MutKeys.
Import ListNotations.
Open Scope Z_scope.

Section Spec.
Variables (X V : Type).
Variable xeq : X -> X -> bool.

(* The program changes arrays, puts and removes entries of the map 0, and gets what it likes. *)
Definition on_map (a : action X V) : Prop :=
  match a with Change _ _ => True | Put m _ _ | Remove m _ => m = 0%nat | Get _ _ => True | _ => False end.

(* What has been put and removed: the content that the key had at that time *)
Fixpoint history (h : nat -> X) (l : list (action X V)) : list (event X V) :=
  match l with
  | [] => []
  | Change p x :: r => history (fun q => if Nat.eqb q p then x else h q) r
  | Put _ k v :: r => EvPut (match k with Fixed x => x | Shared p => h p end) v :: history h r
  | Remove _ k :: r => EvRemove (match k with Fixed x => x | Shared p => h p end) :: history h r
  | _ :: r => history h r
  end.
(* the contents of the arrays in the end *)
Fixpoint final (h : nat -> X) (l : list (action X V)) : nat -> X :=
  match l with
  | [] => h
  | Change p x :: r => final (fun q => if Nat.eqb q p then x else h q) r
  | _ :: r => final h r
  end.

(* The entries of an array that becomes a map, with the content that the keys have when it does *)
Definition entries_at (h : nat -> X) (kvs : list (mkey X * V)) : list (X * V) :=
  map (fun kv => (match fst kv with Fixed x => x | Shared p => h p end, snd kv)) kvs.
(* The program leaves the arrays alone that are keys. *)
Definition keeps_keys (kvs : list (mkey X * V)) (l : list (action X V)) : Prop :=
  forall p x, In (Change p x) l -> ~ In (Shared p) (map fst kvs).
End Spec.
