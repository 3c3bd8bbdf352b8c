(* Specification of the map operations: an insertion ordered dictionary is a list of
   (key, value) pairs. Nothing here refers to tables, nodes, pointers or capacities; only
   the names of the operations and of their results are taken from HMap. *)
From Coq Require Import ZArith List Bool.
From Verif Require Import HMap.
Import ListNotations.
Open Scope Z_scope.

Section Spec.
Variables (K V : Type).
Variable keq : K -> K -> bool.
Variable veq : V -> V -> bool.
Variable vnil : V -> bool.
Variables vfreeze vthaw : V -> V.

Definition dict := list (K * V).

(* the value of the first pair whose key equals k *)
Fixpoint dget (d : dict) (k : K) : option V :=
  match d with
  | [] => None
  | (k', v) :: r => if keq k k' then Some v else dget r k
  end.

(* replace the value in place, or add a pair at the end *)
Fixpoint dput (d : dict) (k : K) (v : V) : dict :=
  match d with
  | [] => [(k, v)]
  | (k', v') :: r => if keq k k' then (k', v) :: r else (k', v') :: dput r k v
  end.

Fixpoint dremove (d : dict) (k : K) : dict :=
  match d with
  | [] => []
  | (k', v') :: r => if keq k k' then r else (k', v') :: dremove r k
  end.

Definition dputall (d e : dict) : dict := fold_left (fun a kv => dput a (fst kv) (snd kv)) e d.
Definition dremoveall (d : dict) (ks : list K) : dict := fold_left dremove ks d.

(* no key equals a later one *)
Fixpoint distinct (d : dict) : Prop :=
  match d with
  | [] => True
  | (k, _) :: r => (forall k' v', In (k', v') r -> keq k k' = false) /\ distinct r
  end.

Record amap := AMap { ad : dict; af : bool }.

Definition aworld := list amap.

Notation op := (op K V).
Notation out := (out K V).

Definition anew (w : aworld) (d : dict) (fr : bool) : aworld * out :=
  (w ++ [AMap d fr], RMap (length w)).

Definition aset (w : aworld) (m : nat) (d : dict) (fr : bool) : aworld := upd w m (AMap d fr).

Definition awith (w : aworld) (m : nat) (f : amap -> aworld * out) : aworld * out :=
  match nth_error w m with None => (w, RBad) | Some a => f a end.

Definition step_spec (w : aworld) (o : op) : aworld * out :=
  match o with
  | OpNew _ => anew w [] false
  | OpEmpty => anew w [] true
  | OpToMap kvs fr => anew w (dputall [] kvs) fr
  | OpGet m k => awith w m (fun a => (w, RVal (dget (ad a) k)))
  | OpContainsKey m k => awith w m (fun a =>
      (w, RBool (existsb (fun kv => keq k (fst kv)) (ad a))))
  | OpLen m => awith w m (fun a => (w, RLen (Z.of_nat (length (ad a)))))
  | OpEntries m => awith w m (fun a => (w, REntries (ad a)))
  | OpPut m k v => awith w m (fun a =>
      if af a then (w, RPanic)
      else (aset w m (dput (ad a) k v) false, RVal (dget (ad a) k)))
  | OpPutAll m a' => awith w m (fun a => awith w a' (fun b =>
      match ad b with
      | [] => (w, RUnit)
      | _ => if af a then (w, RPanic)
             else (aset w m (dputall (ad a) (ad b)) false, RUnit)
      end))
  | OpRemove m k => awith w m (fun a =>
      if af a then (w, RPanic)
      else (aset w m (dremove (ad a) k) false, RVal (dget (ad a) k)))
  | OpRemoveAll m ks => awith w m (fun a =>
      if af a then (w, RPanic)
      else (aset w m (dremoveall (ad a) ks) false, RUnit))
  | OpWith m k v => awith w m (fun a =>
      (* a map that already associates an equal value with k may be returned as is *)
      if match dget (ad a) k with Some x => veq v x | None => false end then (w, RMap m)
      else anew w (dput (ad a) k v) (af a))
  | OpWithout m k => awith w m (fun a =>
      match dget (ad a) k with
      | None => (w, RMap m)
      | Some _ => anew w (dremove (ad a) k) (af a)
      end)
  | OpWithoutAll m ks => awith w m (fun a =>
      if Nat.eqb (length (dremoveall (ad a) ks)) (length (ad a)) then (w, RMap m)
      else anew w (dremoveall (ad a) ks) (af a))
  | OpMerge m a' => awith w m (fun a => awith w a' (fun b =>
      match ad b with
      | [] => (w, RMap m)
      | _ => if Nat.eqb m a' then (w, RMap m)
             else match ad a with
                  | [] => (w, RMap a')
                  | _ => anew w (dputall (ad a) (ad b)) (af a)
                  end
      end))
  | OpCopy m fr => awith w m (fun a =>
      if fr && af a then (w, RMap m)
      else anew w (map (fun kv => (fst kv, if fr then vfreeze (snd kv) else vthaw (snd kv))) (ad a)) fr)
  | OpMap m f => awith w m (fun a =>
      anew w (map (fun kv => (fst kv, f (fst kv) (snd kv))) (ad a)) (af a))
  | OpFreeze m => awith w m (fun a => (aset w m (ad a) true, RUnit))
  | OpFrozen m => awith w m (fun a => (w, RBool (af a)))
  end.

Fixpoint run_spec (w : aworld) (os : list op) : aworld * list out :=
  match os with
  | [] => (w, [])
  | o :: r => let (w1, x) := step_spec w o in
              let (w2, xs) := run_spec w1 r in (w2, x :: xs)
  end.

(* The cases in which the code is known to deviate from the dictionary reading are excluded:
   With is not given the Nil value, and ToMap is given pairwise different keys. *)
Definition op_ok (o : op) : Prop :=
  match o with
  | OpWith _ _ v => vnil v = false
  | OpToMap kvs _ => distinct kvs
  | _ => True
  end.

(* The laws of Equals and HashCode that a key type must obey (property C06 and C07). *)
Record lawful (khash : K -> Z) : Prop := {
  law_refl : forall k, keq k k = true;
  law_sym : forall a b, keq a b = true -> keq b a = true;
  law_trans : forall a b c, keq a b = true -> keq b c = true -> keq a c = true;
  law_hash : forall a b, keq a b = true -> khash a = khash b }.

(* A history of one mutable map, oldest event first, and what Get must then answer. *)
Inductive event := EvPut (k : K) (v : V) | EvRemove (k : K).

Definition event_op (m : nat) (e : event) : op :=
  match e with EvPut k v => OpPut m k v | EvRemove k => OpRemove m k end.

Definition latest (h : list event) (k : K) : option V :=
  fold_left (fun acc e =>
    match e with
    | EvPut k' v => if keq k k' then Some v else acc
    | EvRemove k' => if keq k k' then None else acc
    end) h None.

(* operations of a mutable map that have no restriction at all *)
Definition basic_op (o : op) : Prop :=
  match o with OpWith _ _ _ => False | OpToMap _ _ => False | _ => True end.

Definition read_op (m : nat) (o : op) : Prop :=
  match o with
  | OpGet m' _ | OpContainsKey m' _ | OpLen m' | OpEntries m' | OpFrozen m' => m' = m
  | _ => False
  end.

Definition mutates (m : nat) (o : op) : Prop :=
  match o with
  | OpPut m' _ _ | OpRemove m' _ | OpRemoveAll m' _ => m' = m
  | _ => False
  end.

(* An attempt to change map m: PutAll counts if its argument is a map that is not empty (n is
   what Len of the argument gives). *)
Definition attempt (m : nat) (len : nat -> out) (o : op) : Prop :=
  match o with
  | OpPutAll m' a => m' = m /\ exists n, len a = RLen n /\ n <> 0
  | _ => mutates m o
  end.

(* The dictionary that an operation without side effects yields: d is the dictionary of the
   receiver, fr says whether it is frozen, e is the dictionary of the argument of Merge. *)
Definition pure_result (d : dict) (fr : bool) (e : dict) (o : op) : option dict :=
  match o with
  | OpWith _ k v =>
    Some (match dget d k with
          | Some x => if veq v x then d else dput d k v
          | None => d ++ [(k, v)]
          end)
  | OpWithout _ k => Some (dremove d k)
  | OpWithoutAll _ ks => Some (dremoveall d ks)
  | OpMerge _ _ => Some (dputall d e)
  | OpCopy _ true => Some (if fr then d else map (fun kv => (fst kv, vfreeze (snd kv))) d)
  | OpCopy _ false => Some (map (fun kv => (fst kv, vthaw (snd kv))) d)
  | OpMap _ f => Some (map (fun kv => (fst kv, f (fst kv) (snd kv))) d)
  | _ => None
  end.

Definition receiver (o : op) : nat :=
  match o with
  | OpWith m _ _ | OpWithout m _ | OpWithoutAll m _ | OpMerge m _ | OpCopy m _ | OpMap m _ => m
  | _ => O
  end.
Definition argument (o : op) : nat := match o with OpMerge _ a => a | _ => receiver o end.

End Spec.

Arguments EvPut {K V}. Arguments EvRemove {K V}.

Arguments AMap {K V}. Arguments ad {K V}. Arguments af {K V}.
