(* Instance on types that refer to themselves, and on values that contain themselves: /repo/internal.

   Aliases make such types: in x=int|[]x the element type of the array type is the type int|[]x itself, once the reference is
   resolved (alias.go:210-222, array.go:257-261, ternary.go:340-345, ...). A type is a graph of nodes. Left out are exact types of
   arrays and maps, function types and meta types with a type that is part of the graph. *)
From Coq Require Import ZArith List Bool.
From Verif Require Import Int64 HMap Data Arr Types Assign Graph.
Import ListNotations.
Open Scope Z_scope.

(* What a dgo.Type is. [NLeaf t] has no types in it and does not implement DeepInstance. The others: sizedArrayType (array.go:45-50),
   tupleType (56-60), sizedMapType (map.go:38-44), structType (mapstruct.go:16-22; keys are exact types), allOfType, anyOfType and
   oneOfType (ternary.go:10-17), notType (not.go:9-11), sensitiveType (sensitive.go:13-15). *)
Inductive rnode :=
| NLeaf (t : ty)
| NArr (e : nat) (min max : Z)
| NTuple (ts : list nat) (variadic : bool)
| NMap (k v : nat) (min max : Z)
| NStruct (additional : bool) (es : list (value * nat * bool))
| NAll (ts : list nat) | NAny (ts : list nat) | NOne (ts : list nat)
| NNot (t : nat) | NSens (t : nat).
(* the node at address p is the p'th of the list *)
Definition tgraph := list rnode.

(* the types without types in them that do not implement DeepInstance *)
Definition leaf_type (t : ty) : bool :=
  match t with
  | TAny | TNil | TBool | TInt | TIntRange _ _ _ | TFloat | TFloatRange _ _ _ | TString | TDgoString | TStrSized _ _ | TCiStr _ | TPattern _
  | TBinary _ _ | TTime | TRegexp | TArray | TMap => true
  | TExact _ v => match v with VArr _ | VMap _ | VSens _ => false | _ => true end
  | _ => false
  end.

(* whether the type implements dgo.DeepInstance: array.go:237, 560, map.go:1071, mapstruct.go:251, ternary.go:106, 318, 436 *)
Definition deep_node (nd : rnode) : bool :=
  match nd with
  | NArr _ _ _ | NTuple _ _ | NMap _ _ _ _ | NStruct _ _ | NAll _ | NAny _ | NOne _ => true
  | NLeaf _ | NNot _ | NSens _ => false
  end.

(* ---------- the guard, compare.go:15-45 ---------- *)

Record rguard := { a_seen : list nat; b_seen : list gval; in_a : bool; in_b : bool }.

(* identity of values. Values that are no pointers are finite: such a value is different from what it contains, so equality stands
   for identity on the path from the root *)
Definition gval_eq_dec : forall a b : gval, {a = b} + {a <> b}.
Proof. decide equality; [apply value_eq_dec|apply Nat.eq_dec]. Defined.
Definition same_val (a b : gval) : bool := if gval_eq_dec a b then true else false.

(* Append, compare.go:26-41: the receiver after the call, and the new guard *)
Definition r_append (s : rguard) (a : nat) (b : gval) : rguard * rguard :=
  let sa := in_a s || existsb (Nat.eqb a) (a_seen s) in
  let sb := in_b s || existsb (same_val b) (b_seen s) in
  ({| a_seen := a_seen s; b_seen := b_seen s; in_a := sa; in_b := sb |},
   {| a_seen := if sa then a_seen s else a_seen s ++ [a];
      b_seen := if sb then b_seen s else b_seen s ++ [b];
      in_a := sa; in_b := sb |}).
(* Hit, compare.go:22-24 *)
Definition r_hit (s : rguard) : bool := in_a s && in_b s.

(* ---------- computations ---------- *)

(* A computation gets the guard and returns it with the flags that Append set. None: the bound on the depth is
   exhausted, or a pointer points nowhere. *)
Definition RM (A : Type) := option rguard -> option (A * option rguard).
Definition r_ret {A} (x : A) : RM A := fun s => Some (x, s).
Definition r_fail {A} : RM A := fun _ => None.
Definition r_bind {A B} (m : RM A) (f : A -> RM B) : RM B :=
  fun s => match m s with None => None | Some (x, s') => f x s' end.
Definition r_and (m n : RM bool) : RM bool := r_bind m (fun b => if b then n else r_ret false).
(* for i := range l { if !f(l[i]) { return false } }; return true *)
Fixpoint r_all {A} (f : A -> RM bool) (l : list A) : RM bool :=
  match l with [] => r_ret true | x :: r => r_and (f x) (r_all f r) end.
(* for i := range l { if f(l[i]) { return true } }; return false *)
Fixpoint r_any {A} (f : A -> RM bool) (l : list A) : RM bool :=
  match l with [] => r_ret false | x :: r => r_bind (f x) (fun b => if b then r_ret true else r_any f r) end.
(* ternary.go:436-449 *)
Fixpoint r_one {A} (f : A -> RM bool) (found : bool) (l : list A) : RM bool :=
  match l with
  | [] => r_ret found
  | x :: r => r_bind (f x) (fun b => if b then (if found then r_ret false else r_one f true r) else r_one f found r)
  end.
Fixpoint r_zip {A B} (f : A -> B -> RM bool) (l : list A) (l' : list B) : RM bool :=
  match l, l' with
  | [], _ => r_ret true
  | _ :: _, [] => r_fail
  | x :: r, y :: r' => r_and (f x y) (r_zip f r r')
  end.
(* a call with another guard: that of the caller is unaffected *)
Definition with_rguard {A} (g : option rguard) (m : RM A) : RM A :=
  fun s => match m g with None => None | Some (x, _) => Some (x, s) end.
(* compare.go:83-95 *)
Definition r_enter (a : nat) (b : gval) (deep : bool) (m : RM bool) : RM bool :=
  fun s =>
    if deep then
      match s with
      | None => with_rguard (Some {| a_seen := [a]; b_seen := [b]; in_a := false; in_b := false |}) m s
      | Some g =>
          let (g', c) := r_append g a b in
          if r_hit c then Some (true, Some g') else with_rguard (Some c) m (Some g')
      end
    else m s.

Section Graphs.
Variable W : world.
Variable T : tgraph.
Variable G : graph.

(* What a value is: a simple one, or an array, map or sensitive. None: a pointer points nowhere. *)
Definition view (x : gval) : option (value + gnode) :=
  match x with
  | GRef p => option_map inr (nth_error G p)
  | GLeaf (VArr l) => Some (inr (GArr (map GLeaf l)))
  | GLeaf (VMap m) => Some (inr (GMap (map (fun e => (fst e, GLeaf (snd e))) m)))
  | GLeaf (VSens v) => Some (inr (GSens (GLeaf v)))
  | GLeaf v => Some (inl v)
  end.

(* Instance of the types without types in them: as listed at inst_with in Types.v *)
Definition leaf_inst (t : ty) (x : value + gnode) : bool :=
  match x with
  | inl v => inst_simple W t v
  | inr (GArr _) => match t with TAny | TArray => true | _ => false end
  | inr (GMap _) => match t with TAny | TMap => true | _ => false end
  | inr (GSens _) => match t with TAny => true | _ => false end
  end.

(* t == DefaultAnyType *)
Definition node_any (p : nat) : bool := match nth_error T p with Some (NLeaf TAny) => true | _ => false end.

(* tupleInstance, array.go:564-601, with [f] for Instance(guard, ...) *)
Definition r_tuple (f : nat -> gval -> RM bool) (ts : list nat) (variadic : bool) (s : list gval) : RM bool :=
  if variadic then
    let tn := Nat.pred (length ts) in
    if (length s <? tn)%nat then r_ret false
    else match nth_error ts tn with
         | None => r_fail
         | Some vt => r_and (r_zip f (firstn tn ts) s) (r_all (f vt) (skipn tn s))
         end
  else if Nat.eqb (length s) (length ts) then r_zip f ts s else r_ret false.
(* mapstruct.go:251-271 structType.DeepInstance *)
Fixpoint r_struct (f : nat -> gval -> RM bool) (additional : bool) (es : list (value * nat * bool)) (m : list (value * gval)) (oc : Z) : RM bool :=
  match es with
  | [] => r_ret (additional || (oc =? length_z m))
  | (k, t, required) :: r =>
      match get_with (veq k) m with
      | Some ov => r_bind (f t ov) (fun b => if b then r_struct f additional r m (oc + 1) else r_ret false)
      | None => if required then r_ret false else r_struct f additional r m oc
      end
  end.

(* The DeepInstance methods, and Instance of the other types. [R true p x] is the function Instance(guard, p, x) (compare.go:77-96),
   [R false p x] the method p.Instance(x), which starts without a guard. *)
Definition r_step (R : bool -> nat -> gval -> RM bool) (nd : rnode) (x : gval) : RM bool :=
  match view x with
  | None => r_fail
  | Some w =>
      match nd with
      | NLeaf t => r_ret (leaf_inst t w)
      (* array.go:237-243, allInstance array.go:1459-1469 *)
      | NArr e min max =>
          match w with
          | inr (GArr l) => if size_in min max (length_z l) then (if node_any e then r_ret true else r_all (R true e) l) else r_ret false
          | _ => r_ret false
          end
      (* array.go:560-601 *)
      | NTuple ts variadic => match w with inr (GArr l) => r_tuple (R true) ts variadic l | _ => r_ret false end
      (* map.go:1071-1090 *)
      | NMap k v min max =>
          match w with
          | inr (GMap m) =>
              if size_in min max (length_z m) then
                if node_any k then
                  if node_any v then r_ret true else r_all (fun e => R true v (snd e)) m
                else if node_any v then r_all (fun e => R false k (GLeaf (fst e))) m
                else r_all (fun e => r_and (R true k (GLeaf (fst e))) (R true v (snd e))) m
              else r_ret false
          | _ => r_ret false
          end
      | NStruct additional es => match w with inr (GMap m) => r_struct (R true) additional es m 0 | _ => r_ret false end
      (* ternary.go:106-114, 318-326, 436-449 *)
      | NAll ts => r_all (fun t => R true t x) ts
      | NAny ts => r_any (fun t => R true t x) ts
      | NOne ts => r_one (fun t => R true t x) false ts
      (* not.go:74-76 *)
      | NNot t => r_bind (R false t x) (fun b => r_ret (negb b))
      (* sensitive.go:66-71 *)
      | NSens t => match w with inr (GSens y) => R false t y | _ => r_ret false end
      end
  end.

(* whether the value implements deepEqual (array.go:1017, map.go:467, sensitive.go:119) *)
Definition deep_gval (x : gval) : bool := match view x with Some (inr _) => true | _ => false end.

(* Instance, compare.go:77-96, and the methods; [n] bounds the depth of the recursion *)
Fixpoint rinst (n : nat) (fn : bool) (p : nat) (x : gval) : RM bool :=
  match n with
  | O => r_fail
  | S n' =>
      match nth_error T p with
      | None => r_fail
      | Some nd =>
          if deep_node nd then
            if fn then r_enter p x (deep_gval x) (r_step (rinst n') nd x) else with_rguard None (rinst n' true p x)
          else with_rguard None (r_step (rinst n') nd x)
      end
  end.

(* t.Instance(x) *)
Definition rec_instance (n : nat) (p : nat) (x : gval) : option bool := option_map fst (rinst n false p x None).
End Graphs.
