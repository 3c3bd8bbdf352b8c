(* Assignable on types that refer to themselves: /repo/internal.

   The types are the graphs of RecTypes.v. Left out are allOfType, oneOfType and notType, and the cases where Assignable makes new types:
   sized array types from tuple types (array.go:195, 482-500) and sized map types from struct types (map.go:1030, mapstruct.go:285-294);
   there the outcome is None. Assign.v has all of them, for types that do not refer to themselves. *)
From Coq Require Import ZArith List Bool.
From Verif Require Import Int64 HMap Data Types Graph RecTypes.
From Verif Require Assign.
Import ListNotations.
Open Scope Z_scope.

(* ---------- the guard, compare.go:15-45 ---------- *)

Record aguard := { l_seen : list nat; r_seen : list nat; in_l : bool; in_r : bool }.

(* Append, compare.go:26-41: the receiver after the call, and the new guard *)
Definition g_append (s : aguard) (a b : nat) : aguard * aguard :=
  let sa := in_l s || existsb (Nat.eqb a) (l_seen s) in
  let sb := in_r s || existsb (Nat.eqb b) (r_seen s) in
  ({| l_seen := l_seen s; r_seen := r_seen s; in_l := sa; in_r := sb |},
   {| l_seen := if sa then l_seen s else l_seen s ++ [a];
      r_seen := if sb then r_seen s else r_seen s ++ [b];
      in_l := sa; in_r := sb |}).
(* Swap, compare.go:43-45 *)
Definition g_swap (s : aguard) : aguard := {| l_seen := r_seen s; r_seen := l_seen s; in_l := in_r s; in_r := in_l s |}.
(* Hit, compare.go:22-24 *)
Definition g_hit (s : aguard) : bool := in_l s && in_r s.

(* ---------- computations ---------- *)

(* A computation gets the guard and returns it with the flags that Append set. None: the bound on the depth is exhausted, or the case is
   not modelled. *)
Definition AM := option aguard -> option (bool * option aguard).
Definition a_ret (x : bool) : AM := fun s => Some (x, s).
Definition a_fail : AM := fun _ => None.
Definition a_bind (m : AM) (f : bool -> AM) : AM := fun s => match m s with None => None | Some (x, s') => f x s' end.
Definition a_and (m n : AM) : AM := a_bind m (fun b => if b then n else a_ret false).
Definition a_or (m n : AM) : AM := a_bind m (fun b => if b then a_ret true else n).
(* for i := range l { if !f(l[i]) { return false } }; return true *)
Fixpoint a_all (f : nat -> AM) (l : list nat) : AM := match l with [] => a_ret true | x :: r => a_and (f x) (a_all f r) end.
(* for i := range l { if f(l[i]) { return true } }; return false *)
Fixpoint a_any (f : nat -> AM) (l : list nat) : AM := match l with [] => a_ret false | x :: r => a_or (f x) (a_any f r) end.
(* a call with another guard: that of the caller is unaffected *)
Definition with_aguard (f : option aguard -> option aguard) (m : AM) : AM :=
  fun s => match m (f s) with None => None | Some (x, _) => Some (x, s) end.
(* compare.go:62-73 *)
Definition a_enter (a b : nat) (deep : bool) (m : AM) : AM :=
  fun s =>
    if deep then
      match s with
      | None => with_aguard (fun _ => Some {| l_seen := [a]; r_seen := [b]; in_l := false; in_r := false |}) m s
      | Some g =>
          let (g', c) := g_append g a b in
          if g_hit c then Some (true, Some g') else with_aguard (fun _ => Some c) m (Some g')
      end
    else m s.

Section Graphs.
Variable W : world.
Variable T : tgraph.
(* DefaultAnyType *)
Variable any : nat.

(* whether the type implements dgo.DeepAssignable: sensitive.go:40, array.go:190, 403, map.go:1027, mapstruct.go:168, ternary.go:271 *)
Definition deep_type (nd : rnode) : bool := match nd with NLeaf _ | NNot _ => false | _ => true end.
(* a == b, compare.go:53: types without types in them are equal values, or their Assignable is true as well (see same_type in Assign.v) *)
Definition same_addr (a b : nat) : bool :=
  Nat.eqb a b || match nth_error T a, nth_error T b with Some (NLeaf t), Some (NLeaf u) => Assign.same_type t u | _, _ => false end.
(* Assignable of two types without types in them, as listed at flat_assignable_to in Assign.v *)
Definition leaf_assign (t u : ty) : bool :=
  match Assign.flat_assignable_to W (fun _ _ _ => Assign.ret false) t u (Assign.start 0%nat) with Some (b, _) => b | None => false end.

(* CheckAssignableTo(guard, b, a), type.go:15-23, with AssignableTo of ternary.go:285-293 *)
Definition a_check (R : bool -> nat -> nat -> AM) (a : nat) (nb : rnode) : AM :=
  match nb with
  | NAny ts => with_aguard (option_map g_swap) (a_and (a_all (R true a) ts) (a_ret (match ts with [] => false | _ => true end)))
  | _ => a_ret false
  end.

(* array.go:407-445 tupleAssignableTuple, the loop *)
Fixpoint a_tuples (R : nat -> nat -> AM) (n : nat) (ts os : list nat) (tv ov : option nat) : AM :=
  match n with
  | O => a_ret true
  | S n' =>
      let te := match ts with t :: _ => Some t | [] => tv end in
      let oe := match os with o :: _ => Some o | [] => ov end in
      match te, oe with
      | Some t, Some o => a_and (R t o) (a_tuples R n' (tl ts) (tl os) tv ov)
      | _, _ => a_ret false
      end
  end.
Definition t_head (ts : list nat) (variadic : bool) : list nat := if variadic then firstn (Nat.pred (length ts)) ts else ts.
Definition t_rest (ts : list nat) (variadic : bool) : option nat := if variadic then nth_error ts (Nat.pred (length ts)) else None.
(* Min() and Max(), array.go:611-633 *)
Definition t_min (ts : list nat) (variadic : bool) : Z := if variadic then length_z ts - 1 else length_z ts.
Definition t_max (ts : list nat) (variadic : bool) : Z := if variadic then max_int64 else length_z ts.
(* array.go:407-445 *)
Definition a_tuple_tuple (R : nat -> nat -> AM) (ts : list nat) (v : bool) (os : list nat) (w : bool) : AM :=
  if (t_min os w <? t_min ts v) || (t_max ts v <? t_max os w) then a_ret false
  else a_tuples R (Nat.max (length (t_head ts v)) (length (t_head os w))) (t_head ts v) (t_head os w) (t_rest ts v) (t_rest os w).
(* array.go:447-462 *)
Definition a_tuple_array (R : nat -> nat -> AM) (ts : list nat) (v : bool) (e : nat) (min max : Z) : AM :=
  if (t_min ts v <=? min) && (max <=? t_max ts v) then
    a_and (a_all (fun t => R t e) (t_head ts v)) (match t_rest ts v with None => a_ret true | Some t => R t e end)
  else a_ret false.
(* mapstruct.go:180-199 *)
Fixpoint a_find (k : value) (os : list (value * nat * bool)) : option (nat * bool) :=
  match os with
  | [] => None
  | (k', t, r) :: os' => if veq k k' then Some (t, r) else a_find k os'
  end.
Fixpoint a_struct (R : nat -> nat -> AM) (ad : bool) (es : list (value * nat * bool)) (oad : bool) (os : list (value * nat * bool)) (oc : Z) : AM :=
  match es with
  | [] => a_ret (ad || (oc =? length_z os))
  | (k, t, rq) :: r =>
      match a_find k os with
      | Some (o, orq) =>
          if rq && negb orq then a_ret false
          else a_bind (R t o) (fun b => if b then a_struct R ad r oad os (oc + 1) else a_ret false)
      | None => if rq || oad then a_ret false else a_struct R ad r oad os oc
      end
  end.

(* The DeepAssignable methods, and Assignable of the other types. [R true a b] is the function Assignable(guard, a, b) (compare.go:52-74),
   [R false a b] the method a.Assignable(b), which starts without a guard. *)
Definition a_step (R : bool -> nat -> nat -> AM) (a : nat) (na : rnode) (b : nat) (nb : rnode) : AM :=
  let check := a_check R a nb in
  match na with
  (* as listed at flat_assignable_to in Assign.v *)
  | NLeaf t =>
      match nb with
      | NLeaf u => a_ret (leaf_assign t u)
      | _ =>
          match t with
          | TAny => a_ret true
          | TArray => match nb with NArr _ _ _ | NTuple _ _ => a_ret true | _ => check end
          | TMap => match nb with NMap _ _ _ _ => a_ret true | _ => check end
          | TFloat => a_ret false
          | _ => check
          end
      end
  (* sensitive.go:40-45 *)
  | NSens t => match nb with NSens o => R true t o | _ => check end
  (* array.go:190-198 *)
  | NArr e min max =>
      match nb with
      | NArr o bmin bmax => if (min <=? bmin) && (bmax <=? max) then R false e o else a_ret false
      | NTuple _ _ => a_fail
      | _ => check
      end
  (* array.go:464-476 *)
  | NTuple ts v =>
      match nb with
      | NTuple os w => a_tuple_tuple (R true) ts v os w
      | NArr e bmin bmax => a_tuple_array (R true) ts v e bmin bmax
      | _ => check
      end
  (* map.go:1027-1033; map.go:1167-1189 for defaultMapType *)
  | NMap k v min max =>
      match nb with
      | NMap ok ov bmin bmax => if (min <=? bmin) && (bmax <=? max) then a_and (R true k ok) (R true v ov) else a_ret false
      | NLeaf TMap => if (min <=? 0) && (max_int64 <=? max) then a_and (R true k any) (R true v any) else a_ret false
      | NStruct _ _ => a_fail
      | _ => check
      end
  (* mapstruct.go:168-206 *)
  | NStruct ad es =>
      match nb with
      | NStruct oad os => a_struct (R true) ad es oad os 0
      | _ => check
      end
  (* ternary.go:271-283 *)
  | NAny ts =>
      match ts with
      | [] => a_ret (match nb with NAny _ => true | _ => false end)
      | _ => a_or (a_any (fun t => R true t b) ts) check
      end
  | NAll _ | NOne _ | NNot _ => a_fail
  end.

(* Assignable, compare.go:52-74, and the methods (e.g. array.go:186-188); [n] bounds the depth of the recursion *)
Fixpoint rasgn (n : nat) (fn : bool) (a b : nat) : AM :=
  match n with
  | O => a_fail
  | S n' =>
      match nth_error T a, nth_error T b with
      | Some na, Some nb =>
          if fn then
            if same_addr a b then a_ret true
            else if deep_type na then a_enter a b (deep_type nb) (a_step (rasgn n') a na b nb)
            else with_aguard (fun _ => None) (a_step (rasgn n') a na b nb)
          else if deep_type na then with_aguard (fun _ => None) (rasgn n' true a b)
          else with_aguard (fun _ => None) (a_step (rasgn n') a na b nb)
      | _, _ => a_fail
      end
  end.

(* a.Assignable(b) *)
Definition rec_assignable (n : nat) (a b : nat) : option bool := option_map fst (rasgn n false a b None).
End Graphs.
