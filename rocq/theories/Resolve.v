(* Replacing references to named types: /repo/internal/alias.go and the Resolve methods.

   The types are objects of a heap, since Resolve changes them in place. Left out are deferred calls (alias.go:211-212), types of struct
   keys, which are exact types without references here, and function types. *)
From Coq Require Import ZArith List Bool.
From Verif Require Import Int64 HMap Data Types Graph RecTypes.
Import ListNotations.
Open Scope Z_scope.

(* alias (alias.go:11-13); the types of RecTypes.v; metaType (meta.go); [HVals] stands for *array and *hashMap with their (map: entry) values, and
   for exactArrayType and exactMapType, which hold one of these. *)
Inductive hnode :=
| HAlias (name : list Z)
| HNode (nd : rnode)
| HMeta (t : nat)
| HVals (l : list nat).
Definition heap := list hnode.

(* the values that Resolve passes to Replace: array.go:257-261, 331-333, 639-644, 1228-1233, map.go:778-782, 1112-1121, 1269-1273,
   mapstruct.go:327-339, meta.go:113-117, not.go:90-94, ternary.go:128-133, 340-345, 463-468. There is no Resolve in sensitive.go. *)
Definition hkids (n : hnode) : list nat :=
  match n with
  | HAlias _ => []
  | HNode (NArr e _ _) => [e]
  | HNode (NTuple ts _) | HNode (NAll ts) | HNode (NAny ts) | HNode (NOne ts) => ts
  | HNode (NMap k v _ _) => [k; v]
  | HNode (NStruct _ es) => map (fun e => snd (fst e)) es
  | HNode (NNot t) => [t]
  | HNode (NLeaf _) | HNode (NSens _) => []
  | HMeta t => [t]
  | HVals l => l
  end.
(* the same methods: what they store *)
Definition hwith (n : hnode) (ks : list nat) : hnode :=
  match n, ks with
  | HNode (NArr _ a b), [e] => HNode (NArr e a b)
  | HNode (NTuple _ v), ts => HNode (NTuple ts v)
  | HNode (NAll _), ts => HNode (NAll ts)
  | HNode (NAny _), ts => HNode (NAny ts)
  | HNode (NOne _), ts => HNode (NOne ts)
  | HNode (NMap _ _ a b), [k; v] => HNode (NMap k v a b)
  | HNode (NStruct a es), ts => HNode (NStruct a (map (fun e => (fst (fst (fst e)), snd e, snd (fst e))) (combine es ts)))
  | HNode (NNot _), [t] => HNode (NNot t)
  | HMeta _, [t] => HMeta t
  | HVals _, l => HVals l
  | n, _ => n
  end.
(* the same methods: what they store while Replace runs; [any] is the address of DefaultAnyType *)
Definition hclear (any : nat) (n : hnode) : hnode :=
  match n with
  | HNode (NArr _ _ _) | HNode (NNot _) | HMeta _ => hwith n [any]
  | HNode (NMap _ _ _ _) => hwith n [any; any]
  | HNode (NTuple _ _) | HNode (NAll _) | HNode (NAny _) | HNode (NOne _) | HNode (NStruct _ _) => hwith n []
  | _ => n
  end.
(* whether the value implements dgo.AliasContainer *)
Definition container (n : hnode) : bool :=
  match n with
  | HAlias _ | HNode (NLeaf _) | HNode (NSens _) => false
  | _ => true
  end.

(* The result of a computation, with the heap after it and all heaps after an assignment on the way, the last first. *)
Inductive hres (A : Type) :=
| HOk (x : A) (h : heap) (tr : list heap)
| HPanic (tr : list heap)
| HStuck.
Arguments HOk {A}. Arguments HPanic {A}. Arguments HStuck {A}.
Definition HM (A : Type) := heap -> list heap -> hres A.
Definition h_ret {A} (x : A) : HM A := fun h tr => HOk x h tr.
Definition h_bind {A B} (m : HM A) (f : A -> HM B) : HM B :=
  fun h tr => match m h tr with HOk x h' tr' => f x h' tr' | HPanic tr' => HPanic tr' | HStuck => HStuck end.
Notation "'hdo' x '<-' m ; n" := (h_bind m (fun x => n)) (at level 200, x name, m at level 100, n at level 200).
Fixpoint set_nth {A} (l : list A) (i : nat) (x : A) : list A :=
  match l, i with
  | [], _ => []
  | _ :: r, O => x :: r
  | y :: r, S i => y :: set_nth r i x
  end.
Definition h_read (p : nat) : HM hnode := fun h tr => match nth_error h p with Some n => HOk n h tr | None => HStuck end.
Definition h_write (p : nat) (n : hnode) : HM unit := fun h tr => let h' := set_nth h p n in HOk tt h' (h' :: tr).
Fixpoint h_map (f : nat -> HM nat) (l : list nat) : HM (list nat) :=
  match l with
  | [] => h_ret []
  | x :: r => hdo y <- f x; hdo ys <- h_map f r; h_ret (y :: ys)
  end.
(* for i := range a { a[i] = ap.Replace(a[i]) }; [m] elements are left, i is the next one *)
Fixpoint h_each (f : nat -> HM nat) (p : nat) (m i : nat) : HM unit :=
  match m with
  | O => h_ret tt
  | S m =>
      hdo n <- h_read p;
      match nth_error (hkids n) i with
      | None => fun _ _ => HStuck
      | Some x =>
          hdo y <- f x;
          hdo n' <- h_read p;
          hdo u <- h_write p (hwith n' (set_nth (hkids n') i y));
          h_each f p m (S i)
      end
  end.

Section Resolve.
Variable any : nat.
(* aliasAdder.GetType, alias.go:202-207 *)
Variable types : list Z -> option nat.

(* aliasAdder.Replace, alias.go:209-222, with the Resolve methods; [n] bounds the depth of the recursion *)
Fixpoint replace (n : nat) (p : nat) : HM nat :=
  match n with
  | O => fun _ _ => HStuck
  | S n =>
      hdo nd <- h_read p;
      match nd with
      | HAlias name => match types name with Some q => h_ret q | None => fun _ tr => HPanic tr end
      | HVals l => hdo u <- h_each (replace n) p (length l) 0; h_ret p
      | _ =>
          if container nd then
            hdo u <- h_write p (hclear any nd);
            hdo ks <- h_map (replace n) (hkids nd);
            hdo u <- h_write p (hwith nd ks);
            h_ret p
          else h_ret p
      end
  end.

(* aliasMap.update, alias.go:167-168: the new types by name *)
Definition update (n : nat) (l : list nat) : HM (list nat) := h_map (replace n) l.
End Resolve.

(* What the methods of the types see: an alias has those of the exact type of its name (alias.go:11-13, 79-81). Meta types, arrays and
   maps are not among the types of RecTypes.v. *)
Definition as_type (n : hnode) : rnode :=
  match n with
  | HNode nd => nd
  | HAlias s => NLeaf (TExact 0%nat (VStr s))
  | HMeta _ | HVals _ => NLeaf TNil
  end.
Definition types_of (h : heap) : tgraph := map as_type h.
