(* The objects of /repo/internal that can be frozen: arrays, maps, entries of maps, sensitives and binaries, in a heap. An
   operation may be called with any value that the caller has.

   A value that cannot change is a number. An array holds its elements itself: how arrays share storage is
   modelled in Slices.v. Which entry of a map has an Equal key, and whether a map grows, is part of
   an operation: every possible outcome is considered. Structs and natives are left out. *)
From Coq Require Import ZArith List Bool Arith.
From Verif Require Import HMap.
Import ListNotations.

Inductive val := Imm (z : Z) | Ptr (a : nat).

Inductive obj :=
| Arr (frozen : bool) (slice : list val)            (* array.go:15-18 array *)
| Map (frozen : bool) (nodes : list nat)            (* map.go:36-42 hashMap, its nodes from first to last *)
| Node (key value : val)                            (* map.go:19-34 mapEntry and hashNode *)
| Sens (value : val)                                (* sensitive.go sensitive *)
| Bin (frozen : bool) (bytes : nat)                 (* binary.go binary; the slice is an object of its own *)
| Bytes (bs : list Z).                              (* a Go byte slice *)

Definition heap := list obj.

(* a model device: a new object *)
Definition alloc (h : heap) (o : obj) : heap * val := (h ++ [o], Ptr (length h)).

(* the contents of a byte slice *)
Definition contents (h : heap) (b : nat) : list Z := match nth_error h b with Some (Bytes bs) => bs | _ => [] end.

(* a new binary with a slice of its own, binary.go:283-285 *)
Definition alloc_bin (h : heap) (frozen : bool) (bs : list Z) : heap * val :=
  (h ++ [Bytes bs; Bin frozen (length h)], Ptr (S (length h))).

(* the keys and values of the entries of a map *)
Fixpoint pairs (h : heap) (ns : list nat) : list (val * val) :=
  match ns with
  | [] => []
  | n :: r => match nth_error h n with Some (Node k w) => (k, w) :: pairs h r | _ => pairs h r end
  end.

(* map.go:861-881 resize: new nodes for the entries; the nodes get the addresses from length h on *)
Definition nodes_of (kvs : list (val * val)) : list obj := map (fun e => Node (fst e) (snd e)) kvs.
Definition alloc_map (h : heap) (frozen : bool) (kvs : list (val * val)) : heap * val :=
  (h ++ nodes_of kvs ++ [Map frozen (seq (length h) (length kvs))], Ptr (length h + length kvs)).

(* for i := range a { f(a[i]) } *)
Fixpoint each (f : heap -> val -> option heap) (h : heap) (l : list val) : option heap :=
  match l with
  | [] => Some h
  | v :: r => match f h v with Some h1 => each f h1 r | None => None end
  end.
(* for i := range cp { cp[i] = f(cp[i]) } *)
Fixpoint map_each (f : heap -> val -> option (heap * val)) (h : heap) (l : list val) : option (heap * list val) :=
  match l with
  | [] => Some (h, [])
  | v :: r => match f h v with
              | None => None
              | Some (h1, v1) => match map_each f h1 r with Some (h2, r1) => Some (h2, v1 :: r1) | None => None end
              end
  end.

(* array.go:1058-1069, map.go:112-116 and 487-494, sensitive.go:126-130, binary.go:344-351 Freeze. A number and a
   byte slice are not Freezable. The recursion is bounded by n; None: the bound is too small. *)
Fixpoint freeze (n : nat) (h : heap) (v : val) : option heap :=
  match n with
  | O => None
  | S n =>
    match v with
    | Imm _ => Some h
    | Ptr a =>
      match nth_error h a with
      | Some (Arr true _) | Some (Map true _) | Some (Bin true _) | Some (Bytes _) | None => Some h
      | Some (Arr false l) => each (freeze n) (upd h a (Arr true l)) l
      | Some (Map false ns) => each (freeze n) (upd h a (Map true ns)) (map Ptr ns)
      | Some (Node _ w) => freeze n h w
      | Some (Sens w) => freeze n h w
      | Some (Bin false b) => Some (upd h a (Bin true (length h)) ++ [Bytes (contents h b)])
      end
    end
  end.

(* array.go:1071, map.go:118-123 and 496, sensitive.go:132-137, binary.go:353 Frozen; true for what is not Freezable,
   as its callers have it *)
Fixpoint frozen (n : nat) (h : heap) (v : val) : option bool :=
  match n with
  | O => None
  | S n =>
    match v with
    | Imm _ => Some true
    | Ptr a =>
      match nth_error h a with
      | Some (Arr f _) | Some (Map f _) | Some (Bin f _) => Some f
      | Some (Node _ w) | Some (Sens w) => frozen n h w
      | Some (Bytes _) | None => Some true
      end
    end
  end.

(* array.go:935-954 and 1075, map.go:420-437, 125-132, 142-149, 177-181 and 500, sensitive.go:139-144, binary.go:279-286
   and 357 FrozenCopy *)
Fixpoint frozen_copy (n : nat) (h : heap) (v : val) : option (heap * val) :=
  match n with
  | O => None
  | S n =>
    match v with
    | Imm _ => Some (h, v)
    | Ptr a =>
      match nth_error h a with
      | Some (Arr true _) | Some (Map true _) | Some (Bin true _) | Some (Bytes _) | None => Some (h, v)
      | Some (Arr false l) =>
          match map_each (frozen_copy n) h l with
          | Some (h1, l1) => Some (alloc h1 (Arr true l1))
          | None => None
          end
      | Some (Map false ns) =>
          let kvs := pairs h ns in
          match map_each (frozen_copy n) h (map snd kvs) with
          | Some (h1, ws) => Some (alloc_map h1 true (combine (map fst kvs) ws))
          | None => None
          end
      | Some (Node k w) =>
          match frozen n h w with
          | None => None
          | Some true => Some (h, v)
          | Some false => match frozen_copy n h w with Some (h1, w1) => Some (alloc h1 (Node k w1)) | None => None end
          end
      | Some (Sens w) =>
          match frozen n h w with
          | None => None
          | Some true => Some (h, v)
          | Some false => match frozen_copy n h w with Some (h1, w1) => Some (alloc h1 (Sens w1)) | None => None end
          end
      | Some (Bin false b) => Some (alloc_bin h true (contents h b))
      end
    end
  end.

(* array.go:935-954 and 1079, map.go:420-437, 134-140, 151-157, 183-187 and 504, sensitive.go:146-151,
   binary.go:279-286 and 361 ThawedCopy. ThawedCopy of an entry assigns to the entry itself. *)
Fixpoint thawed_copy (n : nat) (h : heap) (v : val) : option (heap * val) :=
  match n with
  | O => None
  | S n =>
    match v with
    | Imm _ => Some (h, v)
    | Ptr a =>
      match nth_error h a with
      | Some (Bytes _) | None => Some (h, v)
      | Some (Arr _ l) =>
          match map_each (thawed_copy n) h l with
          | Some (h1, l1) => Some (alloc h1 (Arr false l1))
          | None => None
          end
      | Some (Map _ ns) =>
          let kvs := pairs h ns in
          match map_each (thawed_copy n) h (map snd kvs) with
          | Some (h1, ws) => Some (alloc_map h1 false (combine (map fst kvs) ws))
          | None => None
          end
      | Some (Node k w) =>
          match w with
          | Imm _ => Some (alloc h (Node k w))
          | Ptr _ => match thawed_copy n h w with
                     | Some (h1, w1) => Some (alloc (upd h1 a (Node k w1)) (Node k w))
                     | None => None
                     end
          end
      | Some (Sens w) =>
          match w with
          | Imm _ => Some (h, v)
          | Ptr _ => match thawed_copy n h w with Some (h1, w1) => Some (alloc h1 (Sens w1)) | None => None end
          end
      | Some (Bin _ b) => Some (alloc_bin h false (contents h b))
      end
    end
  end.

(* The operations of a caller. The values that the caller has are numbered in the order in which they were
   obtained. *)
Inductive op :=
| OScalar (z : Z)
| OBytes (bs : list Z)                        (* make a byte slice *)
| OWriteBytes (i : nat) (bs : list Z)         (* assign to all elements of a byte slice *)
| OBinary (i : nat) (frz : bool)
| OGoBytes (i : nat)
| OArray (is : list nat)
| OValues (is : list nat)
| OAdd (i j : nat)
| OInsert (i pos j : nat)
| OSet (i pos j : nat)
| ORemove (i pos : nat)
| OGet (i pos : nat)
| OSlice (i from to : nat)
| OWith (i j : nat)
| OWithAll (i j : nat)
| OMap
| OPut (i : nat) (at_ : option nat) (grow : bool) (k j : nat)
| ODelete (i pos : nat)
| OKey (i pos : nat)
| OValue (i pos : nat)
| OMapWith (i : nat) (at_ : option nat) (same : bool) (k j : nat)
| OEntry (i pos : nat)
| OMakeEntry (k j : nat)
| OEntryKey (i : nat)
| OEntryValue (i : nat)
| OSensitive (i : nat)
| OUnwrap (i : nat)
| OFreeze (i : nat)
| OFrozenCopy (i : nat)
| OThawedCopy (i : nat).

(* a value of dgo: not a byte slice *)
Definition is_value (h : heap) (v : val) : bool :=
  match v with
  | Imm _ => true
  | Ptr a => match nth_error h a with Some (Bytes _) | None => false | Some _ => true end
  end.
Definition arg (h : heap) (K : list val) (i : nat) : option val :=
  match nth_error K i with Some v => if is_value h v then Some v else None | None => None end.
Fixpoint args (h : heap) (K : list val) (is : list nat) : list val :=
  match is with
  | [] => []
  | i :: r => match arg h K i with Some v => v :: args h K r | None => args h K r end
  end.
Definition obj_at (h : heap) (K : list val) (i : nat) : option (nat * obj) :=
  match nth_error K i with
  | Some (Ptr a) => match nth_error h a with Some o => Some (a, o) | None => None end
  | _ => None
  end.

Definition remove_at {A} (l : list A) (pos : nat) : list A := firstn pos l ++ skipn (S pos) l.
Definition insert_at {A} (l : list A) (pos : nat) (x : A) : list A := firstn pos l ++ x :: skipn pos l.

Definition give (K : list val) (r : heap * val) : heap * list val := (fst r, K ++ [snd r]).

(* One operation. An operation that panics, on a frozen object or an index that is out of range, and an operation
   on something that it does not exist for, changes nothing. None: the bound n is too small. *)
Definition step (n : nat) (h : heap) (K : list val) (o : op) : option (heap * list val) :=
  let same := Some (h, K) in
  match o with
  | OScalar z => Some (h, K ++ [Imm z])
  | OBytes bs => Some (give K (alloc h (Bytes bs)))
  | OWriteBytes i bs => match obj_at h K i with Some (a, Bytes _) => Some (upd h a (Bytes bs), K) | _ => same end
  (* binary.go:223-230 *)
  | OBinary i frz =>
      match obj_at h K i with
      | Some (a, Bytes bs) => if frz then Some (give K (alloc_bin h true bs)) else Some (give K (alloc h (Bin false a)))
      | _ => same
      end
  (* binary.go:365-372 *)
  | OGoBytes i =>
      match obj_at h K i with
      | Some (_, Bin true b) => Some (give K (alloc h (Bytes (contents h b))))
      | Some (_, Bin false b) => Some (h, K ++ [Ptr b])
      | _ => same
      end
  (* array.go:769-775 MutableValues *)
  | OArray is => Some (give K (alloc h (Arr false (args h K is))))
  (* array.go:791-799 and 826-828 Values *)
  | OValues is =>
      match map_each (frozen_copy n) h (args h K is) with
      | Some (h1, l) => Some (give K (alloc h1 (Arr true l)))
      | None => None
      end
  (* array.go:830-835 *)
  | OAdd i j => match obj_at h K i, arg h K j with Some (a, Arr false l), Some v => Some (upd h a (Arr false (l ++ [v])), K) | _, _ => same end
  (* array.go:1118-1123 *)
  | OInsert i pos j =>
      match obj_at h K i, arg h K j with
      | Some (a, Arr false l), Some v => if Nat.leb pos (length l) then Some (upd h a (Arr false (insert_at l pos v)), K) else same
      | _, _ => same
      end
  (* array.go:1263-1270 *)
  | OSet i pos j => match obj_at h K i, arg h K j with Some (a, Arr false l), Some v => Some (upd h a (Arr false (upd l pos v)), K) | _, _ => same end
  (* array.go:1201-1219 *)
  | ORemove i pos => match obj_at h K i with Some (a, Arr false l) => Some (upd h a (Arr false (remove_at l pos)), K) | _ => same end
  (* array.go:1103-1105 *)
  | OGet i pos =>
      match obj_at h K i with
      | Some (_, Arr _ l) => match nth_error l pos with Some v => Some (h, K ++ [v]) | None => same end
      | _ => same
      end
  (* array.go:1272-1282 *)
  | OSlice i from to =>
      match obj_at h K i with
      | Some (a, Arr f l) =>
          if Nat.leb from to && Nat.leb to (length l) then
            if f && Nat.eqb from 0 && Nat.eqb to (length l) then Some (h, K ++ [Ptr a])
            else Some (give K (alloc h (Arr f (firstn (to - from) (skipn from l)))))
          else same
      | _ => same
      end
  (* array.go:1425-1427 *)
  | OWith i j => match obj_at h K i, arg h K j with Some (_, Arr f l), Some v => Some (give K (alloc h (Arr f (l ++ [v])))) | _, _ => same end
  (* array.go:1429-1440, with an array *)
  | OWithAll i j =>
      match obj_at h K i, obj_at h K j with
      | Some (a, Arr f l), Some (b, Arr g m) =>
          match m with
          | [] => Some (h, K ++ [Ptr a])
          | _ =>
            match map_each (thawed_copy n) h l with
            | None => None
            | Some (h1, l1) =>
                if f then
                  match frozen_copy n h1 (Ptr b) with
                  | Some (h2, Ptr b1) =>
                      match nth_error h2 b1 with
                      | Some (Arr _ m1) => Some (give K (alloc h2 (Arr true (l1 ++ m1))))
                      | _ => Some (h2, K)
                      end
                  | Some (h2, _) => Some (h2, K)
                  | None => None
                  end
                else Some (give K (alloc h1 (Arr false (l1 ++ m))))
            end
          end
      | _, _ => same
      end
  (* map.go MutableMap of nothing *)
  | OMap => Some (give K (alloc h (Map false [])))
  (* map.go:599-638 *)
  | OPut i at_ grow k j =>
      match obj_at h K i, arg h K k, arg h K j with
      | Some (a, Map false ns), Some kv, Some v =>
          match at_ with
          | Some pos =>
              match nth_error ns pos with
              | Some nd => match nth_error h nd with Some (Node k0 _) => Some (upd h nd (Node k0 v), K) | _ => same end
              | None => same
              end
          | None =>
              match frozen_copy n h kv with
              | None => None
              | Some (h1, k1) =>
                  if grow then
                    let kvs := pairs h1 ns ++ [(k1, v)] in
                    Some (upd (h1 ++ nodes_of kvs) a (Map false (seq (length h1) (length kvs))), K)
                  else Some (upd (h1 ++ [Node k1 v]) a (Map false (ns ++ [length h1])), K)
              end
          end
      | _, _, _ => same
      end
  (* map.go:706-738 *)
  | ODelete i pos => match obj_at h K i with Some (a, Map false ns) => Some (upd h a (Map false (remove_at ns pos)), K) | _ => same end
  (* the keys and values of a map *)
  | OKey i pos =>
      match obj_at h K i with
      | Some (_, Map _ ns) => match nth_error (pairs h ns) pos with Some (k, _) => Some (h, K ++ [k]) | None => same end
      | _ => same
      end
  | OValue i pos =>
      match obj_at h K i with
      | Some (_, Map _ ns) => match nth_error (pairs h ns) pos with Some (_, w) => Some (h, K ++ [w]) | None => same end
      | _ => same
      end
  (* map.go:797-813 *)
  | OMapWith i at_ same_ k j =>
      match obj_at h K i, arg h K k, arg h K j with
      | Some (a, Map f ns), Some kv, Some v =>
          if same_ then Some (h, K ++ [Ptr a])
          else
            match at_ with
            | Some pos =>
                let kvs := pairs h ns in
                match nth_error kvs pos with
                | Some (k0, _) => Some (give K (alloc_map h f (upd kvs pos (k0, v))))
                | None => same
                end
            | None =>
                match frozen_copy n h kv with
                | Some (h1, k1) => Some (give K (alloc_map h1 f (pairs h1 ns ++ [(k1, v)])))
                | None => None
                end
            end
      | _, _, _ => same
      end
  (* an entry as it is given to the function that is given to Each, and returned by Find, map.go:439-443 and 478-485 *)
  | OEntry i pos =>
      match obj_at h K i with
      | Some (_, Map _ ns) => match nth_error ns pos with Some nd => Some (h, K ++ [Ptr nd]) | None => same end
      | _ => same
      end
  (* map.go:76-78 *)
  | OMakeEntry k j => match arg h K k, arg h K j with Some kv, Some v => Some (give K (alloc h (Node kv v))) | _, _ => same end
  | OEntryKey i => match obj_at h K i with Some (_, Node k _) => Some (h, K ++ [k]) | _ => same end
  | OEntryValue i => match obj_at h K i with Some (_, Node _ w) => Some (h, K ++ [w]) | _ => same end
  (* sensitive.go:111-113 *)
  | OSensitive i => match arg h K i with Some v => Some (give K (alloc h (Sens v))) | None => same end
  | OUnwrap i => match obj_at h K i with Some (_, Sens w) => Some (h, K ++ [w]) | _ => same end
  | OFreeze i => match arg h K i with Some v => match freeze n h v with Some h1 => Some (h1, K) | None => None end | None => same end
  | OFrozenCopy i => match arg h K i with Some v => option_map (give K) (frozen_copy n h v) | None => same end
  | OThawedCopy i => match arg h K i with Some v => option_map (give K) (thawed_copy n h v) | None => same end
  end.

Fixpoint history (n : nat) (h : heap) (K : list val) (ops : list op) : option (heap * list val) :=
  match ops with
  | [] => Some (h, K)
  | o :: r => match step n h K o with Some (h1, K1) => history n h1 K1 r | None => None end
  end.
