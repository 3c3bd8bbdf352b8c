(* Pointer level model of the hash map of /repo/internal/map.go.

   All maps and all map entries live in one [world]. A hashNode (map.go:46-51)
   is an element of [nodes], addressed by its index; a nil pointer is [None].
   A hashMap (map.go:54-60) is an element of [maps], addressed by its index, so
   that "returns g itself" is distinguished from "returns a copy".

   Keys and values are abstract: [keq k k'] is k.Equals(k'), [khash k] is
   k.HashCode(), [veq v v'] is v.Equals(v'), [vnil v] says that v is the dgo Nil
   value, [vfreeze]/[vthaw] stand for what copyFreeze/copyThaw (map.go:177-187)
   do to a value. frozenCopy(k) (map.go:900-905) is modelled as the identity
   because it does not change what Equals and HashCode return.

   A computation that would follow a pointer chain for ever, or dereference a
   dangling or nil pointer, yields [None]; every loop has the number of existing
   nodes plus one as fuel, so running out of fuel means that a chain is cyclic. *)
From Coq Require Import ZArith List Bool Lia.
From Verif Require Import Int64.
Import ListNotations.
Open Scope Z_scope.

(* map.go:14-15 *)
Definition initialCapacity : Z := 8.
Definition maximumCapacity : Z := 2 ^ 30.

(* map.go:883-898 tableSizeFor. The receiver type uint is 64 bits wide and cap-1 is
   not negative there, no bit is lost by the shifts. *)
Definition tableSizeFor (cap : Z) : Z :=
  if cap <? 1 then 1
  else
    let n := cap - 1 in
    let n := Z.lor n (Z.shiftr n 1) in
    let n := Z.lor n (Z.shiftr n 2) in
    let n := Z.lor n (Z.shiftr n 4) in
    let n := Z.lor n (Z.shiftr n 8) in
    let n := Z.lor n (Z.shiftr n 16) in
    let n := n + 1 in
    if maximumCapacity <? n then maximumCapacity else n.

(* map.go:907-909 hash *)
Definition mix (h : Z) : Z := Z.lxor h (Z.shiftr h 16).

(* len(tbl)-1 & hash(h), e.g. map.go:613 *)
Definition bucket_of (tl : Z) (h : Z) : Z := Z.land (tl - 1) (mix h).

(* replace position i of a list; assignment to a slice element *)
Fixpoint upd {A} (l : list A) (i : nat) (x : A) : list A :=
  match l, i with
  | [], _ => []
  | _ :: r, O => x :: r
  | y :: r, S j => y :: upd r j x
  end.

Section HMap.
Variables (K V : Type).
Variable keq : K -> K -> bool.
Variable khash : K -> Z.
Variable veq : V -> V -> bool.
Variable vnil : V -> bool.
Variables vfreeze vthaw : V -> V.

(* map.go:36-51 mapEntry and hashNode *)
Record node := Node {
  nkey : K; nval : V;
  nhash : option nat;   (* hashNext *)
  nnext : option nat;
  nprev : option nat }.

(* map.go:54-60 hashMap; a nil table is the empty list *)
Record hmap := HMap {
  htbl : list (option nat);
  hlen : Z;
  hfirst : option nat;
  hlast : option nat;
  hfrozen : bool }.

Record world := World { nodes : list node; maps : list hmap }.

Definition set_val (nd : node) (v : V) := Node (nkey nd) v (nhash nd) (nnext nd) (nprev nd).
Definition set_hash (nd : node) (p : option nat) := Node (nkey nd) (nval nd) p (nnext nd) (nprev nd).
Definition set_next (nd : node) (p : option nat) := Node (nkey nd) (nval nd) (nhash nd) p (nprev nd).
Definition set_prev (nd : node) (p : option nat) := Node (nkey nd) (nval nd) (nhash nd) (nnext nd) p.

(* s[i].field = x; None is a nil or dangling pointer *)
Definition mutate (s : list node) (p : option nat) (f : node -> node) : option (list node) :=
  match p with
  | None => None
  | Some i => match nth_error s i with
              | None => None
              | Some nd => Some (upd s i (f nd))
              end
  end.

Definition tlen (tbl : list (option nat)) : Z := Z.of_nat (length tbl).

(* bucket index of a key, map.go:613 *)
Definition hidx (tbl : list (option nat)) (k : K) : nat :=
  Z.to_nat (bucket_of (tlen tbl) (khash k)).

(* for e := tbl[hk]; e != nil; e = e.hashNext { if k.Equals(e.key) {...} }
   map.go:516-540, 614-620, 659-664. The result is the node found. *)
Fixpoint find_chain (fuel : nat) (s : list node) (k : K) (e : option nat) : option (option nat) :=
  match e with
  | None => Some None
  | Some i =>
    match fuel with
    | O => None
    | S fuel' =>
      match nth_error s i with
      | None => None
      | Some nd => if keq k (nkey nd) then Some (Some i) else find_chain fuel' s k (nhash nd)
      end
    end
  end.

Definition fuel_of (s : list node) : nat := S (length s).

(* map.go:508-544 Get. The four cases of the type switch differ only in how
   HashCode and Equals are dispatched. *)
Definition hget (s : list node) (g : hmap) (k : K) : option (option V) :=
  match htbl g with
  | [] => Some None
  | tbl =>
    match nth_error tbl (hidx tbl k) with
    | None => None
    | Some e =>
      match find_chain (fuel_of s) s k e with
      | None => None
      | Some None => Some None
      | Some (Some i) =>
        match nth_error s i with None => None | Some nd => Some (Some (nval nd)) end
      end
    end
  end.

(* map.go:628-635 and 665-672: link a new node into bucket hk and at the end of the order *)
Definition append_node (s : list node) (g : hmap) (k : K) (v : V) : option (list node * hmap) :=
  let hk := hidx (htbl g) k in
  match nth_error (htbl g) hk with
  | None => None
  | Some e =>
    let id := length s in
    let s1 := s ++ [Node k v e None (hlast g)] in
    let tbl := upd (htbl g) hk (Some id) in
    match hfirst g with
    | None => Some (s1, HMap tbl (hlen g) (Some id) (Some id) (hfrozen g))
    | Some f =>
      match mutate s1 (hlast g) (fun nd => set_next nd (Some id)) with
      | None => None
      | Some s2 => Some (s2, HMap tbl (hlen g) (Some f) (Some id) (hfrozen g))
      end
    end
  end.

(* map.go:868-879: the loop of resize. [prev] is the last node created. *)
Fixpoint resize_loop (fuel : nat) (s : list node) (oe : option nat)
    (nt : list (option nat)) (cfirst prev : option nat)
    : option (list node * list (option nat) * option nat * option nat) :=
  match oe with
  | None => Some (s, nt, cfirst, prev)
  | Some i =>
    match fuel with
    | O => None
    | S fuel' =>
      match nth_error s i with
      | None => None
      | Some nd =>
        let hk := hidx nt (nkey nd) in
        match nth_error nt hk with
        | None => None
        | Some e =>
          let id := length s in
          let s1 := s ++ [Node (nkey nd) (nval nd) e None prev] in
          let nt1 := upd nt hk (Some id) in
          match prev with
          | None => resize_loop fuel' s1 (nnext nd) nt1 (Some id) (Some id)
          | Some _ =>
            match mutate s1 prev (fun p => set_next p (Some id)) with
            | None => None
            | Some s2 => resize_loop fuel' s2 (nnext nd) nt1 cfirst (Some id)
            end
          end
        end
      end
    end
  end.

(* map.go:861-881 resize(c, capInc), called on g. *)
Definition hresize (s : list node) (g c : hmap) (capInc : Z) : option (list node * hmap) :=
  let tl := tableSizeFor (tlen (htbl g) + capInc) in
  let nt := repeat None (Z.to_nat tl) in
  match resize_loop (fuel_of s) s (hfirst g) nt (hfirst c) None with
  | None => None
  | Some (s', nt', cf, cl) => Some (s', HMap nt' (hlen c) cf cl (hfrozen c))
  end.

(* map.go:622: float64(g.len+1) > float64(len(g.table))*0.75, exact for these magnitudes *)
Definition over_load (n tl : Z) : bool := 3 * tl <? 4 * n.

(* map.go:599-638 Put after the frozen check. The result is the old value. *)
Definition hput (s : list node) (g0 : hmap) (k : K) (v : V) : option (list node * hmap * option V) :=
  let g := match htbl g0 with
           | [] => HMap (repeat None (Z.to_nat (tableSizeFor 1))) (hlen g0) (hfirst g0) (hlast g0) (hfrozen g0)
           | _ => g0
           end in
  match nth_error (htbl g) (hidx (htbl g) k) with
  | None => None
  | Some e =>
    match find_chain (fuel_of s) s k e with
    | None => None
    | Some (Some i) =>
      match nth_error s i with
      | None => None
      | Some nd => Some (upd s i (set_val nd v), g, Some (nval nd))
      end
    | Some None =>
      let sg := if over_load (hlen g + 1) (tlen (htbl g)) then hresize s g g 1 else Some (s, g) in
      match sg with
      | None => None
      | Some (s1, g1) =>
        match append_node s1 g1 k v with
        | None => None
        | Some (s2, g2) =>
          Some (s2, HMap (htbl g2) (hlen g2 + 1) (hfirst g2) (hlast g2) (hfrozen g2), None)
        end
      end
    end
  end.

(* one call of the closure at map.go:655-674; the length is counted in l *)
Definition putall_one (s : list node) (g : hmap) (l : Z) (k : K) (v : V)
    : option (list node * hmap * Z) :=
  match nth_error (htbl g) (hidx (htbl g) k) with
  | None => None
  | Some e =>
    match find_chain (fuel_of s) s k e with
    | None => None
    | Some (Some i) =>
      match nth_error s i with
      | None => None
      | Some nd => Some (upd s i (set_val nd v), g, l)
      end
    | Some None =>
      match append_node s g k v with
      | None => None
      | Some (s2, g2) => Some (s2, g2, l + 1)
      end
    end
  end.

(* EachEntry (map.go:445-449) driving that closure. The node is read before the closure
   runs and its next field afterwards. *)
Fixpoint putall_loop (fuel : nat) (s : list node) (g : hmap) (l : Z) (oe : option nat)
    : option (list node * hmap * Z) :=
  match oe with
  | None => Some (s, g, l)
  | Some i =>
    match fuel with
    | O => None
    | S fuel' =>
      match nth_error s i with
      | None => None
      | Some nd =>
        match putall_one s g l (nkey nd) (nval nd) with
        | None => None
        | Some (s1, g1, l1) =>
          match nth_error s1 i with
          | None => None
          | Some nd1 => putall_loop fuel' s1 g1 l1 (nnext nd1)
          end
        end
      end
    end
  end.

(* map.go:640-676 PutAll after the frozen check, for an argument that is a hashMap
   with at least one entry. [first] reads the first entry of the argument once the
   receiver has been resized (the argument may be the receiver). *)
Definition hputall (s : list node) (g : hmap) (al : Z) (first : hmap -> option nat)
    : option (list node * hmap) :=
  let l := hlen g in
  let sg := if 3 * l <? 4 * (l + al) then hresize s g g al else Some (s, g) in
  match sg with
  | None => None
  | Some (s1, g1) =>
    match putall_loop (fuel_of s1) s1 g1 l (first g1) with
    | None => None
    | Some (s2, g2, l2) => Some (s2, HMap (htbl g2) l2 (hfirst g2) (hlast g2) (hfrozen g2))
    end
  end.

(* map.go:717-732 and 755-770: unlink node i, whose predecessor in the chain is p *)
Definition unlink (s : list node) (g : hmap) (hk : nat) (p : option nat) (i : nat)
    : option (list node * hmap) :=
  match nth_error s i with
  | None => None
  | Some e =>
    let s1t1 := match p with
                | None => Some (s, upd (htbl g) hk (nhash e))
                | Some _ => match mutate s p (fun nd => set_hash nd (nhash e)) with
                            | None => None
                            | Some s1 => Some (s1, htbl g)
                            end
                end in
    match s1t1 with
    | None => None
    | Some (s1, t1) =>
      let s2f := match nprev e with
                 | None => Some (s1, nnext e)
                 | Some _ => match mutate s1 (nprev e) (fun nd => set_next nd (nnext e)) with
                             | None => None
                             | Some s2 => Some (s2, hfirst g)
                             end
                 end in
      match s2f with
      | None => None
      | Some (s2, f2) =>
        let s3l := match nnext e with
                   | None => Some (s2, nprev e)
                   | Some _ => match mutate s2 (nnext e) (fun nd => set_prev nd (nprev e)) with
                               | None => None
                               | Some s3 => Some (s3, hlast g)
                               end
                   end in
        match s3l with
        | None => None
        | Some (s3, l3) => Some (s3, HMap t1 (hlen g - 1) f2 l3 (hfrozen g))
        end
      end
    end
  end.

(* map.go:713-737: the loop of Remove; also map.go:752-774 *)
Fixpoint remove_loop (fuel : nat) (s : list node) (g : hmap) (k : K) (hk : nat)
    (p e : option nat) : option (list node * hmap * option V) :=
  match e with
  | None => Some (s, g, None)
  | Some i =>
    match fuel with
    | O => None
    | S fuel' =>
      match nth_error s i with
      | None => None
      | Some nd =>
        if keq k (nkey nd) then
          match unlink s g hk p i with
          | None => None
          | Some (s', g') => Some (s', g', Some (nval nd))
          end
        else remove_loop fuel' s g k hk (Some i) (nhash nd)
      end
    end
  end.

(* map.go:706-738 Remove after the frozen check. A nil table is indexed out of range. *)
Definition hremove (s : list node) (g : hmap) (k : K) : option (list node * hmap * option V) :=
  let hk := hidx (htbl g) k in
  match nth_error (htbl g) hk with
  | None => None
  | Some e => remove_loop (fuel_of s) s g k hk None e
  end.

(* map.go:740-776 RemoveAll after the frozen check *)
Fixpoint removeall_loop (s : list node) (g : hmap) (ks : list K) : option (list node * hmap) :=
  match ks with
  | [] => Some (s, g)
  | k :: r =>
    match hremove s g k with
    | None => None
    | Some (s', g', _) => removeall_loop s' g' r
    end
  end.

Definition hremoveall (s : list node) (g : hmap) (ks : list K) : option (list node * hmap) :=
  if (hlen g =? 0) || (Z.of_nat (length ks) =? 0) then Some (s, g)
  else removeall_loop s g ks.

(* for e := g.first; e != nil; e = e.next: map.go:342, 440, 446, 855 ... *)
Fixpoint walk (fuel : nat) (s : list node) (oe : option nat) : option (list (K * V)) :=
  match oe with
  | None => Some []
  | Some i =>
    match fuel with
    | O => None
    | S fuel' =>
      match nth_error s i with
      | None => None
      | Some nd =>
        match walk fuel' s (nnext nd) with
        | None => None
        | Some r => Some ((nkey nd, nval nd) :: r)
        end
      end
    end
  end.

Definition hentries (s : list node) (g : hmap) : option (list (K * V)) :=
  walk (fuel_of s) s (hfirst g).

(* for e := c.first; e != nil; e = e.next { e.value = f(e) }: map.go:428-434, 578-580 *)
Fixpoint mapvals (fuel : nat) (s : list node) (oe : option nat) (f : K -> V -> V) : option (list node) :=
  match oe with
  | None => Some s
  | Some i =>
    match fuel with
    | O => None
    | S fuel' =>
      match nth_error s i with
      | None => None
      | Some nd => mapvals fuel' (upd s i (set_val nd (f (nkey nd) (nval nd)))) (nnext nd) f
      end
    end
  end.

(* a new hashMap with everything zero except len and frozen: map.go:425, 576, 592, 807, 820, 831 *)
Definition blank (l : Z) (fr : bool) : hmap := HMap [] l None None fr.

(* map.go:332-339 MapWithCapacity. int(float64(capacity)/0.75) is capacity*4/3 rounded down
   (exact for capacities below 2^50). *)
Definition new_with_capacity (capacity : Z) : hmap :=
  let c := if capacity <=? 0 then initialCapacity else capacity in
  HMap (repeat None (Z.to_nat (tableSizeFor (c * 4 / 3)))) 0 None None false.

(* array.go:1308-1339 ToMap, given the elements of the array paired up (the last key of an
   odd list paired with Nil by the caller). Keys are not checked for duplicates. *)
Fixpoint tomap_loop (s : list node) (g : hmap) (kvs : list (K * V)) : option (list node * hmap) :=
  match kvs with
  | [] => Some (s, g)
  | (k, v) :: r =>
    match append_node s g k v with
    | None => None
    | Some (s1, g1) => tomap_loop s1 g1 r
    end
  end.

Definition htomap (s : list node) (kvs : list (K * V)) (fr : bool) : option (list node * hmap) :=
  let n := Z.of_nat (length kvs) in
  tomap_loop s (HMap (repeat None (Z.to_nat (tableSizeFor n))) n None None fr) kvs.

(* array.go:1341-1376 ToMapFromEntries: elements are either entries of some map (node
   pointers, obtained from EachEntry, Find, ...) or two element arrays. A node is copied
   only when its hashNext is not nil, otherwise it is relinked in place. *)
Inductive entry := ENode (i : nat) | EPair (k : K) (v : V).

Fixpoint fromentries_loop (s : list node) (g : hmap) (es : list entry) : option (list node * hmap) :=
  match es with
  | [] => Some (s, g)
  | e :: r =>
    let snd :=
      match e with
      | EPair k v => Some (s ++ [Node k v None None None], length s)
      | ENode i =>
        match nth_error s i with
        | None => None
        | Some nd =>
          match nhash nd with
          | None => Some (s, i)
          | Some _ => Some (s ++ [set_next nd None], length s)
          end
        end
      end in
    match snd with
    | None => None
    | Some (s1, id) =>
      match nth_error s1 id with
      | None => None
      | Some nd =>
        let hk := hidx (htbl g) (nkey nd) in
        match nth_error (htbl g) hk with
        | None => None
        | Some b =>
          let s2 := upd s1 id (set_prev (set_hash nd b) (hlast g)) in
          let tbl := upd (htbl g) hk (Some id) in
          match hfirst g with
          | None => fromentries_loop s2 (HMap tbl (hlen g) (Some id) (Some id) (hfrozen g)) r
          | Some f =>
            match mutate s2 (hlast g) (fun n => set_next n (Some id)) with
            | None => None
            | Some s3 => fromentries_loop s3 (HMap tbl (hlen g) (Some f) (Some id) (hfrozen g)) r
            end
          end
        end
      end
    end
  end.

Definition hfromentries (s : list node) (es : list entry) (fr : bool) : option (list node * hmap) :=
  let n := Z.of_nat (length es) in
  fromentries_loop s (HMap (repeat None (Z.to_nat (tableSizeFor n))) n None None fr) es.

(* The public operations on a world of maps. Map arguments are map numbers. *)
Inductive op :=
| OpNew (capacity : Z)
| OpEmpty                              (* vf.Map(): the frozen map without a table, map.go:189, 235-238 *)
| OpToMap (kvs : list (K * V)) (fr : bool)
| OpGet (m : nat) (k : K)
| OpContainsKey (m : nat) (k : K)
| OpLen (m : nat)
| OpEntries (m : nat)                  (* EachEntry, Keys, Values, All, Any, Find ... *)
| OpPut (m : nat) (k : K) (v : V)
| OpPutAll (m a : nat)
| OpRemove (m : nat) (k : K)
| OpRemoveAll (m : nat) (ks : list K)
| OpWith (m : nat) (k : K) (v : V)
| OpWithout (m : nat) (k : K)
| OpWithoutAll (m : nat) (ks : list K)
| OpMerge (m a : nat)
| OpCopy (m : nat) (fr : bool)
| OpMap (m : nat) (f : K -> V -> V)
| OpFreeze (m : nat)
| OpFrozen (m : nat).

Inductive out :=
| RUnit
| RVal (v : option V)
| RBool (b : bool)
| RLen (n : Z)
| REntries (l : list (K * V))
| RMap (m : nat)
| RPanic       (* the documented panic on a frozen map *)
| RBad.        (* nil dereference, index out of range, endless loop, or no such map *)

Definition set_map (w : world) (m : nat) (s : list node) (g : hmap) : world :=
  World s (upd (maps w) m g).
Definition add_map (w : world) (s : list node) (g : hmap) : world * out :=
  (World s (maps w ++ [g]), RMap (length (maps w))).

(* c = new hashMap{len: l, frozen: fr}; g.resize(c, capInc) *)
Definition clone (s : list node) (g : hmap) (l : Z) (fr : bool) (capInc : Z) : option (list node * hmap) :=
  hresize s g (blank l fr) capInc.

Definition with_frozen (g : hmap) (fr : bool) : hmap :=
  HMap (htbl g) (hlen g) (hfirst g) (hlast g) fr.

(* map.go:797-813 With *)
Definition step_with (w : world) (m : nat) (g : hmap) (k : K) (v : V) : world * out :=
  let s := nodes w in
  let sc :=
    match htbl g with
    | [] => Some (Some (s, HMap (repeat None (Z.to_nat (tableSizeFor initialCapacity))) (hlen g) None None false))
    | _ =>
      match hget s g k with
      | None => None
      | Some old =>
        let same := match old with Some x => veq v x | None => vnil v end in
        if same then Some None
        else match clone s g (hlen g) false 1 with
             | None => None
             | Some sc => Some (Some sc)
             end
      end
    end in
  match sc with
  | None => (w, RBad)
  | Some None => (w, RMap m)
  | Some (Some (s1, c)) =>
    match hput s1 c k v with
    | None => (w, RBad)
    | Some (s2, c2, _) => add_map w s2 (with_frozen c2 (hfrozen g))
    end
  end.

(* map.go:815-825 Without *)
Definition step_without (w : world) (m : nat) (g : hmap) (k : K) : world * out :=
  let s := nodes w in
  match hget s g k with
  | None => (w, RBad)
  | Some None => (w, RMap m)
  | Some (Some _) =>
    match clone s g (hlen g) false 0 with
    | None => (w, RBad)
    | Some (s1, c) =>
      match hremove s1 c k with
      | None => (w, RBad)
      | Some (s2, c2, _) => add_map w s2 (with_frozen c2 (hfrozen g))
      end
    end
  end.

(* map.go:827-839 WithoutAll *)
Definition step_withoutall (w : world) (m : nat) (g : hmap) (ks : list K) : world * out :=
  let s := nodes w in
  if (hlen g =? 0) || (Z.of_nat (length ks) =? 0) then (w, RMap m)
  else match clone s g (hlen g) false 0 with
       | None => (w, RBad)
       | Some (s1, c) =>
         match hremoveall s1 c ks with
         | None => (w, RBad)
         | Some (s2, c2) =>
           if hlen g =? hlen c2 then (World s2 (maps w), RMap m)
           else add_map w s2 (with_frozen c2 (hfrozen g))
         end
       end.

(* map.go:584-597 Merge *)
Definition step_merge (w : world) (m : nat) (g : hmap) (a : nat) (ga : hmap) : world * out :=
  let s := nodes w in
  if (hlen ga =? 0) || Nat.eqb m a then (w, RMap m)
  else if hlen g =? 0 then (w, RMap a)
  else match clone s g (hlen g) false (hlen g + hlen ga) with
       | None => (w, RBad)
       | Some (s1, c) =>
         match hputall s1 c (hlen ga) (fun _ => hfirst ga) with
         | None => (w, RBad)
         | Some (s2, c2) => add_map w s2 (with_frozen c2 (hfrozen g))
         end
       end.

(* map.go:420-437 Copy *)
Definition step_copy (w : world) (m : nat) (g : hmap) (fr : bool) : world * out :=
  let s := nodes w in
  if fr && hfrozen g then (w, RMap m)
  else match clone s g (hlen g) fr 0 with
       | None => (w, RBad)
       | Some (s1, c) =>
         match mapvals (fuel_of s1) s1 (hfirst c) (fun _ v => if fr then vfreeze v else vthaw v) with
         | None => (w, RBad)
         | Some s2 => add_map w s2 c
         end
       end.

(* map.go:575-582 Map; the mapper is a pure function of the entry *)
Definition step_map (w : world) (g : hmap) (f : K -> V -> V) : world * out :=
  let s := nodes w in
  match clone s g (hlen g) (hfrozen g) 0 with
  | None => (w, RBad)
  | Some (s1, c) =>
    match mapvals (fuel_of s1) s1 (hfirst c) f with
    | None => (w, RBad)
    | Some s2 => add_map w s2 c
    end
  end.

Definition with_map (w : world) (m : nat) (f : hmap -> world * out) : world * out :=
  match nth_error (maps w) m with None => (w, RBad) | Some g => f g end.

Definition step (w : world) (o : op) : world * out :=
  match o with
  | OpNew c => add_map w (nodes w) (new_with_capacity c)
  | OpEmpty => add_map w (nodes w) (blank 0 true)
  | OpToMap kvs fr =>
    match htomap (nodes w) kvs fr with
    | None => (w, RBad)
    | Some (s, g) => add_map w s g
    end
  | OpGet m k => with_map w m (fun g =>
      match hget (nodes w) g k with None => (w, RBad) | Some v => (w, RVal v) end)
  | OpContainsKey m k => with_map w m (fun g =>        (* map.go:416-418 *)
      match hget (nodes w) g k with
      | None => (w, RBad)
      | Some v => (w, RBool (match v with Some _ => true | None => false end))
      end)
  | OpLen m => with_map w m (fun g => (w, RLen (hlen g)))   (* map.go:571-573 *)
  | OpEntries m => with_map w m (fun g =>
      match hentries (nodes w) g with None => (w, RBad) | Some l => (w, REntries l) end)
  | OpPut m k v => with_map w m (fun g =>
      if hfrozen g then (w, RPanic)
      else match hput (nodes w) g k v with
           | None => (w, RBad)
           | Some (s, g', old) => (set_map w m s g', RVal old)
           end)
  | OpPutAll m a => with_map w m (fun g => with_map w a (fun ga =>
      if hlen ga =? 0 then (w, RUnit)
      else if hfrozen g then (w, RPanic)
      else match hputall (nodes w) g (hlen ga)
                   (fun g1 => if Nat.eqb m a then hfirst g1 else hfirst ga) with
           | None => (w, RBad)
           | Some (s, g') => (set_map w m s g', RUnit)
           end))
  | OpRemove m k => with_map w m (fun g =>
      if hfrozen g then (w, RPanic)
      else match hremove (nodes w) g k with
           | None => (w, RBad)
           | Some (s, g', old) => (set_map w m s g', RVal old)
           end)
  | OpRemoveAll m ks => with_map w m (fun g =>
      if hfrozen g then (w, RPanic)
      else match hremoveall (nodes w) g ks with
           | None => (w, RBad)
           | Some (s, g') => (set_map w m s g', RUnit)
           end)
  | OpWith m k v => with_map w m (fun g => step_with w m g k v)
  | OpWithout m k => with_map w m (fun g => step_without w m g k)
  | OpWithoutAll m ks => with_map w m (fun g => step_withoutall w m g ks)
  | OpMerge m a => with_map w m (fun g => with_map w a (fun ga => step_merge w m g a ga))
  | OpCopy m fr => with_map w m (fun g => step_copy w m g fr)
  | OpMap m f => with_map w m (fun g => step_map w g f)
  | OpFreeze m => with_map w m (fun g => (set_map w m (nodes w) (with_frozen g true), RUnit)) (* map.go:487-494 *)
  | OpFrozen m => with_map w m (fun g => (w, RBool (hfrozen g)))                             (* map.go:496-498 *)
  end.

Fixpoint run (w : world) (os : list op) : world * list out :=
  match os with
  | [] => (w, [])
  | o :: r => let (w1, x) := step w o in
              let (w2, xs) := run w1 r in (w2, x :: xs)
  end.

Definition init : world := World [] [].

End HMap.

Arguments Node {K V}. Arguments nkey {K V}. Arguments nval {K V}. Arguments nhash {K V}.
Arguments nnext {K V}. Arguments nprev {K V}.
Arguments World {K V}. Arguments nodes {K V}. Arguments maps {K V}.
Arguments OpNew {K V}. Arguments OpEmpty {K V}. Arguments OpToMap {K V}. Arguments OpGet {K V}.
Arguments OpContainsKey {K V}. Arguments OpLen {K V}. Arguments OpEntries {K V}.
Arguments OpPut {K V}. Arguments OpPutAll {K V}. Arguments OpRemove {K V}. Arguments OpRemoveAll {K V}.
Arguments OpWith {K V}. Arguments OpWithout {K V}. Arguments OpWithoutAll {K V}. Arguments OpMerge {K V}.
Arguments OpCopy {K V}. Arguments OpMap {K V}. Arguments OpFreeze {K V}. Arguments OpFrozen {K V}.
Arguments RUnit {K V}. Arguments RVal {K V}. Arguments RBool {K V}. Arguments RLen {K V}.
Arguments REntries {K V}. Arguments RMap {K V}. Arguments RPanic {K V}. Arguments RBad {K V}.
Arguments set_val {K V}. Arguments set_hash {K V}. Arguments set_next {K V}. Arguments set_prev {K V}.
Arguments mutate {K V}. Arguments fuel_of {K V}. Arguments hentries {K V}. Arguments walk {K V}.
Arguments mapvals {K V}. Arguments init {K V}. Arguments ENode {K V}. Arguments EPair {K V}.
Arguments unlink {K V}. Arguments set_map {K V}. Arguments add_map {K V}. Arguments with_map {K V}.
