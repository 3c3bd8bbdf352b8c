(* The accesses to shared memory of loaders (/repo/loader/loader.go), of the default aliases (/repo/internal/alias.go) and of
   strings (/repo/internal/string.go), made by any number of goroutines.

   Only what is accessed is modelled, not what is found there: a lookup may succeed or not, a finder may return anything
   (see Loader.v and Registry.v for the results). What is kept of the memory is which strings have their hash code. *)
From Coq Require Import List Bool Arith.
Import ListNotations.

(* Memory that goroutines share: the map entries of a loader (loader.go:22), its map namespaces (28), the variable defaultAliases
   (internal/alias.go), and the field h of an hstring (string.go:45-48). A map with its table and nodes is one location. *)
Inductive loc := Entries (l : nat) | Spaces (l : nat) | Aliases | Hash (k : nat).
(* loader.lock (loader.go:27), an RWMutex, and defaultLock (alias.go:37), a Mutex *)
Inductive mutex := LoaderLock (l : nat) | DefaultLock.

(* one operation on a lock or on memory; OKeep: a string becomes a key of a map (map.go:628) *)
Inductive op := OLock (m : mutex) | OUnlock (m : mutex) | ORLock (m : mutex) | ORUnlock (m : mutex) | ORead (x : loc) | OWrite (x : loc) | OKeep (k : nat).

(* What a goroutine has still to do. PTest is the test of h == 0 (string.go:592). PChoose: one of both, depending on data that is not modelled.
   PScan: the loop of resize (map.go:868-881) over the keys of a map; PScanAt and PScanWrite are in HashCode of one of them. *)
Inductive prog :=
| PDone
| PDo (o : op) (r : prog)
| PTest (k : nat) (known unknown : prog)
| PChoose (a b : prog)
| PScan (r : prog)
| PScanAt (k : nat) (r : prog)
| PScanWrite (k : nat) (r : prog).
(* a model device: first p, then q *)
Fixpoint seq (p q : prog) : prog :=
  match p with
  | PDone => q
  | PDo o r => PDo o (seq r q)
  | PTest k a b => PTest k (seq a q) (seq b q)
  | PChoose a b => PChoose (seq a q) (seq b q)
  | PScan r => PScan (seq r q)
  | PScanAt k r => PScanAt k (seq r q)
  | PScanWrite k r => PScanWrite k (seq r q)
  end.

(* ---------- the methods ---------- *)

(* hstring.HashCode, string.go:591-596. Strings whose hash code is 0, which is computed again each time, are left out. *)
Definition hash_code (k : nat) (r : prog) : prog :=
  PTest k (PDo (ORead (Hash k)) r) (PDo (OWrite (Hash k)) (PDo (ORead (Hash k)) r)).
(* the key of a lookup: an hstring of the caller, or a new one, made of a Go string, that nobody else has (value.go:49-83) *)
Definition hash_of (k : option nat) (r : prog) : prog := match k with Some k => hash_code k r | None => r end.
(* hashMap.Get, map.go:508-544: a map without table is not searched *)
Definition map_get (x : loc) (k : option nat) (r : prog) : prog := PDo (ORead x) (PChoose r (hash_of k (PDo (ORead x) r))).
(* hashMap.Put, map.go:599-638, of a new key, with resize (861-883) or without *)
Definition map_put (x : loc) (k : option nat) (r : prog) : prog :=
  let add := PDo (OWrite x) (match k with Some k => PDo (OKeep k) r | None => r end) in
  hash_of k (PDo (ORead x) (PChoose add (PScan add))).
(* addEntry, loader.go:192-198; a panic goes to the deferred Unlock *)
Definition add_entry (l : nat) (k : option nat) (panics r : prog) : prog :=
  map_get (Entries l) k (PChoose (map_put (Entries l) k r) (PChoose r panics)).
Fixpoint add_entries (l : nat) (ks : list (option nat)) (panics r : prog) : prog :=
  match ks with [] => r | k :: t => add_entry l k panics (add_entries l t panics r) end.
(* loader.add, loader.go:188-210: the keys of Multiple, or the key itself. The Map of Multiple is the finder's. *)
Definition loader_add (l : nat) (k : option nat) (ks : list (option nat)) (r : prog) : prog :=
  let unlock := PDo (OUnlock (LoaderLock l)) r in
  PDo (OLock (LoaderLock l)) (hash_of k (PChoose (add_entries l ks unlock unlock) unlock)).
(* loader.Get, loader.go:223-239. finder: what the finder does, that is, calls of its own. *)
Definition loader_get (l : nat) (k : option nat) (finder : prog) (ks : list (option nat)) (r : prog) : prog :=
  PDo (ORLock (LoaderLock l)) (map_get (Entries l) k (PDo (ORUnlock (LoaderLock l)) (PChoose r (seq finder (loader_add l k ks r))))).
(* loader.Equals, loader.go:212-217, and hashMap.Equals (map.go:463-476). The values, and the keys, are not compared here. *)
Definition loader_equals (l l' : nat) (r : prog) : prog :=
  PDo (ORead (Entries l)) (PDo (ORead (Entries l')) (PChoose r (PDo (ORead (Spaces l)) (PDo (ORead (Spaces l')) r)))).
(* loader.HashCode, loader.go:219-221; mapLoader.HashCode (122-124) reads the entries only *)
Definition loader_hash (l : nat) (r : prog) : prog := PDo (ORead (Entries l)) (PDo (ORead (Spaces l)) r).
(* loader.String, loader.go:285-287, with initMap (182-186): both maps are printed *)
Definition loader_string (l : nat) (r : prog) : prog := PDo (ORead (Entries l)) (PDo (ORead (Spaces l)) r).
(* mapLoader.Get, loader.go:126-128 *)
Definition map_loader_get (l : nat) (k : option nat) (r : prog) : prog := map_get (Entries l) k r.
(* mapLoader.Equals, loader.go:115-120, and mapLoader.HashCode, 122-124 *)
Definition map_loader_equals (l l' : nat) (r : prog) : prog := PDo (ORead (Entries l)) (PDo (ORead (Entries l')) r).
Definition map_loader_hash (l : nat) (r : prog) : prog := PDo (ORead (Entries l)) r.
(* loader.Namespace, loader.go:245-279. creator: what the creator does. equals: the comparison of the loader that was there and the new one
   (271), which are loaders of some kind. *)
Definition loader_namespace (l : nat) (creator equals : prog) (r : prog) : prog :=
  PDo (ORLock (LoaderLock l)) (map_get (Spaces l) None (PDo (ORUnlock (LoaderLock l)) (PChoose r (seq creator (PChoose r
    (PDo (OLock (LoaderLock l)) (map_get (Spaces l) None (PChoose
      (map_put (Spaces l) None (PDo (OUnlock (LoaderLock l)) r))
      (PDo (OUnlock (LoaderLock l)) (seq equals r))))))))))
.
(* AddAliases with the default map, alias.go:41-58. adder: what the adder does. *)
Definition add_default_aliases (adder : prog) (r : prog) : prog :=
  PDo (ORead Aliases) (seq adder (PChoose r
    (PDo (OLock DefaultLock) (PDo (ORead Aliases) (PDo (OWrite Aliases) (PDo (OUnlock DefaultLock) r)))))).
(* DefaultAliases, alias.go:61-63 *)
Definition default_aliases (r : prog) : prog := PDo (ORead Aliases) r.

(* ---------- executions ---------- *)

(* Who holds the locks, which strings have their hash code, which are keys of maps, and what the goroutines have still to do. *)
Record state := mk_state {
  s_writer : mutex -> option nat;
  s_readers : mutex -> list nat;
  s_hashed : nat -> bool;
  s_kept : list nat;
  s_prog : nat -> prog
}.
Definition mutex_eqb (a b : mutex) : bool :=
  match a, b with LoaderLock l, LoaderLock l' => Nat.eqb l l' | DefaultLock, DefaultLock => true | _, _ => false end.
(* model devices: state updates *)
Definition goto (s : state) (i : nat) (p : prog) : state :=
  mk_state (s_writer s) (s_readers s) (s_hashed s) (s_kept s) (fun j => if Nat.eqb j i then p else s_prog s j).
Definition set_writer (s : state) (m : mutex) (w : option nat) : state :=
  mk_state (fun m' => if mutex_eqb m' m then w else s_writer s m') (s_readers s) (s_hashed s) (s_kept s) (s_prog s).
Definition set_readers (s : state) (m : mutex) (r : list nat) : state :=
  mk_state (s_writer s) (fun m' => if mutex_eqb m' m then r else s_readers s m') (s_hashed s) (s_kept s) (s_prog s).
Definition set_hash (s : state) (k : nat) : state :=
  mk_state (s_writer s) (s_readers s) (fun j => if Nat.eqb j k then true else s_hashed s j) (s_kept s) (s_prog s).
Definition keep (s : state) (k : nat) : state :=
  mk_state (s_writer s) (s_readers s) (s_hashed s) (k :: s_kept s) (s_prog s).

(* which way a goroutine goes where it can choose: left, right, or the key to look at *)
Inductive choice := Left | Right | At (k : nat).
(* One step of goroutine i; None: it cannot go there, or has to wait. sync.RWMutex and sync.Mutex (Go library) as in Loader.v. *)
Definition step (s : state) (i : nat) (c : choice) : option state :=
  match s_prog s i with
  | PDone => None
  | PDo o r =>
      match o with
      | OLock m => match s_writer s m, s_readers s m with None, [] => Some (goto (set_writer s m (Some i)) i r) | _, _ => None end
      | OUnlock m => Some (goto (set_writer s m None) i r)
      | ORLock m => match s_writer s m with None => Some (goto (set_readers s m (i :: s_readers s m)) i r) | Some _ => None end
      | ORUnlock m => Some (goto (set_readers s m (remove Nat.eq_dec i (s_readers s m))) i r)
      | ORead _ => Some (goto s i r)
      | OWrite x => Some (goto (match x with Hash k => set_hash s k | _ => s end) i r)
      | OKeep k => Some (goto (keep s k) i r)
      end
  | PTest k a b => Some (goto s i (if s_hashed s k then a else b))
  | PChoose a b => match c with Left => Some (goto s i a) | Right => Some (goto s i b) | At _ => None end
  | PScan r =>
      match c with
      | At k => if existsb (Nat.eqb k) (s_kept s) then Some (goto s i (PScanAt k r)) else None
      | _ => Some (goto s i r)
      end
  | PScanAt k r => Some (goto s i (if s_hashed s k then PScan r else PScanWrite k r))
  | PScanWrite k r => Some (goto (set_hash s k) i (PScan r))
  end.
(* an execution: who moves, and which way *)
Fixpoint run (s : state) (acts : list (nat * choice)) : option state :=
  match acts with
  | [] => Some s
  | (i, c) :: t => match step s i c with Some s => run s t | None => None end
  end.
(* the beginning: no lock is held, no string is a key; hashed: the strings that have their hash code *)
Definition init (hashed : nat -> bool) (progs : nat -> prog) : state := mk_state (fun _ => None) (fun _ => []) hashed [] progs.
