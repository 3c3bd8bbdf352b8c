(* Data races, and the calls that goroutines make. *)
From Coq Require Import List Bool Arith.
From Verif Require Import Race.
Import ListNotations.

(* the memory that the next step of a goroutine reads (false) or writes (true) *)
Definition access (p : prog) : option (loc * bool) :=
  match p with
  | PDo (ORead x) _ => Some (x, false)
  | PDo (OWrite x) _ => Some (x, true)
  | PTest k _ _ | PScanAt k _ => Some (Hash k, false)
  | PScanWrite k _ => Some (Hash k, true)
  | _ => None
  end.
(* two goroutines are about to access the same memory, and one of them writes: nothing orders the two accesses *)
Definition race (s : state) : Prop :=
  exists i j x w w', i <> j /\ access (s_prog s i) = Some (x, w) /\ access (s_prog s j) = Some (x, w') /\ w || w' = true.

Section Calls.
(* the loaders that are immutable, that is, mapLoaders *)
Variable immutable : nat -> bool.
(* the strings that have their hash code from the beginning *)
Variable hashed : nat -> bool.
(* the goroutine that uses a string, for those that do not *)
Variable owner : nat -> nat.
(* the strings that goroutine i may use: those whose hash code is known, and its own *)
Definition usable (i : nat) (k : option nat) : Prop := match k with Some k => hashed k = true \/ owner k = i | None => True end.
(* What goroutine i does: a sequence of calls. Finders, creators and adders do the same. Mutable loaders are not compared and not printed. *)
Inductive calls (i : nat) : prog -> Prop :=
| no_call : calls i PDone
| call_get l k finder ks r : immutable l = false -> usable i k -> Forall (usable i) ks -> calls i finder -> calls i r -> calls i (loader_get l k finder ks r)
| call_map_get l k r : immutable l = true -> usable i k -> calls i r -> calls i (map_loader_get l k r)
| call_namespace l creator equals r : immutable l = false -> calls i creator -> calls i equals -> calls i r -> calls i (loader_namespace l creator equals r)
| call_map_equals l l' r : immutable l = true -> immutable l' = true -> calls i r -> calls i (map_loader_equals l l' r)
| call_map_hash l r : immutable l = true -> calls i r -> calls i (map_loader_hash l r)
| call_default_aliases r : calls i r -> calls i (default_aliases r)
| call_hash_code k r : usable i (Some k) -> calls i r -> calls i (hash_code k r).
End Calls.

(* any calls: loaders of all kinds are compared, hashed and printed, aliases are added, and every goroutine uses every string *)
Inductive any_calls : prog -> Prop :=
| any_none : any_calls PDone
| any_get l k finder ks r : any_calls finder -> any_calls r -> any_calls (loader_get l k finder ks r)
| any_map_get l k r : any_calls r -> any_calls (map_loader_get l k r)
| any_namespace l creator equals r : any_calls creator -> any_calls equals -> any_calls r -> any_calls (loader_namespace l creator equals r)
| any_equals l l' r : any_calls r -> any_calls (loader_equals l l' r)
| any_hash l r : any_calls r -> any_calls (loader_hash l r)
| any_string l r : any_calls r -> any_calls (loader_string l r)
| any_map_equals l l' r : any_calls r -> any_calls (map_loader_equals l l' r)
| any_map_hash l r : any_calls r -> any_calls (map_loader_hash l r)
| any_add_default_aliases adder r : any_calls adder -> any_calls r -> any_calls (add_default_aliases adder r)
| any_default_aliases r : any_calls r -> any_calls (default_aliases r)
| any_hash_code k r : any_calls r -> any_calls (hash_code k r).
(* A goroutine that wants a lock that somebody holds waits, also where the holder reads and it wants to read: in Go it may have to,
   because somebody who wants to write is already waiting. *)
Definition waits (s : state) (i : nat) : Prop :=
  exists m r, (s_prog s i = PDo (OLock m) r \/ s_prog s i = PDo (ORLock m) r) /\ (s_writer s m <> None \/ s_readers s m <> []).
