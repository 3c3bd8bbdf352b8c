(* C91: data races. C92: deadlocks. *)
From Coq Require Import List Bool Arith.
From Verif Require Import Race RaceSpec RaceProofs RaceLocks.
Import ListNotations.

(* C91 partial: any number of goroutines, each doing any sequence of calls: Get and Namespace of loaders, with finders and creators that do
   such calls too, Get, Equals and HashCode of mapLoaders, HashCode of strings and DefaultAliases. Whatever the order of their steps is, at
   no time can two of them access the same memory where one of them writes. A string that has no hash code yet belongs to one goroutine.
   Missing because it is false, see the refutations: mutable loaders that are compared, hashed or printed, or replaced namespaces that are
   mutable loaders; aliases that are added; new strings that several goroutines use. *)
Theorem C91_no_races_partial immutable hashed owner progs acts s :
  (forall i, calls immutable hashed owner i (progs i)) -> run (init hashed progs) acts = Some s -> ~ race s.
Proof. exact (no_races immutable hashed owner progs acts s). Qed.
Print Assumptions C91_no_races_partial.

Definition two (p q : prog) (i : nat) : prog := match i with 0 => p | 1 => q | _ => PDone end.
(* loader 0 is mutable, 1 is not *)
Definition second_immutable (l : nat) : bool := Nat.eqb l 1.
(* string 7 has its hash code; 0 and 1 belong to the goroutines with these numbers *)
Definition seventh (k : nat) : bool := Nat.eqb k 7.
Definition getter (k : nat) : prog :=
  loader_get 0 (Some k) (map_loader_get 1 (Some 7) PDone) [Some k; Some 7] (loader_namespace 0 PDone (map_loader_equals 1 1 PDone) (default_aliases PDone)).
Definition getters : nat -> prog := two (getter 0) (getter 1).
Example C91_ex_calls i : calls second_immutable seventh (fun k => k) i (getters i).
Proof.
  destruct i as [|[|i]]; [| |constructor]; unfold getters, two, getter;
    (apply call_get; [reflexivity|cbn; auto|repeat constructor; cbn; auto|apply call_map_get; [reflexivity|cbn; auto|constructor]|]);
    (apply call_namespace; [reflexivity|constructor|apply call_map_equals; [reflexivity|reflexivity|constructor]|apply call_default_aliases; constructor]).
Qed.
(* An execution in which both goroutines find that the loader has no such entry. The first one adds its entries. The other one waits, then adds its
   own, for which the table has to grow: the hash code of the key of the first one, a key of the loader now, is read. *)
Definition lookup : list choice := [Left; Left; Left; Left; Right; Left; Left].
Definition computing : list choice := [Left; Left; Left].
Definition adding_one (hash : list choice) (grow : list choice) : list choice := [Left; Left; Left] ++ hash ++ [Left] ++ grow.
Definition adding_both : list choice := [Left] ++ computing ++ [Left] ++ adding_one [Left; Left] [Left; Left; Left] ++ adding_one [Left; Left] [Left; Left; Left] ++ [Left].
Definition growing : list choice := [Left] ++ computing ++ [Left] ++ adding_one [Left; Left] [Right; At 0; Left; Left].
Definition grown : list (nat * choice) :=
  map (pair 0) lookup ++ map (pair 1) lookup ++ map (pair 0) adding_both ++ map (pair 1) growing.
Definition is_some {A} (o : option A) : bool := match o with Some _ => true | None => false end.
Example C91_ex_runs : match run (init seventh getters) grown with
  | Some s => access (s_prog s 1) = Some (Entries 0, true) /\ s_kept s = [7; 0] /\ is_some (step s 0 Left) = false
  | None => False end.
Proof. vm_compute. auto. Qed.

(* Get of a loader that adds an entry, up to the write *)
Definition adding (l : nat) : prog := loader_get l None PDone [None] PDone.
Definition to_write (i : nat) : list (nat * choice) := map (fun c => (i, c)) [Left; Left; Left; Left; Right; Left; Left; Left; Left; Left; Left; Left].
(* loader.HashCode reads the entries without the lock (loader.go:219-221), while Get of another goroutine adds one *)
Theorem C91_hash_code_refuted : exists acts s, run (init (fun _ => true) (two (loader_hash 0 PDone) (adding 0))) acts = Some s /\ race s.
Proof. apply (race_shown _ _ ((to_write 1)) 0 1). vm_compute. reflexivity. Qed.
Print Assumptions C91_hash_code_refuted.
(* so does loader.Equals (212-217) *)
Theorem C91_equals_refuted : exists acts s, run (init (fun _ => true) (two (loader_equals 1 0 PDone) (adding 0))) acts = Some s /\ race s.
Proof. apply (race_shown _ _ ((to_write 1 ++ [(0, Left)])) 0 1). vm_compute. reflexivity. Qed.
Print Assumptions C91_equals_refuted.
(* and loader.String (285-287, 182-186) *)
Theorem C91_string_refuted : exists acts s, run (init (fun _ => true) (two (loader_string 0 PDone) (adding 0))) acts = Some s /\ race s.
Proof. apply (race_shown _ _ ((to_write 1)) 0 1). vm_compute. reflexivity. Qed.
Print Assumptions C91_string_refuted.

(* Two goroutines ask loader 0 for the same namespace, which is mutable, and use it. The first creates it (loader 1) and gets something from it;
   the second creates another one (loader 2), finds the first, and compares both (loader.go:271) while the first adds an entry. *)
Definition user (new : nat) : prog := loader_namespace 0 PDone (loader_equals 1 new PDone) (adding 1).
Definition both_create : list (nat * choice) :=
  map (fun c => (0, c)) [Left; Left; Left; Left; Right; Right] ++ map (fun c => (1, c)) [Left; Left; Left; Left; Right; Right]
  ++ map (fun c => (0, c)) [Left; Left; Left; Left; Left; Left; Left; Left] ++ map (fun c => (1, c)) [Left; Left; Left; Right; Left]
  ++ to_write 0.
Theorem C91_namespace_refuted : exists acts s, run (init (fun _ => true) (two (user 1) (user 2))) acts = Some s /\ race s.
Proof. apply (race_shown _ _ (both_create) 1 0). vm_compute. reflexivity. Qed.
Print Assumptions C91_namespace_refuted.

(* AddDefaultAliases, whose comment says that it is safe from a concurrency perspective (alias.go:39-43), reads defaultAliases before it takes the lock *)
Theorem C91_add_aliases_refuted :
  exists acts s, run (init (fun _ => true) (two (add_default_aliases PDone PDone) (add_default_aliases PDone PDone))) acts = Some s /\ race s.
Proof. apply (race_shown _ _ ((map (fun c => (1, c)) [Left; Right; Left; Left])) 0 1). vm_compute. reflexivity. Qed.
Print Assumptions C91_add_aliases_refuted.
(* and so does DefaultAliases (61-63), which every parse without an alias map calls *)
Theorem C91_default_aliases_refuted :
  exists acts s, run (init (fun _ => true) (two (default_aliases PDone) (add_default_aliases PDone PDone))) acts = Some s /\ race s.
Proof. apply (race_shown _ _ ((map (fun c => (1, c)) [Left; Right; Left; Left])) 0 1). vm_compute. reflexivity. Qed.
Print Assumptions C91_default_aliases_refuted.

(* One new string is the key for two goroutines that get from an immutable loader: HashCode of the string writes to it (string.go:591-596) *)
Theorem C91_new_string_refuted :
  exists acts s, run (init (fun _ => false) (two (map_loader_get 1 (Some 0) PDone) (map_loader_get 1 (Some 0) PDone))) acts = Some s /\ race s.
Proof. apply (race_shown _ _ ([(0, Left); (0, Right); (1, Left); (1, Right); (1, Left)]) 0 1). vm_compute. reflexivity. Qed.
Print Assumptions C91_new_string_refuted.

(* C92: whatever calls goroutines make, and in whatever order they move, as long as one is not done there is one that is not done and can go on;
   none waits for a lock that one holds that waits itself. *)
Theorem C92_no_deadlock hashed progs acts s i : (forall i, any_calls (progs i)) -> run (init hashed progs) acts = Some s ->
  s_prog s i <> PDone -> exists j, s_prog s j <> PDone /\ ~ waits s j /\ exists c s', step s j c = Some s'.
Proof. exact (no_deadlock hashed progs acts s i). Qed.
Print Assumptions C92_no_deadlock.
(* C92: a goroutine that is done, also one whose add panicked, holds no lock *)
Theorem C92_locks_given_back hashed progs acts s i m : (forall i, any_calls (progs i)) -> run (init hashed progs) acts = Some s ->
  s_prog s i = PDone -> s_writer s m <> Some i /\ ~ In i (s_readers s m).
Proof. exact (locks_given_back hashed progs acts s i m). Qed.
Print Assumptions C92_locks_given_back.

(* a finder that gets from the same loader, and a creator that asks for the same namespace *)
Definition nested : prog := loader_get 0 (Some 0) (adding 0) [Some 0] (loader_namespace 0 (loader_namespace 0 PDone PDone PDone) (loader_equals 1 2 PDone) (add_default_aliases PDone PDone)).
Example C92_ex_calls i : any_calls (two nested nested i).
Proof. destruct i as [|[|i]]; cbn [two]; [| |constructor]; repeat constructor. Qed.
Example C92_ex_waits : match run (init seventh (two (adding 0) nested)) [(0, Left); (0, Left); (0, Left); (0, Left); (0, Right); (0, Left)] with
  | Some s => waits s 1 /\ step s 1 Left = None /\ is_some (step s 0 Left) = true | None => False end.
Proof. cbn. split; [|split; reflexivity]. exists (LoaderLock 0). eexists. split; [right; reflexivity|left; discriminate]. Qed.
