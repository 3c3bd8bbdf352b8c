(* The registry of named types and the default aliases of /repo/internal, used by any number of goroutines. An
   execution is a list of actions, each of which is one step of one goroutine. *)
From Coq Require Import ZArith List Bool Arith.
From Verif Require Import Data Loader.
Import ListNotations.

(* ---------- named types ---------- *)

(* named.go:13-20 named: the name and the reflected implementation type (0 for nil); the address of the object *)
Record named := mk_named { n_name : name; n_impl : Z; n_addr : nat }.

(* sync.Map (Go library): its operations are atomic *)
Fixpoint delete_key {A} (m : list (name * A)) (k : name) : list (name * A) :=
  match m with
  | [] => []
  | (k', v) :: r => if bytes_eqb k' k then r else (k', v) :: delete_key r k
  end.

(* where a goroutine is *)
Inductive rpc :=
| RIdle
| RNew (n : name) (impl : Z)                 (* named.go:70: before LoadOrStore *)
| RStored (t : named) (loaded : bool)        (* named.go:72: after LoadOrStore *)
| RNamed (n : name)                          (* named.go:88: before Load *)
| RLoaded (n : name) (t : option named)      (* named.go:89: after Load *)
| RRemove (n : name).                        (* named.go:46: before Delete *)

(* what the calls of goroutine i returned *)
Inductive revent :=
| EMade (i : nat) (t : named)
| ERedefined (i : nat) (n : name)            (* NewNamedType panicked *)
| ENamed (i : nat) (n : name) (t : option named)
| ERemoved (i : nat) (n : name)
| EReflected (i : nat) (impl : Z) (t : option named).

(* the global variable namedTypes, named.go:34, the number of objects that were allocated, the goroutines and the
   events, the last first *)
Record rstate := mk_rstate {
  r_types : list (name * named);
  r_next : nat;
  r_pc : nat -> rpc;
  r_log : list revent
}.

Inductive raction :=
| RCallNew (i : nat) (n : name) (impl : Z)
| RCallNamed (i : nat) (n : name)
| RCallRemove (i : nat) (n : name)
| RReflected (i : nat) (impl : Z) (order : list named) (* a call of NamedTypeFromReflected and the order of Range *)
| RStep (i : nat).

(* a model device: state updates *)
Definition rgoto (s : rstate) (i : nat) (p : rpc) : rstate :=
  mk_rstate (r_types s) (r_next s) (fun j => if Nat.eqb j i then p else r_pc s j) (r_log s).
Definition remit (s : rstate) (i : nat) (e : revent) : rstate :=
  rgoto (mk_rstate (r_types s) (r_next s) (r_pc s) (e :: r_log s)) i RIdle.

(* named.go:103-110 the function given to Range *)
Fixpoint find_impl (order : list named) (impl : Z) : option named :=
  match order with
  | [] => None
  | t :: r => if Z.eqb impl (n_impl t) then Some t else find_impl r impl
  end.

(* one step of goroutine i *)
Definition rstep_at (s : rstate) (i : nat) : option rstate :=
  match r_pc s i with
  | RIdle => None
  (* named.go:70-71 *)
  | RNew n impl =>
      let t := mk_named n impl (r_next s) in
      match get_key (r_types s) n with
      | Some old => Some (rgoto (mk_rstate (r_types s) (S (r_next s)) (r_pc s) (r_log s)) i (RStored old true))
      | None => Some (rgoto (mk_rstate (put_key (r_types s) n t) (S (r_next s)) (r_pc s) (r_log s)) i (RStored t false))
      end
  (* named.go:72-75 *)
  | RStored t loaded => Some (remit s i (if loaded then ERedefined i (n_name t) else EMade i t))
  (* named.go:87-92 *)
  | RNamed n => Some (rgoto s i (RLoaded n (get_key (r_types s) n)))
  | RLoaded n t => Some (remit s i (ENamed i n t))
  (* named.go:45-47 *)
  | RRemove n => Some (remit (mk_rstate (delete_key (r_types s) n) (r_next s) (r_pc s) (r_log s)) i (ERemoved i n))
  end.

(* sync.Map.Range in the simplest case: no other goroutine changes the map meanwhile. The order is any order of the
   types that are registered. *)
Definition an_order (s : rstate) (order : list named) : bool :=
  Nat.eqb (length order) (length (r_types s)) &&
  forallb (fun e => existsb (fun t => bytes_eqb (n_name t) (n_name (snd e))) order) (r_types s) &&
  forallb (fun t => match get_key (r_types s) (n_name t) with
                    | Some u => Nat.eqb (n_addr t) (n_addr u) && Z.eqb (n_impl t) (n_impl u)
                    | None => false
                    end) order.

Definition rstep (s : rstate) (a : raction) : option rstate :=
  match a with
  | RCallNew i n impl => match r_pc s i with RIdle => Some (rgoto s i (RNew n impl)) | _ => None end
  | RCallNamed i n => match r_pc s i with RIdle => Some (rgoto s i (RNamed n)) | _ => None end
  | RCallRemove i n => match r_pc s i with RIdle => Some (rgoto s i (RRemove n)) | _ => None end
  (* named.go:101-112 *)
  | RReflected i impl order =>
      match r_pc s i with
      | RIdle => if an_order s order then Some (remit s i (EReflected i impl (find_impl order impl))) else None
      | _ => None
      end
  | RStep i => rstep_at s i
  end.

Fixpoint rrun (s : rstate) (acts : list raction) : option rstate :=
  match acts with
  | [] => Some s
  | a :: r => match rstep s a with Some s' => rrun s' r | None => None end
  end.

(* named.go:34 *)
Definition rinit : rstate := mk_rstate [] 0 (fun _ => RIdle) [].

(* ---------- aliases ---------- *)

(* A type as far as aliases are concerned: a reference to an alias (alias.go:11-13), or a type with a number that
   tells types that are not Equal apart, and the aliases that are mentioned in it (empty for a type that
   is no AliasContainer). deferredCall is left out. *)
Inductive atype := ARef (n : name) | AType (t : Z) (refs : list name).

Definition atype_eqb (a b : atype) : bool :=
  match a, b with
  | ARef n, ARef m => bytes_eqb n m
  | AType t _, AType u _ => Z.eqb t u
  | _, _ => false
  end.

(* map.go Get and Put of a map with types as keys (refined by C01) *)
Fixpoint get_type {A} (m : list (atype * A)) (k : atype) : option A :=
  match m with
  | [] => None
  | (k', v) :: r => if atype_eqb k' k then Some v else get_type r k
  end.
Fixpoint put_type {A} (m : list (atype * A)) (k : atype) (v : A) : list (atype * A) :=
  match m with
  | [] => [(k, v)]
  | (k', v') :: r => if atype_eqb k' k then (k', v) :: r else (k', v') :: put_type r k v
  end.

(* alias.go:15-18 aliasMap *)
Record alias_map := mk_aliases { type_names : list (atype * name); named_types : list (name * atype) }.

(* alias.go:183-196 GetName and GetType *)
Definition alias_name (m : alias_map) (t : atype) : option name := get_type (type_names m) t.
Definition alias_type (m : alias_map) (n : name) : option atype := get_key (named_types m) n.

(* alias.go:198-200 aliasAdder.Add, all calls of one adder function *)
Fixpoint add_all (m : list (name * atype)) (adds : list (name * atype)) : list (name * atype) :=
  match adds with
  | [] => m
  | (n, t) :: r => add_all (put_key m n t) r
  end.

(* alias.go:202-207 aliasAdder.GetType *)
Definition adder_type (added : list (name * atype)) (backing : alias_map) (n : name) : option atype :=
  match get_key added n with Some t => Some t | None => alias_type backing n end.

(* alias.go:209-222 aliasAdder.Replace; None: panic. Resolving a container puts the types into it and keeps the
   container, which is then a type without references. *)
Definition alias_replace (added : list (name * atype)) (backing : alias_map) (t : atype) : option atype :=
  match t with
  | ARef n => adder_type added backing n
  | AType x refs =>
      if forallb (fun n => match adder_type added backing n with Some _ => true | None => false end) refs
      then Some (AType x []) else None
  end.

(* alias.go:167-168 *)
Fixpoint replace_all (todo added : list (name * atype)) (backing : alias_map) : option (list (name * atype)) :=
  match todo with
  | [] => Some []
  | (n, t) :: r =>
      match alias_replace added backing t with
      | None => None
      | Some t' => match replace_all r added backing with None => None | Some r' => Some ((n, t') :: r') end
      end
  end.

(* alias.go:171-176 *)
Fixpoint put_all (m : alias_map) (rs : list (name * atype)) : alias_map :=
  match rs with
  | [] => m
  | (n, t) :: r => put_all (mk_aliases (put_type (type_names m) t n) (put_key (named_types m) n t)) r
  end.

(* an unresolved alias cannot be frozen, alias.go:86-88 *)
Definition freezable (rs : list (name * atype)) : bool :=
  forallb (fun e => match snd e with ARef _ => false | AType _ _ => true end) rs.

(* alias.go:159-180 aliasMap.update; None: panic *)
Definition alias_update (m : alias_map) (added : list (name * atype)) (backing : alias_map) : option alias_map :=
  match replace_all added added backing with
  | None => None
  | Some rs => if freezable rs then Some (put_all m rs) else None
  end.

(* where a goroutine is in AddAliases, alias.go:50-58 *)
Inductive apc :=
| PIdle
| PStart                                                             (* 51: before the variable is read *)
| PAdder (backing : alias_map)                                       (* 52: in the adder function *)
| PLock (backing : alias_map) (added : list (name * atype))          (* 54 *)
| PRead (backing : alias_map) (added : list (name * atype))          (* 56: before the variable is read *)
| PWrite (new : alias_map) (added : list (name * atype))             (* 56: before the variable is set *)
| PUnlock (added : option (list (name * atype))).                    (* deferred Unlock; None: panicking *)

(* AddAliases of goroutine i has returned (and what it added) or panicked *)
Inductive aevent := EAdded (i : nat) (added : list (name * atype)) | EAddPanic (i : nat).

(* the variable defaultAliases, alias.go:115, the lock defaultLock, alias.go:37, the goroutines and the events, the
   last first *)
Record astate := mk_astate {
  a_map : alias_map;
  a_lock : option nat;
  a_pc : nat -> apc;
  a_log : list aevent
}.

Inductive aaction :=
| ACall (i : nat)
| AAdder (i : nat) (adds : option (list (name * atype))) (* what the adder function adds; None: it panics *)
| AGo (i : nat).

(* a model device: state updates *)
Definition agoto (s : astate) (i : nat) (p : apc) : astate :=
  mk_astate (a_map s) (a_lock s) (fun j => if Nat.eqb j i then p else a_pc s j) (a_log s).
Definition aemit (s : astate) (i : nat) (e : aevent) : astate :=
  agoto (mk_astate (a_map s) (a_lock s) (a_pc s) (e :: a_log s)) i PIdle.
Definition aset_lock (s : astate) (l : option nat) : astate := mk_astate (a_map s) l (a_pc s) (a_log s).
Definition aset_map (s : astate) (m : alias_map) : astate := mk_astate m (a_lock s) (a_pc s) (a_log s).

(* one step of goroutine i in alias.go:50-58; None: it has to wait *)
Definition astep_at (s : astate) (i : nat) : option astate :=
  match a_pc s i with
  | PIdle | PAdder _ => None
  | PStart => Some (agoto s i (PAdder (a_map s)))
  | PLock b added => match a_lock s with
                     | None => Some (agoto (aset_lock s (Some i)) i (PRead b added))
                     | Some _ => None
                     end
  | PRead b added => match alias_update (a_map s) added b with
                     | Some m => Some (agoto s i (PWrite m added))
                     | None => Some (agoto s i (PUnlock None))
                     end
  | PWrite m added => Some (agoto (aset_map s m) i (PUnlock (Some added)))
  | PUnlock (Some added) => Some (aemit (aset_lock s None) i (EAdded i added))
  | PUnlock None => Some (aemit (aset_lock s None) i (EAddPanic i))
  end.

Definition astep (s : astate) (a : aaction) : option astate :=
  match a with
  | ACall i => match a_pc s i with PIdle => Some (agoto s i PStart) | _ => None end
  (* alias.go:52-53 *)
  | AAdder i adds =>
      match a_pc s i with
      | PAdder b => match adds with
                    | None => Some (aemit s i (EAddPanic i))
                    | Some adds => match add_all [] adds with
                                   | [] => Some (aemit s i (EAdded i []))
                                   | added => Some (agoto s i (PLock b added))
                                   end
                    end
      | _ => None
      end
  | AGo i => astep_at s i
  end.

Fixpoint arun (s : astate) (acts : list aaction) : option astate :=
  match acts with
  | [] => Some s
  | a :: r => match astep s a with Some s' => arun s' r | None => None end
  end.

(* alias.go:117-148 init; the map m holds the built in aliases *)
Definition ainit (m : alias_map) : astate := mk_astate m None (fun _ => PIdle) [].
