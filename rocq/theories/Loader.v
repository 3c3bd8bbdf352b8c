(* The mutable loader of /repo/loader used by any number of goroutines. An execution is a list of actions,
   each of which is one step of one goroutine.

   A goroutine takes a step for each operation on the lock and each access to the maps of the
   loader. What the finder and the creator of namespaces return, and whether two loaders are
   Equal, is part of the action: every possible outcome is considered. A finder or
   creator that calls the loader itself does so without holding the lock; such a call is a
   call of another goroutine in the model.
   The maps entries and namespaces are lists of keys and values, see C01. Keys that are not strings
   (Get returns nil, loader.go:224-227) are left out. *)
From Coq Require Import ZArith List Bool Arith.
From Verif Require Import Data.
Import ListNotations.

(* a name, the bytes of a string *)
Definition name := list Z.

(* map.go Get and Put on a map with string keys (refined by C01) *)
Fixpoint get_key {A} (m : list (name * A)) (k : name) : option A :=
  match m with
  | [] => None
  | (k', v) :: r => if bytes_eqb k' k then Some v else get_key r k
  end.
Fixpoint put_key {A} (m : list (name * A)) (k : name) (v : A) : list (name * A) :=
  match m with
  | [] => [(k, v)]
  | (k', v') :: r => if bytes_eqb k' k then (k', v) :: r else (k', v') :: put_key r k v
  end.

(* what a call of the finder does: return a value (nil is VNil), return Multiple(m), loader.go:42-44, or panic *)
Inductive found := FVal (v : value) | FMulti (m : list (name * value)) | FPanic.
(* what a call of the creator of namespaces does: return a loader, return nil, panic *)
Inductive created := CLoader (o : nat) | CNil | CPanic.

(* where a goroutine is: in Get, loader.go:223-239, with add, loader.go:188-210 *)
Inductive pc :=
| Idle
| GStart (k : name)                                        (* 228: before RLock *)
| GReading (k : name)                                      (* 229 *)
| GRead (k : name) (v : option value)                      (* 230: before RUnlock *)
| GHave (k : name) (v : option value)                      (* 231 *)
| GFind (k : name)                                         (* 232: in the finder *)
| GAdd (k : name) (f : found)                              (* 189: before Lock *)
| GAdding (k : name) (todo : list (name * value)) (w : value) (* 193: entries that are still to add *)
| GPut (k k' : name) (v' : value) (todo : list (name * value)) (w : value) (* 194: old is nil *)
| GUnlock (k : name) (w : option value)                    (* deferred Unlock; None: panicking *)
(* in Namespace, loader.go:245-279 *)
| NStart (n : name)                                        (* 246 *)
| NReading (n : name)                                      (* 251 *)
| NRead (n : name) (o : option nat)                        (* 252 *)
| NHave (n : name) (o : option nat)                        (* 254 *)
| NCreate (n : name)                                       (* 258: in the creator *)
| NLock (n : name) (o : nat)                               (* 261 *)
| NLocked (n : name) (o : nat)                             (* 262 *)
| NPut (n : name) (o : nat)                                (* 263 *)
| NUnlock (n : name) (o : nat) (old : option nat)          (* 265 *)
| NCompare (n : name) (o : nat) (old : option nat).        (* 267 *)

(* what has happened, as seen by the callers: Get of goroutine i for k returned v (VNil for nil), Namespace
   for n returned a loader, the loader itself or nil, or the call panicked *)
Inductive event :=
| EGot (i : nat) (k : name) (v : value)
| ESpace (i : nat) (n : name) (o : option nat)
| ESelf (i : nat)
| EPanic (i : nat).

(* loader.go:25-31 loader with its lock, the goroutines and the events, the last first *)
Record state := mk_state {
  l_entries : list (name * value);
  l_spaces : list (name * nat);
  l_readers : list nat;
  l_writer : option nat;
  l_pc : nat -> pc;
  l_log : list event
}.

Inductive action :=
| AGet (i : nat) (k : name)
| ANamespace (i : nat) (n : name)
| AStep (i : nat)
| AFound (i : nat) (f : found)
| ACreated (i : nat) (c : created)
| AEqual (i : nat) (b : bool).

(* a model device: state updates *)
Definition goto (s : state) (i : nat) (p : pc) : state :=
  mk_state (l_entries s) (l_spaces s) (l_readers s) (l_writer s) (fun j => if Nat.eqb j i then p else l_pc s j) (l_log s).
Definition set_readers (s : state) (r : list nat) : state :=
  mk_state (l_entries s) (l_spaces s) r (l_writer s) (l_pc s) (l_log s).
Definition set_writer (s : state) (w : option nat) : state :=
  mk_state (l_entries s) (l_spaces s) (l_readers s) w (l_pc s) (l_log s).
Definition emit (s : state) (i : nat) (e : event) : state :=
  goto (mk_state (l_entries s) (l_spaces s) (l_readers s) (l_writer s) (l_pc s) (e :: l_log s)) i Idle.
Definition put_entry (s : state) (k : name) (v : value) : state :=
  mk_state (put_key (l_entries s) k v) (l_spaces s) (l_readers s) (l_writer s) (l_pc s) (l_log s).
Definition put_space (s : state) (n : name) (o : nat) : state :=
  mk_state (l_entries s) (put_key (l_spaces s) n o) (l_readers s) (l_writer s) (l_pc s) (l_log s).

(* sync.RWMutex (Go library): RLock waits for a writer, Lock for a writer and readers. A waiting writer also
   blocks new readers, which excludes executions that are allowed here. *)
Definition rlock (s : state) (i : nat) : option state :=
  match l_writer s with None => Some (set_readers s (i :: l_readers s)) | Some _ => None end.
Definition runlock (s : state) (i : nat) : state := set_readers s (remove Nat.eq_dec i (l_readers s)).
Definition lock (s : state) (i : nat) : option state :=
  match l_writer s, l_readers s with None, [] => Some (set_writer s (Some i)) | _, _ => None end.
Definition unlock (s : state) : state := set_writer s None.

Section Config.
(* whether the loader has a finder and a creator of namespaces *)
Variables (has_finder has_creator : bool).

(* one step of goroutine i that needs no outside answer; None: it has to wait *)
Definition step_at (s : state) (i : nat) : option state :=
  match l_pc s i with
  | Idle => None
  (* loader.go:228-238 *)
  | GStart k => option_map (fun s => goto s i (GReading k)) (rlock s i)
  | GReading k => Some (goto s i (GRead k (get_key (l_entries s) k)))
  | GRead k v => Some (goto (runlock s i) i (GHave k v))
  | GHave k v =>
      match v with
      | Some v => Some (emit s i (EGot i k v))
      | None => if has_finder then Some (goto s i (GFind k)) else Some (emit s i (EGot i k VNil))
      end
  | GFind _ => None
  (* loader.go:189, 200-208 *)
  | GAdd k f =>
      option_map (fun s =>
        match f with
        | FVal w => goto s i (GAdding k [(k, w)] w)
        | FMulti m => match get_key m k with
                      | Some w => goto s i (GAdding k m w)
                      | None => goto s i (GUnlock k None)
                      end
        | FPanic => goto s i (GUnlock k None)
        end) (lock s i)
  (* loader.go:192-198 *)
  | GAdding k [] w => Some (goto s i (GUnlock k (Some w)))
  | GAdding k ((k', v') :: r) w =>
      match get_key (l_entries s) k' with
      | None => Some (goto s i (GPut k k' v' r w))
      | Some old => if veq old v' then Some (goto s i (GAdding k r w)) else Some (goto s i (GUnlock k None))
      end
  | GPut k k' v' r w => Some (goto (put_entry s k' v') i (GAdding k r w))
  | GUnlock k (Some w) => Some (emit (unlock s) i (EGot i k w))
  | GUnlock k None => Some (emit (unlock s) i (EPanic i))
  (* loader.go:246-278 *)
  | NStart n =>
      match n with
      | [] => Some (emit s i (ESelf i))
      | _ => option_map (fun s => goto s i (NReading n)) (rlock s i)
      end
  | NReading n => Some (goto s i (NRead n (get_key (l_spaces s) n)))
  | NRead n o => Some (goto (runlock s i) i (NHave n o))
  | NHave n o =>
      match o with
      | Some _ => Some (emit s i (ESpace i n o))
      | None => if has_creator then Some (goto s i (NCreate n)) else Some (emit s i (ESpace i n None))
      end
  | NCreate _ => None
  | NLock n o => option_map (fun s => goto s i (NLocked n o)) (lock s i)
  | NLocked n o =>
      match get_key (l_spaces s) n with
      | None => Some (goto s i (NPut n o))
      | Some old => Some (goto s i (NUnlock n o (Some old)))
      end
  | NPut n o => Some (goto (put_space s n o) i (NUnlock n o None))
  | NUnlock n o old => Some (goto (unlock s) i (NCompare n o old))
  | NCompare n o None => Some (emit s i (ESpace i n (Some o)))
  | NCompare n o (Some _) => None
  end.

Definition step (s : state) (a : action) : option state :=
  match a with
  (* loader.go:223 a goroutine calls Get *)
  | AGet i k => match l_pc s i with Idle => Some (goto s i (GStart k)) | _ => None end
  (* loader.go:245 a goroutine calls Namespace *)
  | ANamespace i n => match l_pc s i with Idle => Some (goto s i (NStart n)) | _ => None end
  | AStep i => step_at s i
  (* loader.go:232 *)
  | AFound i f =>
      match l_pc s i with
      | GFind k => match f with FPanic => Some (emit s i (EPanic i)) | _ => Some (goto s i (GAdd k f)) end
      | _ => None
      end
  (* loader.go:258 *)
  | ACreated i c =>
      match l_pc s i with
      | NCreate n => match c with
                     | CLoader o => Some (goto s i (NLock n o))
                     | CNil => Some (emit s i (ESpace i n None))
                     | CPanic => Some (emit s i (EPanic i))
                     end
      | _ => None
      end
  (* loader.go:270-275 *)
  | AEqual i b =>
      match l_pc s i with
      | NCompare n o (Some old) => if b then Some (emit s i (ESpace i n (Some old))) else Some (emit s i (EPanic i))
      | _ => None
      end
  end.

(* an execution; None: one of the actions is not possible *)
Fixpoint run (s : state) (acts : list action) : option state :=
  match acts with
  | [] => Some s
  | a :: r => match step s a with Some s' => run s' r | None => None end
  end.

(* loader.go:59-79 New *)
Definition init (entries : list (name * value)) : state := mk_state entries [] [] None (fun _ => Idle) [].
End Config.
