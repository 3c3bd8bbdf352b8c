(* Memory shared between dgo values and Go code: what WrapSlice, Binary, GoSlice, GoBytes and ReflectTo give away, in
   /repo/internal. Complements Slices.v and Objects.v, where Go code holds no slices.

   A cell is a piece of memory that can be written through a pointer or a slice: the text of a string, a time, the elements
   of a slice. Its content is a list of numbers: bytes, the fields of the time, elements that cannot change. The offset,
   length and capacity of slices are left out (Slices.v). *)
From Coq Require Import ZArith List Bool Arith.
From Verif Require Import Int64 Data.
Import ListNotations.

(* string.go:45-48 hstring with the cached hash, time.go:19 timeVal, binary.go:26-29 binary, array.go:15-18 array; the cell of each.
   integer.go, float.go and boolean.go have values without a cell. struct.go:14-19 structVal: a Go struct with one field, a slice, in that cell. *)
Inductive object :=
| OStr (a : nat) (h : Z) | OTime (a : nat) | OBin (frozen : bool) (a : nat) | OArr (frozen : bool) (a : nat) | OPlain (c : list Z) | OStruct (frozen : bool) (a : nat).

(* the memory, the values, and the cells that Go code can write to: through slices, and through other pointers. A []byte and
   a []dgo.Value are not told apart. *)
Record world := World { memory : list (list Z); objects : list object; held : list nat; pointed : list nat }.

Definition cell_of (o : object) : option nat :=
  match o with OStr a _ | OTime a | OBin _ a | OArr _ a | OStruct _ a => Some a | OPlain _ => None end.
Definition load (m : list (list Z)) (a : nat) : list Z := nth a m [].
(* what the value stands for *)
Definition content (w : world) (o : object) : list Z :=
  match o with OPlain c => c | OStr a _ | OTime a | OBin _ a | OArr _ a | OStruct _ a => load (memory w) a end.

Fixpoint upd {A} (l : list A) (n : nat) (x : A) : list A :=
  match l, n with
  | [], _ => []
  | _ :: r, O => x :: r
  | y :: r, S n => y :: upd r n x
  end.

(* a model device: new memory, a new value *)
Definition fresh (w : world) : nat := length (memory w).
Definition with_cell (w : world) (c : list Z) : world := World (memory w ++ [c]) (objects w) (held w) (pointed w).
Definition with_object (w : world) (o : object) : world := World (memory w) (objects w ++ [o]) (held w) (pointed w).
Definition hold (w : world) (a : nat) : world := World (memory w) (objects w) (a :: held w) (pointed w).
Definition point (w : world) (a : nat) : world := World (memory w) (objects w) (held w) (a :: pointed w).
Definition replace (w : world) (i : nat) (o : object) : world := World (memory w) (upd (objects w) i o) (held w) (pointed w).
Definition store (w : world) (a : nat) (c : list Z) : world := World (upd (memory w) a c) (objects w) (held w) (pointed w).
(* the value gets a new cell with a copy of the content *)
Definition with_copy (w : world) (o : nat -> object) (c : list Z) : world := with_object (with_cell w c) (o (fresh w)).

Inductive op :=
| Make (c : list Z)                      (* Go code makes a slice *)
| Write (a : nat) (c : list Z)           (* Go code writes to memory that it holds *)
| NewString (s : list Z) | NewTime (c : list Z) | NewPlain (c : list Z)
| NewBinary (a : nat) (frozen : bool)    (* Binary of a slice that Go code holds *)
| WrapSlice (a : nat) | NewArray (a : nat)
| NewStruct (a : nat)                    (* Map of a Go struct with a slice that Go code holds *)
| Get (i : nat)                          (* Get of the field *)
| Freeze (i : nat) | FrozenCopy (i : nat) | ThawedCopy (i : nat)
| GoSlice (i : nat)                      (* GoSlice, GoBytes *)
| ReflectPtr (i : nat)                   (* ReflectTo into a pointer *)
| Set_ (i : nat) (c : list Z)            (* Set of an array, and any other mutator that does not make a new slice *)
| Add (i : nat) (z : Z) (grows : bool)   (* Add; the runtime decides whether append makes a new slice *)
| HashCode (i : nat).

(* One call. None: a panic, or a slice or value that does not exist. *)
Definition step (w : world) (c : op) : option world :=
  match c with
  | Make c => Some (hold (with_cell w c) (fresh w))
  | Write a c => if in_dec Nat.eq_dec a (held w ++ pointed w) then Some (store w a c) else None
  (* string.go:538-540 makeHString *)
  | NewString s => Some (with_copy w (fun a => OStr a 0) s)
  (* time.go:121-123 Time: the argument is a copy *)
  | NewTime c => Some (with_copy w OTime c)
  | NewPlain c => Some (with_object w (OPlain c))
  (* binary.go:223-230 Binary *)
  | NewBinary a frozen =>
      if in_dec Nat.eq_dec a (held w)
      then Some (if frozen then with_copy w (OBin true) (load (memory w) a) else with_object w (OBin false a))
      else None
  (* array.go:763-766 WrapSlice *)
  | WrapSlice a => if in_dec Nat.eq_dec a (held w) then Some (with_object w (OArr false a)) else None
  (* array.go:674-685 Array of a []dgo.Value *)
  | NewArray a => if in_dec Nat.eq_dec a (held w) then Some (with_copy w (OArr true) (load (memory w) a)) else None
  (* map.go:328-330 FromReflectedStruct *)
  | NewStruct a => if in_dec Nat.eq_dec a (held w) then Some (with_object w (OStruct false a)) else None
  (* struct.go:209-218 Get: ArrayFromReflected makes a frozen array *)
  | Get i =>
      match nth_error (objects w) i with
      | Some (OStruct _ a) => Some (with_copy w (OArr true) (load (memory w) a))
      | _ => None
      end
  | Freeze i =>
      match nth_error (objects w) i with
      (* struct.go:136-147: the values are frozen copies of the fields *)
      | Some (OStruct false a) => Some (replace w i (OStruct true a))
      (* binary.go:344-351 *)
      | Some (OBin false a) => Some (replace (with_cell w (load (memory w) a)) i (OBin true (fresh w)))
      (* array.go:1058-1069: the slice remains *)
      | Some (OArr false a) => Some (replace w i (OArr true a))
      | Some _ => Some w
      | None => None
      end
  | FrozenCopy i =>
      match nth_error (objects w) i with
      (* struct.go:153-170: the value of the field is frozen, the field remains *)
      | Some (OStruct false a) => Some (with_object w (OStruct true a))
      (* binary.go:279-286, 357-359 *)
      | Some (OBin false a) => Some (with_copy w (OBin true) (load (memory w) a))
      (* array.go:935-954, 1075-1077 *)
      | Some (OArr false a) => Some (with_copy w (OArr true) (load (memory w) a))
      | Some _ => Some w
      | None => None
      end
  | ThawedCopy i =>
      match nth_error (objects w) i with
      (* struct.go:172-185 *)
      | Some (OStruct _ a) => Some (with_copy w (OStruct false) (load (memory w) a))
      | Some (OBin _ a) => Some (with_copy w (OBin false) (load (memory w) a))
      | Some (OArr _ a) => Some (with_copy w (OArr false) (load (memory w) a))
      | Some _ => Some w
      | None => None
      end
  (* binary.go:365-372 GoBytes, array.go:1083-1088 GoSlice. ReflectTo into a []byte or []dgo.Value does the same:
     binary.go:378-389, array.go:1182-1191. *)
  | GoSlice i =>
      match nth_error (objects w) i with
      | Some (OBin false a) | Some (OArr false a) => Some (hold w a)
      | Some (OBin true a) | Some (OArr true a) => Some (hold (with_cell w (load (memory w) a)) (fresh w))
      | _ => None
      end
  | ReflectPtr i =>
      match nth_error (objects w) i with
      (* string.go:598-607: the address of the text itself *)
      | Some (OStr a _) => Some (point w a)
      (* time.go:169-176 *)
      | Some (OTime a) => Some (point w a)
      (* binary.go:380-383, array.go:1192-1197: a new pointer to the slice *)
      | Some (OBin false a) | Some (OArr false a) => Some (hold w a)
      | Some (OBin true a) | Some (OArr true a) => Some (hold (with_cell w (load (memory w) a)) (fresh w))
      (* integer.go:319-354, float.go:294-301, boolean.go:155-156: the address of a new variable *)
      | Some (OPlain c) => Some (point (with_cell w c) (fresh w))
      (* struct.go:267-281: the struct has the same slice *)
      | Some (OStruct _ a) => Some (hold w a)
      | None => None
      end
  | Set_ i c =>
      match nth_error (objects w) i with
      | Some (OArr false a) => Some (store w a c)
      | _ => None
      end
  (* array.go:830-835 Add *)
  | Add i z grows =>
      match nth_error (objects w) i with
      | Some (OArr false a) =>
          let c := load (memory w) a ++ [z] in
          Some (if grows then replace (with_cell w c) i (OArr false (fresh w)) else store w a c)
      | _ => None
      end
  (* string.go:591-596; the other values keep no hash *)
  | HashCode i =>
      match nth_error (objects w) i with
      | Some (OStr a h) => Some (if Z.eqb h 0 then replace w i (OStr a (string_hash (load (memory w) a))) else w)
      | Some _ => Some w
      | None => None
      end
  end.
(* the result of HashCode of a string *)
Definition hash_of (w : world) (i : nat) : option Z :=
  match nth_error (objects w) i with
  | Some (OStr a h) => Some (if Z.eqb h 0 then string_hash (load (memory w) a) else h)
  | _ => None
  end.

(* any program; a call that panics changes nothing *)
Fixpoint run (w : world) (ops : list op) : world :=
  match ops with
  | [] => w
  | c :: r => run (match step w c with Some w' => w' | None => w end) r
  end.
Definition start : world := World [] [] [] [].
