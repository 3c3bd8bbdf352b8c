(* Storage of the arrays of /repo/internal/array.go: Go slices over shared backing arrays.

   A backing array is a list of cells; a cell is [None] when it holds the Go nil. A slice is a
   backing array, an offset and a length; its capacity reaches to the end of the backing array
   since dgo uses no full slice expressions. Elements are abstract: [eqc v c] is v.Equals(c) for
   the content c of a cell, [fz]/[th] stand for FrozenCopy/ThawedCopy of an element (array.go:942,
   948). What Freeze (array.go:1058-1069) does to the elements is modelled in Objects.v.
   Value(x) of an argument is the identity. Slices handed to or received from Go code (WrapSlice,
   GoSlice, ReflectTo) are not modelled. *)
From Coq Require Import ZArith List Bool.
From Verif Require Import HMap.
Import ListNotations.
Open Scope Z_scope.

Section Slices.
Variable V : Type.
Variable eqc : V -> option V -> bool.
Variables fz th : V -> V.
(* the capacity chosen by the Go runtime when append has to grow a slice of capacity c to at
   least n cells; any number, at least n cells are allocated *)
Variable grow : nat -> nat -> nat.

Notation cell := (option V).

Record slice := Slice { sbuf : nat; soff : nat; slen : nat }.

(* array.go:15-18 array *)
Record array := Array { aslice : slice; afrozen : bool }.

Record heap := Heap { bufs : list (list cell); arrays : list array }.

Definition buf (h : list (list cell)) (s : slice) : list cell := nth (sbuf s) h [].
Definition cap (h : list (list cell)) (s : slice) : nat := length (buf h s) - soff s.

(* the elements of a slice *)
Definition cells (h : list (list cell)) (s : slice) : list cell := firstn (slen s) (skipn (soff s) (buf h s)).

(* assignment of several consecutive cells *)
Definition blit (l : list cell) (pos : nat) (xs : list cell) : list cell :=
  firstn pos l ++ xs ++ skipn (pos + length xs) l.

(* store xs into the backing array of s, from cell [pos] of the slice on *)
Definition store (h : list (list cell)) (s : slice) (pos : nat) (xs : list cell) : list (list cell) :=
  upd h (sbuf s) (blit (buf h s) (soff s + pos) xs).

(* make([]dgo.Value, n, c) filled with xs *)
Definition alloc (h : list (list cell)) (xs : list cell) (c : nat) : list (list cell) * slice :=
  (h ++ [xs ++ repeat None (c - length xs)], Slice (length h) 0 (length xs)).

(* the Go append *)
Definition go_append (h : list (list cell)) (s : slice) (xs : list cell) : list (list cell) * slice :=
  match xs with
  | [] => (h, s)
  | _ =>
    let n := (slen s + length xs)%nat in
    if (n <=? cap h s)%nat then (store h s (slen s) xs, Slice (sbuf s) (soff s) n)
    else alloc h (cells h s ++ xs) (Nat.max n (grow (cap h s) n))
  end.

Inductive res :=
| RUnit | RPanic | RBad
| RVal (v : cell) | RBool (b : bool) | RLen (n : nat) | RArr (i : nat) | RElems (l : list cell).

Inductive op :=
| OValues (frozen : bool) (vs : list V)
| OWithCapacity (c : nat)
| OGet (a : nat) (i : Z) | OLen (a : nat) | OElems (a : nat) | OIndexOf (a : nat) (v : V) | OFrozen (a : nat)
| OAdd (a : nat) (v : V) | OAddAll (a b : nat) | OAddValues (a : nat) (vs : list V)
| OSet (a : nat) (i : Z) (v : V) | OInsert (a : nat) (i : Z) (v : V)
| ORemove (a : nat) (i : Z) | ORemoveValue (a : nat) (v : V) | OPop (a : nat)
| OSlice (a : nat) (i j : Z)
| OWith (a : nat) (v : V) | OWithValues (a : nat) (vs : list V) | OWithAll (a b : nat)
| OCopy (a : nat) (frozen : bool) | OFreeze (a : nat)
| OMap (a : nat) (f : cell -> V) | OSelect (a : nat) (keep : bool) (p : cell -> bool).

Definition with_array (w : heap) (a : nat) (f : array -> heap * res) : heap * res :=
  match nth_error (arrays w) a with None => (w, RBad) | Some x => f x end.

Definition set_array (w : heap) (h : list (list cell)) (a : nat) (x : array) : heap :=
  Heap h (upd (arrays w) a x).

Definition new_array (w : heap) (h : list (list cell)) (x : array) : heap * res :=
  (Heap h (arrays w ++ [x]), RArr (length (arrays w))).

(* array.go:1107-1116 IndexOf *)
Fixpoint index_cells (i : Z) (v : V) (l : list cell) : Z :=
  match l with
  | [] => -1
  | c :: r => if eqc v c then i else index_cells (i + 1) v r
  end.

(* array.go:1201-1212 removePos; copy(a[pos:], a[pos+1:]) moves the cells behind pos down *)
Definition remove_pos (w : heap) (a : nat) (x : array) (pos : Z) : heap * cell :=
  let s := aslice x in
  let l := cells (bufs w) s in
  if (0 <=? pos) && (pos <? Z.of_nat (slen s)) then
    let p := Z.to_nat pos in
    let n := (slen s - 1)%nat in
    let h1 := store (bufs w) s p (skipn (S p) l) in
    let h2 := store h1 s n [None] in
    (set_array w h2 a (Array (Slice (sbuf s) (soff s) n) (afrozen x)), nth p l None)
  else (w, None).

Definition in_slice (i : Z) (s : slice) : bool := (0 <=? i) && (i <? Z.of_nat (slen s)).

Definition step (w : heap) (o : op) : heap * res :=
  match o with
  | OValues frozen vs =>                  (* array.go:768-775 MutableValues, 826-828 Values *)
    let (h, s) := alloc (bufs w) (map (fun v => Some (if frozen then fz v else v)) vs) (length vs) in
    new_array w h (Array s frozen)
  | OWithCapacity c =>                    (* array.go:757-760 ArrayWithCapacity *)
    let (h, s) := alloc (bufs w) [] c in new_array w h (Array s false)
  | OGet a i =>                           (* array.go:1103-1105 *)
    with_array w a (fun x =>
      if in_slice i (aslice x) then (w, RVal (nth (Z.to_nat i) (cells (bufs w) (aslice x)) None)) else (w, RPanic))
  | OLen a => with_array w a (fun x => (w, RLen (slen (aslice x))))          (* array.go:1136-1138 *)
  | OElems a => with_array w a (fun x => (w, RElems (cells (bufs w) (aslice x)))) (* array.go:999-1004 Each *)
  | OIndexOf a v =>
    with_array w a (fun x => (w, RLen (Z.to_nat (1 + index_cells 0 v (cells (bufs w) (aslice x))))))
  | OFrozen a => with_array w a (fun x => (w, RBool (afrozen x)))            (* array.go:1071-1073 *)
  | OAdd a v =>                           (* array.go:830-835 *)
    with_array w a (fun x =>
      if afrozen x then (w, RPanic)
      else let (h, s) := go_append (bufs w) (aslice x) [Some v] in
           (set_array w h a (Array s (afrozen x)), RUnit))
  | OAddAll a b =>                        (* array.go:837-848 and 892-894 AppendToSlice, for an array *)
    with_array w a (fun x => with_array w b (fun y =>
      if afrozen x then (w, RPanic)
      else let (h, s) := go_append (bufs w) (aslice x) (cells (bufs w) (aslice y)) in
           (set_array w h a (Array s (afrozen x)), RUnit)))
  | OAddValues a vs =>                    (* array.go:850-855 *)
    with_array w a (fun x =>
      if afrozen x then (w, RPanic)
      else let (h, s) := go_append (bufs w) (aslice x) (map Some vs) in
           (set_array w h a (Array s (afrozen x)), RUnit))
  | OSet a i v =>                         (* array.go:1263-1270 *)
    with_array w a (fun x =>
      if afrozen x then (w, RPanic)
      else if in_slice i (aslice x) then
        let old := nth (Z.to_nat i) (cells (bufs w) (aslice x)) None in
        (set_array w (store (bufs w) (aslice x) (Z.to_nat i) [Some v]) a x, RVal old)
      else (w, RPanic))
  | OInsert a i v =>                      (* array.go:1118-1123; v.slice[pos:] panics for pos > len *)
    with_array w a (fun x =>
      if afrozen x then (w, RPanic)
      else let s := aslice x in
      if (0 <=? i) && (i <=? Z.of_nat (slen s)) then
        let p := Z.to_nat i in
        let (h1, t) := alloc (bufs w) (Some v :: skipn p (cells (bufs w) s)) 0 in
        let (h, s') := go_append h1 (Slice (sbuf s) (soff s) p) (cells h1 t) in
        (set_array w h a (Array s' (afrozen x)), RUnit)
      else (w, RPanic))
  | ORemove a i =>                        (* array.go:1214-1219 *)
    with_array w a (fun x =>
      if afrozen x then (w, RPanic) else let (w', c) := remove_pos w a x i in (w', RVal c))
  | ORemoveValue a v =>                   (* array.go:1221-1226 *)
    with_array w a (fun x =>
      if afrozen x then (w, RPanic)
      else let (w', c) := remove_pos w a x (index_cells 0 v (cells (bufs w) (aslice x))) in
           (w', RBool (match c with Some _ => true | None => false end)))
  | OPop a =>                             (* array.go:1414-1423; (nil, false) is RVal None *)
    with_array w a (fun x =>
      if afrozen x then (w, RPanic)
      else let p := Z.of_nat (slen (aslice x)) - 1 in
           if 0 <=? p then let (w', c) := remove_pos w a x p in (w', RVal c) else (w, RVal None))
  | OSlice a i j =>                       (* array.go:1272-1282; v.slice[i:j] is allowed up to the capacity *)
    with_array w a (fun x =>
      let s := aslice x in
      if afrozen x && (i =? 0) && (j =? Z.of_nat (slen s)) then (w, RArr a)
      else if (0 <=? i) && (i <=? j) && (j <=? Z.of_nat (cap (bufs w) s)) then
        let ss := Slice (sbuf s) (soff s + Z.to_nat i) (Z.to_nat (j - i)) in
        if afrozen x then new_array w (bufs w) (Array ss true)
        else let l := cells (bufs w) ss in
             let (h, s') := alloc (bufs w) l (length l) in new_array w h (Array s' false)
      else (w, RPanic))
  | OWith a v =>                          (* array.go:1425-1427 *)
    with_array w a (fun x =>
      let (h, s) := go_append (bufs w) (aslice x) [Some v] in new_array w h (Array s (afrozen x)))
  | OWithValues a vs =>                   (* array.go:1442-1447 *)
    with_array w a (fun x =>
      match vs with
      | [] => (w, RArr a)
      | _ => let (h, s) := go_append (bufs w) (aslice x) (map (fun v => Some (if afrozen x then fz v else v)) vs) in
             new_array w h (Array s (afrozen x))
      end)
  | OWithAll a b =>                       (* array.go:1429-1440 *)
    with_array w a (fun x => with_array w b (fun y =>
      let l := cells (bufs w) (aslice y) in
      match l with
      | [] => (w, RArr a)
      | _ =>
        let c := map (option_map th) (cells (bufs w) (aslice x)) in
        let (h1, s1) := alloc (bufs w) c (length c) in
        let l' := if afrozen x && negb (afrozen y) then map (option_map fz) l else l in
        let (h, s) := go_append h1 s1 l' in
        new_array w h (Array s (afrozen x))
      end))
  | OCopy a frozen =>                     (* array.go:935-954 *)
    with_array w a (fun x =>
      if frozen && afrozen x then (w, RArr a)
      else let l := map (option_map (if frozen then fz else th)) (cells (bufs w) (aslice x)) in
           let (h, s) := alloc (bufs w) l (length l) in new_array w h (Array s frozen))
  | OFreeze a =>                          (* array.go:1058-1069, the flag *)
    with_array w a (fun x => (set_array w (bufs w) a (Array (aslice x) true), RUnit))
  | OMap a f =>                           (* array.go:1140-1147 *)
    with_array w a (fun x =>
      let l := map (fun c => Some (f c)) (cells (bufs w) (aslice x)) in
      let (h, s) := alloc (bufs w) l (length l) in new_array w h (Array s (afrozen x)))
  | OSelect a keep p =>                   (* array.go:1251-1261 Select, 1235-1245 Reject *)
    with_array w a (fun x =>
      let '(h, s) := fold_left (fun hs c => if Bool.eqb (p c) keep then go_append (fst hs) (snd hs) [c] else hs)
                               (cells (bufs w) (aslice x)) (alloc (bufs w) [] 0) in
      new_array w h (Array s (afrozen x)))
  end.

Fixpoint run (w : heap) (os : list op) : heap * list res :=
  match os with
  | [] => (w, [])
  | o :: r => let (w1, x) := step w o in let (w2, xs) := run w1 r in (w2, x :: xs)
  end.

Definition init : heap := Heap [] [].
End Slices.
