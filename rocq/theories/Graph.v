(* Equals, HashCode and CompareTo on graphs of arrays, maps and sensitive values, which may contain
   themselves: /repo/internal/compare.go, util/slice.go. *)
From Coq Require Import ZArith List Bool.
From Verif Require Import Int64 Data Types.
Import ListNotations.
Open Scope Z_scope.

(* A dgo.Value: a value that does not implement deepEqual, or a pointer to an *array, *hashMap or *sensitive. *)
Inductive gval :=
  | GLeaf (v : value)
  | GRef (p : nat).

(* What a pointer points to: array.slice (array.go:29-35), sensitive.value (sensitive.go:10-12), the entries of
   a hashMap in order (map.go:57-65). Keys of maps are finite values here: a key that refers to an array that contains
   itself is not modelled. Map entries are no values of the graph (mapEntry as an element of an array is not
   modelled). *)
Inductive gnode :=
  | GArr (l : list gval)
  | GSens (x : gval)
  | GMap (m : list (value * gval)).

(* the node at address p is the p'th of the list *)
Definition graph := list gnode.

(* for ... { if !f(x, y) { return false } }; return true: with f that may fail to return (None) *)
Fixpoint all2 (f : gval -> gval -> option bool) (l l' : list gval) : option bool :=
  match l, l' with
  | x :: r, y :: r' =>
      match f x y with
      | Some true => all2 f r r'
      | o => o
      end
  | _, _ => Some true
  end.

(* g.All(func(e) bool { return equals(seen, e.Value(), om.Get(e.Key())) }), map.go:471-476; equals is false on
   the nil that Get returns for an absent key *)
Fixpoint all_entries (f : gval -> gval -> option bool) (m m' : list (value * gval)) : option bool :=
  match m with
  | [] => Some true
  | (k, x) :: r =>
      match get_with (veq k) m' with
      | None => Some false
      | Some y => match f x y with
                  | Some true => all_entries f r m'
                  | o => o
                  end
      end
  end.

(* the deepEqual methods: array.go:1017-1022 with sliceEquals (compare.go:134-145), sensitive.go:119-124,
   map.go:467-476 *)
Definition node_equal (f : gval -> gval -> option bool) (x y : gnode) : option bool :=
  match x, y with
  | GArr l, GArr l' => if Nat.eqb (length l) (length l') then all2 f l l' else Some false
  | GSens a, GSens b => f a b
  | GMap m, GMap m' => if Nat.eqb (length m) (length m') then all_entries f m m' else Some false
  | _, _ => Some false
  end.

(* util.RecursionHit, util/slice.go:15-22 *)
Definition seen_before (seen : list nat) (p : nat) : bool := existsb (Nat.eqb p) seen.

Section Graph.
Variable g : graph.

(* equals, compare.go:111-132; [n] bounds the depth of the recursion, None: the bound is exceeded, or a
   pointer points nowhere *)
Fixpoint geq (n : nat) (seen : list nat) (a b : gval) : option bool :=
  match n with
  | O => None
  | S n' =>
      match a, b with
      | GLeaf x, GLeaf y => Some (veq x y)
      | GLeaf _, GRef _ => Some false
      | GRef p, _ =>
          if match b with GRef q => Nat.eqb p q | GLeaf _ => false end then Some true
          else if seen_before seen p then Some true
          else match b with
               | GLeaf _ => Some false
               | GRef q =>
                   match nth_error g p, nth_error g q with
                   | Some x, Some y => node_equal (geq n' (seen ++ [p])) x y
                   | _, _ => None
                   end
               end
      end
  end.

(* a.Equals(b), e.g. array.go:1013-1015 *)
Definition graph_equals (n : nat) (a b : gval) : option bool := geq n [] a b.

(* for i := range s { h = h*31 + f(s[i]) } with f that may fail to return *)
Fixpoint hashes (f : gval -> option Z) (l : list gval) : option (list Z) :=
  match l with
  | [] => Some []
  | x :: r => match f x, hashes f r with Some h, Some hs => Some (h :: hs) | _, _ => None end
  end.

(* the deepHashCode methods: array.go:1094-1101, sensitive.go:157-159, map.go:550-565 with mapEntry.deepHashCode
   (map.go:108-110). An entry is put into seen right after its map; as entries are reached through their map
   only, it is never found there before the map is. *)
Definition node_hash (f : gval -> option Z) (x : gnode) : option Z :=
  match x with
  | GArr l => option_map hash_list (hashes f l)
  | GSens a => option_map (fun h => w64 (h * 7)) (f a)
  | GMap m => option_map (fun hs => hash_list (sort_z (map (fun e => Z.lxor (vhash (fst (fst e))) (snd e)) (combine m hs))))
                (hashes f (map snd m))
  end.

(* deepHashCode, compare.go:98-106 *)
Fixpoint ghash (n : nat) (seen : list nat) (a : gval) : option Z :=
  match n with
  | O => None
  | S n' =>
      match a with
      | GLeaf v => Some (vhash v)
      | GRef p =>
          if seen_before seen p then Some 0
          else match nth_error g p with
               | Some x => node_hash (ghash n' (seen ++ [p])) x
               | None => None
               end
      end
  end.

(* HashCode: array.go:1090-1092 starts without putting the array into seen; map.go:546-548, sensitive.go:153-155 *)
Definition graph_hash (n : nat) (a : gval) : option Z :=
  match a with
  | GRef p => match nth_error g p with
              | Some (GArr l) => node_hash (ghash n []) (GArr l)
              | _ => ghash n [] a
              end
  | _ => ghash n [] a
  end.

(* result of CompareTo: None: does not return; Some None: not comparable *)
(* whether a value implements dgo.Comparable *)
Definition gcomparable (a : gval) : option bool :=
  match a with
  | GLeaf v => Some (comparable v)
  | GRef p => match nth_error g p with
              | Some (GArr _) => Some true
              | Some _ => Some false
              | None => None
              end
  end.

(* the loop of array.deepCompare, array.go:917-932; [r] is the result when the common part is equal *)
Fixpoint cmp_elems (f : gval -> gval -> option (option Z)) (l l' : list gval) : option (option Z) :=
  match l, l' with
  | [], [] => Some (Some 0)
  | [], _ => Some (Some (-1))
  | _, [] => Some (Some 1)
  | x :: r, y :: r' =>
      match gcomparable x with
      | None => None
      | Some false => Some None
      | Some true =>
          match f x y with
          | Some (Some c) => if c =? 0 then cmp_elems f r r' else Some (Some c)
          | o => o
          end
      end
  end.

(* compare, compare.go:147-175, with array.deepCompare (array.go:900-933); a is Comparable *)
Fixpoint gcmp (n : nat) (seen : list nat) (a b : gval) : option (option Z) :=
  match n with
  | O => None
  | S n' =>
      match a, b with
      | GLeaf x, GLeaf y => Some (vcmp x y)
      | GLeaf VNil, GRef _ => Some (Some (-1))
      | GLeaf _, GRef _ => Some None
      | GRef _, GLeaf VNil => Some (Some 1)
      | GRef p, GLeaf _ => Some None
      | GRef p, GRef q =>
          if Nat.eqb p q then Some (Some 0)
          else
            match nth_error g p, nth_error g q with
            | Some x, Some y =>
                match x, y with
                | GArr l, GArr l' =>
                    if seen_before seen p then Some (Some 0) else cmp_elems (gcmp n' (seen ++ [p])) l l'
                | _, _ => Some None
                end
            | _, _ => None
            end
      end
  end.

(* array.CompareTo, array.go:896-898 *)
Definition graph_compare (n : nat) (a b : gval) : option (option Z) := gcmp n [] a b.

End Graph.
