(* Data values of /repo/internal: what Equals, HashCode and CompareTo compute on finite
   (acyclic) values.

   A value is a finite tree. The identity of the Go objects is not part of it, hence:
   - the shortcut a == b of equals and compare (compare.go:112, 148) is covered by the
     structural comparison of two equal trees (for trees without NaN the outcome is the
     same for equals; for compare it is the same as long as all nested elements are
     comparable);
   - the seen list (compare.go:123, 170, 100) is left out: it holds the ancestors of the value
     at hand, which cannot occur again inside of a finite tree.
   Go values that are not dgo values (string, int, []byte, ...), which the methods also
   accept as argument, are left out. So are functions, native values, errors and types. *)
From Coq Require Import ZArith List Bool.
From Coq Require Import Floats.SpecFloat.
From Verif Require Import Int64 Utf8.
Import ListNotations.
Open Scope Z_scope.

(* The dgo values: nil.go:9, boolean.go:16, integer.go:20 (intVal), float.go:18 (floatVal; IEEE
   binary64), string.go:22 (hstring; a list of bytes), binary.go:22 (a list of bytes; the frozen
   flag has no influence on the functions of this file), time.go:14 (seconds and nanoseconds since
   the epoch, and the offset of the time zone; the monotonic clock reading is left out),
   regexp.go:14 (the source text), sensitive.go:20, array.go:80 (the elements), map.go:54
   (the entries in iteration order). *)
Inductive value :=
| VNil
| VBool (b : bool)
| VInt (z : Z)
| VFloat (f : spec_float)
| VStr (s : list Z)
| VBin (s : list Z)
| VTime (sec nsec zone : Z)
| VRegexp (s : list Z)
| VSens (v : value)
| VArr (l : list value)
| VMap (l : list (value * value)).

(* string equality and bytes.Equal *)
Fixpoint bytes_eqb (a b : list Z) : bool :=
  match a, b with
  | [], [] => true
  | x :: a', y :: b' => (x =? y) && bytes_eqb a' b'
  | _, _ => false
  end.

(* hashMap.Get (map.go:508-543): the value of the entry whose key equals k. On a map with
   distinct keys the position of the entry in its bucket does not matter; see
   Properties C01 where Get of the hash table is proved to be this search. *)
Definition get_with {V} (is_k : value -> bool) (m : list (value * V)) : option V :=
  match find (fun e => is_k (fst e)) m with Some e => Some (snd e) | None => None end.

(* equals (compare.go:111-132) with
   nilValue.Equals (nil.go:31), boolean.Equals (boolean.go:129-137), intVal.Equals (integer.go:293-296),
   floatVal.Equals (float.go:277-280), hstring.Equals (string.go:575-585),
   binary.Equals (binary.go:334-342), timeVal.Equals (time.go:136-146; time.Time.Equal compares
   instants), regexpVal.Equals (regexp.go:103-111), sensitive.deepEqual (sensitive.go:119-124),
   array.deepEqual (array.go:1017-1022) = sliceEquals (compare.go:134-145),
   hashMap.deepEqual (map.go:467) = mapEqual (map.go:471-476). Get returns the Go nil for an
   absent key, and equals yields false on it (compare.go:115). *)
Fixpoint veq (a b : value) {struct a} : bool :=
  match a, b with
  | VNil, VNil => true
  | VBool x, VBool y => Bool.eqb x y
  | VInt x, VInt y => x =? y
  | VFloat x, VFloat y => SFeqb x y
  | VStr x, VStr y => bytes_eqb x y
  | VBin x, VBin y => bytes_eqb x y
  | VTime s n _, VTime s' n' _ => (s =? s') && (n =? n')
  | VRegexp x, VRegexp y => bytes_eqb x y
  | VSens x, VSens y => veq x y
  | VArr l, VArr l' =>
      (fix go (l l' : list value) : bool :=
         match l, l' with
         | [], [] => true
         | x :: r, y :: r' => veq x y && go r r'
         | _, _ => false
         end) l l'
  | VMap m, VMap m' =>
      Nat.eqb (length m) (length m') &&
      (fix all (m : list (value * value)) : bool :=
         match m with
         | [] => true
         | (k, v) :: r =>
             match get_with (veq k) m' with
             | Some v' => veq v v'
             | None => false
             end && all r
         end) m
  | _, _ => false
  end.

(* util/string.go:31-37 StringHash: the bytes at which a rune starts. [skip] counts the
   remaining bytes of the current rune. *)
Fixpoint string_hash_from (skip : nat) (s : list Z) (h : Z) : Z :=
  match s with
  | [] => h
  | b :: r =>
    match skip with
    | O => string_hash_from (Nat.pred (snd (decode_rune s))) r (w64 (31 * h + b))
    | S n => string_hash_from n r h
    end
  end.
Definition string_hash (s : list Z) : Z := string_hash_from 0 s 1.

(* binary.go:401-407 bytesHash *)
Definition bytes_hash (s : list Z) : Z := fold_left (fun h b => w64 (31 * h + b)) s 1.

(* the Go conversion int(f): truncation; what happens out of range is implementation
   specific, here as on amd64 *)
Definition float_to_int (f : spec_float) : Z :=
  match f with
  | S754_finite s m e =>
      let a := if 0 <=? e then Zpos m * 2 ^ e else Zpos m / 2 ^ (- e) in
      let z := if s then - a else a in
      if in64b z then z else min_int64
  | S754_zero _ => 0
  | _ => min_int64
  end.

(* sort.Ints; any correct sorting algorithm yields this list *)
Fixpoint insert_z (x : Z) (l : list Z) : list Z :=
  match l with
  | [] => [x]
  | y :: r => if x <=? y then x :: l else y :: insert_z x r
  end.
Definition sort_z (l : list Z) : list Z := fold_right insert_z [] l.

(* h := 1; for ... { h = h*31 + x }, array.go:1095-1100, map.go:561-564 *)
Definition hash_list (l : list Z) : Z := fold_left (fun h x => w64 (h * 31 + x)) l 1.

(* HashCode (compare.go:98-106) of nil (nil.go:27), boolean (boolean.go:143-148), int (integer.go:302-304),
   float (float.go:286-288), string (string.go:591-596; the cached hash is recomputed here),
   binary (binary.go:374-376), time (time.go:165-167; UnixNano wraps around), regexp (regexp.go:113-115),
   sensitive (sensitive.go:157-159), array (array.go:1094-1101), map (map.go:550-565) with
   mapEntry.deepHashCode (map.go:108-110) *)
Fixpoint vhash (a : value) : Z :=
  match a with
  | VNil => 131
  | VBool b => if b then 1231 else 1237
  | VInt z => Z.lxor z (Z.shiftr z 32)
  | VFloat f => float_to_int f
  | VStr s => string_hash s
  | VBin s => bytes_hash s
  | VTime s n _ => w64 (s * 1000000000 + n)
  | VRegexp s => string_hash s
  | VSens v => w64 (vhash v * 7)
  | VArr l => hash_list (map vhash l)
  | VMap m => hash_list (sort_z (map (fun e => Z.lxor (vhash (fst e)) (vhash (snd e))) m))
  end.

(* float64(i) for an integer i: round to nearest, ties to even, in binary64 *)
Definition float_of_int (z : Z) : spec_float := binary_normalize 53 1024 z 0 false.

(* switch { case a > b: r = 1; case a < b: r = -1 } on ints, e.g. integer.go:267-272 *)
Definition cmp_int (x y : Z) : Z := match x ?= y with Gt => 1 | Lt => -1 | Eq => 0 end.
(* the same on floats, e.g. float.go:250-255; comparisons with NaN are false *)
Definition cmp_float (x y : spec_float) : Z :=
  match SFcompare x y with Some Gt => 1 | Some Lt => -1 | _ => 0 end.

(* binary.CompareTo (binary.go:304-327) and the comparison of Go strings *)
Fixpoint cmp_bytes (a b : list Z) : Z :=
  match a, b with
  | [], [] => 0
  | [], _ => -1
  | _, [] => 1
  | x :: a', y :: b' => if y <? x then 1 else if x <? y then -1 else cmp_bytes a' b'
  end.

(* whether the value implements dgo.Comparable (primitive.go:141 and the CompareTo methods) *)
Definition comparable (v : value) : bool :=
  match v with
  | VNil | VBool _ | VInt _ | VFloat _ | VStr _ | VBin _ | VArr _ => true
  | _ => false
  end.

(* compare (compare.go:147-175) with boolean.CompareTo (boolean.go:109-127), intVal.CompareTo
   (integer.go:263-291), floatVal.CompareTo (float.go:246-275), hstring.CompareTo (string.go:546-573),
   binary.CompareTo (binary.go:288-328), nilValue.CompareTo (nil.go:20-25),
   array.deepCompare (array.go:900-933).
   None stands for ok = false. A value that is not Comparable has no CompareTo method (elements
   are tested for that, array.go:918), it yields None as well. *)
Fixpoint vcmp (a b : value) {struct a} : option Z :=
  match a, b with
  | VNil, VNil => Some 0
  | VNil, _ => Some (-1)
  | _, VNil => if comparable a then Some 1 else None
  | VBool x, VBool y => Some (if x then (if y then 0 else 1) else (if y then -1 else 0))
  | VInt x, VInt y => Some (cmp_int x y)
  | VInt x, VFloat y => Some (cmp_float (float_of_int x) y)
  | VFloat x, VFloat y => Some (cmp_float x y)
  | VFloat x, VInt y => Some (cmp_float x (float_of_int y))
  | VStr x, VStr y => Some (cmp_bytes x y)
  | VBin x, VBin y => Some (cmp_bytes x y)
  | VArr l, VArr l' =>
      (fix go (l l' : list value) : option Z :=
         match l, l' with
         | [], [] => Some 0
         | [], _ => Some (-1)
         | _, [] => Some 1
         | x :: r, y :: r' =>
             if comparable x then
               match vcmp x y with
               | None => None
               | Some c => if c =? 0 then go r r' else Some c
               end
             else None
         end) l l'
  | _, _ => None
  end.
