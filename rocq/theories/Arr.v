(* Array algorithms of /repo/internal/array.go on the list of elements. Storage, capacity,
   aliasing and the frozen flag are modelled in Slices.v. *)
From Coq Require Import ZArith List Bool.
From Verif Require Import Int64 HMap Data.
Import ListNotations.
Open Scope Z_scope.

Section Arr.
Variables (A : Type) (eq : A -> A -> bool) (hashcode : A -> Z).

(* ---------- Unique, array.go:1384-1412 ---------- *)

(* for e := tbl[hk]; e != nil; e = e.hashNext { if k.Equals(e.key) ... } (array.go:1399-1403).
   A chain of nodes is the list of their keys. *)
Definition in_chain (k : A) (chain : list A) : bool := existsb (eq k) chain.

(* the loop array.go:1396-1407; tbl[hk] = &hashNode{..., hashNext: tbl[hk]} puts in front.
   None: index out of range of the table. *)
Fixpoint unique_loop (tbl : list (list A)) (a : list A) : option (list A) :=
  match a with
  | [] => Some []
  | k :: r =>
    let hk := Z.to_nat (bucket_of (Z.of_nat (length tbl)) (hashcode k)) in
    match nth_error tbl hk with
    | None => None
    | Some chain =>
      if in_chain k chain then unique_loop tbl r
      else match unique_loop (upd tbl hk (k :: chain)) r with
           | None => None
           | Some u => Some (k :: u)
           end
    end
  end.

(* array.go:1384-1412 Unique; int(float64(top)/0.75) is the integer part of 4/3 of top (float
   rounding cannot reach the next integer for the sizes a slice can have). The results v
   (top < 2 or ui == top) and u[:ui] have the same elements. *)
Definition unique (a : list A) : option (list A) :=
  if (length a <? 2)%nat then Some a
  else unique_loop (repeat [] (Z.to_nat (tableSizeFor (Z.of_nat (length a) * 4 / 3)))) a.

(* ---------- ContainsAll and SameValues, array.go:956-997, 1247-1249 ---------- *)

(* the inner loop array.go:981-989: the first element of vs that is not nil and equals ea is set
   to nil. None: not found. *)
Fixpoint strike (ea : A) (vs : list (option A)) : option (list (option A)) :=
  match vs with
  | [] => None
  | Some be :: r => if eq be ea then Some (None :: r)
                    else match strike ea r with None => None | Some r' => Some (Some be :: r') end
  | None :: r => match strike ea r with None => None | Some r' => Some (None :: r') end
  end.

(* the outer loop array.go:978-995; [n] is the number of iterations left (range vs), [a] the
   rest of the receiver. *)
Fixpoint contains_loop (n : nat) (a : list A) (vs : list (option A)) : option bool :=
  match n with
  | O => Some true
  | S n' =>
    match a with
    | [] => None                                (* a[i] out of range *)
    | ea :: r => match strike ea vs with
                 | None => Some false
                 | Some vs' => contains_loop n' r vs'
                 end
    end
  end.

(* array.go:960-997 deepContainsAll for an argument that is an array *)
Definition contains_all (a b : list A) : option bool :=
  if (length a <? length b)%nat then Some false
  else match a with
       | [] => Some true
       | _ => contains_loop (length b) a (map Some b)
       end.

(* array.go:1247-1249 SameValues *)
Definition same_values (a b : list A) : option bool :=
  if Nat.eqb (length a) (length b) then contains_all a b else Some false.

(* ---------- iteration, with callbacks that may have side effects on a state ---------- *)

Variable S : Type.

(* array.go:857-865 All; also the loops of map.go:341-348, 350-357, 359-366 over entries, keys, values *)
Fixpoint all_loop (p : A -> S -> bool * S) (l : list A) (s : S) : bool * S :=
  match l with
  | [] => (true, s)
  | x :: r => let (b, s') := p x s in if b then all_loop p r s' else (false, s')
  end.

(* array.go:867-875 Any; map.go:368-393 *)
Fixpoint any_loop (p : A -> S -> bool * S) (l : list A) (s : S) : bool * S :=
  match l with
  | [] => (false, s)
  | x :: r => let (b, s') := p x s in if b then (true, s') else any_loop p r s'
  end.

(* array.go:1149-1161 One; [f] tells whether one was found *)
Fixpoint one_loop (p : A -> S -> bool * S) (f : bool) (l : list A) (s : S) : bool * S :=
  match l with
  | [] => (f, s)
  | x :: r => let (b, s') := p x s in
              if b then (if f then (false, s') else one_loop p true r s') else one_loop p f r s'
  end.

(* array.go:999-1004 Each, 1006-1011 EachWithIndex; map.go:439-461 *)
Fixpoint each_loop (f : nat -> A -> S -> S) (i : nat) (l : list A) (s : S) : S :=
  match l with
  | [] => s
  | x :: r => each_loop f (Datatypes.S i) r (f i x s)
  end.

(* array.go:1024-1032 Find; a mapper result of None is the Go nil *)
Fixpoint find_loop {B} (f : A -> S -> option B * S) (l : list A) (s : S) : option B * S :=
  match l with
  | [] => (None, s)
  | x :: r => match f x s with
              | (Some y, s') => (Some y, s')
              | (None, s') => find_loop f r s'
              end
  end.

(* array.go:1140-1147 Map *)
Fixpoint map_loop {B} (f : A -> S -> B * S) (l : list A) (s : S) : list B * S :=
  match l with
  | [] => ([], s)
  | x :: r => let (y, s1) := f x s in let (ys, s2) := map_loop f r s1 in (y :: ys, s2)
  end.

(* array.go:1251-1261 Select (keep = true) and 1235-1245 Reject (keep = false) *)
Fixpoint select_loop (keep : bool) (p : A -> S -> bool * S) (l : list A) (s : S) : list A * S :=
  match l with
  | [] => ([], s)
  | x :: r => let (b, s1) := p x s in
              let (ys, s2) := select_loop keep p r s1 in
              (if Bool.eqb b keep then x :: ys else ys, s2)
  end.

(* array.go:1163-1170 Reduce *)
Fixpoint reduce_loop {M} (f : M -> A -> S -> M * S) (memo : M) (l : list A) (s : S) : M * S :=
  match l with
  | [] => (memo, s)
  | x :: r => let (m', s') := f memo x s in reduce_loop f m' r s'
  end.

(* array.go:1107-1116 IndexOf: -1 when there is none *)
Fixpoint index_loop (i : Z) (x : A) (l : list A) : Z :=
  match l with
  | [] => -1
  | y :: r => if eq x y then i else index_loop (i + 1) x r
  end.
Definition index_of (x : A) (l : list A) : Z := index_loop 0 x l.

(* ---------- stable sort ---------- *)
Variable less : A -> A -> bool.

(* insertionSort of the Go library (used by sort.SliceStable on blocks of 20 elements, i.e.
   exactly what array.Sort executes on up to 20 elements): the element x is exchanged with its
   left neighbours as long as it is less. The sorted prefix is kept in reverse. *)
Fixpoint insert_back (x : A) (rp : list A) : list A :=
  match rp with
  | [] => [x]
  | y :: r => if less x y then y :: insert_back x r else x :: rp
  end.
Definition insertion_sort (l : list A) : list A :=
  rev (fold_left (fun rp x => insert_back x rp) l []).
End Arr.

(* ---------- Flatten, array.go:1034-1056 ---------- *)

Definition is_array (v : value) : bool := match v with VArr _ => true | _ => false end.

(* flattenElements array.go:1046-1056, for one element *)
Fixpoint flatten_into (e : value) (receiver : list value) : list value :=
  match e with
  | VArr l => fold_left (fun r x => flatten_into x r) l receiver
  | _ => receiver ++ [e]
  end.

Definition flatten_elements (elements receiver : list value) : list value :=
  fold_left (fun r x => flatten_into x r) elements receiver.

(* Flatten array.go:1034-1044: [seen] are the elements before position i (copied to fs) *)
Fixpoint flatten_from (seen a : list value) : list value :=
  match a with
  | [] => seen
  | x :: r => if is_array x then flatten_elements a seen else flatten_from (seen ++ [x]) r
  end.
Definition flatten (a : list value) : list value := flatten_from [] a.

(* ---------- Sort, array.go:1284-1302 ---------- *)

(* TypeIdentifier of the (exact) type of a value: /repo/dgo/typeidentifier.go; sensitive.go:165
   (TiSensitive), array.go:1378, map.go, binary.go:395, boolean.go, integer.go, float.go, nil.go,
   regexp.go:86-88, string.go, time.go:182 *)
Definition type_id (v : value) : Z :=
  match v with
  | VSens _ => 23
  | VArr _ => 31
  | VBin _ => 32
  | VBool _ => 33
  | VFloat _ => 35
  | VInt _ => 37
  | VMap _ => 38
  | VNil => 41
  | VRegexp _ => 42
  | VStr _ => 43
  | VTime _ _ _ => 44
  end.

(* the function given to sort.SliceStable, array.go:1290-1300. The elements compared are
   different objects (see Data.v). *)
Definition vless (a b : value) : bool :=
  match (if comparable a then vcmp a b else None) with
  | Some c => c <? 0
  | None => type_id a <? type_id b
  end.

(* array.go:1284-1302 Sort; the result v for less than two elements has the same elements *)
Definition vsort (a : list value) : list value :=
  if (length a <? 2)%nat then a else insertion_sort value vless a.
