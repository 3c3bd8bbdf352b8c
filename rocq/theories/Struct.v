(* Go structs as maps: /repo/internal/struct.go.

   A struct has fields with the Go types of Reflect.v and embedded structs. Left out: structs that are embedded by a pointer or
   in an embedded struct, fields that are not exported, fields with the type of another struct. *)
From Coq Require Import ZArith List Bool Arith.
From Verif Require Import Int64 Data Reflect.
Import ListNotations.

(* a field with its name, type and value *)
Definition plain := (list Z * (gty * gval))%type.
Inductive field := Plain (p : plain) | Embed (name : list Z) (fs : list plain).
Definition name_of (f : field) : list Z := match f with Plain p => fst p | Embed n _ => n end.

(* struct.go:14-19 structVal; whether the reflected value can be set (package reflect: it was reached by a pointer) *)
Record structv := Struct { fields : list field; settable : bool; frozen : bool }.

(* map.go:252-260, 326-330 FromReflectedStruct: Map of a struct, or of a pointer to it *)
Definition from_struct (fs : list field) (by_pointer : bool) : structv := Struct fs by_pointer false.

(* ---------- FieldByName (package reflect) ---------- *)

(* where a field is: a field of the struct, or a field of an embedded struct *)
Inductive place := Top (i : nat) | Inner (i j : nat).
(* the first element that satisfies p *)
Fixpoint index {A} (p : A -> bool) (l : list A) : option nat :=
  match l with [] => None | x :: r => if p x then Some O else option_map S (index p r) end.
(* the fields with this name in the embedded structs; i is the index of the first field *)
Fixpoint promoted (s : list Z) (i : nat) (fs : list field) : list place :=
  match fs with
  | [] => []
  | Embed _ ps :: r =>
      match index (fun p => bytes_eqb s (fst p)) ps with Some j => Inner i j :: promoted s (S i) r | None => promoted s (S i) r end
  | Plain _ :: r => promoted s (S i) r
  end.
(* a field of the struct comes first; a name that is in two embedded structs is not found *)
Definition field_by_name (fs : list field) (s : list Z) : option place :=
  match index (fun f => bytes_eqb s (name_of f)) fs with
  | Some i => Some (Top i)
  | None => match promoted s O fs with [p] => Some p | _ => None end
  end.

Section Struct.
(* sort.Slice on the entries of a Go map; see Reflect.v *)
Variable arrange : list (value * value) -> list (value * value).

Definition plain_value (p : plain) : res value := from_go arrange (fst (snd p)) (snd (snd p)).
(* ValueFromReflected (value.go:98-141) of a field; an embedded struct becomes a native value *)
Definition field_value (f : field) : res value := match f with Plain p => plain_value p | Embed _ _ => Native end.
Definition value_at (fs : list field) (p : place) : res value :=
  match p with
  | Top i => match nth_error fs i with Some f => field_value f | None => Panic end
  | Inner i j =>
      match nth_error fs i with
      | Some (Embed _ ps) => match nth_error ps j with Some q => plain_value q | None => Panic end
      | _ => Panic
      end
  end.

(* struct.go:199-207 stringKey. A Go string as a key is a string value here. *)
Definition string_key (k : value) : option (list Z) := match k with VStr s => Some s | _ => None end.

(* ---------- reading ---------- *)

(* struct.go:25-34 All, as it comes to Each, EachEntry, Find and Any (57-59, 89-95, 187-197) *)
Definition entries (s : structv) : list (value * res value) := map (fun f => (VStr (name_of f), field_value f)) (fields s).
(* struct.go:36-45 AllKeys, 220-222 Keys *)
Definition keys (s : structv) : list value := map (fun f => VStr (name_of f)) (fields s).
(* struct.go:224-226 *)
Definition len (s : structv) : nat := length (fields s).
(* struct.go:69-74 *)
Definition contains_key (s : structv) (k : value) : bool :=
  match string_key k with
  | Some n => match field_by_name (fields s) n with Some _ => true | None => false end
  | None => false
  end.
(* struct.go:209-218 *)
Definition get (s : structv) (k : value) : option (res value) :=
  match string_key k with
  | Some n => match field_by_name (fields s) n with Some p => Some (value_at (fields s) p) | None => None end
  | None => None
  end.
(* struct.go:109-111 GoStruct: Addr panics if the value can not be addressed *)
Definition go_struct (s : structv) : option (list field) := if settable s then Some (fields s) else None.

(* ---------- writing ---------- *)

Fixpoint set_nth {A} (l : list A) (i : nat) (x : A) : list A :=
  match l, i with
  | [], _ => []
  | _ :: r, O => x :: r
  | y :: r, S i => y :: set_nth r i x
  end.
Definition set_plain (p : plain) (v : value) : option plain :=
  match to_go v (fst (snd p)) with Done x => Some (fst p, (fst (snd p), x)) | _ => None end.
(* ReflectTo (value.go:156-164) into a field. A struct can only be set to nil: nil.go:39-41 sets the zero value. *)
Definition set_field (f : field) (v : value) : option field :=
  match f with
  | Plain p => option_map Plain (set_plain p v)
  | Embed n ps => match v with VNil => Some (Embed n (map (fun p => (fst p, (fst (snd p), zero (fst (snd p))))) ps)) | _ => None end
  end.
Definition set_at (fs : list field) (p : place) (v : value) : option (list field) :=
  match p with
  | Top i => match nth_error fs i with Some f => option_map (set_nth fs i) (set_field f v) | None => None end
  | Inner i j =>
      match nth_error fs i with
      | Some (Embed n ps) => match nth_error ps j with Some q => option_map (fun q' => set_nth fs i (Embed n (set_nth ps j q'))) (set_plain q v) | None => None end
      | _ => None
      end
  end.

(* struct.go:247-261 Put; None for a panic. The result is what Get gave before. *)
Definition put (s : structv) (k v : value) : option structv :=
  if frozen s then None
  else match string_key k with
       | Some n =>
           match field_by_name (fields s) n with
           | Some p =>
               match value_at (fields s) p with
               | Panic => None
               | _ => if settable s then option_map (fun fs => Struct fs true false) (set_at (fields s) p v) else None
               end
           | None => None
           end
       | None => None
       end.
(* struct.go:263-265 PutAll of a hash map with these entries: the struct afterwards, and whether there was no panic *)
Fixpoint put_all (s : structv) (l : list (value * value)) : structv * bool :=
  match l with
  | [] => (s, true)
  | (k, v) :: r => match put s k v with Some s' => put_all s' r | None => (s, false) end
  end.

(* ---------- freezing and copying ---------- *)

(* dgo.Freezable: array.go:1058, binary.go:344, map.go:487, sensitive.go:126; native.go:94-110, which panics *)
Definition freezable (v : value) : bool := match v with VArr _ | VBin _ | VMap _ | VSens _ => true | _ => false end.

(* struct.go:136-147 Freeze: the struct afterwards, and whether there was no panic. The values that ValueFromReflected makes
   are frozen; for native values Freeze panics. That a dgo value in a field is frozen as well is not visible here. *)
Definition freeze (s : structv) : structv * bool :=
  if frozen s then (s, true)
  else (Struct (fields s) false true, forallb (fun f => match field_value f with Done _ => true | _ => false end) (fields s)).
(* struct.go:153-170 FrozenCopy, 76-82 Copy(true) *)
Definition frozen_copy (s : structv) : option structv :=
  if frozen s then Some s
  else if forallb (fun f => match field_value f with Done _ => true | _ => false end) (fields s) then Some (Struct (fields s) true true)
  else None.
(* struct.go:83-86 Copy(false) *)
Definition copy_mutable (s : structv) : structv := Struct (fields s) true false.
(* struct.go:172-185 ThawedCopy *)
Definition thaw_field (f : field) : option field :=
  match field_value f with
  | Done v => if freezable v then set_field f v else Some f
  | _ => None
  end.
Fixpoint thaw_fields (fs : list field) : option (list field) :=
  match fs with
  | [] => Some []
  | f :: r => match thaw_field f, thaw_fields r with Some f', Some r' => Some (f' :: r') | _, _ => None end
  end.
Definition thawed_copy (s : structv) : option structv := option_map (fun fs => Struct fs true false) (thaw_fields (fields s)).

(* ---------- maps made from a struct ---------- *)

(* hashMap.Put (map.go:599-638) and Remove (706-738) on the entries in iteration order; see Data.get_with *)
Fixpoint hput (m : list (value * value)) (k v : value) : list (value * value) :=
  match m with
  | [] => [(k, v)]
  | (k', v') :: r => if veq k k' then (k', v) :: r else (k', v') :: hput r k v
  end.
Definition hremove (m : list (value * value)) (k : value) : list (value * value) := filter (fun e => negb (veq k (fst e))) m.
Definition hput_all (m l : list (value * value)) : list (value * value) := fold_left (fun m e => hput m (fst e) (snd e)) l m.

(* struct.go:333-339 toHashMap *)
Definition to_hash_map (s : structv) : res (list (value * value)) :=
  rbind (rlist (map (fun e => rbind (snd e) (fun v => Done (fst e, v))) (entries s))) (fun es => Done (hput_all [] es)).
(* struct.go:309-314 *)
Definition with_ (s : structv) (k v : value) : res (list (value * value)) := rbind (to_hash_map s) (fun m => Done (hput m k v)).
(* struct.go:316-324: the struct itself, or a map *)
Definition without (s : structv) (k : value) : structv + res (list (value * value)) :=
  match get s k with
  | None => inl s
  | Some _ => inr (rbind (to_hash_map s) (fun m => Done (hremove m k)))
  end.
(* struct.go:326-331 *)
Definition without_all (s : structv) (ks : list value) : res (list (value * value)) :=
  rbind (to_hash_map s) (fun m => Done (fold_left hremove ks m)).
(* struct.go:237-245 with a hash map *)
Definition merge (s : structv) (l : list (value * value)) : structv + res (list (value * value)) :=
  match l with [] => inl s | _ => inr (rbind (to_hash_map s) (fun m => Done (hput_all m l))) end.

(* ---------- equality and hash code ---------- *)

(* equals (compare.go:111-132): a native value is no other value (native.go:82-92); two native values are not compared here *)
Definition res_eq (a b : res value) : res bool :=
  match a, b with
  | Panic, _ | _, Panic => Panic
  | Native, Native => Native
  | Done x, Done y => Done (veq x y)
  | _, _ => Done false
  end.
(* what mapEqual (map.go:471-476) uses of two maps: the entries of the first, Len and Get of the second *)
Fixpoint all_equal (l : list (value * res value)) (get : value -> option (res value)) : res bool :=
  match l with
  | [] => Done true
  | (k, r) :: l =>
      match r with
      | Panic => Panic
      | _ =>
          match get k with
          | None => Done false
          | Some r' => rbind (res_eq r r') (fun b => if b then all_equal l get else Done false)
          end
      end
  end.
(* struct.go:105-107, 113-115 Equals of a struct with a hash map; map.go:463-469 Equals of a hash map with a struct; with another struct *)
Definition struct_equals_map (s : structv) (m : list (value * value)) : res bool :=
  if Nat.eqb (len s) (length m) then all_equal (entries s) (fun k => option_map Done (get_with (veq k) m)) else Done false.
Definition map_equals_struct (m : list (value * value)) (s : structv) : res bool :=
  if Nat.eqb (length m) (len s) then all_equal (map (fun e => (fst e, Done (snd e))) m) (get s) else Done false.
Definition struct_equals_struct (s t : structv) : res bool :=
  if Nat.eqb (len s) (len t) then all_equal (entries s) (get t) else Done false.

(* struct.go:117-134 with mapEntry.deepHashCode (map.go:108-110); the hash of a native value is left out *)
Definition struct_hash (s : structv) : res Z :=
  rbind (rlist (map (fun e => rbind (snd e) (fun v => Done (Z.lxor (vhash (fst e)) (vhash v)))) (entries s)))
    (fun hs => Done (hash_list (sort_z hs))).

(* ---------- iterating ---------- *)

(* The loops of All (struct.go:25-34), AllKeys (36-45) and AllValues (47-55) with a predicate that has a state of its own. The conversion of
   an element panics if it is [bad]. *)
Fixpoint all_loop {St E} (bad : E -> bool) (p : St -> E -> St * bool) (l : list E) (st : St) : St * res bool :=
  match l with
  | [] => (st, Done true)
  | e :: r => if bad e then (st, Panic) else let '(st', ok) := p st e in if ok then all_loop bad p r st' else (st', Done false)
  end.
Definition is_panic (r : res value) : bool := match r with Panic => true | _ => false end.
Definition all {St} (s : structv) (p : St -> value * res value -> St * bool) (st : St) : St * res bool := all_loop (fun e => is_panic (snd e)) p (entries s) st.
Definition all_keys {St} (s : structv) (p : St -> value -> St * bool) (st : St) : St * res bool := all_loop (fun _ => false) p (keys s) st.
Definition all_values {St} (s : structv) (p : St -> res value -> St * bool) (st : St) : St * res bool := all_loop is_panic p (map field_value (fields s)) st.
Definition flip {St E} (p : St -> E -> St * bool) : St -> E -> St * bool := fun st e => let '(st', ok) := p st e in (st', negb ok).
Definition flipped {St} (r : St * res bool) : St * res bool := (fst r, rbind (snd r) (fun b => Done (negb b))).
(* struct.go:57-67 Any, AnyKey, AnyValue *)
Definition any {St} (s : structv) (p : St -> value * res value -> St * bool) (st : St) : St * res bool := flipped (all s (flip p) st).
Definition any_key {St} (s : structv) (p : St -> value -> St * bool) (st : St) : St * res bool := flipped (all_keys s (flip p) st).
Definition any_value {St} (s : structv) (p : St -> res value -> St * bool) (st : St) : St * res bool := flipped (all_values s (flip p) st).
(* struct.go:89-95 Each and EachEntry, 97-99 EachKey, 101-103 EachValue *)
Definition each {St} (s : structv) (f : St -> value * res value -> St) (st : St) : St * res bool := all s (fun st e => (f st e, true)) st.
Definition each_key {St} (s : structv) (f : St -> value -> St) (st : St) : St * res bool := all_keys s (fun st e => (f st e, true)) st.
Definition each_value {St} (s : structv) (f : St -> res value -> St) (st : St) : St * res bool := all_values s (fun st e => (f st e, true)) st.
(* struct.go:187-197 Find: the entry, or nil *)
Fixpoint find_loop {St} (p : St -> value * res value -> St * bool) (l : list (value * res value)) (st : St) : St * res (option (value * res value)) :=
  match l with
  | [] => (st, Done None)
  | e :: r => if is_panic (snd e) then (st, Panic) else let '(st', ok) := p st e in if ok then (st', Done (Some e)) else find_loop p r st'
  end.
Definition find_entry {St} (s : structv) (p : St -> value * res value -> St * bool) (st : St) : St * res (option (value * res value)) := find_loop p (entries s) st.
(* arrayFromIterator (array.go:695-706) of EachValue: struct.go:305-307 Values. Frozen copies are the same values here. *)
Definition values (s : structv) : res (list (res value)) :=
  let '(l, r) := each_value s (fun l v => l ++ [v]) [] in rbind r (fun _ => Done l).
(* struct.go:228-235 Map: the mapper gets the entries of the new map in turn; native values are left out *)
Fixpoint map_loop {St} (f : St -> value * value -> St * value) (l : list (value * value)) (st : St) : St * list (value * value) :=
  match l with
  | [] => (st, [])
  | e :: r => let '(st', v) := f st e in let '(st'', r') := map_loop f r st' in (st'', (fst e, v) :: r')
  end.
Definition map_struct {St} (s : structv) (f : St -> value * value -> St * value) (st : St) : res (St * list (value * value)) :=
  rbind (to_hash_map s) (fun m => Done (map_loop f m st)).
(* struct.go:283-289 Remove and RemoveAll: always a panic; 296-298 StringKeys *)
Definition remove (s : structv) (k : value) : option structv := None.
Definition remove_all (s : structv) (ks : list value) : option structv := None.
Definition string_keys (s : structv) : bool := true.
End Struct.
