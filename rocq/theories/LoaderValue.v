(* Loaders of /repo/loader as values: Equals, HashCode, what Type.New makes of the init argument of a loader, names, and what Load returns
   for a loader as it is.

   Entries are maps of Data.v; loaders as entries are left out. Keys of namespaces are strings. A creator may put a loader in a namespace of
   itself: there is no such value here. The finder and the creator are functions of the name. *)
From Coq Require Import ZArith List Bool Arith.
From Verif Require Import Int64 Data Loader Hierarchy.
Import ListNotations.
Open Scope Z_scope.

(* mapLoader, loader and childLoader, loader.go:18-37. The field parentNs is only asked for its AbsoluteName: [up] are the names of the
   parent namespace, of its parent namespace, and so on. *)
Inductive lval :=
| LMap (nm : name) (up : list name) (entries : list (value * value))
| LLoader (nm : name) (up : list name) (entries : list (value * value)) (spaces : list (name * lval))
    (finder : option (name -> value)) (creator : option (name -> option lval))
| LChild (own parent : lval).

(* New, loader.go:59-79, where entries nil is the empty map *)
Definition lnew (up : list name) (nm : name) (es : list (value * value)) (finder : option (name -> value)) (creator : option (name -> option lval)) : lval :=
  match finder, creator with None, None => LMap nm up es | _, _ => LLoader nm up es [] finder creator end.

(* Name: mapLoader loader.go:144-146, also that of the embedded mapLoader of a loader and of the embedded Loader of a child *)
Fixpoint lname (l : lval) : name := match l with LMap nm _ _ | LLoader nm _ _ _ _ _ => nm | LChild own _ => lname own end.
(* ParentNamespace, loader.go:159-161, as the names *)
Fixpoint lup (l : lval) : list name := match l with LMap _ up _ | LLoader _ up _ _ _ _ => up | LChild own _ => lup own end.
(* AbsoluteName, loader.go:134-142, of the loader with the name nm and the parent namespaces up. 47 is the slash. *)
Fixpoint abs_name (nm : name) (up : list name) : name :=
  match up with
  | [] => 47 :: nm
  | p :: r => let pn := abs_name p r in if bytes_eqb pn [47] then 47 :: nm else pn ++ 47 :: nm
  end.
Definition labs (l : lval) : name := abs_name (lname l) (lup l).

(* Equals: loader.go:115-120, 212-217, 319-324. The namespaces are compared by mapEqual, map.go:471-476: a loader is no deepEqual, so
   that equals (compare.go:111-132) calls its Equals. *)
Fixpoint leq (a b : lval) {struct a} : bool :=
  match a, b with
  | LMap _ _ m, LMap _ _ m' => veq (VMap m) (VMap m')
  | LLoader _ _ m s _ _, LLoader _ _ m' s' _ _ =>
      veq (VMap m) (VMap m') && (Nat.eqb (length s) (length s') &&
      (fix all (s : list (name * lval)) : bool :=
         match s with
         | [] => true
         | (k, x) :: r => match get_key s' k with Some y => leq x y | None => false end && all r
         end) s)
  | LChild o p, LChild o' p' => leq o o' && leq p p'
  | _, _ => false
  end.

(* HashCode: loader.go:122-124, 219-221, 334-336; hashMap.HashCode map.go:550-565 with mapEntry.deepHashCode map.go:108-110 *)
Fixpoint lhash (l : lval) : Z :=
  match l with
  | LMap _ _ m => vhash (VMap m)
  | LLoader _ _ m s _ _ =>
      w64 (vhash (VMap m) * 31 + hash_list (sort_z (map (fun e => Z.lxor (string_hash (fst e)) (lhash (snd e))) s)))
  | LChild o p => w64 (lhash o * 31 + lhash p)
  end.

(* What Get returns: loader.go:126-128, 223-239, 326-332 *)
Fixpoint lget (l : lval) (k : name) : option value :=
  match l with
  | LMap _ _ m => get_with (veq (VStr k)) m
  | LLoader _ _ m _ f _ =>
      match get_with (veq (VStr k)) m with
      | Some v => non_nil v
      | None => match f with Some f => non_nil (f k) | None => None end
      end
  | LChild o p => match lget p k with Some v => Some v | None => lget o k end
  end.
(* What Get leaves behind: add, loader.go:188-210, puts what the finder returned *)
Fixpoint after_get (l : lval) (k : name) : lval :=
  match l with
  | LMap _ _ _ => l
  | LLoader nm up m s f c =>
      match get_with (veq (VStr k)) m, f with
      | None, Some g => LLoader nm up (m ++ [(VStr k, g k)]) s f c
      | _, _ => l
      end
  | LChild o p => LChild (match lget p k with Some _ => o | None => after_get o k end) (after_get p k)
  end.
(* What Namespace returns: loader.go:148-153, 245-279, 342-356 *)
Fixpoint lspace (l : lval) (n : name) : option lval :=
  match n with
  | [] => Some l
  | _ =>
    match l with
    | LMap _ _ _ => None
    | LLoader _ _ _ s _ c => match get_key s n with Some x => Some x | None => match c with Some c => c n | None => None end end
    | LChild o p => match lspace o n, lspace p n with None, x => x | x, None => x | Some x, Some y => Some (LChild x y) end
    end
  end.
(* load, loader.go:46-56 *)
Fixpoint lload_parts (l : lval) (parts : list name) : option value :=
  match parts with
  | [] => None
  | [k] => lget l k
  | n :: rest => match lspace l n with Some x => lload_parts x rest | None => None end
  end.
Definition lload (l : lval) (s : name) : option value := lload_parts l (split s).
(* loaderWithParent, loader.go:370-372 *)
Definition lchild (parent : lval) (finder : option (name -> value)) (creator : option (name -> option lval)) : lval :=
  LChild (lnew (lup parent) (lname parent) [] finder creator) parent.

(* ---------- init arguments ---------- *)

(* a value in the map that the constructors get: a value of Data.v, a map of loaders or a loader *)
Inductive ival := IVal (v : value) | ISpaces (s : list (name * lval)) | ILoader (l : lval).
(* the constructor panics; Unmodelled: a map of loaders as entries, or namespaces that are no loaders *)
Inductive made := Made (l : lval) | Panics | Unmodelled.
Inductive lkind := KMap | KLoader | KChild.

(* the literals name, entries, namespaces, loader and parent, loader.go:97, 98, 183, 308, 309 *)
Definition k_name : name := [110; 97; 109; 101].
Definition k_entries : name := [101; 110; 116; 114; 105; 101; 115].
Definition k_namespaces : name := [110; 97; 109; 101; 115; 112; 97; 99; 101; 115].
Definition k_loader : name := [108; 111; 97; 100; 101; 114].
Definition k_parent : name := [112; 97; 114; 101; 110; 116].

(* initMap, loader.go:100-105, 182-186, 312-317 *)
Definition init_map (l : lval) : lkind * list (name * ival) :=
  match l with
  | LMap nm _ m => (KMap, [(k_name, IVal (VStr nm)); (k_entries, IVal (VMap m))])
  | LLoader nm _ m s _ _ => (KLoader, [(k_name, IVal (VStr nm)); (k_entries, IVal (VMap m)); (k_namespaces, ISpaces s)])
  | LChild o p => (KChild, [(k_loader, ILoader o); (k_parent, ILoader p)])
  end.
(* init, loader.go:95-98, 177-180, 307-310: Get of an absent key is nil, and the assertions panic. The constructors are loader.go:82-93, 164-175, 294-305. *)
Definition init_map_loader (m : list (name * ival)) (k : name -> list (value * value) -> made) : made :=
  match get_key m k_name with
  | Some (IVal (VStr nm)) =>
      match get_key m k_entries with
      | Some (IVal (VMap es)) => k nm es
      | Some (ISpaces []) => k nm []
      | Some (ISpaces _) => Unmodelled
      | _ => Panics
      end
  | _ => Panics
  end.
Definition linit (k : lkind) (m : list (name * ival)) : made :=
  match k with
  | KMap => init_map_loader m (fun nm es => Made (LMap nm [] es))
  | KLoader => init_map_loader m (fun nm es =>
      match get_key m k_namespaces with
      | Some (ISpaces s) => Made (LLoader nm [] es s None None)
      | Some (IVal (VMap [])) => Made (LLoader nm [] es [] None None)
      | Some (IVal (VMap _)) => Unmodelled
      | _ => Panics
      end)
  | KChild =>
      match get_key m k_loader, get_key m k_parent with
      | Some (ILoader o), Some (ILoader p) => Made (LChild o p)
      | _, _ => Panics
      end
  end.

(* ---------- the entries of a map loader are an object ---------- *)

(* the maps of the program: frozen or not, and the entries; the map of an address that is not in the list is empty and frozen *)
Definition maps := list (bool * list (value * value)).
Definition map_at (h : maps) (p : nat) : bool * list (value * value) := nth p h (true, []).
(* hashMap.Put, map.go:599-638, panics (None) on a frozen map *)
Definition put_at (h : maps) (p : nat) (k v : value) : option maps :=
  let '(frozen, m) := map_at h p in
  if frozen then None
  else Some (HMap.upd h p (false, match get_with (veq k) m with
                             | Some _ => map (fun e => if veq k (fst e) then (fst e, v) else e) m
                             | None => m ++ [(k, v)]
                             end)).
(* a program puts entries in maps; a Put that panics changes nothing *)
Fixpoint puts (h : maps) (l : list (nat * value * value)) : maps :=
  match l with
  | [] => h
  | (p, k, v) :: r => puts (match put_at h p k v with Some h' => h' | None => h end) r
  end.
(* New of a map loader, loader.go:63-66 with hashMap.FrozenCopy (map.go:420-437): the entries, the values in the map being frozen *)
Definition map_loader_new (h : maps) (p : nat) : maps * nat :=
  if fst (map_at h p) then (h, p) else (h ++ [(true, snd (map_at h p))], length h).
(* mapLoader.init, loader.go:95-98 *)
Definition map_loader_init (h : maps) (p : nat) : maps * nat := (h, p).
(* mapLoader.Get, loader.go:126-128 *)
Definition map_loader_get (h : maps) (p : nat) (k : name) : option value := get_with (veq (VStr k)) (snd (map_at h p)).
