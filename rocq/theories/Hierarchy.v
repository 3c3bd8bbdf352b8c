(* Hierarchies of loaders of /repo/loader used by one goroutine: namespaces, child loaders and Load.

   The finder and the creator of namespaces of a loader are functions of the name: called again they give
   the same answer. A finder that returns Multiple is left out (see Loader.v). A loader that a creator returns is
   described by how it is made. *)
From Coq Require Import ZArith List Bool Arith.
From Verif Require Import Data HMap Loader.
Import ListNotations.

(* how a loader is made: New(parentNs, name, entries, finder, nsCreator), loader.go:59-79, or a child loader with the
   two loaders own and parent, loader.go:34-37 *)
Inductive desc :=
| DNew (entries : list (name * value)) (finder : option (name -> value)) (creator : option (name -> option desc))
| DChild (own parent : desc).

(* a loader: an object of the heap or a child loader, whose fields never change (loader.go:34-37) *)
Inductive ref := Obj (i : nat) | Child (own parent : ref).

(* loader.go:18-31 mapLoader and loader *)
Inductive object :=
| OMap (entries : list (name * value))
| OLoader (entries : list (name * value)) (finder : option (name -> value)) (spaces : list (name * ref))
    (creator : option (name -> option desc)).

Definition heap := list object.

(* loader.go:59-79 New, and the calls that make the loader that is described *)
Fixpoint create (h : heap) (d : desc) : heap * ref :=
  match d with
  | DNew es None None => (h ++ [OMap es], Obj (length h))
  | DNew es f c => (h ++ [OLoader es f [] c], Obj (length h))
  | DChild own parent => let (h1, p) := create h parent in let (h2, o) := create h1 own in (h2, Child o p)
  end.

(* loader.go:370-372 loaderWithParent, the NewChild methods *)
Definition new_child (h : heap) (parent : ref) (finder : option (name -> value)) (creator : option (name -> option desc)) : heap * ref :=
  let (h1, o) := create h (DNew [] finder creator) in (h1, Child o parent).

(* if vf.Nil == v { v = nil }, loader.go:235-237; the result None is nil *)
Definition non_nil (v : value) : option value := match v with VNil => None | _ => Some v end.

(* mapLoader.Get loader.go:126-128, loader.Get 223-239, childLoader.Get 326-332 *)
Fixpoint get (h : heap) (r : ref) (k : name) : heap * option value :=
  match r with
  | Obj i =>
      match nth_error h i with
      | Some (OMap es) => (h, get_key es k)
      | Some (OLoader es f sp c) =>
          match get_key es k with
          | Some v => (h, non_nil v)
          | None => match f with
                    | None => (h, None)
                    | Some f => (upd h i (OLoader (put_key es k (f k)) (Some f) sp c), non_nil (f k))
                    end
          end
      | None => (h, None)
      end
  | Child own parent =>
      let (h1, v) := get h parent k in
      match v with None => get h1 own k | Some _ => (h1, v) end
  end.

(* mapLoader.Namespace loader.go:148-153, loader.Namespace 245-279, childLoader.Namespace 342-356. The namespace
   cannot have been added in the meantime. *)
Fixpoint namespace (h : heap) (r : ref) (n : name) : heap * option ref :=
  match n with
  | [] => (h, Some r)
  | _ =>
    match r with
    | Obj i =>
        match nth_error h i with
        | Some (OLoader es f sp c) =>
            match get_key sp n with
            | Some r' => (h, Some r')
            | None =>
                match c with
                | None => (h, None)
                | Some c => match c n with
                            | None => (h, None)
                            | Some d => let (h1, r') := create h d in
                                        (upd h1 i (OLoader es f (put_key sp n r') (Some c)), Some r')
                            end
                end
            end
        | _ => (h, None)
        end
    | Child own parent =>
        let (h1, pv) := namespace h parent n in
        let (h2, v) := namespace h1 own n in
        (h2, match v, pv with
             | None, _ => pv
             | Some v, None => Some v
             | Some v, Some pv => Some (Child v pv)
             end)
    end
  end.

(* strings.Split(name, "/") (Go library) *)
Fixpoint split (s : name) : list name :=
  match s with
  | [] => [[]]
  | c :: r => if Z.eqb c 47 then [] :: split r
              else match split r with
                   | [] => [[c]]
                   | p :: ps => (c :: p) :: ps
                   end
  end.

(* loader.go:46-56 load *)
Fixpoint load_parts (h : heap) (r : ref) (parts : list name) : heap * option value :=
  match parts with
  | [] => (h, None)
  | [k] => get h r k
  | n :: rest =>
      let (h1, r1) := namespace h r n in
      match r1 with None => (h1, None) | Some r1 => load_parts h1 r1 rest end
  end.
Definition load (h : heap) (r : ref) (s : name) : heap * option value := load_parts h r (split s).

(* one call; the loaders that the caller has are numbered in the order in which they were obtained *)
Inductive call :=
| CallNew (d : desc)
| CallChild (i : nat) (finder : option (name -> value)) (creator : option (name -> option desc))
| CallNamespace (i : nat) (n : name)
| CallGet (i : nat) (k : name)
| CallLoad (i : nat) (s : name).

(* several calls one after the other and what Get and Load return (not code of /repo). A call of a loader that
   does not exist is left out, Namespace that returns nil gives no loader. *)
Fixpoint calls (h : heap) (rs : list ref) (cs : list call) : list (option value) :=
  match cs with
  | [] => []
  | CallNew d :: rest => let (h1, r) := create h d in calls h1 (rs ++ [r]) rest
  | CallChild i f c :: rest =>
      match nth_error rs i with
      | Some p => let (h1, r) := new_child h p f c in calls h1 (rs ++ [r]) rest
      | None => calls h rs rest
      end
  | CallNamespace i n :: rest =>
      match nth_error rs i with
      | Some r => let (h1, r') := namespace h r n in
                  match r' with Some r' => calls h1 (rs ++ [r']) rest | None => calls h1 rs rest end
      | None => calls h rs rest
      end
  | CallGet i k :: rest =>
      match nth_error rs i with
      | Some r => let (h1, v) := get h r k in v :: calls h1 rs rest
      | None => calls h rs rest
      end
  | CallLoad i s :: rest =>
      match nth_error rs i with
      | Some r => let (h1, v) := load h r s in v :: calls h1 rs rest
      | None => calls h rs rest
      end
  end.
