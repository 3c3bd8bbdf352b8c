(* What a hierarchy of loaders means: a tree of names and values. *)
From Coq Require Import ZArith List Bool.
From Verif Require Import Data Loader Hierarchy.
Import ListNotations.

(* the value of each name, and the namespace of each name *)
Inductive tree := Tree (values : name -> option value) (spaces : name -> option tree).

Definition values (t : tree) := match t with Tree v _ => v end.
Definition spaces (t : tree) := match t with Tree _ s => s end.

(* the value at a path; an empty name stands for the same place *)
Fixpoint value_at (t : tree) (path : list name) {struct path} : option value :=
  match path with
  | [] => None
  | [k] => values t k
  | [] :: rest => value_at t rest
  | n :: rest => match spaces t n with None => None | Some t' => value_at t' rest end
  end.

(* what the loader that is described has: its entries and what it finds. Only a loader without a finder and
   a creator makes a difference between a name with the value nil and no value. A child has nothing of its own
   but what the parent lacks. *)
Fixpoint combine_trees (p l : tree) : tree :=
  Tree (fun k => match values p k with Some v => Some v | None => values l k end)
       (fun n => match p with
                 | Tree _ ps =>
                   match ps n with
                   | None => spaces l n
                   | Some p' => match spaces l n with
                                | None => Some p'
                                | Some l' => Some (combine_trees p' l')
                                end
                   end
                 end).

Fixpoint described (d : desc) : tree :=
  match d with
  | DNew es f c =>
      Tree (fun k => match get_key es k with
                     | Some v => match f, c with None, None => Some v | _, _ => non_nil v end
                     | None => match f with None => None | Some f => non_nil (f k) end
                     end)
           (fun n => match c with
                     | None => None
                     | Some c => match c n with None => None | Some d' => Some (described d') end
                     end)
  | DChild own parent => combine_trees (described parent) (described own)
  end.

Fixpoint first {A} (l : list (option A)) : option A :=
  match l with [] => None | Some v :: _ => Some v | None :: r => first r end.

(* a child of the loader d0 with the finder and creator fc, a child of this with the next ones, ... *)
Fixpoint chain (d0 : desc) (fcs : list (option (name -> value) * option (name -> option desc))) : desc :=
  match fcs with
  | [] => d0
  | fc :: r => chain (DChild (DNew [] (fst fc) (snd fc)) d0) r
  end.

(* names joined by slashes *)
Fixpoint join (parts : list name) : name :=
  match parts with [] => [] | [p] => p | p :: r => p ++ 47%Z :: join r end.

(* what the calls return: nothing ever changes, the loaders are trees *)
Fixpoint answers (ts : list tree) (cs : list call) : list (option value) :=
  match cs with
  | [] => []
  | CallNew d :: rest => answers (ts ++ [described d]) rest
  | CallChild i f c :: rest =>
      match nth_error ts i with
      | Some t => answers (ts ++ [combine_trees t (described (DNew [] f c))]) rest
      | None => answers ts rest
      end
  | CallNamespace i n :: rest =>
      match nth_error ts i with
      | Some t => match n with
                  | [] => answers (ts ++ [t]) rest
                  | _ => match spaces t n with Some t' => answers (ts ++ [t']) rest | None => answers ts rest end
                  end
      | None => answers ts rest
      end
  | CallGet i k :: rest =>
      match nth_error ts i with Some t => values t k :: answers ts rest | None => answers ts rest end
  | CallLoad i s :: rest =>
      match nth_error ts i with Some t => value_at t (split s) :: answers ts rest | None => answers ts rest end
  end.

(* the namespace at a path *)
Fixpoint space_at (t : tree) (path : list name) : option tree :=
  match path with
  | [] => Some t
  | [] :: rest => space_at t rest
  | n :: rest => match spaces t n with None => None | Some t' => space_at t' rest end
  end.
