(* What equality of graphs is about: finite graphs, the values they stand for, and bisimilarity. *)
From Coq Require Import ZArith List Bool.
From Verif Require Import Int64 Data DataSpec Graph.
Import ListNotations.
Open Scope Z_scope.

(* a value that is not an array, map or sensitive *)
Definition flat_value (v : value) : Prop := match v with VArr _ | VMap _ | VSens _ => False | _ => True end.

Definition children (x : gnode) : list gval :=
  match x with GArr l => l | GSens a => [a] | GMap m => map snd m end.

(* the pointer points to a node of the graph *)
Definition points (g : graph) (a : gval) : Prop :=
  match a with GLeaf v => flat_value v | GRef p => (p < length g)%nat end.
(* a finite graph: all pointers point to nodes *)
Definition closed (g : graph) : Prop := Forall (fun x => Forall (points g) (children x)) g.

(* a stands for the finite value v *)
Inductive stands (g : graph) : gval -> value -> Prop :=
  | stands_leaf v : flat_value v -> stands g (GLeaf v) v
  | stands_arr p l vs : nth_error g p = Some (GArr l) -> Forall2 (stands g) l vs -> stands g (GRef p) (VArr vs)
  | stands_sens p a v : nth_error g p = Some (GSens a) -> stands g a v -> stands g (GRef p) (VSens v)
  | stands_map p m ws : nth_error g p = Some (GMap m) ->
      Forall2 (fun e w => fst e = fst w /\ stands g (snd e) (snd w)) m ws -> stands g (GRef p) (VMap ws).

(* no difference can be found by looking at two nodes, if R holds of the pairs of values that show no
   difference *)
Definition node_alike (R : gval -> gval -> Prop) (x y : gnode) : Prop :=
  match x, y with
  | GArr l, GArr l' => Forall2 R l l'
  | GSens a, GSens b => R a b
  | GMap m, GMap m' =>
      length m = length m' /\
      Forall (fun e => exists k y, find (fun e' => veq (fst e) (fst e')) m' = Some (k, y) /\ R (snd e) y) m
  | _, _ => False
  end.
Definition value_alike (g : graph) (R : gval -> gval -> Prop) (a b : gval) : Prop :=
  match a, b with
  | GLeaf x, GLeaf y => veq x y = true
  | GRef p, GRef q => exists x y, nth_error g p = Some x /\ nth_error g q = Some y /\ node_alike R x y
  | _, _ => False
  end.
(* no finite path leads to a difference *)
Definition bisimilar (g : graph) (a b : gval) : Prop :=
  exists R : gval -> gval -> Prop, (forall a b, R a b -> value_alike g R a b) /\ R a b.

(* a value that can be compared with others of its kind, and so can all that is in it *)
Inductive all_comparable : value -> Prop :=
  | ac_leaf v : flat_value v -> comparable v = true -> all_comparable v
  | ac_arr l : Forall all_comparable l -> all_comparable (VArr l).
