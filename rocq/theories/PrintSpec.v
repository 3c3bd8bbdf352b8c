(* What it means that a text does not depend on the contents of sensitive values. *)
From Coq Require Import ZArith List Bool.
From Verif Require Import Int64 Data Graph GraphSpec.
Import ListNotations.
Open Scope Z_scope.

(* equal but for the contents of sensitive values *)
Inductive same_but_secrets : value -> value -> Prop :=
  | sbs_sens v w : same_but_secrets (VSens v) (VSens w)
  | sbs_flat v : flat_value v -> same_but_secrets v v
  | sbs_arr l l' : Forall2 same_but_secrets l l' -> same_but_secrets (VArr l) (VArr l')
  | sbs_map m m' : Forall2 (fun e e' => same_but_secrets (fst e) (fst e') /\ same_but_secrets (snd e) (snd e')) m m' ->
      same_but_secrets (VMap m) (VMap m').

(* a leaf, or a pointer to one of the nodes A *)
Definition within_nodes (A : nat -> Prop) (a : gval) : Prop := match a with GLeaf _ => True | GRef p => A p end.

(* two nodes that are equal but for the contents of sensitive values, and point only to nodes A unless
   they are sensitive *)
Inductive same_node (A : nat -> Prop) : gnode -> gnode -> Prop :=
  | sn_sens x y : same_node A (GSens x) (GSens y)
  | sn_arr l : Forall (within_nodes A) l -> same_node A (GArr l) (GArr l)
  | sn_map m m' : Forall2 (fun e e' => same_but_secrets (fst e) (fst e') /\ snd e = snd e' /\ within_nodes A (snd e)) m m' ->
      same_node A (GMap m) (GMap m').

(* g and g' agree on the nodes A but for the contents of sensitive values; other nodes, which can be reached
   through sensitive values only, may be different altogether *)
Definition same_public (A : nat -> Prop) (g g' : graph) : Prop :=
  forall p, A p -> exists x y, nth_error g p = Some x /\ nth_error g' p = Some y /\ same_node A x y.
