(* What is observed of an object, and what Freeze, FrozenCopy and ThawedCopy should do. *)
From Coq Require Import ZArith List Bool Arith.
From Verif Require Import Objects.
Import ListNotations.

(* what is observed: the value as a tree, without regard to who shares what and what is frozen *)
Inductive tree :=
| TImm (z : Z)
| TArr (l : list tree)
| TMap (l : list (tree * tree))
| TEntry (k v : tree)
| TSens (t : tree)
| TBin (bs : list Z).

Inductive denotes (h : heap) : val -> tree -> Prop :=
| d_imm z : denotes h (Imm z) (TImm z)
| d_arr a f l ts : nth_error h a = Some (Arr f l) -> denote_all h l ts -> denotes h (Ptr a) (TArr ts)
| d_map a f ns ts : nth_error h a = Some (Map f ns) -> denote_nodes h ns ts -> denotes h (Ptr a) (TMap ts)
| d_node a k w tk tw : nth_error h a = Some (Node k w) -> denotes h k tk -> denotes h w tw -> denotes h (Ptr a) (TEntry tk tw)
| d_sens a w t : nth_error h a = Some (Sens w) -> denotes h w t -> denotes h (Ptr a) (TSens t)
| d_bin a f b bs : nth_error h a = Some (Bin f b) -> nth_error h b = Some (Bytes bs) -> denotes h (Ptr a) (TBin bs)
with denote_all (h : heap) : list val -> list tree -> Prop :=
| da_nil : denote_all h [] []
| da_cons v l t ts : denotes h v t -> denote_all h l ts -> denote_all h (v :: l) (t :: ts)
with denote_nodes (h : heap) : list nat -> list (tree * tree) -> Prop :=
| dn_nil : denote_nodes h [] []
| dn_cons n ns k w tk tw ts : nth_error h n = Some (Node k w) -> denotes h k tk -> denotes h w tw -> denote_nodes h ns ts ->
    denote_nodes h (n :: ns) ((tk, tw) :: ts).

(* what an object refers to *)
Definition fields (o : obj) : list val :=
  match o with
  | Arr _ l => l
  | Map _ ns => map Ptr ns
  | Node k w => [k; w]
  | Sens w => [w]
  | Bin _ b => [Ptr b]
  | Bytes _ => []
  end.

(* the objects that a value is made of *)
Inductive reach (h : heap) : val -> nat -> Prop :=
| reach_here a : reach h (Ptr a) a
| reach_next a o v b : nth_error h a = Some o -> In v (fields o) -> reach h v b -> reach h (Ptr a) b.

(* nothing that a value is made of can be changed by an operation *)
Definition deep_frozen (h : heap) (v : val) : Prop :=
  forall a o, reach h v a -> nth_error h a = Some o ->
  match o with Arr f _ | Map f _ | Bin f _ => f = true | _ => True end.

(* the operation does not hand out map entries as values *)
Definition no_entries (o : op) : Prop := match o with OEntry _ _ | OMakeEntry _ _ => False | _ => True end.
(* With, WithAll and the With of a map are not called on a frozen container *)
Definition not_frozen (h : heap) (K : list val) (i : nat) : Prop :=
  match nth_error K i with
  | Some (Ptr a) => match nth_error h a with Some (Arr true _) | Some (Map true _) => False | _ => True end
  | _ => True
  end.
Definition careful1 (h : heap) (K : list val) (o : op) : Prop :=
  match o with OWith i _ | OWithAll i _ | OMapWith i _ _ _ _ => not_frozen h K i | _ => True end.
Fixpoint careful (n : nat) (h : heap) (K : list val) (ops : list op) : Prop :=
  match ops with
  | [] => True
  | o :: r => careful1 h K o /\ match step n h K o with Some (h1, K1) => careful n h1 K1 r | None => True end
  end.

(* the objects that a value is made of but for the keys of maps *)
Inductive inside (h : heap) : val -> nat -> Prop :=
| inside_here a : inside h (Ptr a) a
| inside_elem a f l v b : nth_error h a = Some (Arr f l) -> In v l -> inside h v b -> inside h (Ptr a) b
| inside_value a f ns n k w b : nth_error h a = Some (Map f ns) -> In n ns -> nth_error h n = Some (Node k w) -> inside h w b -> inside h (Ptr a) b
| inside_sens a w b : nth_error h a = Some (Sens w) -> inside h w b -> inside h (Ptr a) b.

Definition thawed (h : heap) (v : val) : Prop :=
  forall a o, inside h v a -> nth_error h a = Some o ->
  match o with Arr f _ | Map f _ | Bin f _ => f = false | _ => True end.

(* how deep a value is *)
Fixpoint depth (t : tree) : nat :=
  match t with
  | TImm _ | TBin _ => 1
  | TArr l => S (list_max (map depth l))
  | TMap l => S (list_max (map (fun '(k, w) => depth w) l))
  | TEntry _ w => S (depth w)
  | TSens t => S (depth t)
  end.
