(* What C82 requires of loaders as values. *)
From Coq Require Import ZArith List Bool.
From Verif Require Import Data DataSpec Loader Hierarchy LoaderValue.
Import ListNotations.
Open Scope Z_scope.

(* a loader that can occur: the entries are data, and no two namespaces have the same name *)
Inductive loader_ok : lval -> Prop :=
| ok_map nm up m : data veq (VMap m) -> loader_ok (LMap nm up m)
| ok_loader nm up m s f c : data veq (VMap m) -> NoDup (map fst s) -> Forall (fun e => loader_ok (snd e)) s -> loader_ok (LLoader nm up m s f c)
| ok_child o p : loader_ok o -> loader_ok p -> loader_ok (LChild o p).

(* no finder and no creator anywhere *)
Inductive settled : lval -> Prop :=
| settled_map nm up m : settled (LMap nm up m)
| settled_loader nm up m s : Forall (fun e => settled (snd e)) s -> settled (LLoader nm up m s None None)
| settled_child o p : settled o -> settled p -> settled (LChild o p).

(* nil on both sides, or equal values *)
Definition same_result (a b : option value) : Prop :=
  match a, b with None, None => True | Some v, Some w => veq v w = true | _, _ => False end.

(* no slash in a name *)
Definition part (n : name) : Prop := ~ In 47 n.
(* calls of Namespace, one after the other *)
Inductive reaches : heap -> ref -> list name -> heap -> ref -> Prop :=
| reaches_self h r : reaches h r [] h r
| reaches_step h r n h1 r1 ns h2 r2 : namespace h r n = (h1, Some r1) -> reaches h1 r1 ns h2 r2 -> reaches h r (n :: ns) h2 r2.

(* a path: each of the names after a slash *)
Fixpoint path (ns : list name) : name := match ns with [] => [] | n :: r => 47 :: n ++ path r end.
