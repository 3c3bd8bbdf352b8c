(* Property C82. Only statements, [exact], assumptions and examples. *)
From Coq Require Import ZArith List Bool Lia.
From Verif Require Import Data DataSpec Loader Hierarchy LoaderValue LoaderValueSpec LoaderValueProofs.
Import ListNotations.
Open Scope Z_scope.

(* C82, Equals of loaders is an equivalence relation, and equal loaders have the same hash code *)
Theorem C82_equality :
  (forall a, loader_ok a -> leq a a = true) /\
  (forall a b, loader_ok a -> loader_ok b -> leq a b = true -> leq b a = true) /\
  (forall a b c, loader_ok a -> loader_ok b -> loader_ok c -> leq a b = true -> leq b c = true -> leq a c = true) /\
  (forall a b, loader_ok a -> loader_ok b -> leq a b = true -> lhash a = lhash b).
Proof. exact (conj leq_refl (conj leq_sym (conj leq_trans leq_hash))). Qed.
Print Assumptions C82_equality.

(* C82, equal loaders load equal values. Partial: no finder and no creator of namespaces. *)
Theorem C82_equal_load_partial :
  forall a b s, loader_ok a -> loader_ok b -> settled a -> settled b -> leq a b = true -> same_result (lload a s) (lload b s).
Proof. exact equal_load. Qed.
Print Assumptions C82_equal_load_partial.

(* C82, Get does not change a loader. Partial: no finder. *)
Theorem C82_get_partial : forall l k, settled l -> after_get l k = l.
Proof. exact settled_unchanged. Qed.
Print Assumptions C82_get_partial.

(* C82, Get answers the same for all names after a Get *)
Theorem C82_get_again : forall l k k', lget (after_get l k) k' = lget l k'.
Proof. exact get_again. Qed.
Print Assumptions C82_get_again.

(* C82, a new loader answers with its entries, then with what the finder finds, and has the namespaces that the creator creates *)
Theorem C82_new :
  forall up nm es f c k n, n <> [] ->
  (forall v, get_with (veq (VStr k)) es = Some v -> v <> VNil -> lget (lnew up nm es f c) k = Some v) /\
  (get_with (veq (VStr k)) es = None -> lget (lnew up nm es f c) k = match f with Some g => non_nil (g k) | None => None end) /\
  lspace (lnew up nm es f c) n = match c with Some d => d n | None => None end.
Proof. exact new_answers. Qed.
Print Assumptions C82_new.

(* C82, the type of a loader makes an equal loader with the same name of its init argument. Partial: it loads the same if there is no finder and no creator. *)
Theorem C82_init_partial :
  forall l, loader_ok l ->
  exists l', linit (fst (init_map l)) (snd (init_map l)) = Made l' /\ loader_ok l' /\ leq l l' = true /\ lhash l' = lhash l /\ lname l' = lname l /\
    (settled l -> forall s, same_result (lload l s) (lload l' s)).
Proof. exact init_round_trip. Qed.
Print Assumptions C82_init_partial.

(* C82, the absolute name of a loader followed by the name of an entry loads that entry from the root. Partial: the root has no name, the other names are
   those of the namespaces, and there is no slash in them. *)
Theorem C82_absolute_name_partial :
  forall l ns h r h' r' k, rev (lname l :: lup l) = [] :: ns -> Forall part ns -> part k -> reaches h r ns h' r' ->
  load h r (labs l ++ 47 :: k) = get h' r' k.
Proof. exact absolute_name_loads. Qed.
Print Assumptions C82_absolute_name_partial.

(* C82, different namespaces have different absolute names. Partial: no empty names and no slashes in names. *)
Theorem C82_distinct_names_partial :
  forall nm up nm' up', Forall part (nm :: up) -> Forall part (nm' :: up') -> Forall (fun n => n <> []) (nm :: up) -> Forall (fun n => n <> []) (nm' :: up') ->
  abs_name nm up = abs_name nm' up' -> nm = nm' /\ up = up'.
Proof. exact abs_name_inj. Qed.
Print Assumptions C82_distinct_names_partial.

(* C82, a child loader has the names of its parent *)
Theorem C82_child_names : forall p f c, lname (lchild p f c) = lname p /\ labs (lchild p f c) = labs p.
Proof. exact child_names. Qed.
Print Assumptions C82_child_names.

(* C82, a map loader that New made never changes, whatever is put in maps. Partial: not one that the type of map loaders made. *)
Theorem C82_immutable_partial :
  forall h p, let (h', q) := map_loader_new h p in
  (forall k, map_loader_get h' q k = map_loader_get h p k) /\ forall l k, map_loader_get (puts h' l) q k = map_loader_get h' q k.
Proof. exact new_is_immutable. Qed.
Print Assumptions C82_immutable_partial.

(* ---------- refutations ---------- *)

Definition a : name := [97].
Definition b : name := [98].
Definition my : name := [109; 121].
Definition ns : name := [110; 115].
Definition finds (v : value) : option (name -> value) := Some (fun _ => v).

(* C82 is false: equal loaders load different values, and have different names *)
Theorem C82_equal_load_refuted :
  let x := lnew [] a [] (finds (VInt 1)) None in let y := lnew [] b [] (finds (VInt 2)) None in
  loader_ok x /\ loader_ok y /\ leq x y = true /\ lload x a = Some (VInt 1) /\ lload y a = Some (VInt 2) /\ lname x <> lname y.
Proof. cbv zeta. repeat split; try (repeat constructor). discriminate. Qed.
Print Assumptions C82_equal_load_refuted.

(* C82 is false: Get changes the hash code of a loader, and the loader is no longer equal to one that was made the same way: of two
   goroutines that create the same namespace, the second one panics (loader.go:267-270) if the first one has used it *)
Theorem C82_get_refuted :
  let l := lnew [] a [] (finds (VInt 1)) None in
  loader_ok l /\ leq l l = true /\ leq (after_get l b) l = false /\ lhash (after_get l b) <> lhash l.
Proof. cbv zeta. repeat split; try (repeat constructor). vm_compute. discriminate. Qed.
Print Assumptions C82_get_refuted.

(* C82 is false: what the type makes of the init argument has no finder and another absolute name *)
Theorem C82_init_refuted :
  let l := lnew [my] ns [] (finds (VInt 1)) None in
  exists l', linit (fst (init_map l)) (snd (init_map l)) = Made l' /\ lload l a = Some (VInt 1) /\ lload l' a = None /\
    labs l = [47] ++ my ++ [47] ++ ns /\ labs l' = [47] ++ ns.
Proof. eexists. repeat split. Qed.
Print Assumptions C82_init_refuted.

(* C82 is false: a root with a name does not load by absolute names, and two namespaces may have the same absolute name *)
Definition named_root : heap := [OLoader [] None [(ns, Obj 1)] None; OMap [(a, VInt 1)]].
Theorem C82_absolute_name_refuted :
  let l := LMap ns [my] [(VStr a, VInt 1)] in
  reaches named_root (Obj 0) [ns] named_root (Obj 1) /\ snd (get named_root (Obj 1) a) = Some (VInt 1) /\
  snd (load named_root (Obj 0) (labs l ++ 47 :: a)) = None.
Proof. cbv zeta. split; [|split]; try reflexivity. econstructor; [reflexivity|constructor]. Qed.
Print Assumptions C82_absolute_name_refuted.
Theorem C82_distinct_names_refuted : abs_name b [a] = abs_name (a ++ 47 :: b) [].
Proof. reflexivity. Qed.
Print Assumptions C82_distinct_names_refuted.

(* C82 is false: the type of map loaders makes a loader that changes with the map it was made of *)
Theorem C82_immutable_refuted :
  let h : maps := [(false, [])] in let (h', q) := map_loader_init h 0 in
  map_loader_get h' q a = None /\ map_loader_get (puts h' [(0%nat, VStr a, VInt 1)]) q a = Some (VInt 1).
Proof. split; reflexivity. Qed.
Print Assumptions C82_immutable_refuted.

(* ---------- examples ---------- *)

Definition space : lval := LMap ns [my] [(VStr a, VInt 1); (VStr b, VNil)].
Definition space' : lval := LMap [] [] [(VStr b, VNil); (VStr a, VInt 1)].
Example C82_ex_equal :
  let x := LChild (LLoader my [] [(VStr b, VInt 2)] [(ns, space); (a, space)] None None) (LMap my [] []) in
  let y := LChild (LLoader a [my] [(VStr b, VInt 2)] [(a, space'); (ns, space')] None None) (LMap b [] []) in
  loader_ok x /\ loader_ok y /\ settled x /\ settled y /\ leq x y = true /\ lload x (ns ++ 47 :: a) = Some (VInt 1) /\ lload x b = Some (VInt 2) /\
  leq x (LChild (LMap my [] []) (LMap my [] [])) = false.
Proof.
  cbv zeta. unfold space, space', a, b, ns, my. repeat split; repeat constructor; cbn; try (intros [X|[]]; discriminate); try (intros []); reflexivity.
Qed.
Example C82_ex_absolute :
  let h : heap := [OLoader [] None [(my, Obj 1)] None; OLoader [] None [(ns, Obj 2)] None; OMap [(a, VInt 1)]] in
  let l := LMap ns [my; []] [(VStr a, VInt 1)] in
  rev (lname l :: lup l) = [] :: [my; ns] /\ Forall part [my; ns] /\ part a /\ reaches h (Obj 0) [my; ns] h (Obj 2) /\
  labs l = 47 :: my ++ 47 :: ns /\ load h (Obj 0) (labs l ++ 47 :: a) = (h, Some (VInt 1)).
Proof.
  cbv zeta. split; [reflexivity|]. split; [repeat constructor; unfold part, my, ns; cbn; lia|]. split; [unfold part, a; cbn; lia|].
  split; [repeat (econstructor; [reflexivity|]); constructor|]. split; reflexivity.
Qed.
Example C82_ex_names : abs_name ns [my] = 47 :: my ++ 47 :: ns /\ abs_name ns [[]] = 47 :: ns /\ abs_name ns [[]; my] = 47 :: my ++ 47 :: 47 :: ns.
Proof. repeat split. Qed.
Example C82_ex_get_again :
  let l := lnew [] a [] (finds (VInt 1)) None in after_get l b <> l /\ lget (after_get l b) b = Some (VInt 1) /\ lget (after_get l b) a = Some (VInt 1).
Proof. cbv zeta. repeat split. discriminate. Qed.
Example C82_ex_new :
  let l := lnew [] a [(VStr b, VInt 2)] None (Some (fun n => Some (LMap n [] []))) in lget l b = Some (VInt 2) /\ lget l a = None /\ lspace l b = Some (LMap b [] []).
Proof. repeat split. Qed.

(* the init arguments have the keys name, entries, namespaces, loader and parent *)
Example C82_ex_init_keys :
  let m := LMap ns [] [] in let l := LLoader ns [] [] [] None None in
  map fst (snd (init_map l)) = [[110; 97; 109; 101]; [101; 110; 116; 114; 105; 101; 115]; [110; 97; 109; 101; 115; 112; 97; 99; 101; 115]] /\
  map fst (snd (init_map m)) = [[110; 97; 109; 101]; [101; 110; 116; 114; 105; 101; 115]] /\
  map fst (snd (init_map (LChild l m))) = [[108; 111; 97; 100; 101; 114]; [112; 97; 114; 101; 110; 116]].
Proof. repeat split. Qed.
