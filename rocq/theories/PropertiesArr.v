(* Properties C13, C15, C16, C17, C52. Only statements, [exact], assumptions and examples. *)
From Coq Require Import ZArith List Bool Permutation Lia.
From Coq Require Import Floats.SpecFloat.
From Verif Require Import Int64 HMap MapIter Data DataSpec DataProofs CompareProofs Arr ArrSpec ArrProofs ArrKinds.
Import ListNotations.
Open Scope Z_scope.

(* C13: on every sortable array Sort gives the stable ordered permutation of its elements; there
   is only one. Partial: integers beyond 2^53 together with floats, and nil together with maps or
   sensitives, are excluded (see the refutations), and so are arrays as elements that are not all
   of one kind. *)
Theorem C13_sort_partial :
  forall k l, sortable k l ->
  stable_sorted value vless l (vsort l) /\
  forall l', stable_sorted value vless l l' -> l' = vsort l.
Proof. exact vsort_stable. Qed.
Print Assumptions C13_sort_partial.

(* C13: elements that cannot be compared are sorted in the order of their kinds. *)
Theorem C13_kinds : forall a b, comparable a = false \/ vcmp a b = None -> (vless a b = true <-> kind_before (kind_of a) (kind_of b)).
Proof. exact vless_kinds. Qed.
Print Assumptions C13_kinds.
Example kinds_example :
  comparable (VMap []) = false /\ vcmp (VStr [97]) (VTime 0 0 0) = None /\ vless (VStr [97]) (VTime 0 0 0) = true /\ kind_before SKString SKTime /\
  vsort [VTime 0 0 0; VStr [97]; VMap []; VArr []] = [VArr []; VMap []; VStr [97]; VTime 0 0 0].
Proof. repeat split; try (vm_compute; reflexivity). now exists [SKSensitive; SKArray; SKBinary; SKBoolean; SKFloat; SKInteger; SKMap; SKNil; SKRegexp], [], []. Qed.

(* C13: for any strict weak order the insertion sort is a stable sort. *)
Theorem C13_insertion_sort :
  forall A less P, strict_weak A less P -> forall l, Forall P l ->
  stable_sorted A less l (insertion_sort A less l).
Proof. exact insertion_sort_stable. Qed.
Print Assumptions C13_insertion_sort.

(* C13 is false in general: sorting {nil, {}} gives {{}, nil}, where a greater element comes before
   a smaller one because nil.CompareTo({}) is -1; sorting that again gives {nil, {}}. *)
Theorem C13_sort_refuted :
  vsort [VNil; VMap []] = [VMap []; VNil] /\
  vcmp VNil (VMap []) = Some (-1) /\
  vsort [VMap []; VNil] = [VNil; VMap []] /\
  ~ ordered value vless (vsort [VNil; VMap []]).
Proof.
  split; [vm_compute; reflexivity|]. split; [vm_compute; reflexivity|]. split; [vm_compute; reflexivity|].
  intros H. inversion H as [|x l Hx Hl]; subst. inversion Hx as [|y l' Hy Hl']; subst.
  vm_compute in Hy. discriminate.
Qed.
Print Assumptions C13_sort_refuted.

Example sort_example :
  let l := [VStr [98]; VInt 3; VNil; VFloat (S754_finite false 5629499534213120 (-51)); VStr [97]; VInt 2; VTime 1 2 0; VBool true] in
  sortable KInt l /\
  vsort l = [VNil; VBool true; VInt 2; VFloat (S754_finite false 5629499534213120 (-51)); VInt 3; VStr [97]; VStr [98]; VTime 1 2 0].
Proof.
  split; [|vm_compute; reflexivity]. split.
  - repeat constructor; cbn; try lia; discriminate.
  - intros _ v H. repeat (destruct H as [<-|H]; [exact I|]). destruct H.
Qed.

(* equal elements keep their order: 0 and -0 are told apart by their representation only *)
Example sort_stable_example :
  vsort [VFloat (S754_zero false); VInt (-1); VInt 0; VFloat (S754_zero true)] =
  [VInt (-1); VFloat (S754_zero false); VInt 0; VFloat (S754_zero true)].
Proof. vm_compute. reflexivity. Qed.

(* C15: Unique gives the elements that equal no earlier one, for elements with a lawful Equals and
   HashCode, whatever collisions there are; in particular for all data values. *)
Theorem C15_unique :
  forall (A : Type) (eq : A -> A -> bool) (hashcode : A -> Z) (P : A -> Prop),
  (forall x, P x -> eq x x = true) ->
  (forall x y, P x -> P y -> eq x y = true -> eq y x = true) ->
  (forall x y z, P x -> P y -> P z -> eq x y = true -> eq y z = true -> eq x z = true) ->
  (forall x y, P x -> P y -> eq x y = true -> hashcode x = hashcode y) ->
  forall a, Forall P a ->
  exists u, unique A eq hashcode a = Some u /\
    u = firsts A eq [] a /\
    subsequence A u a /\
    ForallOrdPairs (fun x y => eq x y = false /\ eq y x = false) u /\
    (forall x, In x a -> exists y, In y u /\ eq x y = true).
Proof. exact unique_correct. Qed.
Print Assumptions C15_unique.

Theorem C15_unique_data :
  forall a, Forall (data veq) a ->
  exists u, unique value veq vhash a = Some u /\
    u = firsts value veq [] a /\
    subsequence value u a /\
    ForallOrdPairs (fun x y => veq x y = false /\ veq y x = false) u /\
    (forall x, In x a -> exists y, In y u /\ veq x y = true).
Proof. exact (unique_correct value veq vhash (data veq) veq_refl veq_sym veq_trans veq_hash). Qed.
Print Assumptions C15_unique_data.

Example unique_example :
  unique value veq vhash [VInt 1; VStr [97]; VFloat (S754_zero false); VInt 1; VArr [VNil]; VStr [97]; VArr [VNil]; VInt 2] =
  Some [VInt 1; VStr [97]; VFloat (S754_zero false); VArr [VNil]; VInt 2].
Proof. vm_compute. reflexivity. Qed.

(* all elements in one bucket *)
Example unique_collisions :
  unique Z Z.eqb (fun _ => 5) [3; 1; 3; 2; 1; 3] = Some [3; 1; 2].
Proof. vm_compute. reflexivity. Qed.

(* C16: Flatten gives the leaves from left to right, and no array is among them. *)
Theorem C16_flatten :
  forall a, leaves (VArr a) (flatten a) /\
  (forall ls, leaves (VArr a) ls -> ls = flatten a) /\
  (forall x, In x (flatten a) -> forall l, x <> VArr l).
Proof. exact flatten_correct. Qed.
Print Assumptions C16_flatten.

Example flatten_example :
  flatten [VInt 1; VArr [VInt 2; VArr []; VArr [VMap [(VInt 1, VArr [VNil])]; VNil]]; VInt 3] =
  [VInt 1; VInt 2; VMap [(VInt 1, VArr [VNil])]; VNil; VInt 3].
Proof. vm_compute. reflexivity. Qed.

(* C17: SameValues decides that two arrays hold the same elements in some order. *)
Theorem C17_same_values :
  forall a b, Forall (data veq) a -> Forall (data veq) b ->
  exists r, same_values value veq a b = Some r /\ (r = true <-> same_multiset value veq a b).
Proof. exact (same_values_correct value veq (data veq) veq_refl veq_sym veq_trans). Qed.
Print Assumptions C17_same_values.

(* C17: ContainsAll is right when it says yes, and when the arrays have the same length. Partial:
   it may say no although all the elements are there. *)
Theorem C17_contains_all_partial :
  forall a b, Forall (data veq) a -> Forall (data veq) b ->
  exists r, contains_all value veq a b = Some r /\
    (r = true -> contains_multiset value veq a b) /\
    (length a = length b -> contains_multiset value veq a b -> r = true).
Proof. exact (contains_all_partial value veq (data veq) veq_refl veq_sym veq_trans). Qed.
Print Assumptions C17_contains_all_partial.

(* C17 is false for ContainsAll: {1, 2, 3} contains all of {3} but the answer is false. *)
Theorem C17_contains_all_refuted :
  let a := [VInt 1; VInt 2; VInt 3] in
  contains_multiset value veq a [VInt 3] /\ contains_all value veq a [VInt 3] = Some false.
Proof.
  split; [|vm_compute; reflexivity]. exists [VInt 3], [VInt 1; VInt 2]. split.
  - apply Permutation_sym, (Permutation_cons_append [VInt 1; VInt 2]).
  - repeat constructor.
Qed.
Print Assumptions C17_contains_all_refuted.

Example same_values_example :
  same_values value veq [VInt 1; VInt 2; VInt 1] [VInt 1; VInt 1; VInt 2] = Some true /\
  same_values value veq [VInt 1; VInt 2; VInt 2] [VInt 1; VInt 1; VInt 2] = Some false /\
  contains_all value veq [VInt 1; VInt 2; VInt 2] [VInt 2; VInt 1] = Some true.
Proof. vm_compute. auto. Qed.

(* C52: what the iteration methods of an array return, and the elements they call their callback
   with, in order. *)
Theorem C52_array_iteration :
  forall (A : Type) (l : list A),
  (forall p, all_loop A _ (logged A p) l [] = (forallb p l, through A (fun x => negb (p x)) l)) /\
  (forall p, any_loop A _ (logged A p) l [] = (existsb p l, through A p l)) /\
  (forall p, fst (one_loop A _ (logged A p) false l []) = Nat.eqb (length (filter p l)) 1) /\
  (forall B (f : A -> option B), find_loop A _ (logged A f) l [] =
     (hd None (filter (fun o => match o with Some _ => true | None => false end) (map f l)),
      through A (fun x => match f x with Some _ => true | None => false end) l)) /\
  (forall B (f : A -> B), map_loop A _ (logged A f) l [] = (map f l, l)) /\
  (forall p, select_loop A _ true (logged A p) l [] = (filter p l, l)) /\
  (forall p, select_loop A _ false (logged A p) l [] = (filter (fun x => negb (p x)) l, l)) /\
  (forall M (f : M -> A -> M) m, reduce_loop A _ (fun m x log => (f m x, log ++ [x])) m l [] = (fold_left f l m, l)) /\
  each_loop A _ (fun i x log => log ++ [(x, i)]) 0%nat l [] = combine l (seq 0 (length l)).
Proof. exact array_iteration. Qed.
Print Assumptions C52_array_iteration.

(* C52: IndexOf is the first position of an equal element, or -1 when there is none. *)
Theorem C52_index_of :
  forall A (eq : A -> A -> bool) x l,
  (exists n y, index_of A eq x l = Z.of_nat n /\ nth_error l n = Some y /\ eq x y = true /\
     forall m z, (m < n)%nat -> nth_error l m = Some z -> eq x z = false) \/
  (index_of A eq x l = -1 /\ forall y, In y l -> eq x y = false).
Proof. exact index_of_correct. Qed.
Print Assumptions C52_index_of.

(* C52: the iteration methods of a map visit its entries in order. *)
Theorem C52_map_iteration :
  forall (K V : Type) (s : list (node K V)) (g : hmap) d, hentries s g = Some d ->
  (forall p, map_all K V _ s g (logged _ p) [] = Some (forallb p d, through _ (fun x => negb (p x)) d)) /\
  (forall p, map_any K V _ s g (logged _ p) [] = Some (existsb p d, through _ p d)) /\
  (forall p, map_find K V _ s g (logged _ p) [] = Some (find p d, through _ p d)) /\
  map_each K V _ s g (fun e log => log ++ [e]) [] = Some d.
Proof. exact map_iteration. Qed.
Print Assumptions C52_map_iteration.

Example iteration_example :
  all_loop Z _ (logged Z (fun x => x <? 3)) [1; 2; 5; 0; 7] [] = (false, [1; 2; 5]) /\
  fst (one_loop Z _ (logged Z (fun x => x <? 3)) false [1; 5; 4] []) = true /\
  index_of Z Z.eqb 5 [1; 5; 4; 5] = 1.
Proof. vm_compute. auto. Qed.

Example map_iteration_example :
  let st := fst (run Z Z Z.eqb (fun k => k mod 3) Z.eqb (Z.eqb 0) (fun v => v) (fun v => v) init
                   [OpNew 0; OpPut 0 1 10; OpPut 0 4 40; OpPut 0 2 20; OpRemove 0 4]) in
  match maps st with
  | [g] => hentries (nodes st) g = Some [(1, 10); (2, 20)]
  | _ => False
  end.
Proof. vm_compute. reflexivity. Qed.
