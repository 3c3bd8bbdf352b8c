(* Property C97. Only statements, [exact], assumptions and examples. *)
From Coq Require Import ZArith List Bool.
From Verif Require Import HMap Slices SlicesSpec SlicesProofs ArrEach ArrEachSpec ArrEachProofs ArrEachRoom.
Import ListNotations.
Open Scope Z_scope.

(* C97: whatever the callback does, the iteration of an array ends after as many calls as the array had elements at the beginning, unless an operation panics. *)
Theorem C97_each_ends :
  forall V eqc fz th grow os a f w' vs, no_spare_run V eqc fz th grow (init V) os ->
  each_array V eqc fz th grow a f (fst (run V eqc fz th grow (init V) os)) = Some (w', vs) ->
  exists cs, elems V (fst (run V eqc fz th grow (init V) os)) a = Some cs /\ length vs = length cs.
Proof. exact each_ends_ok. Qed.
Print Assumptions C97_each_ends.

(* C97: an iteration whose callback appends to the array and does anything to other arrays visits the elements that the array had at the beginning, in their order,
   for every way in which the runtime grows slices. Partial: callbacks that do not set, insert or remove elements of the array that is iterated over. *)
Theorem C97_each_appends_partial :
  forall V eqc fz th grow os a f w' vs, no_spare_run V eqc fz th grow (init V) os ->
  (forall seen, Forall (fun o => list_op V o /\ appends V a o) (f seen)) ->
  each_array V eqc fz th grow a f (fst (run V eqc fz th grow (init V) os)) = Some (w', vs) ->
  elems V (fst (run V eqc fz th grow (init V) os)) a = Some vs.
Proof. exact each_appends_ok. Qed.
Print Assumptions C97_each_appends_partial.

(* C97: as long as the array does not outgrow its capacity the callback is given the element that is at the position now, and the Go nil if the array has become too short;
   and afterwards all arrays are what the callbacks have made of them. Partial: arrays that are not moved to a larger buffer. *)
Theorem C97_each_within_capacity_partial :
  forall V eqc fz th grow os a x fr l f sw' vs, no_spare_run V eqc fz th grow (init V) os -> (forall seen, Forall (list_op V) (f seen)) ->
  nth_error (arrays V (fst (run V eqc fz th grow (init V) os))) a = Some x -> nth_error (fst (srun V eqc fz th [] os)) a = Some (fr, l) ->
  each_room V eqc fz th a (cap V (bufs V (fst (run V eqc fz th grow (init V) os))) (aslice x)) (length l) 0 f (fst (srun V eqc fz th [] os)) [] = Some (sw', vs) ->
  exists w', each_array V eqc fz th grow a f (fst (run V eqc fz th grow (init V) os)) = Some (w', vs) /\
    forall c, elems V w' c = match nth_error sw' c with None => None | Some (_, m) => Some (map Some m) end.
Proof. exact each_room_ok. Qed.
Print Assumptions C97_each_within_capacity_partial.

(* C97: what any callback is given, and what becomes of the arrays: the current element at the position until an operation makes the array longer than its capacity, then the
   element that was there before that operation; the iteration panics if and only if an operation does. *)
Theorem C97_each_exact :
  forall V eqc fz th grow os a x fr l f, no_spare_run V eqc fz th grow (init V) os -> (forall seen, Forall (list_op V) (f seen)) ->
  nth_error (arrays V (fst (run V eqc fz th grow (init V) os))) a = Some x -> nth_error (fst (srun V eqc fz th [] os)) a = Some (fr, l) ->
  match each_exact V eqc fz th a (cap V (bufs V (fst (run V eqc fz th grow (init V) os))) (aslice x)) (length l) 0 f (fst (srun V eqc fz th [] os)) None [] with
  | None => each_array V eqc fz th grow a f (fst (run V eqc fz th grow (init V) os)) = None
  | Some (sw', vs) => exists w', each_array V eqc fz th grow a f (fst (run V eqc fz th grow (init V) os)) = Some (w', vs) /\
      forall c, elems V w' c = match nth_error sw' c with None => None | Some (_, m) => Some (map Some m) end
  end.
Proof. exact each_exact_reached. Qed.
Print Assumptions C97_each_exact.

Definition zeqc (v : Z) (c : option Z) : bool := match c with Some x => v =? x | None => false end.
Definition double (c n : nat) : nat := (2 * c)%nat.
Definition zeach (os : list (op Z)) (f : list (option Z) -> list (op Z)) : option (option (list (option Z)) * list (option Z)) :=
  match each_array Z zeqc (fun v => v) (fun v => v) double 0 f (fst (run Z zeqc (fun v => v) (fun v => v) double (init Z) os)) with
  | None => None
  | Some (w, vs) => Some (elems Z w 0, vs)
  end.
Definition last_seen (seen : list (option Z)) (k : Z -> list (op Z)) : list (op Z) := match seen with Some v :: _ => k v | _ => [] end.

(* Each element is appended once more, by a callback that also changes a second array; the array is moved meanwhile. *)
Example ex_C97_appends :
  zeach [OValues Z false [1; 2; 3]; OValues Z false [7]] (fun seen => last_seen seen (fun v => [OAdd Z 0 v; OSet Z 1 0 v]))
  = Some (Some [Some 1; Some 2; Some 3; Some 1; Some 2; Some 3], [Some 1; Some 2; Some 3]).
Proof. vm_compute. reflexivity. Qed.
Example ex_C97_appends_hyp : forall seen, Forall (fun o => list_op Z o /\ appends Z 0 o) (last_seen seen (fun v => [OAdd Z 0 v; OSet Z 1 0 v])).
Proof. intros [|[v|] r]; cbn; repeat constructor; discriminate. Qed.

(* Elements are replaced ahead of the iteration, and one is inserted and one removed within the capacity. *)
Example ex_C97_capacity :
  zeach [OWithCapacity Z 8; OAddValues Z 0 [1; 2; 3; 4]]
        (fun seen => last_seen seen (fun v => if v =? 1 then [OSet Z 0 1 20] else if v =? 20 then [OInsert Z 0 3 35] else if v =? 3 then [ORemove Z 0 0] else []))
  = Some (Some [Some 20; Some 3; Some 35; Some 4], [Some 1; Some 20; Some 3; Some 4]).
Proof. vm_compute. reflexivity. Qed.
Example ex_C97_capacity_hyp :
  match each_room Z zeqc (fun v => v) (fun v => v) 0 8 4 0 (fun seen => last_seen seen (fun v => if v =? 1 then [OSet Z 0 1 20] else if v =? 20 then [OInsert Z 0 3 35] else if v =? 3 then [ORemove Z 0 0] else []))
    (fst (srun Z zeqc (fun v => v) (fun v => v) [] [OWithCapacity Z 8; OAddValues Z 0 [1; 2; 3; 4]])) [] with Some _ => true | None => false end = true.
Proof. vm_compute. reflexivity. Qed.

(* The third element is replaced, an insertion moves the array, and what is set and removed after that is not visited. *)
Definition moving (seen : list (option Z)) : list (op Z) :=
  match seen with [_] => [OSet Z 0 2 30; OInsert Z 0 0 0; OSet Z 0 2 20; OSet Z 0 3 31] | [_; _] => [OPop Z 0] | _ => [] end.
Example ex_C97_exact : zeach [OValues Z false [1; 2; 3]] moving = Some (Some [Some 0; Some 1; Some 20], [Some 1; Some 2; Some 30]).
Proof. vm_compute. reflexivity. Qed.
Example ex_C97_exact_spec :
  each_exact Z zeqc (fun v => v) (fun v => v) 0 3 3 0 moving (fst (srun Z zeqc (fun v => v) (fun v => v) [] [OValues Z false [1; 2; 3]])) None []
  = Some ([(false, [0; 1; 20])], [Some 1; Some 2; Some 30]).
Proof. vm_compute. reflexivity. Qed.

(* Removing each element that is visited leaves every other one, which is not visited, and calls the callback with the Go nil. *)
Theorem C97_removing_refuted :
  exists os f, zeach os f = Some (Some [Some 2; Some 4], [Some 1; Some 3; None; None]) /\
    os = [OValues Z false [1; 2; 3; 4]] /\ f = (fun seen => last_seen seen (fun v => [ORemoveValue Z 0 v])).
Proof. do 2 eexists. split; [|split; reflexivity]. vm_compute. reflexivity. Qed.
Print Assumptions C97_removing_refuted.

(* What is visited depends on the capacity: with room an element that is inserted in front makes the first one be visited again, without room it does not. *)
Theorem C97_capacity_refuted :
  exists os1 os2 f, elems Z (fst (run Z zeqc (fun v => v) (fun v => v) double (init Z) os1)) 0 = elems Z (fst (run Z zeqc (fun v => v) (fun v => v) double (init Z) os2)) 0 /\
    zeach os1 f = Some (Some [Some 0; Some 1; Some 2], [Some 1; Some 1]) /\ zeach os2 f = Some (Some [Some 0; Some 1; Some 2], [Some 1; Some 2]).
Proof.
  exists [OWithCapacity Z 4; OAddValues Z 0 [1; 2]], [OValues Z false [1; 2]], (fun seen => match seen with [Some v] => [OInsert Z 0 0 0] | _ => [] end).
  vm_compute. repeat split.
Qed.
Print Assumptions C97_capacity_refuted.

(* An element that is replaced is visited with its new value, but with its old one if the array has grown in between. *)
Theorem C97_stale_refuted :
  exists f1 f2, zeach [OValues Z false [1; 2]] f1 = Some (Some [Some 1; Some 20], [Some 1; Some 20]) /\
    zeach [OValues Z false [1; 2]] f2 = Some (Some [Some 1; Some 20; Some 3], [Some 1; Some 2]).
Proof.
  exists (fun seen => match seen with [_] => [OSet Z 0 1 20] | _ => [] end), (fun seen => match seen with [_] => [OAdd Z 0 3; OSet Z 0 1 20] | _ => [] end).
  vm_compute. repeat split.
Qed.
Print Assumptions C97_stale_refuted.
