(* C96: a map that is changed while it is iterated. Only statements, [exact], assumptions and examples. *)
From Coq Require Import ZArith List Bool Lia.
From Verif Require Import HMap HMapSpec MapEach MapEachSpec MapEachProofs.
Import ListNotations.
Open Scope Z_scope.

Section Statements.
Variables (K V : Type) (keq : K -> K -> bool) (khash : K -> Z) (veq : V -> V -> bool)
  (vnil : V -> bool) (vfreeze vthaw : V -> V).
Notation step := (step K V keq khash veq vnil vfreeze vthaw).
Notation run := (run K V keq khash veq vnil vfreeze vthaw).

(* C96: if the callback only puts values for keys that are there and removes at most the entry that it is given, then the iteration visits each key
   that the map had exactly once, in order, with the value that it has then, and ends with the map that the changes make. Partial: histories that call
   ToMap with equal keys, or With with Nil, are excluded by op_ok as in C02 and C03; see the refutations for the other changes. *)
Theorem C96_update_while_iterating_partial :
  forall (f : list (K * V) -> list (act K V)), lawful K keq khash ->
  forall os m g d d' vs fuel, (forall o, In o os -> op_ok K V keq vnil o) ->
  let w := fst (run init os) in
  nth_error (maps w) m = Some g -> hfrozen g = false -> snd (step w (OpEntries m)) = REntries d ->
  each_spec K V keq f (map fst d) d [] = Some (d', vs) -> (length d <= fuel)%nat ->
  map fst vs = map fst d /\
  exists s' g', each_entry K V keq khash fuel f (nodes w) g = Some (s', g', vs, true) /\ hentries s' g' = Some d' /\
    forall k, hget K V keq khash s' g' k = Some (dget K V keq d' k).
Proof. exact (each_reached_same K V keq khash veq vnil vfreeze vthaw). Qed.

(* C96: if the callback puts whatever it likes, and at last may remove the entry that it is given, then the iteration does not panic and visits
   each key that the map had first, in order, and none of them is left out. Partial: what comes after them depends on the table, see the refutations. *)
Theorem C96_insert_while_iterating_partial :
  forall (f : list (K * V) -> list (act K V)), lawful K keq khash ->
  forall os m g d fuel, (forall o, In o os -> op_ok K V keq vnil o) ->
  let w := fst (run init os) in
  nth_error (maps w) m = Some g -> hfrozen g = false -> snd (step w (OpEntries m)) = REntries d ->
  may_remove_current K V keq f -> (length d <= fuel)%nat ->
  exists s' g' vs fin extra, each_entry K V keq khash fuel f (nodes w) g = Some (s', g', vs, fin) /\ map fst vs = map fst d ++ extra.
Proof. exact (each_reached_all K V keq khash veq vnil vfreeze vthaw). Qed.

(* C96: as long as the table does not grow, new keys are visited after those that were there. Partial: the entries that are removed are current ones, and
   the size of the table is known; see the refutations. *)
Theorem C96_room_while_iterating_partial :
  forall (f : list (K * V) -> list (act K V)), lawful K keq khash ->
  forall os m g d d' vs fin fuel, (forall o, In o os -> op_ok K V keq vnil o) ->
  let w := fst (run init os) in
  nth_error (maps w) m = Some g -> hfrozen g = false -> snd (step w (OpEntries m)) = REntries d ->
  each_room K V keq (Z.of_nat (length (htbl g))) fuel f (map fst d) d [] = Some (d', vs, fin) ->
  exists s' g', each_entry K V keq khash fuel f (nodes w) g = Some (s', g', vs, fin) /\ hentries s' g' = Some d' /\
    forall k, hget K V keq khash s' g' k = Some (dget K V keq d' k).
Proof. exact (each_reached_room K V keq khash veq vnil vfreeze vthaw). Qed.
End Statements.
Print Assumptions C96_room_while_iterating_partial.
Print Assumptions C96_update_while_iterating_partial.
Print Assumptions C96_insert_while_iterating_partial.

(* integers as keys and values, and a hash function with collisions *)
Definition zkeys : Z -> Z := fun k => k mod 3.
Definition zrun := run Z Z Z.eqb zkeys Z.eqb (Z.eqb 0) (fun v => v) (fun v => v).
Lemma zlaw : lawful Z Z.eqb zkeys.
Proof.
  constructor; [apply Z.eqb_refl|intros a b H; now rewrite Z.eqb_sym|intros a b c H1 H2; apply Z.eqb_eq in H1, H2; subst; apply Z.eqb_refl|].
  intros a b H. apply Z.eqb_eq in H. now subst.
Qed.
Definition zspec := each_spec Z Z Z.eqb.
Definition zeach (fuel : nat) (f : list (Z * Z) -> list (act Z Z)) (os : list (op Z Z)) : option (list (Z * Z) * list (Z * Z) * bool) :=
  let w := fst (zrun init os) in
  match nth_error (maps w) 0 with
  | Some g =>
      match each_entry Z Z Z.eqb zkeys fuel f (nodes w) g with
      | Some (s', g', vs, fin) => match hentries s' g' with Some d' => Some (d', vs, fin) | None => None end
      | None => None
      end
  | None => None
  end.
Definition put (k v : Z) : act Z Z := APut Z Z k v.
Definition rem (k : Z) : act Z Z := ARemove Z Z k.

(* a map with three entries: the first callback changes the value of the last entry and removes the second when it gets there *)
Definition three : list (op Z Z) := [OpNew 8; OpPut 0 1 10; OpPut 0 4 40; OpPut 0 7 70].
Definition changer (seen : list (Z * Z)) : list (act Z Z) :=
  match seen with (1, _) :: _ => [put 7 71; put 1 11] | (4, _) :: _ => [put 1 12; rem 4; rem 4] | _ => [] end.
Example ex_C96_update :
  zspec changer [1; 4; 7] [(1, 10); (4, 40); (7, 70)] [] = Some ([(1, 12); (7, 71)], [(1, 10); (4, 40); (7, 71)]) /\
  zeach 3 changer three = Some ([(1, 12); (7, 71)], [(1, 10); (4, 40); (7, 71)], true).
Proof. split; vm_compute; reflexivity. Qed.

(* a new key for every old one: put before the old one is removed *)
Definition inserter (seen : list (Z * Z)) : list (act Z Z) :=
  match seen with (k, v) :: _ => if k <? 10 then [put (k + 10) v; rem k] else [] | _ => [] end.
Example ex_C96_insert :
  may_remove_current Z Z Z.eqb inserter /\
  zeach 10 inserter three = Some ([(11, 10); (14, 40); (17, 70)], [(1, 10); (4, 40); (7, 70); (11, 10); (14, 40); (17, 70)], true).
Proof.
  split; [|vm_compute; reflexivity]. intros k v seen. cbn [inserter]. destruct (k <? 10).
  - exists [put (k + 10) v]. split; [repeat constructor|]. right. exists k. split; [apply Z.eqb_refl|reflexivity].
  - exists []. split; [constructor|]. now left.
Qed.

(* C96: an entry that has been removed is visited nevertheless: the callback removes the entry that it is given, and then the next one *)
Definition remover (seen : list (Z * Z)) : list (act Z Z) := match seen with (1, _) :: _ => [rem 1; rem 4] | _ => [] end.
Theorem C96_removed_is_visited_refuted :
  zeach 10 remover three = Some ([(7, 70)], [(1, 10); (4, 40); (7, 70)], true) /\
  (* in the other order it is not *)
  zeach 10 (fun seen => match seen with (1, _) :: _ => [rem 4; rem 1] | _ => [] end) three = Some ([(7, 70)], [(1, 10); (7, 70)], true).
Proof. split; vm_compute; reflexivity. Qed.
Print Assumptions C96_removed_is_visited_refuted.

(* C96: after a put that makes the table grow the iteration goes on in entries that the map no longer has, with values that have been replaced *)
Definition grower (seen : list (Z * Z)) : list (act Z Z) := match seen with (1, _) :: _ => [put 20 0; put 7 99] | _ => [] end.
Theorem C96_stale_value_refuted :
  zeach 10 grower [OpNew 2; OpPut 0 1 10; OpPut 0 4 40; OpPut 0 7 70] =
    Some ([(1, 10); (4, 40); (7, 99); (20, 0)], [(1, 10); (4, 40); (7, 70)], true).
Proof. vm_compute. reflexivity. Qed.
Print Assumptions C96_stale_value_refuted.

(* C96: the same callback of the same entries sees other entries if the map was made with another capacity *)
Theorem C96_capacity_refuted :
  zeach 10 grower [OpNew 16; OpPut 0 1 10; OpPut 0 4 40; OpPut 0 7 70] =
    Some ([(1, 10); (4, 40); (7, 99); (20, 0)], [(1, 10); (4, 40); (7, 99); (20, 0)], true).
Proof. vm_compute. reflexivity. Qed.
Print Assumptions C96_capacity_refuted.

(* the inserter again: the table of 8 has room for six entries *)
Example ex_C96_room :
  each_room Z Z Z.eqb 8 10 inserter [1; 4; 7] [(1, 10); (4, 40); (7, 70)] [] =
    Some ([(11, 10); (14, 40); (17, 70)], [(1, 10); (4, 40); (7, 70); (11, 10); (14, 40); (17, 70)], true) /\
  (* a table of 4 has not *)
  each_room Z Z Z.eqb 4 10 inserter [1; 4; 7] [(1, 10); (4, 40); (7, 70)] [] = None.
Proof. split; vm_compute; reflexivity. Qed.

(* C96: if the last entry is removed and a new one is put, then the new one is not visited; if it is put before the last one is removed, it is *)
Theorem C96_last_removed_refuted :
  zeach 10 (fun seen => match seen with (4, _) :: _ => [rem 4; put 5 50] | _ => [] end) [OpNew 8; OpPut 0 1 10; OpPut 0 4 40] = Some ([(1, 10); (5, 50)], [(1, 10); (4, 40)], true) /\
  zeach 10 (fun seen => match seen with (4, _) :: _ => [put 5 50; rem 4] | _ => [] end) [OpNew 8; OpPut 0 1 10; OpPut 0 4 40] = Some ([(1, 10); (5, 50)], [(1, 10); (4, 40); (5, 50)], true).
Proof. split; vm_compute; reflexivity. Qed.
Print Assumptions C96_last_removed_refuted.

(* C96: the iteration of a map that never has more than three entries does not end: the callback replaces the entry that it is given by a new one.
   However long one waits, it is still going on. *)
Theorem C96_endless_refuted :
  forall fuel, let w := fst (zrun init [OpNew 4; OpPut 0 1 10; OpPut 0 4 40]) in
  exists g s' g' vs d', nth_error (maps w) 0 = Some g /\ each_entry Z Z Z.eqb zkeys fuel renamer (nodes w) g = Some (s', g', vs, false) /\
    length vs = fuel /\ hentries s' g' = Some d' /\ length d' = 2%nat.
Proof.
  intros fuel w. destruct (renamer_goes_on fuel 1 4 10 40 []) as (d' & vs & E & L1 & L2); [lia|]. eexists.
  edestruct (C96_room_while_iterating_partial Z Z Z.eqb zkeys Z.eqb (Z.eqb 0) (fun v => v) (fun v => v) renamer zlaw [OpNew 4; OpPut 0 1 10; OpPut 0 4 40] 0%nat) as (s' & g' & A & B & _);
    [intros o [<-|[<-|[<-|[]]]]; exact I|vm_compute; reflexivity|reflexivity|vm_compute; reflexivity|exact E|].
  exists s', g', vs, d'. split; [vm_compute; reflexivity|]. auto.
Qed.
Print Assumptions C96_endless_refuted.
