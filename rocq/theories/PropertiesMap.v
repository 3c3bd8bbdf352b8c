(* Properties C01-C05 and C49: maps. Only statements, [exact], assumptions and examples. *)
From Coq Require Import ZArith List Bool Lia.
From Verif Require Import Int64 HMap HMapSpec HMapBase HMapInv HMapRefine HMapCor.
Import ListNotations.
Open Scope Z_scope.

Section Statements.
Variables (K V : Type) (keq : K -> K -> bool) (khash : K -> Z) (veq : V -> V -> bool)
  (vnil : V -> bool) (vfreeze vthaw : V -> V).

(* the model and the specification *)
Notation step := (step K V keq khash veq vnil vfreeze vthaw).
Notation run := (run K V keq khash veq vnil vfreeze vthaw).
Notation run_spec := (run_spec K V keq veq vfreeze vthaw).

(* C01: for every sequence of operations, of any length, on any number of mutable maps the
   outputs are those of insertion ordered dictionaries. *)
Theorem C01_map_is_dictionary :
  lawful K keq khash ->
  forall os, (forall o, In o os -> basic_op K V o) -> snd (run init os) = snd (run_spec [] os).
Proof. exact (refines_basic K V keq khash veq vnil vfreeze vthaw). Qed.

(* C01: Get answers the last Put of an equal key that has not been removed since. *)
Theorem C01_get_is_latest :
  lawful K keq khash ->
  forall cap h k,
  last (snd (run init (OpNew cap :: map (event_op K V 0) h ++ [OpGet 0 k]))) RBad =
  RVal (latest K V keq h k).
Proof. exact (get_after_history K V keq khash veq vnil vfreeze vthaw). Qed.

(* C02: in every reachable map iteration, Get, ContainsKey and Len agree. Partial: histories
   that call ToMap with equal keys, or With with Nil, are excluded by op_ok (see C04 below). *)
Theorem C02_iteration_consistent_partial :
  lawful K keq khash ->
  forall os m, (forall o, In o os -> op_ok K V keq vnil o) ->
  let w := fst (run init os) in
  (m < length (maps w))%nat ->
  exists d, step w (OpEntries m) = (w, REntries d) /\
    distinct K V keq d /\
    step w (OpLen m) = (w, RLen (Z.of_nat (length d))) /\
    (forall k v k', In (k, v) d -> keq k' k = true -> step w (OpGet m k') = (w, RVal (Some v))) /\
    (forall k v, step w (OpGet m k) = (w, RVal (Some v)) -> exists k', In (k', v) d /\ keq k k' = true) /\
    (forall k, step w (OpContainsKey m k) = (w, RBool (existsb (fun kv => keq k (fst kv)) d))) /\
    (forall g, nth_error (maps w) m = Some g ->
       walk_back K V (fuel_of (nodes w)) (nodes w) (hlast g) = Some (rev d)).
Proof. exact (reachable_consistent K V keq khash veq vnil vfreeze vthaw). Qed.

(* C03: With, Without, WithoutAll, Merge, Copy and Map give the dictionary their name says and
   change no observation of any existing map. Partial: With(k, Nil) is excluded by op_ok. *)
Theorem C03_pure_operations_partial :
  lawful K keq khash ->
  forall os o, (forall x, In x os -> op_ok K V keq vnil x) -> op_ok K V keq vnil o ->
  let w := fst (run init os) in
  let w' := fst (step w o) in
  forall d e fr d',
  snd (step w (OpEntries (receiver K V o))) = REntries d ->
  snd (step w (OpFrozen (receiver K V o))) = RBool fr ->
  snd (step w (OpEntries (argument K V o))) = REntries e ->
  pure_result K V keq veq vfreeze vthaw d fr e o = Some d' ->
  (exists r, snd (step w o) = RMap r /\ snd (step w' (OpEntries r)) = REntries d') /\
  (forall m q, (m < length (maps w))%nat -> read_op K V m q -> snd (step w' q) = snd (step w q)).
Proof. exact (pure_ops K V keq khash veq vnil vfreeze vthaw). Qed.

(* C04: ToMap on pairwise different keys. Partial: keys that repeat are excluded (refuted below). *)
Theorem C04_map_from_list_partial :
  lawful K keq khash ->
  forall os kvs fr, (forall x, In x os -> op_ok K V keq vnil x) -> distinct K V keq kvs ->
  let w := fst (run init os) in
  let w' := fst (step w (OpToMap kvs fr)) in
  (exists r, snd (step w (OpToMap kvs fr)) = RMap r /\ snd (step w' (OpEntries r)) = REntries kvs /\
     (forall k, snd (step w' (OpGet r k)) = RVal (dget K V keq kvs k)) /\
     snd (step w' (OpLen r)) = RLen (Z.of_nat (length kvs))) /\
  (forall m q, (m < length (maps w))%nat -> read_op K V m q -> snd (step w' q) = snd (step w q)).
Proof. exact (tomap_reach K V keq khash veq vnil vfreeze vthaw). Qed.

(* C04: ToMapFromEntries on two element arrays builds the very same map as ToMap. Partial:
   elements that are entries of another map are excluded (refuted below). *)
Theorem C04_map_from_entries_partial :
  forall s kvs fr,
  hfromentries K V khash s (map (fun kv => EPair (fst kv) (snd kv)) kvs) fr = htomap K V khash s kvs fr.
Proof. exact (hfromentries_pairs K V khash). Qed.

(* C05: at any time after a map has been frozen, whatever was done before and since (repeated
   keys included, whatever == of keys is), every sequence of attempts to change the map panics
   at each attempt and leaves all maps as they were. *)
Theorem C05_frozen_map_rejects_mutation :
  forall os1 os2 attempts m,
  (m < length (maps (fst (run init (os1 ++ [OpFreeze m])))))%nat ->
  let w := fst (run init (os1 ++ [OpFreeze m] ++ os2)) in
  (forall o, In o attempts -> attempt K V m (fun a => snd (step w (OpLen a))) o) ->
  run w attempts = (w, map (fun _ => RPanic) attempts).
Proof. exact (frozen_rejects K V keq khash veq vnil vfreeze vthaw). Qed.

(* C05, more than what is claimed: from the moment a map is frozen, whatever is done with it or with other maps, all that
   can be read from it stays the same, and every mutation attempt panics and has no effect. Partial: the histories are
   restricted by op_ok as in C02. *)
Theorem C05_frozen_map_immutable_partial :
  lawful K keq khash ->
  forall os1 os2 m, (forall o, In o (os1 ++ os2) -> op_ok K V keq vnil o) ->
  let w1 := fst (run init (os1 ++ [OpFreeze m])) in
  let w2 := fst (run init (os1 ++ [OpFreeze m] ++ os2)) in
  (m < length (maps w1))%nat ->
  (forall r, read_op K V m r -> snd (step w2 r) = snd (step w1 r)) /\
  (forall o, mutates K V m o -> step w2 o = (w2, RPanic)) /\
  (forall a, snd (step w2 (OpLen a)) <> RLen 0 -> snd (step w2 (OpLen a)) <> RBad ->
     step w2 (OpPutAll m a) = (w2, RPanic)).
Proof. exact (frozen_forever K V keq khash veq vnil vfreeze vthaw). Qed.

End Statements.

(* C49: table sizes and bucket indexes. *)
Theorem C49_table_size :
  forall cap, 1 <= cap <= maximumCapacity ->
  exists k, 0 <= k /\ tableSizeFor cap = 2 ^ k /\ cap <= 2 ^ k /\ (cap = 1 \/ 2 ^ k < 2 * cap).
Proof. exact tableSizeFor_exact. Qed.

Theorem C49_table_size_capped :
  forall cap, maximumCapacity <= cap -> tableSizeFor cap = maximumCapacity.
Proof. exact tableSizeFor_big. Qed.

Theorem C49_bucket_in_table :
  forall cap h, 0 <= bucket_of (tableSizeFor cap) h < tableSizeFor cap.
Proof. exact bucket_in_table. Qed.

(* ---------------- refuted ---------------- *)

(* Keys and values are integers, 0 plays the role of Nil, and hashes collide modulo 3. *)
Definition zrun := run Z Z Z.eqb (fun k => k mod 3) Z.eqb (Z.eqb 0) (fun v => v) (fun v => v).
Definition zspec := run_spec Z Z Z.eqb Z.eqb (fun v => v) (fun v => v).

Lemma z_lawful : lawful Z Z.eqb (fun k => k mod 3).
Proof.
  constructor.
  - apply Z.eqb_refl.
  - intros a b. rewrite !Z.eqb_eq. congruence.
  - intros a b c. rewrite !Z.eqb_eq. congruence.
  - intros a b. rewrite !Z.eqb_eq. congruence.
Qed.

(* C03 is false for With(k, Nil): the receiver comes back, without the key. *)
Theorem C03_with_nil_refuted :
  snd (zrun init [OpNew 4; OpPut 0 1 7; OpWith 0 2 0; OpContainsKey 0 2]) =
    [RMap 0%nat; RVal None; RMap 0%nat; RBool false] /\
  snd (zspec [] [OpNew 4; OpPut 0 1 7; OpWith 0 2 0; OpContainsKey 1 2]) =
    [RMap 0%nat; RVal None; RMap 1%nat; RBool true].
Proof. split; vm_compute; reflexivity. Qed.

(* C02 and C04 are false for repeated keys: two entries with the same key, Len 2, and after
   Remove the key is still there. *)
Theorem C04_repeated_key_refuted :
  snd (zrun init [OpToMap [(5, 1); (5, 2)] false; OpLen 0; OpEntries 0; OpRemove 0 5; OpGet 0 5]) =
  [RMap 0%nat; RLen 2; REntries [(5, 1); (5, 2)]; RVal (Some 2); RVal (Some 1)].
Proof. vm_compute. reflexivity. Qed.

(* C04 is false for entries taken from a map: the new map, made of the first entry only, has
   length 1 but iterates over both entries; made of the entries in reverse order, its iteration
   never ends, and neither does that of the source map. *)
Theorem C04_entries_of_a_map_refuted :
  let w := fst (zrun init [OpNew 8; OpPut 0 1 10; OpPut 0 2 20]) in
  (exists s g, hfromentries Z Z (fun k => k mod 3) (nodes w) [ENode 0] false = Some (s, g) /\
               hlen g = 1 /\ hentries s g = Some [(1, 10); (2, 20)]) /\
  (exists s g, hfromentries Z Z (fun k => k mod 3) (nodes w) [ENode 1; ENode 0] false = Some (s, g) /\
               hentries s g = None /\
               exists g0, nth_error (maps w) 0 = Some g0 /\ hentries (nodes w) g0 = Some [(1, 10); (2, 20)] /\
                          hentries s g0 = None).
Proof.
  vm_compute. split.
  - do 2 eexists. split; [reflexivity|]. split; reflexivity.
  - do 2 eexists. split; [reflexivity|]. split; [reflexivity|].
    eexists. split; [reflexivity|]. split; reflexivity.
Qed.

(* More than what C05 claims, that nothing at all changes what is read from a frozen map, is
   false: ToMapFromEntries on the entries of a frozen map relinks them. Afterwards the frozen map
   has the length 2 and an iteration that does not end; or, if an entry is followed by one that is
   not from the map, it iterates over an entry that was never put into it. *)
Theorem C05_entries_of_a_frozen_map_refuted :
  let w := fst (zrun init [OpNew 8; OpPut 0 1 10; OpPut 0 2 20; OpFreeze 0]) in
  exists g0, nth_error (maps w) 0 = Some g0 /\ hfrozen g0 = true /\
    hentries (nodes w) g0 = Some [(1, 10); (2, 20)] /\
    (exists s g, hfromentries Z Z (fun k => k mod 3) (nodes w) [ENode 1; ENode 0] false = Some (s, g) /\
                 hentries s g0 = None) /\
    (exists s g, hfromentries Z Z (fun k => k mod 3) (nodes w) [ENode 1; EPair 3 30] false = Some (s, g) /\
                 hentries s g0 = Some [(1, 10); (2, 20); (3, 30)] /\ hlen g0 = 2).
Proof.
  vm_compute. eexists. split; [reflexivity|]. split; [reflexivity|]. split; [reflexivity|]. split.
  - do 2 eexists. split; reflexivity.
  - do 2 eexists. split; [reflexivity|]. split; reflexivity.
Qed.

Example example_attempts :
  let w := fst (zrun init ([OpNew 8; OpToMap [(5, 1); (5, 2)] false; OpPut 0 1 10] ++ [OpFreeze 0] ++ [OpPut 1 6 6])) in
  zrun w [OpPut 0 2 20; OpRemove 0 1; OpPutAll 0 1; OpRemoveAll 0 [1]] = (w, [RPanic; RPanic; RPanic; RPanic]).
Proof. vm_compute. reflexivity. Qed.

(* ---------------- examples: the hypotheses are met by non-trivial histories ---------------- *)

Definition example_ops : list (op Z Z) :=
  [OpNew 0; OpPut 0 1 10; OpPut 0 4 40; OpPut 0 7 70; OpPut 0 2 20; OpPut 0 5 50; OpPut 0 8 80;
   OpPut 0 11 1; OpPut 0 14 1; OpPut 0 17 1; OpPut 0 4 41; OpRemove 0 7; OpPut 0 7 71; OpEntries 0;
   OpNew 1; OpPut 1 100 1; OpPut 1 7 2; OpPutAll 0 1; OpPutAll 0 0; OpRemoveAll 0 [1; 99; 8];
   OpEntries 0; OpLen 0; OpGet 0 7; OpMerge 1 0; OpWithout 0 4; OpCopy 0 true; OpFreeze 1; OpPut 1 3 3;
   OpEntries 2].

Example example_basic : forall o, In o example_ops -> basic_op Z Z o.
Proof.
  intros o H. repeat (destruct H as [<-|H]; [exact I|]). destruct H.
Qed.

Example example_output :
  snd (zrun init example_ops) = snd (zspec [] example_ops) /\
  nth 20 (snd (zrun init example_ops)) RBad =
    REntries [(4, 41); (2, 20); (5, 50); (11, 1); (14, 1); (17, 1); (7, 2); (100, 1)].
Proof. vm_compute. split; reflexivity. Qed.

Example example_pure :
  let w := fst (zrun init example_ops) in
  pure_result Z Z Z.eqb Z.eqb (fun v => v) (fun v => v) [(100, 1); (7, 2)] true [(1, 1); (7, 7)] (OpMerge 1 0)
    = Some [(100, 1); (7, 7); (1, 1)] /\
  snd (step Z Z Z.eqb (fun k => k mod 3) Z.eqb (Z.eqb 0) (fun v => v) (fun v => v) w (OpEntries 1))
    = REntries [(100, 1); (7, 2)].
Proof. vm_compute. split; reflexivity. Qed.

Example example_latest :
  latest Z Z Z.eqb [EvPut 1 10; EvPut 4 40; EvRemove 1; EvPut 4 41; EvPut 1 11] 1 = Some 11.
Proof. reflexivity. Qed.

Example example_distinct : distinct Z Z Z.eqb [(1, 1); (4, 2); (7, 3)].
Proof. cbn. repeat split; intros k v H; repeat (destruct H as [H|H]; [inversion H; reflexivity|]); destruct H. Qed.

Example example_size : tableSizeFor 9 = 16 /\ 1 <= 9 <= maximumCapacity.
Proof. split; [reflexivity|]. unfold maximumCapacity. lia. Qed.

Print Assumptions C01_map_is_dictionary.
Print Assumptions C01_get_is_latest.
Print Assumptions C02_iteration_consistent_partial.
Print Assumptions C03_pure_operations_partial.
Print Assumptions C04_map_from_list_partial.
Print Assumptions C04_map_from_entries_partial.
Print Assumptions C05_frozen_map_rejects_mutation.
Print Assumptions C05_frozen_map_immutable_partial.
Print Assumptions C05_entries_of_a_frozen_map_refuted.
Print Assumptions C49_table_size.
Print Assumptions C49_table_size_capped.
Print Assumptions C49_bucket_in_table.
Print Assumptions C03_with_nil_refuted.
Print Assumptions C04_repeated_key_refuted.
Print Assumptions C04_entries_of_a_map_refuted.
