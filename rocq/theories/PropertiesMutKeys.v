(* C101: a key of a map stays what it was when it was put. *)
From Coq Require Import ZArith List Bool Lia.
From Verif Require Import Int64 HMap HMapSpec MutKeys MutKeysSpec MutKeysProofs.
Import ListNotations.
Open Scope Z_scope.

(* C101: a program puts, removes and gets entries of a new map in any order, with mutable arrays as keys, and changes arrays in between. Whenever it stops, Get gives
   the value that was put last under a key that had, when it was put, the content that is looked for now, unless an entry with that content has been removed
   since. *)
Theorem C101_key_stays (X V : Type) (xeq : X -> X -> bool) (xhash : X -> Z) (veq : V -> V -> bool) (vnil : V -> bool) (vfreeze vthaw : V -> V) :
  lawful X xeq xhash -> forall h cap l k, Forall (on_map X V) l ->
  last (snd (acts X V xeq xhash veq vnil vfreeze vthaw h init (NewMap cap :: l ++ [Get 0 k]))) RBad =
  RVal (latest X V xeq (history X V h l) (match k with Fixed x => x | Shared p => final X V h l p end)).
Proof. exact (get_latest_content X V xeq xhash veq vnil vfreeze vthaw). Qed.
Print Assumptions C101_key_stays.

(* C101: the same for the map that ToMap makes of an array, if its keys have different contents (see C04). Partial: the arrays that are keys of it must not be
   changed, because ToMap stores them as they are (refuted below). *)
Theorem C101_tomap_partial (X V : Type) (xeq : X -> X -> bool) (xhash : X -> Z) (veq : V -> V -> bool) (vnil : V -> bool) (vfreeze vthaw : V -> V) :
  lawful X xeq xhash -> forall h kvs l k, Forall (on_map X V) l -> keeps_keys X V kvs l -> distinct X V xeq (entries_at X V h kvs) ->
  last (snd (acts X V xeq xhash veq vnil vfreeze vthaw h init (ToMap kvs :: l ++ [Get 0 k]))) RBad =
  RVal (latest X V xeq (map (fun kv => EvPut (fst kv) (snd kv)) (entries_at X V h kvs) ++ history X V h l) (match k with Fixed x => x | Shared p => final X V h l p end)).
Proof. exact (get_latest_tomap X V xeq xhash veq vnil vfreeze vthaw). Qed.
Print Assumptions C101_tomap_partial.

(* contents are numbers, for the examples *)
Definition kacts := acts Z Z Z.eqb (fun x => x) Z.eqb (fun _ => false) (fun v => v) (fun v => v) (fun _ => 1).
Lemma Z_lawful : lawful Z Z.eqb (fun x => x).
Proof.
  constructor; try (intros; rewrite ?Z.eqb_eq, ?Z.eqb_refl in *; congruence).
Qed.
(* the array 0 has the content 1 when it is put, then 2; the entry is found by 1 and not by the array; it is put a second time *)
Definition put_twice : list (action Z Z) := [Put 0 (Shared 0) 10; Change 0 2; Put 0 (Shared 0) 20; Change 0 3; Get 0 (Shared 0); Remove 0 (Fixed 7)].
Example ex_put_twice :
  Forall (on_map Z Z) put_twice /\
  map (fun k => last (snd (kacts init (NewMap 1 :: put_twice ++ [Get 0 k]))) RBad) [Fixed 1; Fixed 2; Fixed 3; Shared 0; Shared 5] =
  [RVal (Some 10); RVal (Some 20); RVal None; RVal None; RVal (Some 10)].
Proof. split; [repeat constructor|vm_compute; reflexivity]. Qed.
Definition three : list (mkey Z * Z) := [(Shared 0, 10); (Fixed 5, 50); (Fixed 6, 60)].
Example ex_tomap :
  Forall (on_map Z Z) [Change 1%nat 2; Put 0 (Shared 1) 20; Change 1%nat 4; Remove 0 (Fixed 6)] /\ keeps_keys Z Z three [Change 1%nat 2; Put 0 (Shared 1) 20; Change 1%nat 4; Remove 0 (Fixed 6)] /\
  distinct Z Z Z.eqb (entries_at Z Z (fun _ => 1) three) /\
  map (fun k => last (snd (kacts init (ToMap three :: [Change 1%nat 2; Put 0 (Shared 1) 20; Change 1%nat 4; Remove 0 (Fixed 6)] ++ [Get 0 k]))) RBad) [Fixed 1; Fixed 2; Shared 1; Shared 0; Fixed 6] =
  [RVal (Some 10); RVal (Some 20); RVal None; RVal (Some 10); RVal None].
Proof.
  split; [repeat constructor|]. split.
  - intros p x Hin. cbn in Hin. destruct Hin as [E|[E|[E|[E|[]]]]]; inversion E; subst; cbn; intuition discriminate.
  - split; [cbn; intuition; match goal with H : (_, _) = _ |- _ => injection H as <- <-; reflexivity end|vm_compute; reflexivity].
Qed.

(* C101: the full statement is false of ToMap. An array that is a key of the new map is changed. Its entry is found neither by the content that the key had, nor
   by the content that it has now, nor by the array itself. *)
Theorem C101_tomap_refuted :
  exists kvs l, Forall (on_map Z Z) l /\ distinct Z Z Z.eqb (entries_at Z Z (fun _ => 1) kvs) /\
    map (fun k => last (snd (kacts init (ToMap kvs :: l ++ [Get 0 k]))) RBad) [Fixed 1; Fixed 2; Shared 0] = [RVal None; RVal None; RVal None] /\
    latest Z Z Z.eqb (map (fun kv => EvPut (fst kv) (snd kv)) (entries_at Z Z (fun _ => 1) kvs) ++ history Z Z (fun _ => 1) l) 1 = Some 10.
Proof.
  exists three, [Change 0%nat 2]. split; [repeat constructor|]. split; [cbn; intuition; match goal with H : (_, _) = _ |- _ => injection H as <- <-; reflexivity end|]. split; vm_compute; reflexivity.
Qed.
Print Assumptions C101_tomap_refuted.
