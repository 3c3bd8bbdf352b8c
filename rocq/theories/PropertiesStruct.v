(* Property C68. Only statements, [exact], assumptions and examples. *)
From Coq Require Import ZArith List Bool Lia.
From Coq Require Import Sorting.Permutation.
From Verif Require Import Int64 Data DataSpec Convert ConvertSpec Reflect ReflectSpec Struct StructSpec StructProofs.
Import ListNotations.
Open Scope Z_scope.

(* C68. A Go struct that is used as a map behaves like the map of its fields. Partial: for structs that are [flat], that is,
   without embedded structs; the refutations show what happens with those. *)

(* Get and ContainsKey agree with the entries and the keys *)
Theorem C68_lookup_partial :
  forall arrange s k, flat (fields s) ->
  (contains_key s k = true <-> In k (keys s)) /\ (forall r, get arrange s k = Some r <-> In (k, r) (entries arrange s)) /\
  map fst (entries arrange s) = keys s /\ length (keys s) = len s /\ NoDup (keys s).
Proof. exact lookup_entries. Qed.
Print Assumptions C68_lookup_partial.

(* Put changes the field and nothing else *)
Theorem C68_put_partial :
  forall arrange s k v s', flat (fields s) -> put arrange s k v = Some s' ->
  flat (fields s') /\ keys s' = keys s /\ (forall k', k' <> k -> get arrange s' k' = get arrange s k') /\
  (exists t, field_type (fields s) k t /\ exists y, to_go v t = Done y /\ get arrange s' k = Some (from_go arrange t y)).
Proof. exact put_frame. Qed.
Print Assumptions C68_put_partial.

(* and the value can be read again, if the type of the field can hold it *)
Theorem C68_put_value_partial :
  forall arrange, (forall l, Permutation (arrange l) l) -> forall s k v s' t, flat (fields s) -> put arrange s k v = Some s' ->
  field_type (fields s) k t -> portable v -> wide t = true -> suits t v ->
  exists w, get arrange s' k = Some (Done w) /\ rearranged v w.
Proof. exact put_value. Qed.
Print Assumptions C68_put_value_partial.

Theorem C68_put_works_partial :
  forall arrange s k v t, flat (fields s) -> frozen s = false -> settable s = true -> field_type (fields s) k t ->
  (forall r, get arrange s k = Some r -> r <> Panic) -> (exists y, to_go v t = Done y) -> exists s', put arrange s k v = Some s'.
Proof. exact put_works. Qed.
Print Assumptions C68_put_works_partial.

(* no call changes a frozen struct, with or without embedded structs *)
Theorem C68_frozen :
  forall arrange s calls, frozen s = true -> fold_left (call_struct arrange) calls s = s /\ forall k v, put arrange s k v = None.
Proof. intros arrange s calls F. split; [exact (frozen_calls arrange s calls F)|]. intros k v. exact (frozen_put arrange s k v F). Qed.
Print Assumptions C68_frozen.

(* copies have the same fields *)
Theorem C68_frozen_copy_partial :
  forall arrange, (forall l, Permutation (arrange l) l) -> forall s, Forall lasting (fields s) ->
  exists s', frozen_copy arrange s = Some s' /\ fields s' = fields s /\ frozen s' = true /\
    snd (freeze arrange s) = true /\ fields (fst (freeze arrange s)) = fields s /\ frozen (fst (freeze arrange s)) = true.
Proof. exact frozen_copied. Qed.
Print Assumptions C68_frozen_copy_partial.
Theorem C68_thawed_copy_partial :
  forall arrange, (forall l, Permutation (arrange l) l) -> forall s, Forall lasting (fields s) ->
  exists s', thawed_copy arrange s = Some s' /\ Forall2 same_field (fields s) (fields s') /\ frozen s' = false /\ settable s' = true.
Proof. exact thawed. Qed.
Print Assumptions C68_thawed_copy_partial.

(* PutAll of the entries into a new struct makes the same struct *)
Theorem C68_refill_partial :
  forall arrange, (forall l, Permutation (arrange l) l) -> forall s es, flat (fields s) -> Forall lasting (fields s) -> view arrange s es ->
  exists s', put_all arrange (Struct (map zero_field (fields s)) true false) es = (s', true) /\ Forall2 same_field (fields s) (fields s').
Proof. exact refill. Qed.
Print Assumptions C68_refill_partial.

(* the maps that With, Without and Merge make have what the struct has, except for the change *)
Theorem C68_with_partial :
  forall arrange s es k v, flat (fields s) -> view arrange s es -> data veq k ->
  exists m, with_ arrange s k v = Done m /\
    forall k', data veq k' -> option_map Done (assoc veq m k') = if veq k' k then Some (Done v) else get arrange s k'.
Proof. exact with_get. Qed.
Print Assumptions C68_with_partial.
Theorem C68_without_partial :
  forall arrange s es k, flat (fields s) -> view arrange s es -> data veq k ->
  match without arrange s k with
  | inl s' => s' = s /\ get arrange s k = None
  | inr r => exists m, r = Done m /\ forall k', data veq k' -> option_map Done (assoc veq m k') = if veq k' k then None else get arrange s k'
  end.
Proof. exact without_get. Qed.
Print Assumptions C68_without_partial.
Theorem C68_merge_partial :
  forall arrange s es l, flat (fields s) -> view arrange s es -> data veq (VMap l) ->
  match merge arrange s l with
  | inl s' => s' = s /\ l = []
  | inr r => exists m, r = Done m /\ forall k', data veq k' -> option_map Done (assoc veq m k') = match assoc veq l k' with Some v => Some (Done v) | None => get arrange s k' end
  end.
Proof. exact merge_get. Qed.
Print Assumptions C68_merge_partial.

(* a struct equals a map, and a map a struct, if the map of the fields does; then the hash codes are the same *)
Theorem C68_equals_partial :
  forall arrange s es m, flat (fields s) -> view arrange s es ->
  struct_equals_map arrange s m = Done (veq (VMap es) (VMap m)) /\ map_equals_struct arrange m s = Done (veq (VMap m) (VMap es)).
Proof. exact equals_views. Qed.
Print Assumptions C68_equals_partial.
Theorem C68_equals_structs_partial :
  forall arrange s es t es', view arrange s es -> flat (fields t) -> view arrange t es' ->
  struct_equals_struct arrange s t = Done (veq (VMap es) (VMap es')).
Proof. exact equals_structs. Qed.
Print Assumptions C68_equals_structs_partial.
Theorem C68_hash_partial :
  forall arrange s es m, flat (fields s) -> view arrange s es -> Forall (fun e => data veq (snd e)) es -> data veq (VMap m) ->
  struct_equals_map arrange s m = map_equals_struct arrange m s /\
  (struct_equals_map arrange s m = Done true -> struct_hash arrange s = Done (vhash (VMap m))).
Proof. exact equals_hash. Qed.
Print Assumptions C68_hash_partial.

(* StringKeys says whether all keys are strings *)
Theorem C68_string_keys : forall s, string_keys s = true <-> Forall (fun k => exists n, k = VStr n) (keys s).
Proof. exact all_keys_strings. Qed.
Print Assumptions C68_string_keys.

(* All, AllKeys and AllValues pass the elements in order up to the first that is not accepted, Any, AnyKey and AnyValue up to the first that
   is, also when the predicate has a state. Missing: fields whose conversion panics and native values. *)
Theorem C68_all_partial :
  forall arrange St s es (p : St -> value * res value -> St * bool) st, view arrange s es ->
  exists st' b, all arrange s p st = (st', Done b) /\ scanned p st (map done_entry es) st' b.
Proof. exact @all_scans. Qed.
Print Assumptions C68_all_partial.
Theorem C68_all_keys :
  forall St s (p : St -> value -> St * bool) st, exists st' b, all_keys s p st = (st', Done b) /\ scanned p st (keys s) st' b.
Proof. exact @all_keys_scans. Qed.
Print Assumptions C68_all_keys.
Theorem C68_all_values_partial :
  forall arrange St s es (p : St -> res value -> St * bool) st, view arrange s es ->
  exists st' b, all_values arrange s p st = (st', Done b) /\ scanned p st (map (fun e => Done (snd e)) es) st' b.
Proof. exact @all_values_scans. Qed.
Print Assumptions C68_all_values_partial.
Theorem C68_any_partial :
  forall arrange St s es (p : St -> value * res value -> St * bool) st, view arrange s es ->
  exists st' b, any arrange s p st = (st', Done b) /\ scanned (rejecting p) st (map done_entry es) st' (negb b).
Proof. exact @any_scans. Qed.
Print Assumptions C68_any_partial.
Theorem C68_any_key :
  forall St s (p : St -> value -> St * bool) st, exists st' b, any_key s p st = (st', Done b) /\ scanned (rejecting p) st (keys s) st' (negb b).
Proof. exact @any_key_scans. Qed.
Print Assumptions C68_any_key.
Theorem C68_any_value_partial :
  forall arrange St s es (p : St -> res value -> St * bool) st, view arrange s es ->
  exists st' b, any_value arrange s p st = (st', Done b) /\ scanned (rejecting p) st (map (fun e => Done (snd e)) es) st' (negb b).
Proof. exact @any_value_scans. Qed.
Print Assumptions C68_any_value_partial.
(* Each, EachEntry, EachKey and EachValue pass all *)
Theorem C68_each_partial :
  forall arrange St s es (f : St -> value * res value -> St) (g : St -> value -> St) (k : St -> res value -> St) st, view arrange s es ->
  each arrange s f st = (fold_left f (map done_entry es) st, Done true) /\ each_key s g st = (fold_left g (map fst es) st, Done true) /\
  each_value arrange s k st = (fold_left k (map (fun e => Done (snd e)) es) st, Done true).
Proof. exact @each_all. Qed.
Print Assumptions C68_each_partial.
Theorem C68_values_partial :
  forall arrange s es, view arrange s es -> values arrange s = Done (map (fun e => Done (snd e)) es).
Proof. exact values_view. Qed.
Print Assumptions C68_values_partial.
(* Find returns the first entry that the predicate accepts, or nil if it rejects all *)
Theorem C68_find_partial :
  forall arrange St s es (p : St -> value * res value -> St * bool) st, view arrange s es ->
  exists st' r, find_entry arrange s p st = (st', Done r) /\
  match r with
  | None => scanned (rejecting p) st (map done_entry es) st' true
  | Some e => exists pre post, map done_entry es = pre ++ e :: post /\ accepts (rejecting p) st pre /\
      snd (p (state_after (rejecting p) st pre) e) = true /\ st' = state_after (rejecting p) st (pre ++ [e])
  end.
Proof. exact @find_scans. Qed.
Print Assumptions C68_find_partial.
(* Map makes a map with the same keys and the values that the mapper returns when it gets the entries in order *)
Theorem C68_map_partial :
  forall arrange St s es (f : St -> value * value -> St * value) st, flat (fields s) -> view arrange s es ->
  exists st' m, map_struct arrange s f st = Done (st', m) /\ st' = fold_left (fun st e => fst (f st e)) es st /\ map fst m = keys s /\
  forall i e, nth_error es i = Some e -> nth_error m i = Some (fst e, snd (f (fold_left (fun st e => fst (f st e)) (firstn i es) st) e)).
Proof. exact @map_struct_view. Qed.
Print Assumptions C68_map_partial.

Definition as_is (l : list (value * value)) : list (value * value) := l.
(* struct { E } with type E struct { A int } *)
Definition embedding : structv := from_struct [Embed [69] [([65], (RInt KInt, XInt 1))]] true.

(* struct.go:69-74, 209-218: FieldByName finds fields of embedded structs, which are not among the keys and entries *)
Theorem C68_promoted_refuted :
  exists s k, NoDup (map name_of (fields s)) /\ contains_key s k = true /\ get as_is s k = Some (Done (VInt 1)) /\ ~ In k (keys s).
Proof. exists embedding, (VStr [65]). split; [repeat constructor; intros []|]. split; [reflexivity|]. split; [reflexivity|]. cbn. intros [[=]|[]]. Qed.
Print Assumptions C68_promoted_refuted.

(* map.go:471-476: {"A": 1} equals struct { E } with E { A: 1 }, but not the other way around *)
Theorem C68_equals_refuted :
  exists s m, data veq (VMap m) /\ map_equals_struct as_is m s = Done true /\ struct_equals_map as_is s m = Done false.
Proof. exists embedding, [(VStr [65], VInt 1)]. split; [repeat constructor|]. split; reflexivity. Qed.
Print Assumptions C68_equals_refuted.

(* map.go:259-260: the struct was not passed by a pointer. It is not frozen, but Put of a value that fits panics. *)
Theorem C68_put_refuted :
  let s := from_struct [Plain ([65], (RInt KInt, XInt 1))] false in
  frozen s = false /\ get as_is s (VStr [65]) = Some (Done (VInt 1)) /\ to_go (VInt 2) (RInt KInt) = Done (XInt 2) /\ put as_is s (VStr [65]) (VInt 2) = None.
Proof. vm_compute. auto. Qed.
Print Assumptions C68_put_refuted.

(* map.go:326-330: documented as a frozen map *)
Theorem C68_not_frozen_refuted :
  let s := from_struct [Plain ([65], (RInt KInt, XInt 1))] true in
  exists s', put as_is s (VStr [65]) (VInt 2) = Some s' /\ get as_is s (VStr [65]) = Some (Done (VInt 1)) /\ get as_is s' (VStr [65]) = Some (Done (VInt 2)).
Proof. exists (Struct [Plain ([65], (RInt KInt, XInt 2))] true false). vm_compute. auto. Qed.
Print Assumptions C68_not_frozen_refuted.

(* integer.go:306-354: a number that does not fit is cut off *)
Theorem C68_put_value_refuted :
  exists s', put as_is (from_struct [Plain ([65], (RInt KInt8, XInt 1))] true) (VStr [65]) (VInt 300) = Some s' /\ get as_is s' (VStr [65]) = Some (Done (VInt 44)).
Proof. exists (Struct [Plain ([65], (RInt KInt8, XInt 44))] true false). vm_compute. auto. Qed.
Print Assumptions C68_put_value_refuted.

(* struct.go:263-265: PutAll that panics has set some of the fields *)
Theorem C68_put_all_refuted :
  exists s l s', put_all as_is s l = (s', false) /\ fields s' <> fields s.
Proof. exists (from_struct [Plain ([65], (RInt KInt, XInt 1))] true), [(VStr [65], VInt 2); (VStr [66], VInt 3)], (Struct [Plain ([65], (RInt KInt, XInt 2))] true false). split; [reflexivity|discriminate]. Qed.
Print Assumptions C68_put_all_refuted.

(* struct.go:136-147: Freeze panics for a field that is a struct, but the struct is frozen; FrozenCopy and ThawedCopy panic *)
Theorem C68_freeze_refuted :
  snd (freeze as_is embedding) = false /\ frozen (fst (freeze as_is embedding)) = true /\ frozen_copy as_is embedding = None /\ thawed_copy as_is embedding = None.
Proof. vm_compute. auto. Qed.
Print Assumptions C68_freeze_refuted.

(* struct.go:109-111, 140: after Freeze there is no pointer to the struct and GoStruct panics; the frozen copy has one, through
   which Go code can change it *)
Theorem C68_go_struct_refuted :
  exists s s', go_struct s = Some (fields s) /\ snd (freeze as_is s) = true /\ go_struct (fst (freeze as_is s)) = None /\
    frozen_copy as_is s = Some s' /\ frozen s' = true /\ go_struct s' = Some (fields s).
Proof. exists (from_struct [Plain ([65], (RInt KInt, XInt 1))] true), (Struct [Plain ([65], (RInt KInt, XInt 1))] true true). vm_compute. auto 7. Qed.
Print Assumptions C68_go_struct_refuted.

(* struct.go:172-185: in a thawed copy a []int in an interface{} has become a []int64 *)
Theorem C68_thawed_copy_refuted :
  let s := from_struct [Plain ([65], (RAny, XAny (RSlice (RInt KInt)) (XSlice [XInt 1])))] true in
  thawed_copy as_is s = Some (from_struct [Plain ([65], (RAny, XAny (RSlice (RInt KInt64)) (XSlice [XInt 1])))] true).
Proof. reflexivity. Qed.
Print Assumptions C68_thawed_copy_refuted.

(* struct { A uint8; B map[string][]int64 } *)
Definition fields1 : list field := [Plain ([65], (RInt KUint8, XInt 5)); Plain ([66], (RMap RString (RSlice (RInt KInt64)), XMap [(XString [120], XSlice [XInt 1; XInt 2]); (XString [97], XNil)]))].
Definition struct1 : structv := from_struct fields1 true.
Definition entries1 : list (value * value) := [(VStr [65], VInt 5); (VStr [66], VMap [(VStr [97], VNil); (VStr [120], VArr [VInt 1; VInt 2])])].
Example C68_ex :
  flat (fields struct1) /\ Forall lasting (fields struct1) /\ view (@rev _) struct1 entries1 /\ Forall (fun e => data veq (snd e)) entries1 /\
  put (@rev _) struct1 (VStr [66]) (VMap [(VStr [98], VArr [VInt 7])]) =
    Some (Struct [Plain ([65], (RInt KUint8, XInt 5)); Plain ([66], (RMap RString (RSlice (RInt KInt64)), XMap [(XString [98], XSlice [XInt 7])]))] true false) /\
  field_type (fields struct1) (VStr [66]) (RMap RString (RSlice (RInt KInt64))) /\ wide (RMap RString (RSlice (RInt KInt64))) = true /\
  suits (RMap RString (RSlice (RInt KInt64))) (VMap [(VStr [98], VArr [VInt 7])]) /\ portable (VMap [(VStr [98], VArr [VInt 7])]) /\
  put_all (@rev _) (Struct (map zero_field (fields struct1)) true false) entries1 =
    (Struct [Plain ([65], (RInt KUint8, XInt 5)); Plain ([66], (RMap RString (RSlice (RInt KInt64)), XMap [(XString [97], XNil); (XString [120], XSlice [XInt 1; XInt 2])]))] true false, true).
Proof.
  split; [split; [repeat constructor|]; apply NoDup_cons; [cbn; intros [[=]|[]]|apply NoDup_cons; [intros []|constructor]]|]. split; [repeat constructor; cbn; intuition lia|].
  split; [repeat constructor|]. split; [repeat constructor|]. split; [vm_compute; reflexivity|].
  split; [exists [66]; eexists; split; [reflexivity|right; left; reflexivity]|]. split; [reflexivity|]. split; [cbn; tauto|]. split; [cbn; unfold in64, min_int64, max_int64; repeat split; try lia; repeat constructor|]. vm_compute. reflexivity.
Qed.
(* {"B": {"x": [1, 2], "a": nil}, "A": 5} equals the struct *)
Example C68_equals_ex :
  let m := [(VStr [66], VMap [(VStr [120], VArr [VInt 1; VInt 2]); (VStr [97], VNil)]); (VStr [65], VInt 5)] in
  data veq (VMap m) /\ struct_equals_map (@rev _) struct1 m = Done true /\ struct_hash (@rev _) struct1 = Done (vhash (VMap m)) /\
  frozen_copy (@rev _) struct1 = Some (Struct fields1 true true) /\
  without (@rev _) struct1 (VStr [65]) = inr (Done [(VStr [66], VMap [(VStr [97], VNil); (VStr [120], VArr [VInt 1; VInt 2])])]).
Proof. split; [repeat constructor|]. split; [vm_compute; reflexivity|]. split; [vm_compute; reflexivity|]. split; vm_compute; reflexivity. Qed.
(* the predicate counts its calls and accepts one entry *)
Example C68_iterate_ex :
  let p := fun (n : nat) (_ : value * res value) => (S n, Nat.ltb n 1) in
  all (@rev _) struct1 p 0%nat = (2%nat, Done false) /\ any (@rev _) struct1 p 0%nat = (1%nat, Done true) /\
  find_entry (@rev _) struct1 p 1%nat = (3%nat, Done None) /\ find_entry (@rev _) struct1 p 0%nat = (1%nat, Done (Some (VStr [65], Done (VInt 5)))) /\
  map_struct (@rev _) struct1 (fun n e => (n + 1, VInt n)) 7 = Done (9, [(VStr [65], VInt 7); (VStr [66], VInt 8)]).
Proof. vm_compute. auto 10. Qed.
