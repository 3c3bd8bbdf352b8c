(* Properties C80 and C81. Only statements, [exact], assumptions and examples. *)
From Coq Require Import ZArith List Bool Lia.
From Coq Require Import Floats.SpecFloat.
From Verif Require Import Int64 Data Native NativeSpec NativeProofs NativeHashProofs NativeTypeProofs.
Import ListNotations.
Open Scope Z_scope.

(* C80, equality: Equals of natives ends, and says yes exactly if the Go values are the same, cycles included *)
Theorem C80_equals :
  forall h, heap_ok h -> forall a b, value_ok h a -> value_ok h b ->
  exists n, forall m, (n <= m)%nat -> exists r, native_eq h m a (NoNative b) = Some r /\ (r = true <-> same h a b).
Proof. exact native_equals. Qed.
Print Assumptions C80_equals.

(* C80, equality: being the same is symmetric and transitive *)
Theorem C80_equivalence :
  forall h, (forall a b, same h a b -> same h b a) /\ (forall a b c, same h a b -> same h b c -> same h a c).
Proof. exact (fun h => conj (same_sym h) (same_trans h)). Qed.
Print Assumptions C80_equivalence.

(* C80, equality: a value is the same as itself exactly if it has no NaN and no function, other than behind pointers, slices and dgo values *)
Theorem C80_reflexive_partial : forall h v, same h v v <-> plain v.
Proof. exact same_plain. Qed.
Print Assumptions C80_reflexive_partial.

(* C80, hash codes: equal natives have equal hash codes; a panic and no end are the same for both, too *)
Theorem C80_hash :
  forall h n m a b, proper h a -> native_eq h n a (NoNative b) = Some true -> native_hash h m true a = native_hash h m true b.
Proof. exact equal_natives_hash. Qed.
Print Assumptions C80_hash.

(* C80, hash codes: HashCode ends. Partial: where no pointers lead back. *)
Theorem C80_hash_ends_partial :
  forall h v, heap_ok h -> acyclic h -> value_ok h v -> exists n r, forall m, (n <= m)%nat -> native_hash h m true v = r /\ r <> Out.
Proof. exact hash_of_acyclic. Qed.
Print Assumptions C80_hash_ends_partial.

(* C80, hash codes: HashCode does not panic. Partial: where all slices on the way are of elements that become no natives. *)
Theorem C80_no_panic_partial : forall h n v, simple_slices h v -> native_hash h n true v <> Panic.
Proof. exact hash_does_not_panic. Qed.
Print Assumptions C80_no_panic_partial.

(* C80, hash codes: a call of HashCode of a native does not change the hash code of any native *)
Theorem C80_hash_again : forall n h v m w, native_hash (after_hash n h v) m true w = native_hash h m true w.
Proof. exact hash_again. Qed.
Print Assumptions C80_hash_again.

(* C80, equality: a call of HashCode changes nothing, so that natives stay equal. Partial: where the hash codes of strings are known. *)
Theorem C80_equals_again_partial :
  forall n h v, all_warm h -> forall m a o, native_eq (after_hash n h v) m a o = native_eq h m a o.
Proof. exact (fun n h v W m a o => f_equal (fun h' => native_eq h' m a o) (equals_after_hash n h v W)). Qed.
Print Assumptions C80_equals_again_partial.

(* C80 is false: a struct with a NaN and a struct with a function are not equal to themselves *)
Theorem C80_reflexive_refuted :
  native_eq [] 5 (NvStruct 1 [(true, NvFloat S754_nan)]) (NoNative (NvStruct 1 [(true, NvFloat S754_nan)])) = Some false /\
  native_eq [] 5 (NvStruct 1 [(true, NvFunc 2 77)]) (NoNative (NvStruct 1 [(true, NvFunc 2 77)])) = Some false.
Proof. vm_compute. split; reflexivity. Qed.
Print Assumptions C80_reflexive_refuted.
(* C80 is false: HashCode of a pointer to a struct that points to itself never ends *)
Theorem C80_hash_ends_refuted :
  let h := [NvStruct 1 [(true, NvPtr 2 (Some 0%nat))]] in
  heap_ok h /\ value_ok h (NvPtr 2 (Some 0%nat)) /\ forall n, native_hash h n true (NvPtr 2 (Some 0%nat)) = Out.
Proof.
  assert (V : forall k p, refers (NvPtr 2 (Some 0%nat)) k p -> k = KPtr /\ p = 0%nat) by (intros k p H; inversion H; auto).
  split; [|split].
  - intros [|[|q]] x E; cbn in E; try discriminate. injection E as <-. intros k p H. inversion H as [|? ? e ? ? Hin HR| | | | |]; subst.
    destruct Hin as [<-|[]]. cbn in HR. destruct (V _ _ HR) as [-> ->]. eexists. split; [reflexivity|exact I].
  - intros k p H. destruct (V _ _ H) as [-> ->]. eexists. split; [reflexivity|exact I].
  - exact cycle_never_ends.
Qed.
Print Assumptions C80_hash_ends_refuted.
(* C80 is false: HashCode panics for a struct with a slice of structs, and for one with a slice of integers in a field that is not exported *)
Theorem C80_no_panic_refuted :
  native_hash [NvArr 9 [NvStruct 3 []]] 5 true (NvStruct 1 [(true, NvSlice 2 (Some 0%nat))]) = Panic /\
  native_hash [NvArr 9 [NvInt 1]] 5 true (NvStruct 1 [(false, NvSlice 2 (Some 0%nat))]) = Panic /\
  native_hash [NvArr 9 [NvInt 1]] 5 true (NvStruct 1 [(true, NvSlice 2 (Some 0%nat))]) <> Panic.
Proof. vm_compute. split; [reflexivity|]. split; [reflexivity|]. discriminate. Qed.
Print Assumptions C80_no_panic_refuted.
(* C80 is false: two equal natives with a string, each its own, are not equal any more after HashCode of one of them *)
Theorem C80_equals_again_refuted :
  let h := [NvHstr [97] 0; NvHstr [97] 0] in
  let a := NvStruct 1 [(true, NvVal 0)] in let b := NvStruct 1 [(true, NvVal 1)] in
  native_eq h 5 a (NoNative b) = Some true /\ native_eq (after_hash 5 h a) 5 a (NoNative b) = Some false.
Proof. vm_compute. split; reflexivity. Qed.
Print Assumptions C80_equals_again_refuted.

(* ---------- types ---------- *)

(* C81, equality of native types is an equivalence relation; equal types have the same hash codes and the same instances *)
Theorem C81_equality :
  (forall a, nt_eq a a = true) /\ (forall a b, nt_eq a b = true -> nt_eq b a = true) /\
  (forall a b c, nt_eq a b = true -> nt_eq b c = true -> nt_eq a c = true).
Proof. exact nt_eq_equivalence. Qed.
Print Assumptions C81_equality.
Theorem C81_equal_types :
  forall names a b, (forall x y, a = Some x -> b = Some y -> one_world x y) -> nt_eq a b = true ->
  nt_hash names a = nt_hash names b /\ forall o, nt_instance a o = nt_instance b o.
Proof. exact (fun names a b W H => conj (nt_eq_hash names a b H) (nt_eq_instances a b W H)). Qed.
Print Assumptions C81_equal_types.

(* C81, natives are the instances of the types that their type is assignable to *)
Theorem C81_instance_by_type : forall t u, nt_instance t (NtNative u) = Done (nt_assignable t (native_type u)).
Proof. exact native_instance. Qed.
Print Assumptions C81_instance_by_type.

(* C81, Assignable means containment. Partial: for the types of interfaces. *)
Theorem C81_containment_partial :
  forall a b u, gt_iface u = false -> gt_iface b = true -> one_world u b -> one_world b a ->
  nt_assignable (Some a) (Some b) = true -> nt_instance (Some b) (NtNative u) = Done true -> nt_instance (Some a) (NtNative u) = Done true.
Proof. exact nt_containment. Qed.
Print Assumptions C81_containment_partial.

(* C81, a native can be had back in a variable of its type, and as a pointer. Partial: natives that are no pointers. *)
Theorem C81_reflect_to_partial :
  forall t, native_reflect_to (SVal t) (DVar t) = Done StValue /\ native_reflect_to (SVal t) (DPtr t) = Done StPointer.
Proof. exact reflect_to_own. Qed.
Print Assumptions C81_reflect_to_partial.

(* C81, a pointer can be had back in a variable of an interface type exactly if it has the methods *)
Theorem C81_reflect_pointer :
  forall u t, native_reflect_to (SPtr u) (DVar t) <> Panic <-> gt_iface t = true /\ incl (gt_methods t) (gt_methods u).
Proof. exact reflect_pointer. Qed.
Print Assumptions C81_reflect_pointer.

(* C81, the native type is the widest native type and no other is; values that are no natives are not instances *)
Theorem C81_default :
  (forall a, nt_assignable None a = true) /\ (forall a, nt_assignable a None = true -> a = None) /\ forall a, nt_instance a NtValue = Done false.
Proof. exact nt_widest. Qed.
Print Assumptions C81_default.

(* two defined types of channels, and the same without a name *)
Definition chan_a := {| gt_name := Some 1%nat; gt_under := 7; gt_iface := false; gt_methods := [] |}.
Definition chan_b := {| gt_name := Some 2%nat; gt_under := 7; gt_iface := false; gt_methods := [] |}.
Definition chan_0 := {| gt_name := None; gt_under := 7; gt_iface := false; gt_methods := [] |}.
(* C81 is false: the type of a is assignable to the type without a name, that to the type of b, but a value of a is no instance of b *)
Theorem C81_containment_refuted :
  nt_assignable (Some chan_b) (Some chan_0) = true /\ nt_instance (Some chan_0) (NtNative chan_a) = Done true /\
  nt_instance (Some chan_b) (NtNative chan_a) = Done false.
Proof. vm_compute. repeat split. Qed.
Print Assumptions C81_containment_refuted.
(* C81 is false: the native type has no hash code, nil makes other native types panic, and nil and Go values that are no natives are instances *)
Theorem C81_default_refuted :
  (forall names, nt_hash names None = Panic) /\ nt_instance (Some chan_a) NtNil = Panic /\ nt_instance None NtNil = Done true.
Proof. repeat split. Qed.
Print Assumptions C81_default_refuted.
(* C81 is false: a native that is a pointer to a struct cannot be had back in a variable of its type *)
Theorem C81_reflect_to_refuted : forall t, native_reflect_to (SPtr t) (DPtr t) = Panic.
Proof. intros t. reflexivity. Qed.
Print Assumptions C81_reflect_to_refuted.

(* ---------- examples ---------- *)

(* two cyclic lists of the same integers, of one and of two nodes; a third one is different *)
Definition ring : heap :=
  [NvStruct 1 [(true, NvInt 5); (false, NvPtr 2 (Some 0%nat))];
   NvStruct 1 [(true, NvInt 5); (false, NvPtr 2 (Some 2%nat))]; NvStruct 1 [(true, NvInt 5); (false, NvPtr 2 (Some 1%nat))];
   NvStruct 1 [(true, NvInt 6); (false, NvPtr 2 (Some 1%nat))]].
Example C80_ex_ring :
  native_eq ring 20 (NvPtr 2 (Some 0%nat)) (NoNative (NvPtr 2 (Some 1%nat))) = Some true /\
  native_eq ring 20 (NvPtr 2 (Some 0%nat)) (NoNative (NvPtr 2 (Some 3%nat))) = Some false.
Proof. vm_compute. split; reflexivity. Qed.
Example C80_ex_ring_ok : heap_ok ring /\ value_ok ring (NvPtr 2 (Some 0%nat)) /\ value_ok ring (NvPtr 2 (Some 1%nat)).
Proof.
  assert (V : forall t q, (q < 3)%nat -> forall k p, refers (NvPtr t (Some q)) k p -> exists x, cell ring p = Some x /\ fits k x).
  { intros t q L k p H. inversion H; subst. destruct p as [|[|[|p]]]; [..|lia]; eexists; (split; [reflexivity|exact I]). }
  split; [|split; intros k p H; (eapply (V 2%nat); [|exact H]; lia)].
  intros q x E. destruct q as [|[|[|[|q]]]]; cbn in E; [| | | |destruct q; discriminate];
    injection E as <-; intros k p H; inversion H as [|? ? e ? ? Hin HR| | | | |]; subst; destruct Hin as [<-|[<-|[]]]; cbn in HR;
    first [inversion HR; fail|eapply (V 2%nat); [|exact HR]; lia].
Qed.
(* a struct with a pointer to a struct with a slice of strings: equal to a copy, with the same hash code *)
Definition shop : heap :=
  [NvArr 8 [NvStr [97]; NvStr [98]]; NvStruct 3 [(true, NvSlice 4 (Some 0%nat)); (true, NvPtr 5 None)];
   NvArr 8 [NvStr [97]; NvStr [98]]; NvStruct 3 [(true, NvSlice 4 (Some 2%nat)); (true, NvPtr 5 None)]].
Example C80_ex_hash :
  let a := NvStruct 1 [(true, NvPtr 2 (Some 1%nat)); (false, NvInt 3)] in let b := NvStruct 1 [(true, NvPtr 2 (Some 3%nat)); (false, NvInt 3)] in
  proper shop a /\ native_eq shop 9 a (NoNative b) = Some true /\ native_hash shop 9 true a = native_hash shop 9 true b /\
  (exists z, native_hash shop 9 true a = Done z) /\ simple_slices shop a.
Proof.
  cbv zeta. split; [exact I|]. split; [vm_compute; reflexivity|]. split; [vm_compute; reflexivity|]. split; [eexists; vm_compute; reflexivity|].
  assert (S1 : forall ex t p, meets shop true (NvPtr 2 (Some 1%nat)) ex (NvSlice t (Some p)) -> ex = true /\ p = 0%nat).
  { intros ex t p H. inversion H as [| |? ? ? x ? ? E HM|]; subst. cbn in E. injection E as <-.
    inversion HM as [|? ? ? e x ? ? Hin HM'| |]; subst; destruct Hin as [E|[E|[]]]; injection E as <- <-; cbn in HM'; inversion HM'; subst; auto. }
  intros ex t p H. inversion H as [|? ? ? e x ? ? Hin HM| |]; subst; destruct Hin as [E|[E|[]]]; injection E as <- <-; cbn in HM.
  - destruct (S1 _ _ _ HM) as [-> ->]. exists 8%nat, [NvStr [97]; NvStr [98]]. split; [reflexivity|]. repeat constructor.
  - inversion HM.
Qed.
Example C80_ex_acyclic : acyclic shop /\ all_warm ring.
Proof.
  split.
  - exists (fun p => p). intros p x k q E H. destruct p as [|[|[|[|p]]]]; cbn in E; [| | | |destruct p; discriminate]; injection E as <-.
    + inversion H as [? ? y ? ? Hin HR| | | | | |]; subst; destruct Hin as [<-|[<-|[]]]; inversion HR.
    + inversion H as [|? ? e ? ? Hin HR| | | | |]; subst; destruct Hin as [<-|[<-|[]]]; cbn in HR; inversion HR; subst; lia.
    + inversion H as [? ? y ? ? Hin HR| | | | | |]; subst; destruct Hin as [<-|[<-|[]]]; inversion HR.
    + inversion H as [|? ? e ? ? Hin HR| | | | |]; subst; destruct Hin as [<-|[<-|[]]]; cbn in HR; inversion HR; subst; lia.
  - intros p s k E. destruct p as [|[|[|[|p]]]]; cbn in E; try discriminate. destruct p; discriminate.
Qed.
Example C80_ex_plain : plain (NvStruct 1 [(true, NvFloat (S754_zero true)); (true, NvFunc 3 0); (true, NvPtr 2 (Some 4%nat))]).
Proof. repeat constructor. discriminate. Qed.
(* two interfaces and a type that has the methods of both *)
Example C81_ex_interfaces :
  let u := {| gt_name := Some 1%nat; gt_under := 7; gt_iface := false; gt_methods := [1%nat; 2%nat; 3%nat] |} in
  let b := {| gt_name := Some 2%nat; gt_under := 8; gt_iface := true; gt_methods := [1%nat; 2%nat] |} in
  let a := {| gt_name := Some 3%nat; gt_under := 9; gt_iface := true; gt_methods := [2%nat] |} in
  one_world u b /\ one_world b a /\ nt_assignable (Some a) (Some b) = true /\ nt_instance (Some b) (NtNative u) = Done true /\
  nt_assignable (Some b) (Some a) = false.
Proof. cbv zeta. split; [|split; [|split; [|split]]]; try reflexivity; split; cbn; intros H; discriminate. Qed.
