(* Property C99. Only statements, [exact], assumptions and examples. *)
From Coq Require Import ZArith List Bool.
From Verif Require Import Int64 HMap Data DataSpec Types TypesSpec Construct ConstructSpec StructFrom StructFromSpec StructFromProofs.
Import ListNotations.
Open Scope Z_scope.

(* C99: a struct type made from a map accepts the maps that it describes. Partial: maps that describe a single value that contains nil. *)
Theorem C99_accepts_partial :
  forall parses parse W p q additional es xs,
  Forall2 (entry_described parses parse q) es xs -> NoDup (map fst es) -> Forall (fun x => type_ok (snd (fst x))) xs ->
  ~ nil_constant additional xs ->
  exists t, struct_from_map parses parse p q additional es = FType t /\
    accepts W t (fun v => exists m, v = VMap m /\
      Forall (fun x => match assoc veq m (fst (fst x)) with Some y => has_type W (snd (fst x)) y | None => snd x = false end) xs /\
      (additional = true \/ forall k y, In (k, y) m -> exists x, In x xs /\ veq (fst (fst x)) k = true)).
Proof. exact struct_from_accepts. Qed.
Print Assumptions C99_accepts_partial.

(* The map is refused as illegal exactly if some entry of it describes nothing. *)
Theorem C99_illegal :
  forall parses parse p q additional es,
  struct_from_map parses parse p q additional es = FIllegal <-> ~ exists xs, Forall2 (entry_described parses parse q) es xs.
Proof. exact struct_from_illegal. Qed.
Print Assumptions C99_illegal.

(* Among the legal maps the ones that panic are exactly the ones that describe a single value that contains nil. *)
Theorem C99_broken :
  forall parses parse p q additional es xs,
  Forall2 (entry_described parses parse q) es xs -> struct_from_map parses parse p q additional es = FBroken <-> nil_constant additional xs.
Proof. exact struct_from_broken. Qed.
Print Assumptions C99_broken.

(* A legal map that panics with a failed type assertion: {a:"nil"} *)
Theorem C99_accepts_refuted :
  exists parses parse p q additional es xs,
  Forall2 (entry_described parses parse q) es xs /\ NoDup (map fst es) /\ Forall (fun x => type_ok (snd (fst x))) xs /\
  struct_from_map parses parse p q additional es = FBroken.
Proof.
  exists (fun _ => true), (fun _ => PValue VNil), 1%nat, 2%nat, false, [(VStr [97], DStr [110; 105; 108])], [(VStr [97], TNil, true)].
  split; [|split; [|split]].
  - constructor; [|constructor]. constructor. apply DescType. now apply (GivesValue _ _ 2%nat [110; 105; 108] VNil).
  - repeat constructor; intros [].
  - repeat constructor.
  - vm_compute. reflexivity.
Qed.
Print Assumptions C99_accepts_refuted.

(* A parser that knows int, and otherwise reads the text as a string *)
Definition tiny_parse (s : list Z) : parsed := if bytes_eqb s [105; 110; 116] then PType TInt else PValue (VStr s).

(* {a:int, b:{type:"x", required:false}}: the map is legal, and the type is the struct type with these entries *)
Example C99_accepts_case :
  let es := [(VStr [97], DStr [105; 110; 116]); (VStr [98], DMap [(required_key, DVal (VBool false)); (type_key, DStr [120])])] in
  let xs := [(VStr [97], TInt, true); (VStr [98], TExact 2%nat (VStr [120]), false)] in
  Forall2 (entry_described (fun _ => true) tiny_parse 2%nat) es xs /\ NoDup (map fst es) /\ Forall (fun x => type_ok (snd (fst x))) xs /\
  ~ nil_constant false xs /\
  struct_from_map (fun _ => true) tiny_parse 1%nat 2%nat false es = FType (TStruct 1%nat false xs).
Proof.
  split; [|split; [|split; [|split]]].
  - constructor; [|constructor; [|constructor]]; constructor.
    + apply DescType. now apply GivesText.
    + eapply DescRequired; [now apply field_some| |now apply field_some]. now apply (GivesValue _ _ 2%nat [120] (VStr [120])).
  - repeat constructor; cbn; intuition discriminate.
  - repeat constructor.
  - intros (_ & H & _). inversion H as [|? ? [_ E]]; subst. discriminate.
  - vm_compute. reflexivity.
Qed.

(* {a:{required:true}} describes nothing: there is no type *)
Example C99_illegal_case :
  struct_from_map (fun _ => true) tiny_parse 1%nat 2%nat false [(VStr [97], DMap [(required_key, DVal (VBool true))])] = FIllegal.
Proof. vm_compute. reflexivity. Qed.

(* with additional entries the same text nil is no problem *)
Example C99_broken_case :
  struct_from_map (fun _ => true) (fun _ => PValue VNil) 1%nat 2%nat true [(VStr [97], DStr [110; 105; 108])] = FType (TStruct 1%nat true [(VStr [97], TNil, true)]).
Proof. vm_compute. reflexivity. Qed.
