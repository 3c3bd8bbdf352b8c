(* Property C90. Only statements, [exact], assumptions and examples. *)
From Coq Require Import Strings.Ascii Strings.String.
From Coq Require Import ZArith List Bool Lia.
From Verif Require Import Int64 Utf8 Text TextSpec Print HMap Data DataSpec Types TypesSpec Lexer Syntax Graph RecTypes RecTypesSpec RecTypesCases.
From Verif Require Import Resolve ResolveSpec Declare DeclareSpec DeclareCases PropertiesDeclare DeclMeanSpec DeclMeanCases.
Import ListNotations.
Open Scope Z_scope.

(* C90. Partial: see the refutations below. From the text to the answer: Instance of the type that is read from a text returns for every value
   that does not contain itself, and accepts exactly what belongs to the expression of the text, where each name stands for what its declaration
   says; there is a way to read the names like that. The types that were known before and that the text uses, at the addresses in K, have the same
   form; nothing is said about others. Missing: alternatives that are arrays, maps, tuples, structs, alternatives or names, and negations of names
   (but see the next theorem), tuples, structs and arrays of only values, and what C89 does not read. *)
Theorem C90_instance_of_declared_types_partial :
  forall E any backing named h K e, there any backing h -> knows K (types_of h) backing e ->
  types_ok (only K (types_of h)) -> flat_alternatives (only K (types_of h)) -> contractive (only K (types_of h)) ->
  correct e -> direct e -> scoped named backing e ->
  exists B, forall n m s, (B <= n)%nat -> (B <= m)%nat -> tokens s = read_as (written Anywhere e) ->
  exists p names h', declare_text E any backing named n m s h = DOk p names h' /\
  forall W G, values_ok G ->
  (exists N, as_declared W G (sized G) e N /\ as_known W G (sized G) e (types_of h) backing N) /\
  forall N, as_declared W G (sized G) e N -> as_known W G (sized G) e (types_of h) backing N -> forall x, sized G x -> val_ok G x ->
  exists M r, (forall k, (M <= k)%nat -> rec_instance W (types_of h') G k p x = Some r) /\ (r = true <-> belongs W G N e x).
Proof. exact text_instance. Qed.
Print Assumptions C90_instance_of_declared_types_partial.

(* C90. When no name refers to itself, alternatives are anything, names are negated, and values contain themselves. Missing: tuples, structs and
   arrays of only values, and what C89 does not read. *)
Theorem C90_instance_without_loops_partial :
  forall E any backing named h K e, there any backing h -> knows K (types_of h) backing e ->
  types_ok (only K (types_of h)) -> not_recursive (only K (types_of h)) ->
  correct e -> plain e -> no_loops e -> scoped named backing e ->
  exists B, forall n m s, (B <= n)%nat -> (B <= m)%nat -> tokens s = read_as (written Anywhere e) ->
  exists p names h', declare_text E any backing named n m s h = DOk p names h' /\
  forall W G, values_ok G ->
  (exists N, as_declared W G (measured G) e N /\ as_known W G (measured G) e (types_of h) backing N) /\
  forall N, as_declared W G (measured G) e N -> as_known W G (measured G) e (types_of h) backing N -> forall x, measured G x -> val_ok G x ->
  exists M r, (forall k, (M <= k)%nat -> rec_instance W (types_of h') G k p x = Some r) /\ (r = true <-> belongs W G N e x).
Proof. exact text_plain_instance. Qed.
Print Assumptions C90_instance_without_loops_partial.

(* ---------- what is not so ---------- *)

(* The type node={v:int, n:string|node} accepts {v:1, n:{}}, though {} is neither a string nor a node. *)
Theorem C90_alternatives_refuted :
  exists p names h', tokens node_text = read_as (written Anywhere node_ex) /\ correct node_ex /\ scoped no_named back0 node_ex /\
  declare_text env0 0 back0 no_named 50 50 node_text heap0 = DOk p names h' /\ rec_instance toy (types_of h') [] 30 p node_value = Some true /\
  sized [] node_value /\ val_ok [] node_value /\ forall N, as_declared toy [] (sized []) node_ex N -> ~ belongs toy [] N node_ex node_value.
Proof. exact node_accepts. Qed.
Print Assumptions C90_alternatives_refuted.

(* It is enough that a name that refers to itself is one of the alternatives: string|(l={v:int, next?:l}) accepts {v:1, next:{}}. *)
Theorem C90_alternatives_outside_refuted :
  exists p names h', tokens list_text = read_as (written Anywhere list_ex) /\ correct list_ex /\ scoped no_named back0 list_ex /\
  declare_text env0 0 back0 no_named 50 50 list_text heap0 = DOk p names h' /\ rec_instance toy (types_of h') [] 30 p list_value = Some true /\
  sized [] list_value /\ val_ok [] list_value /\ forall N, as_declared toy [] (sized []) list_ex N -> ~ belongs toy [] N list_ex list_value.
Proof. exact list_accepts. Qed.
Print Assumptions C90_alternatives_outside_refuted.

(* The type -9223372036854775808...9223372036854775807 leaves out its end, but is the type int, which accepts it. *)
Theorem C90_all_but_the_last_refuted :
  exists p names h', tokens most_text = read_as (written Anywhere most_ex) /\ correct most_ex /\ scoped no_named back0 most_ex /\
  declare_text env0 0 back0 no_named 50 50 most_text heap0 = DOk p names h' /\ rec_instance toy (types_of h') [] 30 p (GLeaf (VInt max_int64)) = Some true /\
  sized [] (GLeaf (VInt max_int64)) /\ val_ok [] (GLeaf (VInt max_int64)) /\ forall N, ~ belongs toy [] N most_ex (GLeaf (VInt max_int64)).
Proof. exact most_accepts. Qed.
Print Assumptions C90_all_but_the_last_refuted.

(* ---------- examples ---------- *)

(* a tuple of linked nodes, something known, and the declaration of the nodes *)
Definition nodes : ex :=
  XTuple [XArr [1; 3] (XRef (lit "t")); XName (lit "known"); XDecl (lit "t") (XStruct true [(lit "next", false, XName (lit "t")); (lit "value", true, XOr [XWord (lit "bool"); XRange 1 9 true; XNot (XString [1; 5])])])].
Definition nodes_text : list Z := lit "{[1,3]<t>, known, t={next?:t, value:bool|1..9|!string[1,5], ...}}".
Example nodes_tokens : tokens nodes_text = read_as (written Anywhere nodes).
Proof. vm_compute. reflexivity. Qed.
Example nodes_correct : correct nodes.
Proof.
  cbn [correct nodes solid by_name]. repeat split; try discriminate; try exact I; try (apply not_in_by; vm_compute; reflexivity); try (cbn; lia); try (unfold words; cbn [map fst In]; tauto).
  all: try (constructor; [apply not_in_by; vm_compute; reflexivity|]; constructor; [intros []|constructor]).
  all: cbn [correct]; unfold words; cbn [map fst In]; tauto.
Qed.
Example nodes_direct : direct nodes.
Proof. cbn [direct nodes some every inexact flat by_name fst snd]. assert (S : size_of [1; 3] <> (1, 1)) by discriminate. tauto. Qed.
Example nodes_scoped : scoped no_named back0 nodes.
Proof.
  split; [|split].
  - constructor; [intros []|constructor].
  - repeat constructor.
  - cbn [used nodes flat_map app snd]. repeat (apply Forall_cons; [split; [reflexivity|first [right; vm_compute; discriminate|left; cbn; tauto]]|]). constructor.
Qed.
Example heap0_ok : types_ok (only [1%nat] (types_of heap0)) /\ flat_alternatives (only [1%nat] (types_of heap0)) /\ contractive (only [1%nat] (types_of heap0)) /\ not_recursive (only [1%nat] (types_of heap0)).
Proof.
  split; [repeat constructor|]. split; [|split; exists (fun _ => O)].
  all: intros [|[|p]] nd q E; [injection E as <-; intros []|injection E as <-; intros []|destruct p; discriminate E].
Qed.
Example nodes_knows : knows [1%nat] (types_of heap0) back0 nodes.
Proof.
  split.
  - intros n q _. unfold back0. destruct (bytes_eqb n (lit "known")); [|discriminate]. intros X. injection X as <-. now left.
  - intros a nd q [<-|[]] E. injection E as <-. intros [].
Qed.
(* [[{value:1}], 2, {value:true, next:{value:3}}], and one where the inner value is a string *)
Definition node (v : value) (more : list (value * value)) : value := VMap ((VStr (lit "value"), v) :: more).
Definition good_node : gval := GLeaf (VArr [VArr [node (VInt 1) []]; VInt 2; node (VBool true) [(VStr (lit "next"), node (VInt 3) [])]]).
Definition bad_node : gval := GLeaf (VArr [VArr [node (VInt 1) []]; VInt 2; node (VBool true) [(VStr (lit "next"), node (VStr (lit "ab")) [])]]).
Example nodes_run : exists p names h', declare_text env0 0 back0 no_named 50 50 nodes_text heap0 = DOk p names h' /\
  rec_instance toy (types_of h') [] 30 p good_node = Some true /\ rec_instance toy (types_of h') [] 30 p bad_node = Some false.
Proof. eexists _, _, _. split; [vm_compute; reflexivity|]. split; vm_compute; reflexivity. Qed.
Lemma sized_leaf_array l : Z.of_nat (length l) <= max_int64 -> Forall (fun v => sized [] (GLeaf v)) l -> sized [] (GLeaf (VArr l)).
Proof.
  intros L F. constructor; [intros m E; inversion E; subst; now rewrite map_length|intros m E; inversion E|exact I|]. intros y P. rewrite Forall_forall in F.
  inversion P as [? ? ? H I|? ? k z H I|? ? k z H I|? ? H]; subst; inversion H; subst. apply in_map_iff in I as (a & <- & I). now apply F.
Qed.
Example nodes_values : sized [] good_node /\ val_ok [] good_node /\ values_ok [].
Proof.
  split; [|split; [|constructor]].
  - unfold good_node, node. repeat first [apply Forall_nil|apply Forall_cons|(apply sized_leaf_array; [vm_compute; discriminate|])|(apply sized_leaf_map; [vm_compute; discriminate|])|(apply sized_plain; vm_compute; first [exact I|discriminate|split; discriminate])|apply conj].
  - unfold good_node, node. cbn [val_ok]. repeat first [apply Forall_nil|apply Forall_cons|apply FOP_nil|apply FOP_cons|apply conj|apply data_arr|apply data_map|apply data_str|apply data_int|apply data_bool|(vm_compute; reflexivity)].
Qed.

(* rows of cells, where a cell is a string, an array or not known *)
Definition rows : ex :=
  XTuple [XDecl (lit "row") (XArr [] (XName (lit "cell"))); XDecl (lit "cell") (XOr [XWord (lit "string"); XArr [] (XWord (lit "any")); XNot (XName (lit "known"))]); XNot (XName (lit "row"))].
Definition rows_text : list Z := lit "{row=[]cell, cell=string|[]any|!known, !row}".
Example rows_tokens : tokens rows_text = read_as (written Anywhere rows).
Proof. vm_compute. reflexivity. Qed.
Example rows_correct : correct rows.
Proof.
  cbn [correct rows solid by_name size_ok]. repeat split; try discriminate; try exact I; try (apply not_in_by; vm_compute; reflexivity); try (cbn; lia); try (unfold words; cbn [map fst In]; tauto).
Qed.
Example rows_plain : plain rows /\ no_loops rows.
Proof.
  split; [cbn [plain rows some every inexact by_name fst snd]; assert (S : size_of [] <> (1, 1)) by discriminate; tauto|].
  exists (fun n => if bytes_eqb n (lit "row") then 1%nat else 0%nat). intros n d m I J K. cbn [declarations rows flat_map app] in I.
  destruct I as [I|[I|[]]]; injection I as <- <-; cbn [used flat_map app] in J; repeat (destruct J as [<-|J]; [|]); try destruct J.
  - vm_compute. lia.
  - exfalso. cbn [declared rows flat_map app] in K. destruct K as [K|[K|[]]]; discriminate K.
Qed.
Example rows_scoped : scoped no_named back0 rows.
Proof.
  split; [|split].
  - constructor; [intros [X|[]]; discriminate X|]. constructor; [intros []|constructor].
  - repeat constructor.
  - cbn [used rows flat_map app snd]. repeat (apply Forall_cons; [split; [reflexivity|first [right; vm_compute; discriminate|left; cbn; tauto]]|]). constructor.
Qed.
Example rows_knows : knows [1%nat] (types_of heap0) back0 rows.
Proof. split; [|apply nodes_knows]. intros n q _. unfold back0. destruct (bytes_eqb n (lit "known")); [|discriminate]. intros X. injection X as <-. now left. Qed.
(* an array of itself, a string and a boolean, and arrays of this one, a string and something *)
Definition cells : graph := [GArr [GRef 0; GLeaf (VStr (lit "a")); GLeaf (VBool true)]; GArr [GRef 0; GLeaf (VStr (lit "b")); GLeaf (VArr [VInt 3])]; GArr [GRef 0; GLeaf (VStr (lit "b")); GRef 0]].
Example rows_run : exists p names h', declare_text env0 0 back0 no_named 50 50 rows_text heap0 = DOk p names h' /\
  rec_instance toy (types_of h') cells 30 p (GRef 1) = Some true /\ rec_instance toy (types_of h') cells 30 p (GRef 2) = Some false.
Proof. eexists _, _, _. split; [vm_compute; reflexivity|]. split; vm_compute; reflexivity. Qed.
Example rows_values : values_ok cells /\ val_ok cells (GRef 1) /\ measured cells (GRef 1).
Proof.
  split; [|split].
  - unfold cells. repeat constructor. all: try (cbn; lia).
  - cbn. lia.
  - assert (X : forall y, within cells (GRef 1) y -> In y [GRef 1; GRef 0; GLeaf (VStr (lit "a")); GLeaf (VBool true); GLeaf (VStr (lit "b")); GLeaf (VArr [VInt 3]); GLeaf (VInt 3)]).
    { intros y Wy. induction Wy as [|y z Wy IH Pz]; [now left|]. cbn [In] in IH. repeat (destruct IH as [<-|IH]; [inversion Pz as [? ? ? H J|? ? ? ? H J|? ? ? ? H J|? ? H]; subst; inversion H; subst; try discriminate|]); try destruct IH.
      all: match goal with Q : nth_error cells _ = Some (GArr _) |- _ => injection Q as <- | _ => idtac end; cbn [In map] in J; cbn [In]; tauto. }
    intros y Wy. specialize (X y Wy). cbn [In] in X.
    repeat (destruct X as [<-|X]; [split; [|split]; [intros l E; inversion E; subst; try match goal with Q : nth_error cells _ = Some _ |- _ => injection Q as <- end; vm_compute; discriminate|intros m E; inversion E; subst; discriminate|vm_compute; first [exact I|discriminate|split; discriminate]]|]). destruct X.
Qed.
