(* Property C89. Only statements, [exact], assumptions and examples. *)
From Coq Require Import Strings.Ascii Strings.String.
From Coq Require Import ZArith List Bool Lia.
From Coq Require Import Floats.SpecFloat.
From Verif Require Import Int64 Utf8 Text TextSpec Print HMap Data DataSpec Types TypesSpec Lexer Syntax Graph RecTypes RecTypesSpec.
From Verif Require Import Resolve ResolveSpec Declare DeclareSpec DeclareDone DeclareOnce DeclareCases.
Import ListNotations.
Open Scope Z_scope.

(* C89. Partial: see C89_chain_refuted, C89_sensitive_refuted and C89_negated_name_refuted. A text with the tokens of a correct expression is
   read as the type that the expression describes: each name stands for one type wherever it is used, before or after its declaration or
   within it, the names are returned in the order of the text, no references by name are left, and what was there is as it was.
   Missing: names for other names or for their negations, floats and their ranges, bounds in the wrong order, sensitive types without names, types of
   types, patterns and functions. *)
Theorem C89_declared_types_partial :
  forall E any backing named h e, there any backing h -> correct e -> scoped named backing e ->
  exists N, forall n m s, (N <= n)%nat -> (N <= m)%nat -> tokens s = read_as (written Anywhere e) ->
  exists p names h', declare_text E any backing named n m s h = DOk p names h' /\ map fst names = declared e /\
  built (fun n q => In (n, q) names \/ backing n = Some q) h' e p /\ resolved h' p /\ Forall (fun x => resolved h' (snd x)) names /\
  (forall q n, nth_error h q = Some n -> nth_error h' q = Some n).
Proof. exact text_declared. Qed.
Print Assumptions C89_declared_types_partial.

(* A name cannot be declared if it is a word of the language, if it is known, or if it was declared before, whatever follows. *)
Theorem C89_first_name_taken :
  forall E any backing named h n rest, taken named backing [] n ->
  exists N, forall k m s, (N <= k)%nat -> tokens s = read_as (word n :: punct 61 :: rest) -> declare_text E any backing named k m s h = DPanic.
Proof. exact text_first_taken. Qed.
Print Assumptions C89_first_name_taken.
Theorem C89_later_name_taken :
  forall E any backing named h es n rest, there any backing h -> Forall correct es -> NoDup (flat_map declared es) ->
  Forall (fun n => named n = false /\ backing n = None) (flat_map declared es) -> Forall (fun n => named n = false) (flat_map used es) ->
  taken named backing es n ->
  exists N, forall k m s, (N <= k)%nat ->
  tokens s = read_as (punct 123 :: flat_map (fun e => written Anywhere e ++ [punct 44]) es ++ word n :: punct 61 :: rest) ->
  declare_text E any backing named k m s h = DPanic.
Proof. exact text_later_taken. Qed.
Print Assumptions C89_later_name_taken.

(* ---------- examples ---------- *)

(* {"name": a known name; and t is a tree of such types, that are used before they are declared} *)
Definition tree : ex :=
  XTuple [XArr [] (XName (lit "t")); XName (lit "known"); XDecl (lit "t") (XStruct true [(lit "left", false, XRef (lit "t")); (lit "value", true, XOr [XName (lit "u"); XNot (XName (lit "u"))])]);
          XDecl (lit "u") (XMap [1; 9] (XString [2]) (XArr [] (XWord (lit "any")))); XArr [3] (XOr [XInt (-7); XRange 0 5 false; XName (lit "u")])].
Definition tree_text : list Z := lit "{[]t, known, t={left?:<t>, value:u|!u, ...}, u=map[string[2],1,9][]any, [3](-7|0...5|u)}".
Example tree_tokens : tokens tree_text = read_as (written Anywhere tree).
Proof. vm_compute. reflexivity. Qed.
Example tree_there : there 0 back0 heap0.
Proof.
  split; [repeat constructor|]. split; [reflexivity|]. split; [|split].
  - intros [|[|p]] n H; cbn in H; [injection H as <-; exact I|injection H as <-; exact I|destruct p; discriminate].
  - intros n p H. unfold back0 in H. destruct (bytes_eqb n (lit "known")); [|discriminate]. injection H as <-. split; [repeat constructor|discriminate].
  - intros [|[|p]] q H; try discriminate. destruct p; discriminate.
Qed.
Lemma not_in_by (n : list Z) l : existsb (bytes_eqb n) l = false -> ~ In n l.
Proof. intros H I. assert (X : existsb (bytes_eqb n) l = true) by (apply existsb_exists; exists n; split; [exact I|apply DeclareRead.bytes_same]). congruence. Qed.
Example tree_correct : correct tree.
Proof.
  cbn [correct tree solid by_name]. repeat split; try discriminate; try exact I; try (apply not_in_by; vm_compute; reflexivity); try (cbn; lia).
  - constructor; [apply not_in_by; vm_compute; reflexivity|]. constructor; [intros []|constructor].
  - unfold words. cbn [map fst In]. tauto.
Qed.
Example tree_scoped : scoped no_named back0 tree.
Proof.
  split; [|split].
  - constructor; [apply not_in_by; vm_compute; reflexivity|]. constructor; [intros []|constructor].
  - repeat constructor.
  - cbn [used tree flat_map app snd]. repeat (apply Forall_cons; [split; [reflexivity|first [right; vm_compute; discriminate|left; cbn; tauto]]|]). constructor.
Qed.
Example tree_read : exists p names h', declare_text env0 0 back0 no_named 50 50 tree_text heap0 = DOk p names h' /\ map fst names = [lit "t"; lit "u"].
Proof. eexists _, _, _. split; [vm_compute; reflexivity|vm_compute; reflexivity]. Qed.
(* {t=int, u=string, t=float} *)
Example twice : declare_text env0 0 back0 no_named 50 50 (lit "{t=int, u=string, t=float}") heap0 = DPanic.
Proof. vm_compute. reflexivity. Qed.
(* a name that is not known *)
Example unknown : declare_text env0 0 back0 no_named 50 50 (lit "{t=[]u}") heap0 = DPanic /\ declare_text env0 0 back0 no_named 50 50 (lit "u") heap0 = DPanic.
Proof. vm_compute. auto. Qed.
(* texts that are no type expressions *)
Example not_read : forall s, In s [lit "{a:int b:int}"; lit "{a:int, ...int}"; lit "{a:int, int}"; lit "[1,2,3]int"; lit "map[int"; lit "t="; lit "<int"; lit "int|"; lit "!"; lit "(int"; lit "{int, a:int}"; lit "{t=int, t=int}"] ->
  declare_text env0 0 back0 no_named 50 50 s heap0 = DPanic.
Proof. intros s I. repeat (destruct I as [<-|I]; [vm_compute; reflexivity|]). destruct I. Qed.


(* ---------- what is not so ---------- *)

(* With {x=[]y, y=z, z=w, w=int}, where y and z are other names for w, x is an array of references to the name w. *)
Theorem C89_chain_refuted :
  exists s p names h' q a, tokens s = read_as (written Anywhere chain_ex) /\
  declare_text env0 0 back0 no_named 50 50 s heap0 = DOk p names h' /\ In (lit "x", q) names /\ nth_error h' q = Some (HNode (NArr a 0 max_int64)) /\ nth_error h' a = Some (HAlias (lit "w")).
Proof. exact chain_left. Qed.
Print Assumptions C89_chain_refuted.
(* With {x={int,sensitive[<x>]}} the reference within sensitive is left. *)
Theorem C89_sensitive_refuted :
  exists p names h' q r a b, declare_text env0 0 back0 no_named 50 50 (lit "{x={int,sensitive[<x>]}}") heap0 = DOk p names h' /\ In (lit "x", q) names /\
  nth_error h' q = Some (HNode (NTuple [a; r] false)) /\ nth_error h' r = Some (HNode (NSens b)) /\ nth_error h' b = Some (HAlias (lit "x")).
Proof. exact sensitive_left. Qed.
Print Assumptions C89_sensitive_refuted.
(* With {x=[]y, z=!w, y=!z, a=!b, w=!a, b=int}, where y is not not w and w is not not b, x is an array of references to the name b. *)
Theorem C89_negated_name_refuted :
  exists s p names h' q a, tokens s = read_as (written Anywhere negated_ex) /\
  declare_text env0 0 back0 no_named 50 50 s heap0 = DOk p names h' /\ In (lit "x", q) names /\ nth_error h' q = Some (HNode (NArr a 0 max_int64)) /\ nth_error h' a = Some (HAlias (lit "b")).
Proof. exact negated_left. Qed.
Print Assumptions C89_negated_name_refuted.
