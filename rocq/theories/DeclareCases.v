(* The theorems on texts, and texts that are not read as they should be. *)
From Coq Require Import Strings.Ascii Strings.String.
From Coq Require Import ZArith List Bool Lia.
From Coq Require Import Floats.SpecFloat.
From Verif Require Import Int64 Utf8 Text TextSpec Print HMap Data DataSpec Types TypesSpec Lexer Syntax Graph RecTypes RecTypesSpec.
From Verif Require Import Resolve ResolveSpec Declare DeclareSpec DeclareDone DeclareOnce.
Import ListNotations.
Open Scope Z_scope.

Theorem text_declared E any backing named h e : there any backing h -> correct e -> scoped named backing e ->
  exists N, forall n m s, (N <= n)%nat -> (N <= m)%nat -> tokens s = read_as (written Anywhere e) ->
  exists p names h', declare_text E any backing named n m s h = DOk p names h' /\ map fst names = declared e /\
  built (fun n q => In (n, q) names \/ backing n = Some q) h' e p /\ resolved h' p /\ Forall (fun x => resolved h' (snd x)) names /\
  (forall q n, nth_error h q = Some n -> nth_error h' q = Some n).
Proof. intros T C S. destruct (declared_read E any backing named h T e C S) as [N H]. exists N. intros n m s Ln Lm Q. unfold declare_text. rewrite Q. now apply H. Qed.
Theorem text_first_taken E any backing named h n rest : taken named backing [] n ->
  exists N, forall k m s, (N <= k)%nat -> tokens s = read_as (word n :: punct 61 :: rest) -> declare_text E any backing named k m s h = DPanic.
Proof. intros T. destruct (first_taken E any backing named h n rest T) as [N H]. exists N. intros k m s L Q. unfold declare_text. rewrite Q. now apply H. Qed.
Theorem text_later_taken E any backing named h es n rest : there any backing h -> Forall correct es -> NoDup (flat_map declared es) ->
  Forall (fun n => named n = false /\ backing n = None) (flat_map declared es) -> Forall (fun n => named n = false) (flat_map used es) ->
  taken named backing es n ->
  exists N, forall k m s, (N <= k)%nat ->
  tokens s = read_as (punct 123 :: flat_map (fun e => written Anywhere e ++ [punct 44]) es ++ word n :: punct 61 :: rest) ->
  declare_text E any backing named k m s h = DPanic.
Proof.
  intros T C ND D U K. destruct (later_taken E any backing named h T es n rest C ND D U K) as [N H]. exists N. intros k m s L Q. unfold declare_text. rewrite Q. now apply H.
Qed.

(* functions of Go for the examples; none of these texts needs them *)
Definition env0 : env := {| e_print := fun _ => true; e_ftoa := fun _ => []; e_time := fun _ => []; e_float := fun _ => S754_nan; e_compiles := fun _ => true; e_lower := fun s => s; e_known := fun _ => false |}.
(* DefaultAnyType, and the type int with the name known *)
Definition heap0 : heap := [HNode (NLeaf TAny); HNode (NLeaf TInt)].
Definition back0 (n : list Z) : option nat := if bytes_eqb n (lit "known") then Some 1%nat else None.
Definition no_named (_ : list Z) : bool := false.

Definition chain_ex : ex := XTuple [XDecl (lit "x") (XArr [] (XName (lit "y"))); XDecl (lit "y") (XName (lit "z")); XDecl (lit "z") (XName (lit "w")); XDecl (lit "w") (XWord (lit "int"))].
Lemma chain_left : exists s p names h' q a, tokens s = read_as (written Anywhere chain_ex) /\
  declare_text env0 0 back0 no_named 50 50 s heap0 = DOk p names h' /\ In (lit "x", q) names /\ nth_error h' q = Some (HNode (NArr a 0 max_int64)) /\ nth_error h' a = Some (HAlias (lit "w")).
Proof.
  exists (lit "{x=[]y, y=z, z=w, w=int}"). eexists _, _, _, 4%nat, _. split; [vm_compute; reflexivity|]. split; [vm_compute; reflexivity|]. split; [left; vm_compute; reflexivity|]. split; vm_compute; reflexivity.
Qed.
Definition negated_ex : ex :=
  XTuple [XDecl (lit "x") (XArr [] (XName (lit "y"))); XDecl (lit "z") (XNot (XName (lit "w"))); XDecl (lit "y") (XNot (XName (lit "z"))); XDecl (lit "a") (XNot (XName (lit "b")));
    XDecl (lit "w") (XNot (XName (lit "a"))); XDecl (lit "b") (XWord (lit "int"))].
Lemma negated_left : exists s p names h' q a, tokens s = read_as (written Anywhere negated_ex) /\
  declare_text env0 0 back0 no_named 50 50 s heap0 = DOk p names h' /\ In (lit "x", q) names /\ nth_error h' q = Some (HNode (NArr a 0 max_int64)) /\ nth_error h' a = Some (HAlias (lit "b")).
Proof.
  exists (lit "{x=[]y, z=!w, y=!z, a=!b, w=!a, b=int}"). eexists _, _, _, 4%nat, _. split; [vm_compute; reflexivity|]. split; [vm_compute; reflexivity|]. split; [left; vm_compute; reflexivity|]. split; vm_compute; reflexivity.
Qed.
Lemma sensitive_left : exists p names h' q r a b, declare_text env0 0 back0 no_named 50 50 (lit "{x={int,sensitive[<x>]}}") heap0 = DOk p names h' /\ In (lit "x", q) names /\
  nth_error h' q = Some (HNode (NTuple [a; r] false)) /\ nth_error h' r = Some (HNode (NSens b)) /\ nth_error h' b = Some (HAlias (lit "x")).
Proof.
  eexists _, _, _, _, _, _, _. split; [vm_compute; reflexivity|]. split; [left; vm_compute; reflexivity|]. split; [vm_compute; reflexivity|]. split; vm_compute; reflexivity.
Qed.
