(* Type expressions with names, and the types they stand for. *)
From Coq Require Import Strings.Ascii Strings.String.
From Coq Require Import ZArith List Bool.
From Verif Require Import Int64 Utf8 Text HMap Data Types Graph RecTypes Resolve ResolveSpec Print Lexer.
Import ListNotations.
Open Scope Z_scope.

(* A type that has a name of its own in the language, a boolean, a string, an integer, a range of integers with or without its end, the strings
   of some sizes; a name, a name between < and >, a declaration; types of arrays and maps of some sizes, of tuples and of structs;
   alternatives, exactly one of, all of, and not. Sizes are the least one, or the least and the greatest one, or not given. *)
Inductive ex :=
| XWord (w : list Z) | XStr (cs : list Z) | XInt (z : Z) | XRange (lo hi : Z) (incl : bool) | XString (sz : list Z)
| XName (n : list Z) | XRef (n : list Z) | XDecl (n : list Z) (e : ex)
| XArr (sz : list Z) (e : ex) | XMap (sz : list Z) (k v : ex) | XTuple (es : list ex) | XStruct (additional : bool) (fs : list (list Z * bool * ex))
| XOr (es : list ex) | XXor (es : list ex) | XAnd (es : list ex) | XNot (e : ex).

(* the types with names of their own *)
Definition words : list (list Z * ty) :=
  [(lit "any", TAny); (lit "bool", TBool); (lit "int", TInt); (lit "float", TFloat); (lit "dgo", TDgoString); (lit "binary", TBinary 0 max_int64);
   (lit "string", TString); (lit "true", TExact 0 (VBool true)); (lit "false", TExact 0 (VBool false))]%string.
(* the words that cannot be declared *)
Definition keywords : list (list Z) := map fst words ++ map lit ["nil"; "map"; "type"; "sensitive"; "func"]%string.

(* ---------- text ---------- *)

(* a token: its text, and its kind, which for punctuation is the character *)
Definition word (w : list Z) : token := mk_token w t_identifier.
Definition quoted (cs : list Z) : token := mk_token (encode cs) t_string.
Definition punct (c : Z) : token := mk_token [] c.
Definition ellipsis : token := mk_token [46; 46; 46] t_dotdotdot.
Definition dots (incl : bool) : token := if incl then mk_token [46; 46] t_dotdot else ellipsis.
Definition number (z : Z) : token := mk_token (itoa z) t_integer.
Fixpoint sep_by (c : Z) (l : list (list token)) : list token :=
  match l with [] => [] | [x] => x | x :: r => x ++ punct c :: sep_by c r end.
Definition parens (ts : list token) : list token := punct 40 :: ts ++ [punct 41].
(* where an expression stands: anywhere, between operators, or after a prefix *)
Inductive place := Anywhere | Operand | Prefixed.
Definition enclosed (e : ex) (pl : place) : bool :=
  match e, pl with
  | _, Anywhere => false
  | XDecl _ _, _ | XOr _, _ | XXor _, _ | XAnd _, _ => true
  | XNot _, Prefixed => true
  | _, _ => false
  end.
Fixpoint written (pl : place) (e : ex) : list token :=
  let ts :=
    match e with
    | XWord w | XName w => [word w]
    | XStr cs => [quoted cs]
    | XInt z => [number z]
    | XRange lo hi incl => [number lo; dots incl; number hi]
    | XString sz => word (lit "string") :: punct 91 :: sep_by 44 (map (fun z => [number z]) sz) ++ [punct 93]
    | XRef n => [punct 60; word n; punct 62]
    | XDecl n e => word n :: punct 61 :: written Anywhere e
    | XArr sz e => punct 91 :: sep_by 44 (map (fun z => [number z]) sz) ++ punct 93 :: written Prefixed e
    | XMap sz k v => word (lit "map") :: punct 91 :: sep_by 44 (written Anywhere k :: map (fun z => [number z]) sz) ++ punct 93 :: written Prefixed v
    | XTuple es => punct 123 :: sep_by 44 (map (written Anywhere) es) ++ [punct 125]
    | XStruct a fs =>
        punct 123 :: sep_by 44 (map (fun f => let '(n, required, e) := f in word n :: (if required : bool then [] else [punct 63]) ++ punct 58 :: written Anywhere e) fs
                                ++ (if a then [[ellipsis]] else [])) ++ [punct 125]
    | XOr es => sep_by 124 (map (written Operand) es)
    | XXor es => sep_by 94 (map (written Operand) es)
    | XAnd es => sep_by 38 (map (written Operand) es)
    | XNot e => punct 33 :: written Prefixed e
    end in
  if enclosed e pl then parens ts else ts.
(* the tokens of a text *)
Fixpoint read_as (ts : list token) : lexed := match ts with [] => LEnd | t :: r => LTok t (read_as r) end.

(* ---------- names ---------- *)

(* the names that are declared, in the order of the text, and those that are used *)
Fixpoint declared (e : ex) : list (list Z) :=
  match e with
  | XWord _ | XStr _ | XInt _ | XRange _ _ _ | XString _ | XName _ | XRef _ => []
  | XDecl n e => n :: declared e
  | XArr _ e | XNot e => declared e
  | XMap _ k v => declared k ++ declared v
  | XTuple es | XOr es | XXor es | XAnd es => flat_map declared es
  | XStruct _ fs => flat_map (fun f => declared (snd f)) fs
  end.
Fixpoint used (e : ex) : list (list Z) :=
  match e with
  | XWord _ | XStr _ | XInt _ | XRange _ _ _ | XString _ => []
  | XName n | XRef n => [n]
  | XDecl _ e | XArr _ e | XNot e => used e
  | XMap _ k v => used k ++ used v
  | XTuple es | XOr es | XXor es | XAnd es => flat_map used es
  | XStruct _ fs => flat_map (fun f => used (snd f)) fs
  end.
(* not just another name, and not the negation of a name or of a negation *)
Definition by_name (e : ex) : bool := match e with XName _ | XRef _ | XDecl _ _ => true | _ => false end.
Fixpoint solid (e : ex) : Prop :=
  match e with XName _ | XRef _ => False | XDecl _ e => solid e | XNot e => by_name e = false | _ => True end.
(* the least and the greatest size *)
Definition size_of (sz : list Z) : Z * Z := match sz with [] => (0, max_int64) | [lo] => (lo, max_int64) | lo :: hi :: _ => (lo, hi) end.
Definition size_ok (sz : list Z) : Prop := (length sz <= 2)%nat /\ 0 <= fst (size_of sz) <= snd (size_of sz) /\ snd (size_of sz) <= max_int64.
(* what makes an expression correct *)
Fixpoint correct (e : ex) : Prop :=
  match e with
  | XWord w => In w (map fst words)
  | XStr _ | XRef _ => True
  | XInt z => min_int64 <= z <= max_int64
  | XRange lo hi _ => min_int64 <= lo /\ lo < hi /\ hi <= max_int64
  | XString sz => size_ok sz
  | XName n => ~ In n keywords
  | XDecl n e => ~ In n keywords /\ solid e /\ correct e
  | XArr sz e => size_ok sz /\ correct e
  | XNot e => correct e /\ match e with XNot _ => False | _ => True end
  | XMap sz k v => size_ok sz /\ correct k /\ correct v
  | XTuple es => es <> [] /\ (fix all l := match l with [] => True | e :: r => correct e /\ all r end) es
  | XOr es | XXor es | XAnd es => (2 <= length es)%nat /\ (fix all l := match l with [] => True | e :: r => correct e /\ all r end) es
  | XStruct _ fs => NoDup (map (fun f => fst (fst f)) fs) /\ (fix all l := match l with [] => True | f :: r => correct (snd f) /\ all r end) fs
  end.

(* ---------- types ---------- *)

Section Built.
(* T n p: the type at p has the name n *)
Variable T : list Z -> nat -> Prop.
Variable h : heap.
Definition at_leaf (p : nat) (t : ty) : Prop := nth_error h p = Some (HNode (NLeaf t)).
Definition at_node (p : nat) (n : rnode) : Prop := nth_error h p = Some (HNode n).
Definition is_value (q : nat) (v : value) : Prop := exists i, at_leaf q (TExact i v).
(* one to one *)
Definition pairs {A B} (R : A -> B -> Prop) : list A -> list B -> Prop :=
  fix go l m := match l, m with [], [] => True | a :: l, b :: m => R a b /\ go l m | _, _ => False end.
(* The type at p is the one that the expression describes. Arrays and maps of anything, and strings, of any size, are the types array, map and
   string, and all integers are the type int. Tuples, structs and arrays of size one of values are the types of the tuple, the struct and the
   array with these values. *)
Fixpoint built (e : ex) (p : nat) : Prop :=
  match e with
  | XWord w => exists t, In (w, t) words /\ at_leaf p t
  | XStr cs => at_leaf p (TExact 0 (VStr (encode cs)))
  | XInt z => at_leaf p (TExact 0 (VInt z))
  | XRange lo hi incl => at_leaf p (if (lo =? min_int64) && (hi =? max_int64) then TInt else TIntRange lo hi incl)
  | XString sz => let (lo, hi) := size_of sz in at_leaf p (if (lo =? 0) && (hi =? max_int64) then TString else TStrSized lo hi)
  | XName n | XRef n => T n p
  | XDecl n e => T n p /\ built e p
  | XArr sz e =>
      exists q, built e q /\
      (at_node p (NArr q (fst (size_of sz)) (snd (size_of sz))) \/ (size_of sz = (0, max_int64) /\ at_leaf q TAny /\ at_leaf p TArray) \/
       (size_of sz = (1, 1) /\ exists v, is_value q v /\ at_leaf p (TExact 0 (VArr [v]))))
  | XMap sz k v =>
      exists q r, built k q /\ built v r /\
      (at_node p (NMap q r (fst (size_of sz)) (snd (size_of sz))) \/ (size_of sz = (0, max_int64) /\ at_leaf q TAny /\ at_leaf r TAny /\ at_leaf p TMap))
  | XTuple es =>
      exists qs, pairs built es qs /\
      (at_node p (NTuple qs false) \/ exists vs, pairs is_value qs vs /\ at_leaf p (TExact 0 (VArr vs)))
  | XStruct a fs =>
      exists qs, pairs (fun f q => built (snd f) q) fs qs /\
      (at_node p (NStruct a (map (fun x => (VStr (fst (fst (fst x))), snd x, snd (fst (fst x)))) (combine fs qs))) \/
       a = false /\ forallb (fun f => snd (fst f)) fs = true /\
       exists vs, pairs is_value qs vs /\ at_leaf p (TExact 0 (VMap (combine (map (fun f => VStr (fst (fst f))) fs) vs))))
  | XOr es => exists qs, pairs built es qs /\ at_node p (NAny qs)
  | XXor es => exists qs, pairs built es qs /\ at_node p (NOne qs)
  | XAnd es => exists qs, pairs built es qs /\ at_node p (NAll qs)
  | XNot e => exists q, built e q /\ (at_node p (NNot q) \/ at_node q (NNot p))
  end.
End Built.

(* ---------- where the text is read ---------- *)

(* The types that there are: pointers point to types, the type any is where it is said to be, no references by name are left, and what has a
   name, or is negated, is not nil. *)
Definition there (any : nat) (backing : list Z -> option nat) (h : heap) : Prop :=
  Forall (node_in_heap h) h /\ at_leaf h any TAny /\ (forall p n, nth_error h p = Some n -> match n with HAlias _ | HVals _ => False | _ => True end) /\
  (forall n p, backing n = Some p -> (p < length h)%nat /\ ~ at_leaf h p TNil) /\ (forall p q, at_node h p (NNot q) -> ~ at_leaf h q TNil).
(* Each name is declared once, and was not known before. All names that are used are known, or declared somewhere in the text. *)
Definition scoped (named : list Z -> bool) (backing : list Z -> option nat) (e : ex) : Prop :=
  NoDup (declared e) /\ Forall (fun n => named n = false /\ backing n = None) (declared e) /\
  Forall (fun n => named n = false /\ (In n (declared e) \/ backing n <> None)) (used e).
(* what cannot be declared after these expressions: words of the language, names that are known, and names that they declare *)
Definition taken (named : list Z -> bool) (backing : list Z -> option nat) (es : list ex) (n : list Z) : Prop :=
  In n keywords \/ named n = true \/ backing n <> None \/ In n (flat_map declared es).
