(* What a JSON text says (RFC 8259), independent of who wrote it. *)
From Coq Require Import ZArith List Bool Floats.SpecFloat.
From Verif Require Import Int64 Data Stream Json.
Import ListNotations.
Open Scope Z_scope.

(* a document; in Number the integer is kept if the text has neither fraction nor exponent *)
Inductive doc :=
  | DText (s : list Z)
  | DInteger (z : Z)
  | DNumber (f : spec_float)
  | DTruth (b : bool)
  | DNull
  | DArray (l : list doc)
  | DObject (l : list (list Z * doc)).

(* elements with commas between them *)
Fixpoint commas (l : list (list token)) : list token :=
  match l with
  | [] => []
  | [x] => x
  | x :: r => x ++ JComma :: commas r
  end.
Fixpoint doc_tokens (d : doc) : list token :=
  match d with
  | DText s => [JString s]
  | DInteger z => [JInt z]
  | DNumber f => [JFloat f]
  | DTruth b => [JBool b]
  | DNull => [JNull]
  | DArray l => JOpenArray :: commas (map doc_tokens l) ++ [JCloseArray]
  | DObject l => JOpenObject :: commas (map (fun e => JString (fst e) :: JColon :: doc_tokens (snd e)) l) ++ [JCloseObject]
  end.

(* a member with a name that is there already replaces its value *)
Fixpoint member (m : list (value * value)) (k : list Z) (v : value) : list (value * value) :=
  match m with
  | [] => [(VStr k, v)]
  | (VStr k', v') :: r => if list_eq_dec Z.eq_dec k k' then (VStr k', v) :: r else (VStr k', v') :: member r k v
  | e :: r => e :: member r k v
  end.
(* the value of the document; integers that are too big are floats *)
Fixpoint doc_value (to_float : Z -> spec_float) (d : doc) : value :=
  match d with
  | DText s => VStr s
  | DInteger z => if (min_int64 <=? z) && (z <=? max_int64) then VInt z else VFloat (to_float z)
  | DNumber f => VFloat f
  | DTruth b => VBool b
  | DNull => VNil
  | DArray l => VArr (map (doc_value to_float) l)
  | DObject l => VMap ((fix members l m := match l with [] => m | e :: r => members r (member m (fst e) (doc_value to_float (snd e))) end) l [])
  end.
(* no object has a member with the name that says a type, or begins with the one that says a reference *)
Fixpoint no_words (type ref : list Z) (d : doc) : Prop :=
  match d with
  | DArray l => (fix all l := match l with [] => True | x :: r => no_words type ref x /\ all r end) l
  | DObject l => (forall k x r, l = (k, x) :: r -> k <> ref) /\
      (fix all l := match l with [] => True | (k, x) :: r => k <> type /\ no_words type ref x /\ all r end) l
  | _ => True
  end.

(* brackets that match *)
Inductive balanced : list token -> Prop :=
  | balanced_none : balanced []
  | balanced_token t r : ~ In t [JOpenArray; JCloseArray; JOpenObject; JCloseObject] -> balanced r -> balanced (t :: r)
  | balanced_array l r : balanced l -> balanced r -> balanced (JOpenArray :: l ++ JCloseArray :: r)
  | balanced_object l r : balanced l -> balanced r -> balanced (JOpenObject :: l ++ JCloseObject :: r).
