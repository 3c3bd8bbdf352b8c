(* Writing and reading JSON: /repo/streamer/json.go. The text is a list of tokens here; how strings and numbers are
   written and how a text is cut into tokens is the work of encoding/json (Go library). *)
From Coq Require Import ZArith List Bool Floats.SpecFloat.
From Verif Require Import Int64 Data Utf8 Graph Stream.
Import ListNotations.
Open Scope Z_scope.

Inductive token :=
  | JOpenArray | JCloseArray | JOpenObject | JCloseObject | JComma | JColon
  | JString (s : list Z)
  | JInt (z : Z)              (* a number without fraction and exponent *)
  | JFloat (f : spec_float)   (* a number with a fraction or an exponent, that ParseFloat reads as f *)
  | JBool (b : bool)
  | JNull.

(* The string that a JSON reader gets from what json.Marshal writes for s: bytes that are not UTF-8 become U+FFFD. *)
Fixpoint to_utf8 (fuel : nat) (s : list Z) : list Z :=
  match fuel, s with
  | O, _ => []
  | _, [] => []
  | S fuel, _ => let (c, w) := decode_rune s in encode_rune c ++ to_utf8 fuel (skipn w s)
  end.
Definition json_string (s : list Z) : list Z := to_utf8 (length s) s.

Section Json.
(* The integer that json.Marshal writes for a float, if it writes no fraction and no exponent. *)
Variable whole : spec_float -> option Z.

(* write, json.go:222-239; json.Marshal fails on floats that are infinite or not a number *)
Definition write_scalar (v : value) : outcome token :=
  match v with
  | VStr s => Done (JString (json_string s))
  | VFloat (S754_infinity _ | S754_nan) => Panics
  | VFloat f => Done (match whole f with Some z => JInt z | None => JFloat f end)
  | VInt z => Done (JInt z)
  | VBool b => Done (JBool b)
  | _ => Done JNull
  end.

(* json.go:13-19 *)
Inductive state := FirstInArray | FirstInObject | AfterElement | AfterValue | AfterKey.
(* delimit, json.go:200-220; [doer] gives the tokens that it writes and the state that it leaves *)
Definition delimit (st : state) (doer : outcome (list token * state)) : outcome (list token * state) :=
  do (ts, st') <- doer;
  Done (match st with
        | FirstInArray => (ts, AfterElement)
        | FirstInObject => (ts, AfterKey)
        | AfterKey => (JColon :: ts, AfterValue)
        | AfterValue => (JComma :: ts, AfterKey)
        | AfterElement => (JComma :: ts, st')
        end).
(* Add 172-176, AddRef 178-182, AddArray 152-160, AddMap 162-170. The reference key is the one of DgoDialect (json.go:142-144). *)
Fixpoint write (e : ev) (st : state) : outcome (list token * state) :=
  delimit st
    match e with
    | EAdd v => do t <- write_scalar v; Done ([t], st)
    | ERef i => Done ([JOpenObject; JString (d_ref dgo_dialect); JColon; JInt i; JCloseObject], st)
    | EArr l =>
        do (ts, _) <- (fix all l st := match l with
                         | [] => Done ([], st)
                         | e :: r => do (t1, st) <- write e st; do (t2, st) <- all r st; Done (t1 ++ t2, st)
                         end) l FirstInArray;
        Done (JOpenArray :: ts ++ [JCloseArray], AfterElement)
    | EMap l =>
        do (ts, _) <- (fix all l st := match l with
                         | [] => Done ([], st)
                         | e :: r => do (t1, st) <- write e st; do (t2, st) <- all r st; Done (t1 ++ t2, st)
                         end) l FirstInObject;
        Done (JOpenObject :: ts ++ [JCloseObject], AfterElement)
    end.
Fixpoint write_all (l : list ev) (st : state) : outcome (list token * state) :=
  match l with
  | [] => Done ([], st)
  | e :: r => do (t1, st) <- write e st; do (t2, st) <- write_all r st; Done (t1 ++ t2, st)
  end.

(* the capabilities of the JSON consumer, json.go:184-198 *)
Definition json_consumer : consumer := {| c_binary := false; c_time := false; c_complex := false; c_threshold := 20 |}.
(* DefaultOptions, streamer.go:57-63; MarshalJSON gives no alias map (json.go:30) *)
Definition json_options : options := {| o_rich := true; o_aliases := false |}.
(* MarshalJSON, json.go:22-30 *)
Definition marshal (W : codec) (D : dialect) (n : nat) (g : objects) (x : sval) : outcome (list token) :=
  do e <- emits W D json_consumer json_options g n NoKeyDedup x;
  do (ts, st) <- write e FirstInArray;
  Done ts.

(* ---------- reading ---------- *)

(* json.Decoder.Token leaves out commas and colons *)
Definition significant (t : token) : bool := match t with JComma | JColon => false | _ => true end.
(* the value of a number: Int64 first, then Float64, json.go:76-82; an integer that is too big is read as the nearest float *)
Variable to_float : Z -> spec_float.
(* decodeElem without the delimiters, json.go:74-88 *)
Definition scalar_of (t : token) : value :=
  match t with
  | JString s => VStr s
  | JInt z => if in64b z then VInt z else VFloat (to_float z)
  | JFloat f => VFloat f
  | JBool b => VBool b
  | _ => VNil
  end.
Section Read.
Variable ref_key : list Z.
Definition closes (t : token) : bool := match t with JCloseArray | JCloseObject => true | _ => false end.
Definition token_eqb (a b : token) : bool :=
  match a, b with JCloseArray, JCloseArray | JCloseObject, JCloseObject => true | _, _ => false end.
(* decodeElem and decodeCollection, json.go:67-112, after a token has been read; [rec] reads elements up to a closing token
   (decodeArray 114-117, decodeMap 119-122) *)
Definition read_elem (rec : token -> list token -> outcome (list ev * list token)) (t : token) (r : list token) : outcome (ev * list token) :=
  match t with
  | JOpenArray => do (es, r) <- rec JCloseArray r; Done (EArr es, r)
  | JOpenObject =>
      match r with
      | JString k :: r' =>
          if bytes_eqb k ref_key then
            match r' with
            | JInt i :: JCloseObject :: r => if in64b i then Done (ERef i, r) else Panics
            | _ => Panics
            end
          else do (es, r) <- rec JCloseObject r; Done (EMap es, r)
      | _ => do (es, r) <- rec JCloseObject r; Done (EMap es, r)
      end
  | _ => Done (EAdd (scalar_of t), r)
  end.
(* the end of the text makes Token fail, json.go:130-138; so does the wrong closing token *)
Fixpoint read_all (n : nat) (close : token) (ts : list token) : outcome (list ev * list token) :=
  match n with
  | O => Stuck
  | S n =>
      match ts with
      | [] => Panics
      | t :: r =>
          if closes t then if token_eqb t close then Done ([], r) else Panics
          else do (e, r) <- read_elem (read_all n) t r; do (es, r) <- read_all n close r; Done (e :: es, r)
      end
  end.
(* decode, json.go:63-65 *)
Definition read (n : nat) (ts : list token) : outcome ev :=
  match ts with
  | [] => Panics
  | t :: r => if closes t then Panics else do (e, r) <- read_elem (read_all n) t r; Done e
  end.
End Read.

(* UnmarshalJSON, json.go:35-52. The tokens are those of a well formed text. *)
Definition unmarshal (W : codec) (D : dialect) (n : nat) (ts : list token) : outcome (graph * gval) :=
  do e <- read (d_ref D) n (filter significant ts);
  collects n (decoding W D n) e.
End Json.
