(* The string representation of values: String() of array.go, map.go, sensitive.go, util/indenter.go and
   util/erpindenter.go. *)
From Coq Require Import Strings.Ascii Strings.String.
From Coq Require Import ZArith List Bool.
From Verif Require Import Int64 Data Text Convert Graph.
Import ListNotations.
Open Scope Z_scope.

(* the bytes of a literal *)
Definition lit (s : string) : list Z := map (fun a => Z.of_nat (nat_of_ascii a)) (list_ascii_of_string s).

(* strconv.Itoa (Go library): the decimal digits; [fuel] bounds their number *)
Fixpoint digits (fuel : nat) (z : Z) : list Z :=
  match fuel with
  | O => []
  | S fuel => if z <? 10 then [48 + z] else digits fuel (z / 10) ++ [48 + z mod 10]
  end.
Definition itoa (z : Z) : list Z := if z <? 0 then 45 :: digits 20 (- z) else digits 20 z.

(* functions of the Go library that are not modelled: util.Ftoa (util/string.go:9-18, that is strconv.FormatFloat),
   strconv.Quote, Time.Format *)
Record printers := { p_float : value -> list Z; p_quote : list Z -> list Z; p_time : value -> list Z }.

Section Print.
Variable P : printers.
(* the indentation, util/indenter.go:38-40 *)
Variable ind : list Z.

(* what AppendValue (util/indenter.go:93-102) appends for a value that is not an array, map or sensitive: nil.go:16-18,
   boolean.go:162-167, integer.go:356-358, float.go:307-309, string.go:542-544, binary.go:391-393, time.go:178-180,
   regexp.go:126-128 *)
Definition leaf_text (v : value) : list Z :=
  match v with
  | VNil => lit "nil"
  | VBool b => if b then lit "true" else lit "false"
  | VInt z => itoa z
  | VFloat _ => p_float P v
  | VStr s => p_quote P s
  | VBin s => encode_binary s
  | VTime _ _ _ => p_time P v
  | VRegexp s => s
  | _ => []
  end.

(* sensitive.go:161-163 *)
Definition redacted : list Z := lit "sensitive [value redacted]".

(* NewLine at indentation level k, util/indenter.go:149-156 *)
Definition nl (k : nat) : list Z := new_line (mk_indenter k ind) [].

(* the items between the braces, with commas: array.AppendTo (array.go:877-890), appendMapTo (map.go:399-414) *)
Fixpoint items (k : nat) (first : bool) (l : list (list Z)) : list Z :=
  match l with
  | [] => []
  | x :: r => (if first then [] else lit ",") ++ nl (S k) ++ x ++ items k false r
  end.
Definition braces (k : nat) (l : list (list Z)) : list Z := lit "{" ++ items k true l ++ nl k ++ lit "}".
(* mapEntry.AppendTo, map.go:84-91 *)
Definition entry_text (key x : list Z) : list Z :=
  key ++ lit ":" ++ (if Nat.ltb 0 (length ind) then lit " " else []) ++ x.

(* AppendValue of a finite value at level k *)
Fixpoint value_text (k : nat) (v : value) : list Z :=
  match v with
  | VSens _ => redacted
  | VArr l => braces k (map (value_text (S k)) l)
  | VMap m => braces k (map (fun e => entry_text (value_text (S k) (fst e)) (value_text (S k) (snd e))) m)
  | _ => leaf_text v
  end.

Variable g : graph.

Fixpoint texts (f : gval -> option (list Z)) (l : list gval) : option (list (list Z)) :=
  match l with
  | [] => Some []
  | x :: r => match f x, texts f r with Some t, Some ts => Some (t :: ts) | _, _ => None end
  end.

(* util/erpindenter.go:45-52, with TypeIdentifier().String() (dgo/typeidentifier.go:193-198) *)
Definition self_reference (x : gnode) : list Z :=
  lit "<recursive self reference to " ++ match x with GArr _ => lit "slice" | _ => lit "map" end ++ lit ">".

(* AppendValue of the indenter (util/indenter.go:93-102, [erp] = false) and of the one that is protected against
   recursion (util/erpindenter.go:41-62, [erp] = true). Entries are put into seen as well; they are reached through
   their map only, which is found there first. *)
Fixpoint text (n : nat) (erp : bool) (seen : list nat) (k : nat) (a : gval) : option (list Z) :=
  match n with
  | O => None
  | S n' =>
      match a with
      | GLeaf v => Some (leaf_text v)
      | GRef p =>
          match nth_error g p with
          | None => None
          | Some (GSens _) => Some redacted
          | Some x =>
              if erp && seen_before seen p then Some (self_reference x)
              else
                let t := text n' erp (seen ++ [p]) (S k) in
                match x with
                | GArr l => option_map (braces k) (texts t l)
                | GMap m =>
                    option_map (fun ts => braces k (map (fun e => entry_text (value_text (S k) (fst (fst e))) (snd e)) (combine m ts)))
                      (texts t (map snd m))
                | GSens _ => None
                end
          end
      end
  end.

(* String of what is in the buffer, util/indenter.go:52-75 *)
Definition finish (b : list Z) : list Z := fst (to_string b).

(* a.String(): array.go:1304-1306, map.go:784-786 (util/erpindenter.go:14-19, with ind empty; ToIndentedStringERP,
   erpindenter.go:23-28, with ind two blanks), sensitive.go:161-163, string.go:609-611, nil.go:43-45, and leaf_text for others *)
Definition string_of (n : nat) (a : gval) : option (list Z) :=
  match a with
  | GLeaf (VStr s) => Some s
  | GLeaf VNil => Some (lit "null")
  | GLeaf v => Some (leaf_text v)
  | GRef p => match nth_error g p with
              | Some (GSens _) => Some redacted
              | _ => option_map finish (text n true [] 0 a)
              end
  end.
End Print.
