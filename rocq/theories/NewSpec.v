(* What New makes of its arguments. *)
From Coq Require Import Strings.Ascii Strings.String.
From Coq Require Import ZArith List Bool.
From Coq Require Import Floats.SpecFloat.
From Verif Require Import Int64 Data Types Print Convert.
Import ListNotations.
Open Scope Z_scope.

(* the kind of value that a type makes *)
Inductive family := FBool | FInt | FFloat | FString | FBinary | FTime | FArray | FMap | FSensitive | FType | FOther.
Definition family_of (t : ty) : family :=
  match t with
  | TBool | TExact _ (VBool _) => FBool
  | TInt | TIntRange _ _ _ | TExact _ (VInt _) => FInt
  | TFloat | TFloatRange _ _ _ | TExact _ (VFloat _) => FFloat
  | TString | TDgoString | TStrSized _ _ | TCiStr _ | TPattern _ | TExact _ (VStr _) => FString
  | TBinary _ _ | TExact _ (VBin _) => FBinary
  | TTime | TExact _ (VTime _ _ _) => FTime
  | TArray | TArrSized _ _ _ _ | TTuple _ _ _ | TExact _ (VArr _) => FArray
  | TMap | TMapSized _ _ _ _ _ | TStruct _ _ _ | TExact _ (VMap _) => FMap
  | TSens _ _ => FSensitive
  | TMeta _ => FType
  | _ => FOther
  end.

Definition arguments (a : argument) : list value := match a with AVal v => [v] | AArgs l => l end.

(* the number without its fraction; if that is no 64 bit integer, the least integer (as on amd64) *)
Definition truncated (f : spec_float) (z : Z) : Prop :=
  match f with
  | S754_zero _ => z = 0
  | S754_finite neg m e =>
      exists a, 0 <= a /\ a * 2 ^ Z.max 0 (- e) <= Zpos m * 2 ^ Z.max 0 e < (a + 1) * 2 ^ Z.max 0 (- e) /\
      let t := if neg then - a else a in (in64 t -> z = t) /\ (~ in64 t -> z = min_int64)
  | _ => z = min_int64
  end.

Section Spec.
Variables (W : world) (C : conv).

Definition is_word (words : list string) (s : list Z) : Prop := Exists (fun w => w_fold W (lit w) s = true) words.
Definition yes_words := ["true"; "yes"; "y"]%string.
Definition no_words := ["false"; "no"; "n"]%string.

Inductive int_of : value -> Z -> Z -> Prop :=
| int_same z r : int_of (VInt z) r z
| int_float f r z : truncated f z -> int_of (VFloat f) r z
| int_time s ns tz r : int_of (VTime s ns tz) r s
| int_true r : int_of (VBool true) r 1
| int_false r : int_of (VBool false) r 0
| int_text s r z : c_parse_int C s r = Some z -> int_of (VStr s) r z.

Inductive makes : family -> list value -> value -> Prop :=
| bool_same b : makes FBool [VBool b] (VBool b)
| bool_zero : makes FBool [VInt 0] (VBool false)
| bool_number z : z <> 0 -> makes FBool [VInt z] (VBool true)
| bool_float_zero s : makes FBool [VFloat (S754_zero s)] (VBool false)
| bool_float f : (forall s, f <> S754_zero s) -> makes FBool [VFloat f] (VBool true)
| bool_yes s : is_word yes_words s -> makes FBool [VStr s] (VBool true)
| bool_no s : is_word no_words s -> ~ is_word yes_words s -> makes FBool [VStr s] (VBool false)
| int_decimal v z : int_of v 10 z -> makes FInt [v] (VInt z)
| int_radix v r z : In r [2; 8; 10; 16] -> int_of v r z -> makes FInt [v; VInt r] (VInt z)
| float_same f : makes FFloat [VFloat f] (VFloat f)
| float_int z : makes FFloat [VInt z] (VFloat (float_of_int z))
| float_time s ns tz : makes FFloat [VTime s ns tz] (VFloat (c_seconds C s ns))
| float_true : makes FFloat [VBool true] (VFloat (float_of_int 1))
| float_false : makes FFloat [VBool false] (VFloat (S754_zero false))
| float_text s f : c_parse_float C s = Some f -> makes FFloat [VStr s] (VFloat f)
| string_same s : makes FString [VStr s] (VStr s)
| string_other v : (forall s, v <> VStr s) -> makes FString [v] (VStr (c_string C v))
| string_format v f s : c_format C v f = Some s -> makes FString [v; VStr f] (VStr s)
| binary_same s : makes FBinary [VBin s] (VBin s)
| binary_numbers l : Forall (fun b => 0 <= b < 256) l -> makes FBinary [VArr (map VInt l)] (VBin l)
| binary_text s b : b64_decode false true s = Some b -> makes FBinary [VStr s] (VBin b)
| binary_encoded s e enc b : c_encoding C e = Some enc -> binary_from_encoded (c_utf8 C) s enc = Some b -> makes FBinary [VStr s; VStr e] (VBin b)
| time_same s ns z : makes FTime [VTime s ns z] (VTime s ns z)
| time_int i : makes FTime [VInt i] (VTime i 0 (c_local C))
| time_float f s ns : c_time_of_float C f = (s, ns) -> makes FTime [VFloat f] (VTime s ns (c_local C))
| time_text x s ns z : c_time_of_string C x = Some (s, ns, z) -> makes FTime [VStr x] (VTime s ns z)
| array_same l : makes FArray [VArr l] (VArr l)
| array_map m : makes FArray [VMap m] (c_entries C m)
| map_same m : makes FMap [VMap m] (VMap m)
| map_array m : makes FMap [VArr (flat_map (fun e => [fst e; snd e]) m)] (VMap m)
| sensitive_same v : makes FSensitive [VSens v] (VSens v)
| sensitive_of v : (forall x, v <> VSens x) -> makes FSensitive [v] (VSens v)
| other_same v : makes FOther [v] v.
End Spec.
