(* Conversions of /repo/internal: go integers to Integer and back, the text form of a Binary and
   New. A panic is the result None. *)
From Coq Require Import ZArith List Bool.
From Coq Require Import Floats.SpecFloat.
From Verif Require Import Int64 HMap Data Types Assign.
Import ListNotations.
Open Scope Z_scope.

(* ---------- go integers ---------- *)

(* the integer types of Go; int and uint have 64 bits *)
Inductive go_int := KInt | KInt64 | KInt32 | KInt16 | KInt8 | KUint | KUint64 | KUint32 | KUint16 | KUint8.

(* the numbers of bits of a go integer and whether it is signed (Go language) *)
Definition bits (k : go_int) : Z :=
  match k with
  | KInt | KInt64 | KUint | KUint64 => 64
  | KInt32 | KUint32 => 32
  | KInt16 | KUint16 => 16
  | KInt8 | KUint8 => 8
  end.
Definition signed (k : go_int) : bool :=
  match k with KInt | KInt64 | KInt32 | KInt16 | KInt8 => true | _ => false end.

(* the conversion of an integer to the type k keeps the low bits (Go language) *)
Definition go_convert (k : go_int) (z : Z) : Z :=
  let m := z mod 2 ^ bits k in
  if signed k && (2 ^ (bits k - 1) <=? m) then m - 2 ^ bits k else m.

(* integer.go:376-412 ToInt *)
Definition to_int (k : go_int) (v : Z) : option Z :=
  match k with
  | KUint | KUint64 => if v =? 18446744073709551615 then None else Some (go_convert KInt64 v)
  | _ => Some (go_convert KInt64 v)
  end.

(* integer.go:306-317 ReflectTo for a variable of the type k, 319-355 intPointer: SetInt and SetUint convert to
   the type of the variable without a check (package reflect) *)
Definition reflect_to (k : go_int) (v : Z) : Z :=
  if signed k then go_convert k v else go_convert k (go_convert KUint64 v).

(* ---------- base64 (package encoding/base64, trusted to be this) ---------- *)

(* the digits of StdEncoding and URLEncoding *)
Definition digit (url : bool) (n : Z) : Z :=
  if n <? 26 then 65 + n
  else if n <? 52 then 97 + (n - 26)
  else if n <? 62 then 48 + (n - 52)
  else if n =? 62 then (if url then 45 else 43)
  else (if url then 95 else 47).
Definition undigit (url : bool) (c : Z) : option Z :=
  if (65 <=? c) && (c <=? 90) then Some (c - 65)
  else if (97 <=? c) && (c <=? 122) then Some (c - 97 + 26)
  else if (48 <=? c) && (c <=? 57) then Some (c - 48 + 52)
  else if c =? (if url then 45 else 43) then Some 62
  else if c =? (if url then 95 else 47) then Some 63
  else None.

Fixpoint b64_encode (url : bool) (s : list Z) : list Z :=
  let d := digit url in
  match s with
  | [] => []
  | [x] => [d (x / 4); d ((x mod 4) * 16); 61; 61]
  | [x; y] => [d (x / 4); d ((x mod 4) * 16 + y / 16); d ((y mod 16) * 4); 61]
  | x :: y :: z :: r =>
      d (x / 4) :: d ((x mod 4) * 16 + y / 16) :: d ((y mod 16) * 4 + z / 64) :: d (z mod 64) :: b64_encode url r
  end.

(* newline characters are skipped *)
Definition b64_clean (s : list Z) : list Z := filter (fun c => negb ((c =? 10) || (c =? 13))) s.

(* groups of four digits, the last may be padded; strict: the unused bits must be zero *)
Fixpoint b64_groups (url strict : bool) (s : list Z) : option (list Z) :=
  match s with
  | [] => Some []
  | a :: b :: c :: e :: r =>
      match undigit url a, undigit url b with
      | Some a, Some b =>
          if c =? 61 then
            if (e =? 61) && (match r with [] => true | _ => false end) && (negb strict || (b mod 16 =? 0))
            then Some [a * 4 + b / 16] else None
          else match undigit url c with
               | None => None
               | Some c =>
                   if e =? 61 then
                     if (match r with [] => true | _ => false end) && (negb strict || (c mod 4 =? 0))
                     then Some [a * 4 + b / 16; (b mod 16) * 16 + c / 4] else None
                   else match undigit url e, b64_groups url strict r with
                        | Some e, Some l => Some (a * 4 + b / 16 :: (b mod 16) * 16 + c / 4 :: (c mod 4) * 64 + e :: l)
                        | _, _ => None
                        end
               end
      | _, _ => None
      end
  | _ => None
  end.
Definition b64_decode (url strict : bool) (s : list Z) : option (list Z) := b64_groups url strict (b64_clean s).

(* binary.go:330-332 Encode; AppendTo and String use it (binary.go) *)
Definition encode_binary (s : list Z) : list Z := b64_encode false s.

(* the encoding specifiers %B %b %u %s %r *)
Inductive encoding := EncB | Encb | Encu | Encs | Encr.

(* binary.go:243-268 BinaryFromEncoded; [utf8] is utf8.ValidString *)
Definition binary_from_encoded (utf8 : list Z -> bool) (str : list Z) (enc : encoding) : option (list Z) :=
  match enc with
  | Encb => b64_decode false false str
  | Encu => b64_decode true false str
  | EncB => b64_decode false true str
  | Encs => if utf8 str then Some str else None
  | Encr => Some str
  end.

(* ---------- New ---------- *)

(* functions of other libraries: strconv.ParseInt and ParseFloat, int64(float64), String() of a value and
   fmt.Sprintf (for a valid format), utf8.ValidString, the time of a float and of a string, seconds of a
   time as a float, the local time zone, the array of the entries of a map *)
Record conv := {
  c_parse_int : list Z -> Z -> option Z;
  c_parse_float : list Z -> option spec_float;
  c_string : value -> list Z;
  c_format : value -> list Z -> option (list Z);
  c_utf8 : list Z -> bool;
  c_encoding : list Z -> option encoding;
  c_time_of_float : spec_float -> Z * Z;
  c_time_of_string : list Z -> option (Z * Z * Z);
  c_seconds : Z -> Z -> spec_float;
  c_local : Z;
  c_entries : list (value * value) -> value
}.

(* the argument of New: a value or Arguments with values (arguments.go:7-9) *)
Inductive argument := AVal (v : value) | AArgs (l : list value).

Section New.
Variables (W : world) (C : conv) (n : nat) (p : ptr).

(* if !t.Instance(x) { panic(IllegalAssignment(t, x)) } at the end of each constructor; also None
   when the model of Instance has too little fuel *)
Definition checked (t : ty) (x : value) : option value :=
  match instance W n p t x with Some true => Some x | _ => None end.

(* args.AssertSize(name, 1, 1); arg = args.Get(0), arguments.go:22-27, e.g. float.go:337-340 *)
Definition one_arg (a : argument) : option value :=
  match a with AVal v => Some v | AArgs [v] => Some v | AArgs _ => None end.

(* boolean.go:189-213 newBoolean with 189-190; the words true yes y and false no n *)
Definition new_boolean (t : ty) (a : argument) : option value :=
  match one_arg a with
  | None => None
  | Some v =>
    match v with
    | VBool b => checked t (VBool b)
    | VInt z => checked t (VBool (negb (z =? 0)))
    | VFloat f => checked t (VBool (negb (SFeqb f (S754_zero false))))
    | VStr s =>
        let yes := existsb (fun w => w_fold W w s) [[116; 114; 117; 101]; [121; 101; 115]; [121]] in
        let no := existsb (fun w => w_fold W w s) [[102; 97; 108; 115; 101]; [110; 111]; [110]] in
        if yes || no then checked t (VBool yes) else None
    | _ => None
    end
  end.

(* integer.go:433-452 intFromConvertible *)
Definition int_from (v : value) (radix : Z) : option Z :=
  match v with
  | VInt z => Some z
  | VFloat f => Some (float_to_int f)
  | VTime s _ _ => Some s
  | VBool b => Some (if b then 1 else 0)
  | VStr s => c_parse_int C s radix
  | _ => None
  end.
(* integer.go:416-431 newInt; radixType is 2|8|10|16 *)
Definition new_int (t : ty) (a : argument) : option value :=
  let i := match a with
           | AVal v => int_from v 10
           | AArgs [v] => int_from v 10
           | AArgs [v; VInt r] => if existsb (Z.eqb r) [2; 8; 10; 16] then int_from v r else None
           | AArgs _ => None
           end in
  match i with Some z => checked t (VInt z) | None => None end.

(* float.go:348-367 floatFromConvertible, 336-346 newFloat *)
Definition float_from (v : value) : option spec_float :=
  match v with
  | VFloat f => Some f
  | VInt z => Some (float_of_int z)
  | VTime s ns _ => Some (c_seconds C s ns)
  | VBool b => Some (if b then float_of_int 1 else S754_zero false)
  | VStr s => c_parse_float C s
  | _ => None
  end.
Definition new_float (t : ty) (a : argument) : option value :=
  match one_arg a with
  | None => None
  | Some v => match float_from v with Some f => checked t (VFloat f) | None => None end
  end.

(* string.go:53-79 newString *)
Definition new_string (t : ty) (a : argument) : option value :=
  let of_value v := match v with VStr s => checked t (VStr s) | _ => checked t (VStr (c_string C v)) end in
  match a with
  | AVal v => of_value v
  | AArgs [v] => of_value v
  | AArgs [v; VStr f] => match c_format C v f with Some s => checked t (VStr s) | None => None end
  | AArgs _ => None
  end.

(* binary.go:193-202, the elements of an array as bytes *)
Fixpoint to_bytes (l : list value) : option (list Z) :=
  match l with
  | [] => Some []
  | VInt z :: r => if (0 <=? z) && (z <=? 255) then option_map (cons z) (to_bytes r) else None
  | _ => None
  end.
(* binary.go:184-218 newBinary *)
Definition new_binary (t : ty) (a : argument) : option value :=
  let from v enc :=
    match v with
    | VBin s => checked t (VBin s)
    | VArr l => match to_bytes l with Some s => checked t (VBin s) | None => None end
    | VStr s => match binary_from_encoded (c_utf8 C) s enc with Some b => checked t (VBin b) | None => None end
    | _ => None
    end in
  match a with
  | AVal v => from v EncB
  | AArgs [v] => from v EncB
  | AArgs [VStr s; VStr e] => match c_encoding C e with Some enc => from (VStr s) enc | None => None end
  | AArgs _ => None
  end.

(* time.go:95-118 newTime *)
Definition new_time (t : ty) (a : argument) : option value :=
  match one_arg a with
  | None => None
  | Some v =>
    match v with
    | VTime s ns z => checked t (VTime s ns z)
    | VInt i => checked t (VTime i 0 (c_local C))
    | VFloat f => let (s, ns) := c_time_of_float C f in checked t (VTime s ns (c_local C))
    | VStr s => match c_time_of_string C s with Some (s, ns, z) => checked t (VTime s ns z) | None => None end
    | _ => None
    end
  end.

(* array.go:777-787 newArray, Array (668-691); FrozenCopy does not change a value *)
Definition new_array (t : ty) (a : argument) : option value :=
  match one_arg a with
  | None => None
  | Some v =>
    match v with
    | VArr l => checked t (VArr l)
    | VMap m => checked t (c_entries C m)
    | _ => None
    end
  end.

(* array.go:1308-1339 ToMap: every key and value is appended, also when the key is there already *)
Fixpoint pairs (l : list value) : list (value * value) :=
  match l with k :: v :: r => (k, v) :: pairs r | _ => [] end.
(* map.go:215-230 newMap, mapFromArgs (232-271) for an array with an even number of elements *)
Definition new_map (t : ty) (a : argument) : option value :=
  match one_arg a with
  | None => None
  | Some v =>
    match v with
    | VMap m => checked t (VMap m)
    | VArr l => if Nat.even (length l) then checked t (VMap (pairs l)) else None
    | _ => None
    end
  end.

(* sensitive.go:87-96 New *)
Definition new_sensitive (a : argument) : option value :=
  match one_arg a with
  | None => None
  | Some (VSens v) => Some (VSens v)
  | Some v => Some (VSens v)
  end.

(* value.go:16-30 New for types that are no factories *)
Definition new_other (t : ty) (a : argument) : option value :=
  match one_arg a with Some v => checked t v | None => None end.

(* value.go:16-30 New, with the New methods of the types, e.g. integer.go:141. metaType.New (meta.go:76) makes a
   type, which is not a value of the model. *)
Definition new (t : ty) (a : argument) : option value :=
  match t with
  | TBool | TExact _ (VBool _) => new_boolean t a
  | TInt | TIntRange _ _ _ | TExact _ (VInt _) => new_int t a
  | TFloat | TFloatRange _ _ _ | TExact _ (VFloat _) => new_float t a
  | TString | TDgoString | TStrSized _ _ | TCiStr _ | TPattern _ | TExact _ (VStr _) => new_string t a
  | TBinary _ _ | TExact _ (VBin _) => new_binary t a
  | TTime | TExact _ (VTime _ _ _) => new_time t a
  | TArray | TArrSized _ _ _ _ | TTuple _ _ _ | TExact _ (VArr _) => new_array t a
  | TMap | TMapSized _ _ _ _ _ | TStruct _ _ _ | TExact _ (VMap _) => new_map t a
  | TSens _ _ => new_sensitive a
  | TMeta _ => None
  | _ => new_other t a
  end.
End New.
