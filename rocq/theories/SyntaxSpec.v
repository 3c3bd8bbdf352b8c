(* Which types are written so that the parser reads them back, stated on the types. *)
From Coq Require Import ZArith List Bool.
From Coq Require Import Floats.SpecFloat.
From Verif Require Import Int64 Utf8 Text TextSpec HMap Data Types Construct Print Lexer LexerSpec Syntax.
Import ListNotations.
Open Scope Z_scope.

(* An optional minus, digits, and a fraction, an exponent or both, as strconv.FormatFloat writes a number with the
   format G and Ftoa completes it; [expo] tells whether there is an exponent. *)
Definition float_shape (expo : bool) (s : list Z) : Prop :=
  exists sign ip fp ex,
    s = sign ++ ip ++ fp ++ ex /\ (sign = [] \/ sign = [45]) /\ ip <> [] /\ forallb is_digit ip = true /\
    (fp = [] \/ exists ds, fp = 46 :: ds /\ ds <> [] /\ forallb is_digit ds = true) /\
    (if expo then exists c ds, ex = 69 :: c :: ds /\ (c = 43 \/ c = 45) /\ ds <> [] /\ forallb is_digit ds = true else ex = [] /\ fp <> []).

Section Spec.
Variable E : env.

(* the number is written in such a form, and reading the text gives the number *)
Definition float_ok (expo : bool) (f : spec_float) : Prop := float_shape expo (e_ftoa E f) /\ e_float E (e_ftoa E f) = f.
(* UTF-8 without control characters other than tab, newline and carriage return *)
Definition text_ok (s : list Z) : Prop := exists cs, s = encode cs /\ Forall (literal_char (e_print E)) cs.

(* values whose type is written so that it is read back *)
Fixpoint readable_value (v : value) : Prop :=
  match v with
  | VBool _ => True
  | VInt z => in64 z
  | VFloat f => exists expo, float_ok expo f
  | VStr s => text_ok s
  | VArr l => l <> [] /\ fold_right and True (map readable_value l)
  | VMap m =>
      fold_right and True (map (fun e : value * value =>
        readable_value (fst e) /\ readable_value (snd e) /\ match fst e with VBool _ => False | _ => True end) m) /\
      ForallOrdPairs (fun e e' : value * value => veq (fst e') (fst e) = false) m
  | _ => False
  end.

Definition bounds (min max : Z) : Prop := 0 <= min /\ min <= max /\ max <= max_int64.
(* written with a leading operator *)
Definition prefixed (t : ty) : bool := match t with TNot _ _ | TCiStr _ => true | _ => false end.
(* read as a value instead of a type *)
Definition as_value (t : ty) : bool :=
  match t with TNil | TExact _ (VBool _ | VInt _ | VFloat _ | VStr _) => true | _ => false end.
(* a range that is written with leading dots, and a type that starts with one *)
Definition open_range (t : ty) : bool :=
  match t with
  | TIntRange min _ incl => (min =? min_int64) && negb incl
  | TFloatRange min _ incl => SFeqb min min_float && negb incl
  | _ => false
  end.
Definition starts_open (t : ty) : bool :=
  match t with TAnyOf _ (x :: _) | TOneOf _ (x :: _) | TAllOf _ (x :: _) => open_range x | _ => open_range t end.

Fixpoint readable (t : ty) : Prop :=
  match t with
  | TAny | TNil | TBool | TInt | TFloat | TString | TDgoString | TArray | TMap => True
  | TIntRange min max _ => in64 min /\ in64 max /\ min < max /\ ~ (min = min_int64 /\ max = max_int64)
  | TFloatRange min max _ =>
      SFltb min max = true /\ (min = min_float \/ SFeqb min min_float = false /\ float_ok false min) /\
      SFeqb max max_float = false /\ exists expo, float_ok expo max
  | TStrSized min max => bounds min max /\ ~ (min = 0 /\ max = max_int64)
  | TCiStr s => text_ok s /\ e_lower E s = s
  | TPattern s => (exists cs, s = encode cs /\ Forall pattern_char cs) /\ e_compiles E s = true
  | TBinary min max => min = 0 /\ max = max_int64
  | TExact _ v => readable_value v
  | TSens _ t => readable t /\ as_value t = false
  | TArrSized _ e min max =>
      readable e /\ bounds min max /\ ~ (min = 0 /\ max = max_int64 /\ e = TAny) /\ ~ (min = 1 /\ max = 1 /\ is_exact e = true) /\
      prefixed e = false
  | TTuple _ ts variadic =>
      fold_right and True (map readable ts) /\ ts <> [] /\ (variadic = false -> forallb is_exact ts = false) /\
      forallb (fun t => negb (starts_open t)) (if variadic then removelast ts else ts) = true
  | TMapSized _ k v min max =>
      readable k /\ readable v /\ bounds min max /\ ~ (min = 0 /\ max = max_int64 /\ k = TAny /\ v = TAny) /\ prefixed v = false
  | TStruct _ additional es =>
      fold_right and True (map (fun e : value * ty * bool =>
        readable_value (fst (fst e)) /\ readable (snd (fst e)) /\
        match fst (fst e) with VBool _ => False | VInt _ | VFloat _ => snd e = true | _ => True end) es) /\
      (additional = false -> forallb (fun e : value * ty * bool => snd e && is_exact (snd (fst e))) es = false)
  | TAllOf _ ts | TAnyOf _ ts | TOneOf _ ts => fold_right and True (map readable ts) /\ (2 <= length ts)%nat
  | TNot _ t => readable t /\ match t with TNot _ _ => False | _ => True end
  | TMeta (Some t) => readable t
  | TTime | TRegexp | TAllOfValue _ _ | TMeta None => False
  end.
End Spec.

(* The type that is read: all objects are new, except the package variables. *)
Fixpoint renewed (t : ty) : ty :=
  match t with
  | TExact _ v => TExact 0 v
  | TSens _ t => if is_any t then default_sensitive else TSens 0 (renewed t)
  | TArrSized _ e x y => TArrSized 0 (renewed e) x y
  | TTuple _ ts variadic => if variadic && Nat.eqb (length ts) 1 && forallb is_any ts then default_tuple else TTuple 0 (map renewed ts) variadic
  | TMapSized _ k v x y => TMapSized 0 (renewed k) (renewed v) x y
  | TStruct _ a es => TStruct 0 a (map (fun e : value * ty * bool => (fst (fst e), renewed (snd (fst e)), snd e)) es)
  | TAllOf _ ts => TAllOf 0 (map renewed ts)
  | TAllOfValue _ vs => TAllOfValue 0 vs
  | TAnyOf _ ts => TAnyOf 0 (map renewed ts)
  | TOneOf _ ts => TOneOf 0 (map renewed ts)
  | TNot _ t => TNot 0 (renewed t)
  | TMeta (Some t) => TMeta (Some (renewed t))
  | t => t
  end.
