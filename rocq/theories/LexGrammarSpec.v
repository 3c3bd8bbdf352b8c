(* The tokens of the type language as a grammar on characters: which characters spell a token, and what may follow it. *)
From Coq Require Import ZArith List Bool.
From Verif Require Import Utf8 Text TextSpec Lexer.
Import ListNotations.
Open Scope Z_scope.

Definition digit (c : Z) : Prop := 48 <= c <= 57.
Definition hex (c : Z) : Prop := digit c \/ 65 <= c <= 70 \/ 97 <= c <= 102.
Definition letter (c : Z) : Prop := 65 <= c <= 90 \/ 97 <= c <= 122.
Definition word_start (c : Z) : Prop := letter c \/ c = 36 \/ c = 95.
Definition word_char (c : Z) : Prop := word_start c \/ digit c.
(* blank, tab and newline *)
Definition space (c : Z) : Prop := In c [32; 9; 10].
(* one or more *)
Definition some_of (P : Z -> Prop) (l : list Z) : Prop := l <> [] /\ Forall P l.
(* the text does not start with such a character *)
Definition no_start (P : Z -> Prop) (l : list Z) : Prop := match l with [] => True | c :: _ => ~ P c end.

(* between double quotes: the spelling and the characters that it stands for *)
Inductive quoted_text : list Z -> list Z -> Prop :=
  | q_none : quoted_text [] []
  | q_char c s t : ~ In c [0; 10; 34; 92] -> quoted_text s t -> quoted_text (c :: s) (c :: t)
  | q_escape e c s t : In (e, c) [(110, 10); (114, 13); (116, 9); (92, 92); (34, 34)] -> quoted_text s t -> quoted_text (92 :: e :: s) (c :: t).
(* between slashes *)
Inductive pattern_text : list Z -> list Z -> Prop :=
  | p_none : pattern_text [] []
  | p_char c s t : ~ In c [0; 10; 47; 92] -> pattern_text s t -> pattern_text (c :: s) (c :: t)
  | p_slash s t : pattern_text s t -> pattern_text (92 :: 47 :: s) (47 :: t)
  | p_escape c s t : ~ In c [0; 47] -> pattern_text s t -> pattern_text (92 :: c :: s) (92 :: c :: t).

(* what follows a number: no digit, e, E, x or X, and a dot only if another follows *)
Definition number_ends (rest : list Z) : Prop :=
  no_start (fun c => digit c \/ In c [101; 69; 120; 88]) rest /\ (forall r, rest = 46 :: r -> exists r', r = 46 :: r').
(* what follows an exponent: no digit, letter or dot *)
Definition exponent_ends (rest : list Z) : Prop := no_start (fun c => digit c \/ letter c \/ c = 46) rest.
(* e or E, a sign, digits *)
Definition exponent_text (s : list Z) : Prop :=
  exists e sign ds, s = e :: sign ++ ds /\ In e [101; 69] /\ In sign [[]; [43]; [45]] /\ some_of digit ds.
Inductive number_text : list Z -> Z -> list Z -> Prop :=
  | n_integer ds rest : some_of digit ds -> number_ends rest -> number_text ds t_integer rest
  | n_hex ds x hs rest : some_of digit ds -> hd 0 ds = 48 -> In x [120; 88] -> some_of hex hs -> no_start hex rest -> number_text (ds ++ x :: hs) t_integer rest
  | n_exponent ds e rest : some_of digit ds -> exponent_text e -> exponent_ends rest -> number_text (ds ++ e) t_float rest
  | n_fraction ds fs rest : some_of digit ds -> some_of digit fs -> number_ends rest -> number_text (ds ++ 46 :: fs) t_float rest
  | n_both ds fs e rest : some_of digit ds -> some_of digit fs -> exponent_text e -> exponent_ends rest -> number_text (ds ++ 46 :: fs ++ e) t_float rest.

(* a token, its spelling and what follows *)
Inductive item : list Z -> token -> list Z -> Prop :=
  | i_raw s rest : ~ In 96 s -> ~ In 0 s -> item (96 :: s ++ [96]) (mk_token (encode s) t_string) rest
  | i_quoted s t rest : quoted_text s t -> item (34 :: s ++ [34]) (mk_token (encode t) t_string) rest
  | i_pattern s t rest : pattern_text s t -> item (47 :: s ++ [47]) (mk_token (encode t) t_regexp) rest
  | i_dots3 rest : item [46; 46; 46] (mk_token [46; 46; 46] t_dotdotdot) rest
  | i_dots2 rest : no_start (eq 46) rest -> item [46; 46] (mk_token [46; 46] t_dotdot) rest
  | i_dot rest : no_start (eq 46) rest -> item [46] (mk_token [] 46) rest
  | i_word c s rest : word_start c -> Forall word_char s -> no_start word_char rest -> item (c :: s) (mk_token (c :: s) t_identifier) rest
  | i_number s ty rest : number_text s ty rest -> item s (mk_token s ty) rest
  | i_plus s ty rest : number_text s ty rest -> item (43 :: s) (mk_token s ty) rest
  | i_minus s ty rest : number_text s ty rest -> item (45 :: s) (mk_token (45 :: s) ty) rest
  | i_char c rest : ~ In c [0; 32; 9; 10; 96; 34; 47; 46; 45; 43] -> ~ digit c -> ~ word_start c -> item [c] (mk_token [] c) rest.

(* the next token, after spaces *)
Definition token_at (cs : list Z) (t : token) (rest : list Z) : Prop :=
  exists bs s, cs = bs ++ s ++ rest /\ Forall space bs /\ item s t rest.
(* nothing but spaces, or a zero *)
Definition at_end (cs : list Z) : Prop := exists bs, Forall space bs /\ (cs = bs \/ exists r, cs = bs ++ 0 :: r).
(* the tokens of a text *)
Inductive lexes : list Z -> lexed -> Prop :=
  | lexes_end cs : at_end cs -> lexes cs LEnd
  | lexes_token cs t rest l : token_at cs t rest -> lexes rest l -> lexes cs (LTok t l)
  | lexes_panic cs : ~ at_end cs -> (forall t rest, ~ token_at cs t rest) -> lexes cs LPanic.
