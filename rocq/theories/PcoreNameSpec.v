(* What is expected of names. *)
From Coq Require Import ZArith List Bool.
From Verif Require Import Text Lexer.
Import ListNotations.
Open Scope Z_scope.

(* the lexer delivers the token *)
Fixpoint delivers (l : lexed) (t : token) : Prop := match l with LTok t' l' => t = t' \/ delivers l' t | _ => False end.
