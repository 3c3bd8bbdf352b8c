(* What callers of the registry of named types and of the default aliases may rely on. *)
From Coq Require Import ZArith List Bool.
From Verif Require Import Data Loader Registry.
Import ListNotations.

(* nobody removes the type with the name n *)
Definition not_removed (n : name) (a : raction) : Prop := match a with RCallRemove _ m => m <> n | _ => True end.

(* the successful registrations of the name n *)
Definition makes (n : name) (e : revent) : bool := match e with EMade _ t => bytes_eqb (n_name t) n | _ => false end.
Definition made (n : name) (log : list revent) : list revent := filter (makes n) log.

(* calls that tried to register the name n and have ended *)
Definition tried (n : name) (e : revent) : Prop :=
  match e with EMade _ t => n_name t = n | ERedefined _ m => m = n | _ => False end.

(* the type t is registered *)
Definition registered (s : rstate) (t : named) : Prop := get_key (r_types s) (n_name t) = Some t.

(* the type with number x, whatever aliases it mentioned *)
Definition is_number (x : Z) (t : atype) : Prop := match t with AType y _ => y = x | ARef _ => False end.
Definition is_type (t : atype) : Prop := match t with AType _ _ => True | ARef _ => False end.

(* what the last call that added the name n, if any, added *)
Fixpoint latest (n : name) (log : list aevent) : option atype :=
  match log with
  | [] => None
  | EAdded _ added :: r => match get_key added n with Some t => Some t | None => latest n r end
  | EAddPanic _ :: r => latest n r
  end.

(* what is expected of a name: the type that was added last. What a name that was added as another name of an
   alias stands for is left open but for being a type. *)
Definition expected (before last now : option atype) : Prop :=
  match last with
  | Some (AType x _) => exists t, now = Some t /\ is_number x t
  | Some (ARef _) => exists t, now = Some t /\ is_type t
  | None => now = before
  end.

Definition resolved (m : alias_map) : Prop := forall n t, alias_type m n = Some t -> is_type t.

(* an action that starts no call *)
Definition goes_on (a : aaction) : Prop := match a with ACall _ => False | _ => True end.

(* types and names belong together: a name that stands for a type can be found from the type, though it may be another name, and
   a type that has a name is no reference *)
Definition named_both_ways (m : alias_map) : Prop :=
  (forall n t, alias_type m n = Some t -> exists n', alias_name m t = Some n') /\
  (forall t n, alias_name m t = Some n -> is_type t /\ alias_type m n <> None).
