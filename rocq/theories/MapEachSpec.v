(* What is expected of an iteration of a dictionary by a callback that changes the dictionary. *)
From Coq Require Import ZArith List Bool.
From Verif Require Import HMap HMapSpec MapEach.
Import ListNotations.

Section Spec.
Variables (K V : Type).
Variable keq : K -> K -> bool.

(* The callback puts values for keys that are there, and removes at most the entry that it is given. *)
Definition act_spec (k : K) (d : list (K * V)) (a : act K V) : option (list (K * V)) :=
  match a with
  | APut _ _ k' v => match dget K V keq d k' with Some _ => Some (dput K V keq d k' v) | None => None end
  | ARemove _ _ k' => if keq k' k then Some (dremove K V keq d k') else None
  end.
Fixpoint acts_spec (k : K) (d : list (K * V)) (l : list (act K V)) : option (list (K * V)) :=
  match l with [] => Some d | a :: r => match act_spec k d a with Some d' => acts_spec k d' r | None => None end end.
(* The keys are visited in order, each with the value that it has then. *)
Fixpoint each_spec (f : list (K * V) -> list (act K V)) (ks : list K) (d : list (K * V)) (seen : list (K * V)) : option (list (K * V) * list (K * V)) :=
  match ks with
  | [] => Some (d, rev seen)
  | k :: r =>
      match dget K V keq d k with
      | Some v => match acts_spec k d (f ((k, v) :: seen)) with Some d' => each_spec f r d' ((k, v) :: seen) | None => None end
      | None => None
      end
  end.
(* The callback puts anything, and at last may remove the entry that it is given. *)
Definition is_put (a : act K V) : Prop := match a with APut _ _ _ _ => True | ARemove _ _ _ => False end.
Definition may_remove_current (f : list (K * V) -> list (act K V)) : Prop :=
  forall k v seen, exists puts, Forall is_put puts /\
    (f ((k, v) :: seen) = puts \/ exists k', keq k' k = true /\ f ((k, v) :: seen) = puts ++ [ARemove K V k']).

(* New keys, as long as the table of [size] buckets does not grow. What is pending are the keys that are not yet visited; a new key becomes the last of
   them. [gone] tells if the callback has removed the entry that it is given. The result is None for what is not covered: the removal of another entry, a
   new entry for which there is no room, and a new entry or a second removal when the entry is gone and nothing is pending, or the key is there again. *)
Definition act_room (size : Z) (k : K) (st : list (K * V) * list K * bool) (a : act K V) : option (list (K * V) * list K * bool) :=
  match st with
  | (d, pending, gone) =>
      match a with
      | APut _ _ k' v =>
          match dget K V keq d k' with
          | Some _ => Some (dput K V keq d k' v, pending, gone)
          | None =>
              if (3 * size <? 4 * (Z.of_nat (length d) + 1))%Z || (gone && match pending with [] => true | _ => false end) then None
              else Some (d ++ [(k', v)], pending ++ [k'], gone)
          end
      | ARemove _ _ k' =>
          if keq k' k then
            if gone then match dget K V keq d k' with Some _ => None | None => Some st end
            else Some (dremove K V keq d k', pending, true)
          else None
      end
  end.
Fixpoint acts_room (size : Z) (k : K) (st : list (K * V) * list K * bool) (l : list (act K V)) : option (list (K * V) * list K * bool) :=
  match l with [] => Some st | a :: r => match act_room size k st a with Some st' => acts_room size k st' r | None => None end end.
Fixpoint each_room (size : Z) (fuel : nat) (f : list (K * V) -> list (act K V)) (pending : list K) (d seen : list (K * V)) : option (list (K * V) * list (K * V) * bool) :=
  match pending with
  | [] => Some (d, rev seen, true)
  | k :: r =>
      match fuel with
      | O => Some (d, rev seen, false)
      | S fuel =>
          match dget K V keq d k with
          | Some v =>
              match acts_room size k (d, r, false) (f ((k, v) :: seen)) with
              | Some (d', r', _) => each_room size fuel f r' d' ((k, v) :: seen)
              | None => None
              end
          | None => None
          end
      end
  end.
End Spec.
