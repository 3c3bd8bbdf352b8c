(* Specification of arrays as independent lists: every array is a flag and a list, an operation
   changes only the array it is called on, and new arrays get the next number. *)
From Coq Require Import ZArith List Bool.
From Verif Require Import HMap Slices.
Import ListNotations.
Open Scope Z_scope.

Section Spec.
Variable V : Type.
Variable eqc : V -> option V -> bool.
Variables fz th : V -> V.

Definition sworld := list (bool * list V).

Definition sarr (w : sworld) (a : nat) (f : bool -> list V -> sworld * res V) : sworld * res V :=
  match nth_error w a with None => (w, RBad V) | Some (fr, l) => f fr l end.

(* a mutation of array a: rejected when frozen *)
Definition smut (w : sworld) (a : nat) (f : list V -> option (list V * res V)) : sworld * res V :=
  sarr w a (fun fr l =>
    if fr then (w, RPanic V)
    else match f l with None => (w, RPanic V) | Some (l', r) => (upd w a (false, l'), r) end).

(* a new array *)
Definition snew (w : sworld) (fr : bool) (l : list V) : sworld * res V :=
  (w ++ [(fr, l)], RArr V (length w)).

Definition valid (i : Z) (l : list V) : bool := (0 <=? i) && (i <? Z.of_nat (length l)).

Definition remove_nth (l : list V) (n : nat) : list V := firstn n l ++ skipn (S n) l.

(* the position of the first element that v equals *)
Fixpoint position (v : V) (l : list V) : option nat :=
  match l with
  | [] => None
  | x :: r => if eqc v (Some x) then Some O
              else match position v r with None => None | Some n => Some (S n) end
  end.

Definition sstep (w : sworld) (o : op V) : sworld * res V :=
  match o with
  | OValues _ fr vs => snew w fr (if fr then map fz vs else vs)
  | OWithCapacity _ _ => snew w false []
  | OGet _ a i => sarr w a (fun _ l =>
      if valid i l then (w, RVal V (nth_error l (Z.to_nat i))) else (w, RPanic V))
  | OLen _ a => sarr w a (fun _ l => (w, RLen V (length l)))
  | OElems _ a => sarr w a (fun _ l => (w, RElems V (map Some l)))
  | OIndexOf _ a v => sarr w a (fun _ l =>
      (w, RLen V (match position v l with None => O | Some n => S n end)))
  | OFrozen _ a => sarr w a (fun fr _ => (w, RBool V fr))
  | OAdd _ a v => smut w a (fun l => Some (l ++ [v], RUnit V))
  | OAddAll _ a b => sarr w b (fun _ m => smut w a (fun l => Some (l ++ m, RUnit V)))
  | OAddValues _ a vs => smut w a (fun l => Some (l ++ vs, RUnit V))
  | OSet _ a i v => smut w a (fun l =>
      if valid i l then
        Some (firstn (Z.to_nat i) l ++ v :: skipn (S (Z.to_nat i)) l, RVal V (nth_error l (Z.to_nat i)))
      else None)
  | OInsert _ a i v => smut w a (fun l =>
      if (0 <=? i) && (i <=? Z.of_nat (length l)) then
        Some (firstn (Z.to_nat i) l ++ v :: skipn (Z.to_nat i) l, RUnit V)
      else None)
  | ORemove _ a i => smut w a (fun l =>
      if valid i l then Some (remove_nth l (Z.to_nat i), RVal V (nth_error l (Z.to_nat i)))
      else Some (l, RVal V None))
  | ORemoveValue _ a v => smut w a (fun l =>
      match position v l with
      | Some n => Some (remove_nth l n, RBool V true)
      | None => Some (l, RBool V false)
      end)
  | OPop _ a => smut w a (fun l => Some (removelast l, RVal V (last (map Some l) None)))
  | OSlice _ a i j => sarr w a (fun fr l =>
      if fr && (i =? 0) && (j =? Z.of_nat (length l)) then (w, RArr V a)
      else if (0 <=? i) && (i <=? j) && (j <=? Z.of_nat (length l)) then
        snew w fr (firstn (Z.to_nat (j - i)) (skipn (Z.to_nat i) l))
      else (w, RPanic V))
  | OWith _ a v => sarr w a (fun fr l => snew w fr (l ++ [v]))
  | OWithValues _ a vs => sarr w a (fun fr l =>
      match vs with
      | [] => (w, RArr V a)
      | _ => snew w fr (l ++ if fr then map fz vs else vs)
      end)
  | OWithAll _ a b => sarr w a (fun fr l => sarr w b (fun fr' m =>
      match m with
      | [] => (w, RArr V a)
      | _ => snew w fr (map th l ++ if fr && negb fr' then map fz m else m)
      end))
  | OCopy _ a fr => sarr w a (fun fr' l =>
      if fr && fr' then (w, RArr V a) else snew w fr (map (if fr then fz else th) l))
  | OFreeze _ a => sarr w a (fun _ l => (upd w a (true, l), RUnit V))
  | OMap _ a f => sarr w a (fun fr l => snew w fr (map (fun x => f (Some x)) l))
  | OSelect _ a keep p => sarr w a (fun fr l => snew w fr (filter (fun x => Bool.eqb (p (Some x)) keep) l))
  end.

Fixpoint srun (w : sworld) (os : list (op V)) : sworld * list (res V) :=
  match os with
  | [] => (w, [])
  | o :: r => let (w1, x) := sstep w o in let (w2, xs) := srun w1 r in (w2, x :: xs)
  end.

(* the operations of C14, on mutable arrays, and those that only read *)
Definition list_op (o : op V) : Prop :=
  match o with
  | OSlice _ _ _ _ | OWith _ _ _ | OWithValues _ _ _ => False
  | _ => True
  end.

(* the array an operation may change *)
Definition target (o : op V) : option nat :=
  match o with
  | OAdd _ a _ | OAddAll _ a _ | OAddValues _ a _ | OSet _ a _ _ | OInsert _ a _ _ | ORemove _ a _
  | ORemoveValue _ a _ | OPop _ a => Some a
  | _ => None
  end.

(* the operations that find no spare capacity they could write to or read: With and WithValues on
   a slice that fills its backing array, Slice up to the length *)
Definition no_spare (w : heap V) (o : op V) : Prop :=
  match o with
  | OWith _ a _ | OWithValues _ a _ =>
    forall x, nth_error (arrays V w) a = Some x -> cap V (bufs V w) (aslice x) = slen (aslice x)
  | OSlice _ a _ j =>
    forall x, nth_error (arrays V w) a = Some x -> j <= Z.of_nat (slen (aslice x))
  | _ => True
  end.
End Spec.
