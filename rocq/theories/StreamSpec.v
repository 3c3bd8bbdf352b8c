(* What streaming is about: the value that an object stands for, and graphs that are the same but for their addresses. *)
From Coq Require Import ZArith List Bool.
From Verif Require Import Int64 TextSpec Data DataSpec Graph GraphSpec Stream.
Import ListNotations.
Open Scope Z_scope.

(* nil, a boolean, an integer, a float or a string *)
Definition simple (v : value) : Prop := match v with VNil | VBool _ | VInt _ | VFloat _ | VStr _ => True | _ => False end.

(* x stands for the finite value v *)
Inductive meaning (g : objects) : sval -> value -> Prop :=
  | mean_simple v : simple v -> meaning g (SVal v) v
  | mean_arr p l vs : nth_error g p = Some (SArr l) -> Forall2 (meaning g) l vs -> meaning g (SRef p) (VArr vs)
  | mean_map p m ws : nth_error g p = Some (SMap m) ->
      Forall2 (fun e w => meaning g (fst e) (fst w) /\ meaning g (snd e) (snd w)) m ws -> meaning g (SRef p) (VMap ws)
  | mean_sens p x v : nth_error g p = Some (SSens x) -> meaning g x v -> meaning g (SRef p) (VSens v)
  | mean_bin p b : nth_error g p = Some (SBin b) -> meaning g (SRef p) (VBin b)
  | mean_time p a b z : nth_error g p = Some (STime a b z) -> meaning g (SRef p) (VTime a b z).

(* a simple value or the address of an object *)
Definition valid (g : objects) (x : sval) : Prop := match x with SVal v => simple v | SRef p => (p < length g)%nat end.

(* no two keys of a map are equal *)
Definition distinct (ks : list value) : Prop := ForallOrdPairs (fun a b => veq b a = false) ks.

(* An object that needs no encoding for the consumer: no sensitive value and no type, binaries and times only if the consumer takes
   them. The keys of maps are finite, no two of them are equal, and they are strings unless the consumer takes others. The
   map is not taken for a reference, and its keys are as [ok] says. *)
Definition plain (ok : list value -> Prop) (D : dialect) (C : consumer) (g : objects) (x : snode) : Prop :=
  match x with
  | SArr l => Forall (valid g) l
  | SMap m =>
      Forall (fun e => valid g (fst e) /\ valid g (snd e)) m /\
      (exists ks, Forall2 (fun e k => meaning g (fst e) k) m ks /\ distinct ks /\ ok ks) /\
      (c_complex C = true \/ Forall (fun e => exists t, fst e = SVal (VStr t)) m) /\
      (forall i, m <> [(SVal (VStr (d_ref D)), SVal (VInt i))])
  | SSens _ => False
  | SBin _ => c_binary C = true
  | STime _ _ _ => c_time C = true
  | SType _ _ => False
  end.

(* The elements of an array and the values of a map. *)
Definition below (x : snode) : list sval :=
  match x with SArr l => l | SMap m => map snd m | SSens a => [a] | _ => [] end.
(* p can be reached from x by following elements of arrays and values of maps *)
Inductive reachable (g : objects) (x : sval) : nat -> Prop :=
  | reach_here p : x = SRef p -> reachable g x p
  | reach_more p q n : reachable g x p -> nth_error g p = Some n -> In (SRef q) (below n) -> reachable g x q.

(* y is x when the object at p has been copied to phi p. Binaries and times have no address in the copy. *)
Definition copied (g : objects) (phi : nat -> nat) (x : sval) (y : gval) : Prop :=
  match x with
  | SVal v => y = GLeaf v
  | SRef p => match nth_error g p with
              | Some (SBin b) => y = GLeaf (VBin b)
              | Some (STime a b z) => y = GLeaf (VTime a b z)
              | _ => y = GRef (phi p)
              end
  end.
Definition copied_node (g : objects) (phi : nat -> nat) (x : snode) (y : option gnode) : Prop :=
  match x with
  | SArr l => exists l', y = Some (GArr l') /\ Forall2 (copied g phi) l l'
  | SMap m => exists m', y = Some (GMap m') /\ Forall2 (fun e e' => meaning g (fst e) (fst e') /\ copied g phi (snd e) (snd e')) m m'
  | SSens a => exists b, y = Some (GSens b) /\ copied g phi a b
  | SBin _ | STime _ _ _ | SType _ _ => True
  end.
Definition compound (x : snode) : Prop := match x with SArr _ | SMap _ | SSens _ => True | _ => False end.

(* y is the same graph as x: everything that can be reached from x has been copied, and different objects to different
   addresses, so that two values are the same object in the copy if and only if they are in the original *)
Definition same_graph (g : objects) (x : sval) (h : graph) (y : gval) : Prop :=
  exists phi, copied g phi x y /\
    (forall p n, reachable g x p -> nth_error g p = Some n -> copied_node g phi n (nth_error h (phi p))) /\
    (forall p q n m, reachable g x p -> reachable g x q -> nth_error g p = Some n -> nth_error g q = Some m ->
       compound n -> compound m -> phi p = phi q -> p = q).

(* ---------- values that are encoded ---------- *)

(* The elements of an array, the keys and the values of a map. *)
Definition parts (x : snode) : list sval :=
  match x with SArr l => l | SMap m => map fst m ++ map snd m | SSens a => [a] | _ => [] end.

(* Has the object to be encoded for the consumer? *)
Definition encoded (C : consumer) (x : snode) : bool :=
  match x with
  | SArr _ => false
  | SMap m => negb (c_complex C || forallb (fun e => match fst e with SVal (VStr _) => true | _ => false end) m)
  | SSens _ => true
  | SBin _ => negb (c_binary C)
  | STime _ _ _ => negb (c_time C)
  | SType _ _ => true
  end.
(* An object that can be encoded: no type. The keys of maps are finite and no two of them are equal. A map that is not encoded has no
   key that says a type, and is not taken for a reference. The bytes of binaries are bytes, and times can be parsed. *)
Definition encodable (W : codec) (D : dialect) (C : consumer) (g : objects) (x : snode) : Prop :=
  match x with
  | SArr _ | SSens _ => True
  | SMap m =>
      (exists ks, Forall2 (fun e k => meaning g (fst e) k) m ks /\ distinct ks /\ (encoded C x = false -> ~ In (VStr (d_type D)) ks)) /\
      (forall i, m <> [(SVal (VStr (d_ref D)), SVal (VInt i))])
  | SBin b => encoded C x = true -> Forall byte b
  | STime sec nsec zone => encoded C x = true -> w_parse W (w_format W sec nsec zone) = Some (sec, nsec, zone)
  | SType _ _ => False
  end.
(* the words of the dialect are different *)
Definition proper (D : dialect) : Prop :=
  d_type D <> d_value D /\ NoDup [d_map D; d_sensitive D; d_binary D; d_time D].
(* the objects in a list that are encoded *)
Definition encoded_refs (C : consumer) (g : objects) (l : list sval) : list nat :=
  flat_map (fun x => match x with
                     | SRef p => match nth_error g p with Some n => if encoded C n then [p] else [] | None => [] end
                     | SVal _ => []
                     end) l.
(* no object that is encoded is referred to twice, by x or by the objects *)
Definition encoded_once (C : consumer) (g : objects) (x : sval) : Prop := NoDup (encoded_refs C g (x :: flat_map parts g)).
