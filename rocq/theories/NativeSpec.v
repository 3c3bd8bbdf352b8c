(* What is claimed of native values, without the functions of Native.v. *)
From Coq Require Import ZArith List Bool.
From Coq Require Import Floats.SpecFloat.
From Verif Require Import Int64 Data Native.
Import ListNotations.
Open Scope Z_scope.

(* Two addresses are related if they are the same, or by R. *)
Definition at_same (R : nat -> nat -> Prop) (p q : nat) : Prop := p = q \/ R p q.

(* The same value up to addresses: floats are compared like Go does it, functions are the same if there are none. *)
Inductive alike (R : nat -> nat -> Prop) : nval -> nval -> Prop :=
| al_bool b : alike R (NvBool b) (NvBool b)
| al_int z : alike R (NvInt z) (NvInt z)
| al_float f g : SFeqb f g = true -> alike R (NvFloat f) (NvFloat g)
| al_str s : alike R (NvStr s) (NvStr s)
| al_def t z : alike R (NvDef t z) (NvDef t z)
| al_chan t p : alike R (NvChan t p) (NvChan t p)
| al_func t : alike R (NvFunc t 0) (NvFunc t 0)
| al_arr t l l' : Forall2 (alike R) l l' -> alike R (NvArr t l) (NvArr t l')
| al_struct t fs gs : Forall2 (fun e e' => fst e = fst e' /\ alike R (snd e) (snd e')) fs gs -> alike R (NvStruct t fs) (NvStruct t gs)
| al_slice_nil t : alike R (NvSlice t None) (NvSlice t None)
| al_slice t p q : at_same R p q -> alike R (NvSlice t (Some p)) (NvSlice t (Some q))
| al_ptr_nil t : alike R (NvPtr t None) (NvPtr t None)
| al_ptr t p q : at_same R p q -> alike R (NvPtr t (Some p)) (NvPtr t (Some q))
| al_any_nil : alike R (NvAny None) (NvAny None)
| al_any x y : alike R x y -> alike R (NvAny (Some x)) (NvAny (Some y))
| al_iface_nil t : alike R (NvIface t None) (NvIface t None)
| al_iface t x y : alike R x y -> alike R (NvIface t (Some x)) (NvIface t (Some y))
| al_val p q : at_same R p q -> alike R (NvVal p) (NvVal q)
| al_hstr s k : alike R (NvHstr s k) (NvHstr s k).

(* A relation of addresses under which related cells are the same. *)
Definition matching (h : heap) (R : nat -> nat -> Prop) : Prop :=
  forall p q, R p q -> exists x y, cell h p = Some x /\ cell h q = Some y /\ alike R x y.
(* The same value, cycles included. *)
Definition same (h : heap) (a b : nval) : Prop := exists R, matching h R /\ alike R a b.

(* Without a NaN or a function, other than behind pointers, slices and dgo values. *)
Inductive plain : nval -> Prop :=
| pl_bool b : plain (NvBool b)
| pl_int z : plain (NvInt z)
| pl_float f : f <> S754_nan -> plain (NvFloat f)
| pl_str s : plain (NvStr s)
| pl_def t z : plain (NvDef t z)
| pl_chan t p : plain (NvChan t p)
| pl_func t : plain (NvFunc t 0)
| pl_arr t l : Forall plain l -> plain (NvArr t l)
| pl_struct t fs : Forall (fun e => plain (snd e)) fs -> plain (NvStruct t fs)
| pl_slice t p : plain (NvSlice t p)
| pl_ptr t p : plain (NvPtr t p)
| pl_any_nil : plain (NvAny None)
| pl_any x : plain x -> plain (NvAny (Some x))
| pl_iface_nil t : plain (NvIface t None)
| pl_iface t x : plain x -> plain (NvIface t (Some x))
| pl_val p : plain (NvVal p)
| pl_hstr s k : plain (NvHstr s k).

(* The addresses in a value: of slices, of pointers, of strings *)
Inductive kind := KSlice | KPtr | KStr.
Inductive refers : nval -> kind -> nat -> Prop :=
| rf_arr t l x k p : In x l -> refers x k p -> refers (NvArr t l) k p
| rf_struct t fs e k p : In e fs -> refers (snd e) k p -> refers (NvStruct t fs) k p
| rf_slice t p : refers (NvSlice t (Some p)) KSlice p
| rf_ptr t p : refers (NvPtr t (Some p)) KPtr p
| rf_any x k p : refers x k p -> refers (NvAny (Some x)) k p
| rf_iface t x k p : refers x k p -> refers (NvIface t (Some x)) k p
| rf_val p : refers (NvVal p) KStr p.

(* The cell that such an address must have *)
Definition fits (k : kind) (v : nval) : Prop :=
  match k, v with
  | KSlice, NvArr _ _ => True
  | KPtr, NvHstr _ _ => False
  | KPtr, _ => True
  | KStr, NvHstr _ _ => True
  | _, _ => False
  end.
Definition value_ok (h : heap) (v : nval) : Prop := forall k p, refers v k p -> exists x, cell h p = Some x /\ fits k x.
Definition heap_ok (h : heap) : Prop := forall p x, cell h p = Some x -> value_ok h x.

(* A value that vf.Value makes a native of: pointers are to structs *)
Definition proper (h : heap) (v : nval) : Prop :=
  match v with NvPtr _ (Some p) => exists t fs, cell h p = Some (NvStruct t fs) | _ => True end.

(* There are no cycles: addresses in a cell have smaller ranks. *)
Definition acyclic (h : heap) : Prop :=
  exists rank : nat -> nat, forall p x k q, cell h p = Some x -> refers x k q -> (rank q < rank p)%nat.

(* What becomes no native: numbers, strings and the like, unless reached through a field that is not exported; functions, nil, and slices of
   and pointers to such values *)
Inductive simple (h : heap) : bool -> nval -> Prop :=
| si_bool b : simple h true (NvBool b)
| si_int z : simple h true (NvInt z)
| si_float f : simple h true (NvFloat f)
| si_str s : simple h true (NvStr s)
| si_func ex t p : simple h ex (NvFunc t p)
| si_slice_nil ex t : simple h ex (NvSlice t None)
| si_slice ex t p u l : cell h p = Some (NvArr u l) -> Forall (simple h ex) l -> simple h ex (NvSlice t (Some p))
| si_ptr_nil ex t : simple h ex (NvPtr t None)
| si_ptr ex t p x : cell h p = Some x -> simple h ex x -> simple h ex (NvPtr t (Some p))
| si_any_nil ex : simple h ex (NvAny None)
| si_any ex x : simple h ex x -> simple h ex (NvAny (Some x))
| si_iface_nil t : simple h true (NvIface t None)
| si_val p s k : cell h p = Some (NvHstr s k) -> simple h true (NvVal p).

(* What HashCode meets on its way, and whether all fields on the way are exported *)
Inductive meets (h : heap) : bool -> nval -> bool -> nval -> Prop :=
| me_self ex v : meets h ex v ex v
| me_field ex t fs e x ex' v : In (e, x) fs -> meets h (ex && e) x ex' v -> meets h ex (NvStruct t fs) ex' v
| me_ptr ex t p x ex' v : cell h p = Some x -> meets h ex x ex' v -> meets h ex (NvPtr t (Some p)) ex' v
| me_any ex x ex' v : meets h ex x ex' v -> meets h ex (NvAny (Some x)) ex' v.
(* All slices that it meets are of simple elements. *)
Definition simple_slices (h : heap) (v : nval) : Prop :=
  forall ex t p, meets h true v ex (NvSlice t (Some p)) -> exists u l, cell h p = Some (NvArr u l) /\ Forall (simple h ex) l.

(* The hash codes of all strings are known. *)
Definition all_warm (h : heap) : Prop := forall p s k, cell h p = Some (NvHstr s k) -> k = string_hash s.

(* two heaps that differ in known hash codes only *)
Definition same_but_hashes (h h' : heap) : Prop :=
  forall p, match cell h p, cell h' p with
            | Some (NvHstr s _), Some (NvHstr s' _) => s = s'
            | x, y => x = y
            end.

(* ---------- types ---------- *)

(* Go types: the name determines a defined type, and the underlying type determines whether it is an interface and with which methods. *)
Definition one_world (a b : gtype) : Prop :=
  (gt_eqb a b = true -> a = b) /\
  (gt_under a = gt_under b -> gt_iface a = gt_iface b /\ (gt_iface a = true -> gt_methods a = gt_methods b)).
