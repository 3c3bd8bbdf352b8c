(* Which objects survive streaming, without saying how streaming works. *)
From Coq Require Import ZArith List Bool Floats.SpecFloat.
From Verif Require Import Int64 Utf8 TextSpec Data DataSpec Convert ConvertSpec Stream StreamSpec Json JsonSpec NamedStream.
Import ListNotations.
Open Scope Z_scope.

Definition every {A} (P : A -> Prop) (l : list A) : Prop := fold_right and True (map P l).
(* a string as a key *)
Definition text_key (t : list Z) : rv := RLeaf (VStr t).
(* the keys are values of Data.v, and no two of them are equal *)
Definition keys_ok (m : list (rv * rv)) : Prop := exists ks, map fst m = map of_value ks /\ distinct ks.
Definition only_strings (m : list (rv * rv)) : Prop := Forall (fun e => exists t, fst e = text_key t) m.

Section Spec.
Variable W : codec.
Variable D : dialect.
Variable C : consumer.
Variable M : makers.

(* not taken for something encoded, or for a reference *)
Definition unreserved (m : list (rv * rv)) : Prop :=
  (forall t, ~ In (text_key (d_type D), text_key t) m) /\ (forall i, m <> [(text_key (d_ref D), RLeaf (VInt i))]).
(* the name of a named type that is not one of the words of the dialect *)
Definition name_ok (name : list Z) : Prop := w_named W name = true /\ ~ In name [d_map D; d_sensitive D; d_binary D; d_time D; d_alias D].

(* New of the type of an object makes the object from what ExtractInitArg gives; that is not an empty map, and no map with
   the keys that the dialect uses. *)
Fixpoint streamable (x : rv) : Prop :=
  match x with
  | RLeaf v => simple v
  | RBin b => c_binary C = true \/ Forall byte b
  | RTime s n z => c_time C = true \/ w_parse W (w_format W s n z) = Some (s, n, z)
  | RArr l => every streamable l
  | RMap m => every (fun e => streamable (fst e) /\ streamable (snd e)) m /\ keys_ok m /\ (c_complex C = true \/ only_strings m -> unreserved m)
  | RSens x => streamable x
  | RType t => m_type M t = Some (RType t)
  | RObj name arg =>
      name_ok name /\ m_new M name arg = Some (RObj name arg) /\
      match arg with
      | RMap m =>
          m <> [] /\ keys_ok m /\ ~ In (text_key (d_type D)) (map fst m) /\ ~ In (text_key (d_value D)) (map fst m) /\
          every (fun e => streamable (snd e)) m
      | _ => streamable arg
      end
  end.

(* The map that ExtractInitArg gives for an object has strings as keys. *)
Fixpoint string_args (x : rv) : Prop :=
  match x with
  | RArr l => every string_args l
  | RMap m => every (fun e => string_args (fst e) /\ string_args (snd e)) m
  | RSens x => string_args x
  | RObj _ arg => match arg with RMap m => only_strings m /\ every (fun e => string_args (snd e)) m | _ => string_args arg end
  | _ => True
  end.
(* What JSON can write and read: see json_scalar and json_object. *)
Variable whole : spec_float -> option Z.
Fixpoint jsonable (x : rv) : Prop :=
  match x with
  | RLeaf v => json_scalar whole v
  | RBin b => Forall byte b
  | RTime s n z => utf8 (w_format W s n z)
  | RArr l => every jsonable l
  | RMap m => every (fun e => jsonable (fst e) /\ jsonable (snd e)) m /\ (forall k v r, m = (text_key k, v) :: r -> k <> d_ref D)
  | RSens x => jsonable x
  | RType t => utf8 t
  | RObj name arg => utf8 name /\ match arg with RMap m => every (fun e => jsonable (fst e) /\ jsonable (snd e)) m | _ => jsonable arg end
  end.
End Spec.
