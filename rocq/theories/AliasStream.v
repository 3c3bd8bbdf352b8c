(* Streaming of types with an alias map: emitType (/repo/streamer/streamer.go:178-194) with the rest of emitData, the case of the alias type in the
   decoder (/repo/streamer/decoder.go:71-77), and the alias map that is made of what the decoder adds (/repo/internal/alias.go).

   As in NamedStream.v the values are trees: no object, and no type, occurs twice. *)
From Coq Require Import ZArith List Bool.
From Verif Require Import Int64 Data Convert Graph Stream Json NamedStream.
Import ListNotations.
Open Scope Z_scope.

Section Emit.
Variable W : codec.
Variable D : dialect.
Variable C : consumer.
Variable op : options.
(* GetName of the alias map that is given to New (alias.go:183-188); types are known by their texts *)
Variable names : list Z -> option (list Z).

(* emitType, streamer.go:178-194: with an alias map, a type without a name makes a map of a key alone *)
Definition emit_type (lv : level) (t : list Z) (s : stream) : outcome (ev * stream) :=
  if o_aliases op then
    match names t with
    | Some n =>
        wrapped D (d_alias D) (fun s => do (e1, s) <- emit_string C lv n (bump s); do (e2, s) <- emit_string C lv t s; Done (EArr [e1; e2], s)) s
    | None => do (e1, s) <- add (VStr (d_type D)) (bump s); Done (EMap [e1], s)
    end
  else do (e1, s) <- add (VStr (d_type D)) (bump s); do (e2, s) <- add (VStr t) s; Done (EMap [e1; e2], s).

(* emitData, streamer.go:88-121, with the functions that emit_rv of NamedStream.v models *)
Fixpoint emit_al (lv : level) (x : rv) (s : stream) {struct x} : outcome (ev * stream) :=
  match x with
  | RLeaf v =>
      match v with
      | VStr t => emit_string C lv t s
      | VNil | VBool _ | VInt _ | VFloat _ => add v s
      | VRegexp _ => Panics
      | _ => Skips
      end
  | RBin b => if c_binary C then add (VBin b) s else if o_rich op then wrapped D (d_binary D) (emit_string C lv (encode_binary b)) s else Panics
  | RTime sec nsec zone =>
      if c_time C then add (VTime sec nsec zone) s
      else if o_rich op then wrapped D (d_time D) (emit_string C lv (w_format W sec nsec zone)) s else Panics
  | RArr l => do (es, s) <- emit_seq (emit_al lv) l (bump s); Done (EArr es, s)
  | RMap m =>
      if c_complex C || all_string_keys m then
        match ref_in D m with
        | Some i => Done (ERef i, s)
        | None => do (es, s) <- emit_pairs (emit_al lv) (emit_al (key_level lv)) m (bump s); Done (EMap es, s)
        end
      else if o_rich op then
        wrapped D (d_map D) (fun s => do (es, s) <- emit_pairs (emit_al lv) (emit_al NoDedup) m (bump s); Done (EArr es, s)) s
      else Panics
  | RSens x => if o_rich op then wrapped D (d_sensitive D) (emit_al lv x) s else Panics
  | RType t => emit_type lv t s
  | RObj name arg =>
      if o_rich op then
        match arg with
        | RMap m =>
            do (e1, s) <- add (VStr (d_type D)) (bump s);
            do (e2, s) <- add (VStr name) s;
            do (es, s) <- emit_pairs (emit_al lv) raw_key m s;
            Done (EMap (e1 :: e2 :: es), s)
        | _ => wrapped D name (emit_al lv arg) s
        end
      else Panics
  end.
(* Stream, streamer.go:73-79 *)
Definition emits_al (lv : level) (x : rv) : outcome ev := do (e, s) <- emit_al (start_level C lv) x (mk_stream [] 0); Done e.
End Emit.

(* the calls of Add(type, name) of the alias adder (alias.go:198-200), in order: name and type *)
Notation adds := (list (list Z * list Z)).

Section Decode.
Variable W : codec.
Variable D : dialect.
Variable M : makers.
(* whether DataDecoder is given an alias adder, decoder.go:75 *)
Variable adder : bool.

(* decode, decoder.go:43-86: the cases of decode_rv, and that of the alias type (71-77) *)
Definition decode_al (ts : list Z) (m : list (rv * rv)) (al : adds) : outcome (rv * adds) :=
  if negb (Nat.eqb (length m) 1) && negb (bytes_eqb ts (d_map D)) && negb (bytes_eqb ts (d_sensitive D)) && negb (bytes_eqb ts (d_binary D)) &&
     negb (bytes_eqb ts (d_time D)) && bytes_eqb ts (d_alias D) then
    match (match get_key (d_value D) m with Some x => x | None => RMap (without_key (d_type D) m) end) with
    | RArr (RLeaf (VStr n) :: RLeaf (VStr t) :: _) =>
        match m_type M t with
        | Some x => Done (x, if adder then match x with RType t' => al ++ [(n, t')] | _ => al end else al)
        | None => Panics
        end
    | RArr (_ :: RLeaf (VStr t) :: _) => if adder then Panics else match m_type M t with Some x => Done (x, al) | None => Panics end
    | _ => Panics
    end
  else do x <- decode_rv W D M ts m; Done (x, al).
(* AddMap of the decoder after the map has been added, decoder.go:36-40 *)
Definition decoded_al (m : list (rv * rv)) (al : adds) : outcome (rv * adds) :=
  match get_key (d_type D) m with Some (RLeaf (VStr ts)) => decode_al ts m al | _ => Done (RMap m, al) end.

Section All.
Variable f : ev -> list (option rv) * adds -> outcome (rv * (list (option rv) * adds)).
(* the calls of the consumer within AddArray or AddMap, basiccollector.go:34-65 *)
Fixpoint dec_all_al (l : list ev) (st : list (option rv) * adds) : outcome (list rv * (list (option rv) * adds)) :=
  match l with [] => Done ([], st) | e :: r => do (x, st) <- f e st; do (xs, st) <- dec_all_al r st; Done (x :: xs, st) end.
End All.
(* AddArray, AddMap, Add and AddRef: basiccollector.go:34-65, decoder.go:34-41 *)
Fixpoint dec_al (e : ev) (st : list (option rv) * adds) : outcome (rv * (list (option rv) * adds)) :=
  match e with
  | EAdd v => Done (of_value v, (fst st ++ [Some (of_value v)], snd st))
  | ERef i =>
      if i <? 0 then Panics
      else match nth_error (fst st) (Z.to_nat i) with Some (Some x) => Done (x, st) | Some None => Skips | None => Panics end
  | EArr l => do (xs, st) <- dec_all_al dec_al l (fst st ++ [None], snd st); Done (RArr xs, st)
  | EMap l =>
      do (xs, st) <- dec_all_al dec_al l (fst st ++ [None], snd st);
      do m <- put_entries (rv_pairs xs) [];
      do (x, al) <- decoded_al m (snd st);
      Done (x, (fst st, al))
  end.
(* DataDecoder and Value: decoder.go:18-23, basiccollector.go:26-30, 88-90 *)
Definition decodes_al (e : ev) : outcome (rv * adds) := do (x, st) <- dec_al e ([], []); Done (x, snd st).
End Decode.

(* aliasMap, alias.go:15-18: names of types and types of names *)
Record alias_table := { type_of_name : list (list Z * list Z); name_of_type : list (list Z * list Z) }.
(* Put and Get of a map of strings or types, see C01 *)
Fixpoint put_text (m : list (list Z * list Z)) (k v : list Z) : list (list Z * list Z) :=
  match m with [] => [(k, v)] | (k', v') :: r => if bytes_eqb k k' then (k', v) :: r else (k', v') :: put_text r k v end.
Fixpoint get_text (m : list (list Z * list Z)) (k : list Z) : option (list Z) :=
  match m with [] => None | (k', v) :: r => if bytes_eqb k k' then Some v else get_text r k end.
(* aliasAdder.Add, alias.go:198-200, for all calls *)
Definition adder_map (al : adds) : list (list Z * list Z) := fold_left (fun m a => put_text m (fst a) (snd a)) al [].
(* Collect and update, alias.go:150-180; the types contain no references, so that Replace returns them *)
Definition collect (a : alias_table) (al : adds) : alias_table :=
  match adder_map al with
  | [] => a
  | ns => fold_left (fun a e => {| type_of_name := put_text (type_of_name a) (fst e) (snd e); name_of_type := put_text (name_of_type a) (snd e) (fst e) |}) ns a
  end.
