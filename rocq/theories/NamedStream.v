(* Streaming of objects with named types: emitNamed (/repo/streamer/streamer.go:123-141) and the rest of emitData, and the
   decoder (/repo/streamer/decoder.go), on finite values.

   The values are trees: no object occurs twice, so process (streamer.go:147-159) finds strings only. That process panics for objects of
   Go types that cannot be keys of Go maps is not modelled. *)
From Coq Require Import ZArith List Bool.
From Verif Require Import Int64 Data Convert Graph Stream Json.
Import ListNotations.
Open Scope Z_scope.

(* A dgo.Value: nil, a boolean, integer, float or string; a binary; a time; an array; a map; a sensitive value; a type, of which only the text is
   known; an object of a named type with the given name, of which only the result of ExtractInitArg (named.go:144-149) is known. *)
Inductive rv :=
| RLeaf (v : value)
| RBin (b : list Z)
| RTime (sec nsec zone : Z)
| RArr (l : list rv)
| RMap (m : list (rv * rv))
| RSens (x : rv)
| RType (t : list Z)
| RObj (name : list Z) (arg : rv).

(* what applications and other parts of dgo do: New of a named type (named.go:129-131), and ParseType of the dialect (dialect.go:91-93). None is a panic. *)
Record makers := { m_new : list Z -> rv -> option rv; m_type : list Z -> option rv }.

(* a value of Data.v as a tree *)
Fixpoint of_value (v : value) : rv :=
  match v with
  | VBin b => RBin b
  | VTime s n z => RTime s n z
  | VArr l => RArr (map of_value l)
  | VMap m => RMap (map (fun e => (of_value (fst e), of_value (snd e))) m)
  | VSens x => RSens (of_value x)
  | v => RLeaf v
  end.
(* and back; a tree with types or objects in it is no value of Data.v *)
Section Opt.
Context {A B : Type}.
Variable f : A -> option B.
Fixpoint opt_list (l : list A) : option (list B) :=
  match l with [] => Some [] | x :: r => match f x, opt_list r with Some y, Some ys => Some (y :: ys) | _, _ => None end end.
Fixpoint opt_pairs (l : list (A * A)) : option (list (B * B)) :=
  match l with
  | [] => Some []
  | (k, v) :: r => match f k, f v, opt_pairs r with Some k, Some v, Some r => Some ((k, v) :: r) | _, _, _ => None end
  end.
End Opt.
Fixpoint to_value (x : rv) : option value :=
  match x with
  | RLeaf v => Some v
  | RBin b => Some (VBin b)
  | RTime s n z => Some (VTime s n z)
  | RArr l => match opt_list to_value l with Some vs => Some (VArr vs) | None => None end
  | RMap m => match opt_pairs to_value m with Some vs => Some (VMap vs) | None => None end
  | RSens x => match to_value x with Some v => Some (VSens v) | None => None end
  | RType _ | RObj _ _ => None
  end.

(* ---------- the streamer ---------- *)

Section Emit.
Variable W : codec.
Variable D : dialect.
Variable C : consumer.
Variable op : options.

(* EachWithIndex(func(elem, idx) { emitData(elem) }), streamer.go:206-214 *)
Section List.
Variable f : rv -> stream -> outcome (ev * stream).
Fixpoint emit_seq (l : list rv) (s : stream) : outcome (list ev * stream) :=
  match l with
  | [] => Done ([], s)
  | x :: r => do (e, s) <- f x s; do (es, s) <- emit_seq r s; Done (e :: es, s)
  end.
(* EachEntry(func(e) { ...(e.Key()); emitData(e.Value()) }), streamer.go:131-134, 265-272, 286-289 *)
Variable fk : rv -> stream -> outcome (ev * stream).
Fixpoint emit_pairs (m : list (rv * rv)) (s : stream) : outcome (list ev * stream) :=
  match m with
  | [] => Done ([], s)
  | (k, v) :: r => do (ek, s) <- fk k s; do (e, s) <- f v s; do (es, s) <- emit_pairs r s; Done (ek :: e :: es, s)
  end.
End List.

(* StringKeys, map.go:788-795 *)
Definition is_string (x : rv) : bool := match x with RLeaf (VStr _) => true | _ => false end.
Definition all_string_keys (m : list (rv * rv)) : bool := forallb (fun e => is_string (fst e)) m.
(* value.Len() == 1 and value.Get(RefKey()).(dgo.Integer), streamer.go:256-261 *)
Definition ref_in (m : list (rv * rv)) : option Z :=
  match m with [(RLeaf (VStr k), RLeaf (VInt i))] => if bytes_eqb k (d_ref D) then Some i else None | _ => None end.
(* sc.addData(e.Key()), streamer.go:132: the key is not streamed, but given to the consumer *)
Definition raw_key (k : rv) (s : stream) : outcome (ev * stream) := match to_value k with Some v => add v s | None => Skips end.

(* emitData, streamer.go:88-121, with emitNamed 123-141, emitArray 206-214, emitMap 254-294, emitSensitive 296-309, emitBinary 235-252,
   emitTime 216-233 and emitType 178-194; alias maps are not modelled here *)
Fixpoint emit_rv (lv : level) (x : rv) (s : stream) {struct x} : outcome (ev * stream) :=
  match x with
  | RLeaf v =>
      match v with
      | VStr t => emit_string C lv t s
      | VNil | VBool _ | VInt _ | VFloat _ => add v s
      | VRegexp _ => Panics
      | _ => Skips
      end
  | RBin b => if c_binary C then add (VBin b) s else if o_rich op then wrapped D (d_binary D) (emit_string C lv (encode_binary b)) s else Panics
  | RTime sec nsec zone =>
      if c_time C then add (VTime sec nsec zone) s
      else if o_rich op then wrapped D (d_time D) (emit_string C lv (w_format W sec nsec zone)) s else Panics
  | RArr l => do (es, s) <- emit_seq (emit_rv lv) l (bump s); Done (EArr es, s)
  | RMap m =>
      if c_complex C || all_string_keys m then
        match ref_in m with
        | Some i => Done (ERef i, s)
        | None => do (es, s) <- emit_pairs (emit_rv lv) (emit_rv (key_level lv)) m (bump s); Done (EMap es, s)
        end
      else if o_rich op then
        wrapped D (d_map D) (fun s => do (es, s) <- emit_pairs (emit_rv lv) (emit_rv NoDedup) m (bump s); Done (EArr es, s)) s
      else Panics
  | RSens x => if o_rich op then wrapped D (d_sensitive D) (emit_rv lv x) s else Panics
  | RType t =>
      if o_aliases op then Skips
      else do (e1, s) <- add (VStr (d_type D)) (bump s); do (e2, s) <- add (VStr t) s; Done (EMap [e1; e2], s)
  | RObj name arg =>
      if o_rich op then
        match arg with
        | RMap m =>
            do (e1, s) <- add (VStr (d_type D)) (bump s);
            do (e2, s) <- add (VStr name) s;
            do (es, s) <- emit_pairs (emit_rv lv) raw_key m s;
            Done (EMap (e1 :: e2 :: es), s)
        | _ => wrapped D name (emit_rv lv arg) s
        end
      else Panics
  end.
(* Stream, streamer.go:73-79 *)
Definition emits_rv (lv : level) (x : rv) : outcome ev := do (e, s) <- emit_rv (start_level C lv) x (mk_stream [] 0); Done e.
End Emit.

(* ---------- the decoder ---------- *)

Section Decode.
Variable W : codec.
Variable D : dialect.
Variable M : makers.

(* ToMap, array.go:1308-1339 *)
Fixpoint rv_pairs (l : list rv) : list (rv * rv) :=
  match l with
  | k :: v :: r => (k, v) :: rv_pairs r
  | [k] => [(k, RLeaf VNil)]
  | [] => []
  end.
(* Equals of keys; not modelled for keys with objects or types *)
Definition same_key (a b : rv) : outcome bool :=
  match to_value a, to_value b with Some v, Some w => Done (veq v w) | _, _ => Skips end.
(* Put, see C01, and PutAll, map.go:640-676 *)
Fixpoint put_entry (m : list (rv * rv)) (k v : rv) : outcome (list (rv * rv)) :=
  match m with
  | [] => Done [(k, v)]
  | (k', v') :: r => do b <- same_key k k'; if b : bool then Done ((k', v) :: r) else do r <- put_entry r k v; Done ((k', v') :: r)
  end.
Fixpoint put_entries (l m : list (rv * rv)) : outcome (list (rv * rv)) :=
  match l with [] => Done m | (k, v) :: r => do m <- put_entry m k v; put_entries r m end.
(* m.Get(key) for a string *)
Fixpoint get_key (k : list Z) (m : list (rv * rv)) : option rv :=
  match m with
  | [] => None
  | (RLeaf (VStr t), v) :: r => if bytes_eqb k t then Some v else get_key k r
  | _ :: r => get_key k r
  end.
(* m.Without(key) *)
Definition without_key (k : list Z) (m : list (rv * rv)) : list (rv * rv) :=
  filter (fun e => match fst e with RLeaf (VStr t) => negb (bytes_eqb k t) | _ => true end) m.

(* decode, decoder.go:43-86. The map made of an array has no references to the map that is decoded. *)
Definition decode_rv (ts : list Z) (m : list (rv * rv)) : outcome rv :=
  if Nat.eqb (length m) 1 then match m_type M ts with Some x => Done x | None => Panics end
  else
    let mv := match get_key (d_value D) m with Some x => x | None => RMap (without_key (d_type D) m) end in
    if bytes_eqb ts (d_map D) then match mv with RArr l => Done (RMap (rv_pairs l)) | _ => Panics end
    else if bytes_eqb ts (d_sensitive D) then Done (RSens mv)
    else if bytes_eqb ts (d_binary D) then
      match mv with
      | RLeaf (VStr t) => match binary_from_encoded (fun _ => true) t EncB with Some b => Done (RBin b) | None => Panics end
      | _ => Panics
      end
    else if bytes_eqb ts (d_time D) then
      match mv with
      | RLeaf (VStr t) => match w_parse W t with Some (s, ns, z) => Done (RTime s ns z) | None => Panics end
      | _ => Panics
      end
    else if bytes_eqb ts (d_alias D) then Skips
    else if w_named W ts then match m_new M ts mv with Some x => Done x | None => Panics end else Panics.
(* AddMap of the decoder after the map has been added, decoder.go:36-40 *)
Definition decoded (m : list (rv * rv)) : outcome rv :=
  match get_key (d_type D) m with Some (RLeaf (VStr ts)) => decode_rv ts m | _ => Done (RMap m) end.

(* BasicCollector.Values (basiccollector.go:11-13); None is an array or a map, references to which are not modelled *)
Definition table := list (option rv).
Section All.
Variable f : ev -> table -> outcome (rv * table).
Fixpoint dec_all (l : list ev) (vs : table) : outcome (list rv * table) :=
  match l with [] => Done ([], vs) | e :: r => do (x, vs) <- f e vs; do (xs, vs) <- dec_all r vs; Done (x :: xs, vs) end.
End All.
(* AddArray, AddMap, Add and AddRef: basiccollector.go:34-65 *)
Fixpoint dec (e : ev) (vs : table) : outcome (rv * table) :=
  match e with
  | EAdd v => Done (of_value v, vs ++ [Some (of_value v)])
  | ERef i =>
      if i <? 0 then Panics
      else match nth_error vs (Z.to_nat i) with Some (Some x) => Done (x, vs) | Some None => Skips | None => Panics end
  | EArr l => do (xs, vs) <- dec_all dec l (vs ++ [None]); Done (RArr xs, vs)
  | EMap l =>
      do (xs, vs) <- dec_all dec l (vs ++ [None]);
      do m <- put_entries (rv_pairs xs) [];
      do x <- decoded m;
      Done (x, vs)
  end.
(* DataDecoder and Value: decoder.go:18-23, basiccollector.go:26-30, 88-90 *)
Definition decodes (e : ev) : outcome rv := do (x, vs) <- dec e []; Done x.
End Decode.

(* MarshalJSON (json.go:22-30) and UnmarshalJSON (json.go:35-52), with the tokens of Json.v *)
Section Text.
Variable whole : Floats.SpecFloat.spec_float -> option Z.
Variable to_float : Z -> Floats.SpecFloat.spec_float.
Definition marshal_rv (W : codec) (D : dialect) (x : rv) : outcome (list token) :=
  do e <- emits_rv W D json_consumer json_options NoKeyDedup x;
  do (ts, st) <- write whole e FirstInArray;
  Done ts.
Definition unmarshal_rv (W : codec) (D : dialect) (M : makers) (n : nat) (ts : list token) : outcome rv :=
  do e <- read to_float (d_ref D) n (filter significant ts);
  decodes W D M e.
End Text.
