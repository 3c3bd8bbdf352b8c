(* Streaming of values to consumers, /repo/streamer/streamer.go, basiccollector.go and decoder.go.

   A consumer never influences the streamer but through its four capabilities, and each function that the streamer hands
   to AddArray and AddMap is called once and at once. So the calls that a streamer makes form a list of trees, and a
   consumer is a function on them. *)
From Coq Require Import ZArith List Bool.
From Verif Require Import Int64 Data Convert Graph.
Import ListNotations.
Open Scope Z_scope.

(* ---------- what is streamed ---------- *)

(* A dgo.Value: nil, a boolean, integer, float or string, or a pointer to an object. (Regular expressions are kept
   here too; they cannot be streamed.) Functions, errors and values of named types are not modelled. *)
Inductive sval :=
  | SVal (v : value)
  | SRef (p : nat).
(* array (array.go:29-35), hashMap (map.go:57-65), sensitive (sensitive.go:10-12), binary (binary.go:20-24), timeVal (time.go:19),
   and a type with its String and the name that the alias map has for it *)
Inductive snode :=
  | SArr (l : list sval)
  | SMap (m : list (sval * sval))
  | SSens (x : sval)
  | SBin (s : list Z)
  | STime (sec nsec zone : Z)
  | SType (text : list Z) (alias : option (list Z)).
(* the object at address p is the p'th of the list *)
Definition objects := list snode.

(* What the consumer is called with: Add, AddArray, AddMap and AddRef, consumer.go:31-49. The capacities are left out. *)
Inductive ev :=
  | EAdd (v : value)
  | EArr (l : list ev)
  | EMap (l : list ev)
  | ERef (i : Z).

(* consumer.go:12-29 *)
Record consumer := { c_binary : bool; c_time : bool; c_complex : bool; c_threshold : Z }.
(* dialect.go:11-37, without ParseType *)
Record dialect := { d_type : list Z; d_value : list Z; d_ref : list Z; d_alias : list Z; d_binary : list Z; d_map : list Z; d_sensitive : list Z; d_time : list Z }.
(* Time.Format and time.Parse with time.RFC3339Nano (Go library), and which named types there are (tf.Named) *)
Record codec := { w_format : Z -> Z -> Z -> list Z; w_parse : list Z -> option (Z * Z * Z); w_named : list Z -> bool }.
(* Options.RichData (streamer.go:38-40), and whether an alias map is given to New (streamer.go:65-71) *)
Record options := { o_rich : bool; o_aliases : bool }.
(* streamer.go:11-21 *)
Inductive level := NoDedup | NoKeyDedup | MaxDedup.

(* Panics: the code panics. Stuck: the recursion is deeper than the bound given. Skips: not modelled. *)
Inductive outcome (A : Type) := Done (x : A) | Panics | Stuck | Skips.
Arguments Done {A}. Arguments Panics {A}. Arguments Stuck {A}. Arguments Skips {A}.
Definition bind {A B} (m : outcome A) (f : A -> outcome B) : outcome B :=
  match m with Done x => f x | Panics => Panics | Stuck => Stuck | Skips => Skips end.
Notation "'do' x <- m ; f" := (bind m (fun x => f)) (at level 200, x pattern, m at level 100, f at level 200).

(* a key of context.values (streamer.go:49): the pointer of an object, or a string *)
Inductive key := KPtr (p : nat) | KText (s : list Z).
Definition key_eqb (a b : key) : bool :=
  match a, b with KPtr p, KPtr q => Nat.eqb p q | KText s, KText t => bytes_eqb s t | _, _ => false end.
(* context.values and context.refIndex, streamer.go:47-53 *)
Record stream := mk_stream { seen : list (key * nat); next : nat }.
Definition bump (s : stream) : stream := mk_stream (seen s) (S (next s)).
Definition lookup (k : key) (l : list (key * nat)) : option nat :=
  match find (fun e => key_eqb k (fst e)) l with Some e => Some (snd e) | None => None end.

Section Emit.
Variable W : codec.
Variable D : dialect.
Variable C : consumer.
Variable op : options.
Variable g : objects.

(* addData, streamer.go:161-164 *)
Definition add (v : value) (s : stream) : outcome (ev * stream) := Done (EAdd v, bump s).
(* process, streamer.go:147-159 *)
Definition process (lv : level) (k : key) (doer : stream -> outcome (ev * stream)) (s : stream) : outcome (ev * stream) :=
  match lv with
  | NoDedup => doer s
  | _ => match lookup k (seen s) with
         | Some i => Done (ERef (Z.of_nat i), s)
         | None => doer (mk_stream ((k, next s) :: seen s) (next s))
         end
  end.
(* emitString, streamer.go:166-176 *)
Definition emit_string (lv : level) (t : list Z) (s : stream) : outcome (ev * stream) :=
  if c_threshold C <=? Z.of_nat (length t) then process lv (KText t) (add (VStr t)) s else add (VStr t) s.
(* addMap(2, func() { addData(TypeKey); addData(name); addData(ValueKey); inner }), e.g. streamer.go:301-307 *)
Definition wrapped (name : list Z) (inner : stream -> outcome (ev * stream)) (s : stream) : outcome (ev * stream) :=
  do (e1, s) <- add (VStr (d_type D)) (bump s);
  do (e2, s) <- add (VStr name) s;
  do (e3, s) <- add (VStr (d_value D)) s;
  do (e4, s) <- inner s;
  Done (EMap [e1; e2; e3; e4], s).

(* EachWithIndex(func(elem, idx) { emitData(elem) }) *)
Fixpoint emit_list (f : sval -> stream -> outcome (ev * stream)) (l : list sval) (s : stream) : outcome (list ev * stream) :=
  match l with
  | [] => Done ([], s)
  | x :: r => do (e, s) <- f x s; do (es, s) <- emit_list f r s; Done (e :: es, s)
  end.
(* EachEntry(func(e) { ...(e.Key()); emitData(e.Value()) }) *)
Fixpoint emit_entries (fk fv : sval -> stream -> outcome (ev * stream)) (m : list (sval * sval)) (s : stream) : outcome (list ev * stream) :=
  match m with
  | [] => Done ([], s)
  | (k, v) :: r =>
      do (ek, s) <- fk k s; do (e, s) <- fv v s; do (es, s) <- emit_entries fk fv r s; Done (ek :: e :: es, s)
  end.

(* StringKeys, map.go:788-795 *)
Definition is_text (x : sval) : bool := match x with SVal (VStr _) => true | _ => false end.
Definition string_keys (m : list (sval * sval)) : bool := forallb (fun e => is_text (fst e)) m.
(* value.Len() == 1 and value.Get(RefKey()).(dgo.Integer), streamer.go:256-261 *)
Definition ref_of (m : list (sval * sval)) : option Z :=
  match m with
  | [(SVal (VStr k), SVal (VInt i))] => if bytes_eqb k (d_ref D) then Some i else None
  | _ => None
  end.
(* the level for keys: emitDataNoDedup (streamer.go:81-86) if it is NoKeyDedup, streamer.go:266-270 *)
Definition key_level (lv : level) : level := match lv with NoKeyDedup => NoDedup | _ => lv end.

(* emitArray 206-214, emitMap 254-294, emitSensitive 296-309, emitBinary 235-252, emitTime 216-233, emitType 178-194;
   [f] is emitData. The array of an alias and a string is a new one and is not met again. *)
Definition emit_node (f : level -> sval -> stream -> outcome (ev * stream)) (lv : level) (p : nat) (x : snode) (s : stream) : outcome (ev * stream) :=
  match x with
  | SArr l => process lv (KPtr p) (fun s => do (es, s) <- emit_list (f lv) l (bump s); Done (EArr es, s)) s
  | SMap m =>
      if c_complex C || string_keys m then
        match ref_of m with
        | Some i => Done (ERef i, s)
        | None => process lv (KPtr p) (fun s => do (es, s) <- emit_entries (f (key_level lv)) (f lv) m (bump s); Done (EMap es, s)) s
        end
      else if o_rich op then
        process lv (KPtr p) (wrapped (d_map D) (fun s => do (es, s) <- emit_entries (f NoDedup) (f lv) m (bump s); Done (EArr es, s))) s
      else Panics
  | SSens x => process lv (KPtr p) (fun s => if o_rich op then wrapped (d_sensitive D) (f lv x) s else Panics) s
  | SBin b =>
      process lv (KPtr p) (fun s =>
        if c_binary C then add (VBin b) s
        else if o_rich op then wrapped (d_binary D) (emit_string lv (encode_binary b)) s else Panics) s
  | STime sec nsec zone =>
      process lv (KPtr p) (fun s =>
        if c_time C then add (VTime sec nsec zone) s
        else if o_rich op then wrapped (d_time D) (emit_string lv (w_format W sec nsec zone)) s else Panics) s
  | SType t alias =>
      process lv (KPtr p) (fun s =>
        do (e1, s) <- add (VStr (d_type D)) (bump s);
        if o_aliases op then
          match alias with
          | Some a =>
              do (e2, s) <- add (VStr (d_alias D)) s;
              do (e3, s) <- add (VStr (d_value D)) s;
              do (e4, s) <- emit_string lv a (bump s);
              do (e5, s) <- emit_string lv t s;
              Done (EMap [e1; e2; e3; EArr [e4; e5]], s)
          | None => Done (EMap [e1], s)
          end
        else do (e2, s) <- add (VStr t) s; Done (EMap [e1; e2], s)) s
  end.

(* emitData, streamer.go:88-121; [n] bounds the depth of the recursion *)
Fixpoint emit (n : nat) (lv : level) (x : sval) (s : stream) : outcome (ev * stream) :=
  match n with
  | O => Stuck
  | S n =>
      match x with
      | SVal (VStr t) => emit_string lv t s
      | SVal ((VNil | VBool _ | VInt _ | VFloat _) as v) => add v s
      | SVal (VRegexp _) => Panics
      | SVal _ => Skips
      | SRef p => match nth_error g p with Some x => emit_node (emit n) lv p x s | None => Skips end
      end
  end.

(* Stream, streamer.go:73-79 *)
Definition start_level (lv : level) : level := match lv with MaxDedup => if c_complex C then MaxDedup else NoKeyDedup | _ => lv end.
Definition emits (n : nat) (lv : level) (x : sval) : outcome ev :=
  do (e, s) <- emit n (start_level lv) x (mk_stream [] 0); Done e.
End Emit.

(* ---------- collectors ---------- *)

(* An entry of BasicCollector.Stack: an array that is filled, or an array that is used up when the map is complete
   (basiccollector.go:45-54); the first entry, Stack[0], is a FTemp too. *)
Inductive frame :=
  | FArr (p : nat)
  | FTemp (l : list gval).
(* basiccollector.go:9-16, and the objects made so far. The top of the stack is the first of the list. *)
Record coll := mk_coll { heap : graph; vals : list gval; stack : list frame }.

Fixpoint set_node (h : graph) (p : nat) (x : gnode) : graph :=
  match h, p with
  | [], _ => []
  | _ :: r, O => x :: r
  | y :: r, S p => y :: set_node r p x
  end.
(* StackTop().Add(x) *)
Definition push (x : gval) (c : coll) : outcome coll :=
  match stack c with
  | FArr p :: _ => match nth_error (heap c) p with
                   | Some (GArr l) => Done (mk_coll (set_node (heap c) p (GArr (l ++ [x]))) (vals c) (stack c))
                   | _ => Panics
                   end
  | FTemp l :: r => Done (mk_coll (heap c) (vals c) (FTemp (l ++ [x]) :: r))
  | [] => Panics
  end.
(* Add, basiccollector.go:57-60 *)
Definition add_value (x : gval) (c : coll) : outcome coll :=
  do c <- push x c; Done (mk_coll (heap c) (vals c ++ [x]) (stack c)).
(* AddRef, basiccollector.go:63-65; Get panics on an index that is out of range *)
Definition add_ref (i : Z) (c : coll) : outcome coll :=
  if i <? 0 then Panics else match nth_error (vals c) (Z.to_nat i) with Some x => push x c | None => Panics end.

(* the keys and values of ToMap, array.go:1308-1339 *)
Fixpoint pairs (l : list gval) : list (gval * gval) :=
  match l with
  | k :: v :: r => (k, v) :: pairs r
  | [k] => [(k, GLeaf VNil)]
  | [] => []
  end.

(* all or none *)
Fixpoint done_list {A B} (f : A -> outcome B) (l : list A) : outcome (list B) :=
  match l with
  | [] => Done []
  | x :: r => do y <- f x; do ys <- done_list f r; Done (y :: ys)
  end.
(* frozenCopy, map.go:900-905: Copy of array (array.go:1075), of hashMap (map.go:500), sensitive.go:139-144. The copy is a
   finite value; [n] bounds the depth. *)
Fixpoint freeze (n : nat) (h : graph) (x : gval) : outcome value :=
  match n with
  | O => Stuck
  | S n =>
      match x with
      | GLeaf v => Done v
      | GRef p =>
          match nth_error h p with
          | Some (GArr l) => do vs <- done_list (freeze n h) l; Done (VArr vs)
          | Some (GSens x) => do v <- freeze n h x; Done (VSens v)
          | Some (GMap m) => do ws <- done_list (fun e => do v <- freeze n h (snd e); Done (fst e, v)) m; Done (VMap ws)
          | None => Skips
          end
      end
  end.
(* The entries after Put of a key and a value, see C01. *)
Fixpoint put_pair (m : list (value * gval)) (k : value) (v : gval) : list (value * gval) :=
  match m with
  | [] => [(k, v)]
  | (k', v') :: r => if veq k k' then (k', v) :: r else (k', v') :: put_pair r k v
  end.
(* PutAll, map.go:640-676 *)
Fixpoint put_all (n : nat) (h : graph) (l : list (gval * gval)) (m : list (value * gval)) : outcome (list (value * gval)) :=
  match l with
  | [] => Done m
  | (k, v) :: r => do k <- freeze n h k; put_all n h r (put_pair m k v)
  end.

(* c.Stack = c.Stack[0:top] *)
Definition pop (c : coll) : coll := mk_coll (heap c) (vals c) (tl (stack c)).

Section Collect.
Variable n : nat.
(* what is done after a map has been added: nothing, or decode *)
Variable after_map : nat -> coll -> outcome coll.

(* AddArray, basiccollector.go:34-41, and AddMap, 45-54 *)
Fixpoint collect (e : ev) (c : coll) : outcome coll :=
  match e with
  | EAdd v => add_value (GLeaf v) c
  | ERef i => add_ref i c
  | EArr l =>
      let p := length (heap c) in
      do c <- add_value (GRef p) (mk_coll (heap c ++ [GArr []]) (vals c) (stack c));
      do c <- (fix all l c := match l with [] => Done c | e :: r => do c <- collect e c; all r c end)
                l (mk_coll (heap c) (vals c) (FArr p :: stack c));
      Done (pop c)
  | EMap l =>
      let p := length (heap c) in
      do c <- add_value (GRef p) (mk_coll (heap c ++ [GMap []]) (vals c) (stack c));
      do c <- (fix all l c := match l with [] => Done c | e :: r => do c <- collect e c; all r c end)
                l (mk_coll (heap c) (vals c) (FTemp [] :: stack c));
      match stack c with
      | FTemp l :: _ =>
          do m <- put_all n (heap c) (pairs l) [];
          after_map p (pop (mk_coll (set_node (heap c) p (GMap m)) (vals c) (stack c)))
      | _ => Panics
      end
  end.
Fixpoint collect_all (l : list ev) (c : coll) : outcome coll :=
  match l with [] => Done c | e :: r => do c <- collect e c; collect_all r c end.

(* Init (26-30) and Value (88-90) *)
Definition collects (e : ev) : outcome (graph * gval) :=
  do c <- collect e (mk_coll [] [] [FTemp []]);
  match stack c with
  | [FTemp (x :: _)] => Done (heap c, x)
  | _ => Panics
  end.
End Collect.

(* BasicCollector has nothing to do after a map. *)
Definition no_decoding (p : nat) (c : coll) : outcome coll := Done c.

(* NewCollector: the capabilities, basiccollector.go:68-85 *)
Definition collector : consumer := {| c_binary := true; c_time := true; c_complex := true; c_threshold := 0 |}.
(* DataCollector, datacollector.go:15-25 *)
Definition data_collector : consumer := {| c_binary := false; c_time := false; c_complex := false; c_threshold := 0 |}.

(* ---------- the decoder ---------- *)

(* replaceInstance, decoder.go:88-117; [n] bounds the depth. An object that is met again within itself makes the recursion
   endless, so the entries do not change while they are visited. *)
Section Replace.
Variables orig repl : nat.
Fixpoint replace_list (f : gval -> graph -> outcome (gval * bool * graph)) (l : list gval) (h : graph) : outcome (list gval * bool * graph) :=
  match l with
  | [] => Done ([], false, h)
  | x :: r => do (y, b, h) <- f x h; do (ys, b', h) <- replace_list f r h; Done (y :: ys, b || b', h)
  end.
Fixpoint replace (n : nat) (x : gval) (h : graph) : outcome (gval * bool * graph) :=
  match n with
  | O => Stuck
  | S n =>
      match x with
      | GLeaf _ => Done (x, false, h)
      | GRef p =>
          if Nat.eqb p orig then Done (GRef repl, true, h)
          else
            match nth_error h p with
            | Some (GMap m) =>
                do (ys, b, h) <- replace_list (replace n) (map snd m) h;
                Done (x, b, if b then set_node h p (GMap (combine (map fst m) ys)) else h)
            | Some (GArr l) =>
                do (ys, b, h) <- replace_list (replace n) l h;
                Done (x, b, if b then set_node h p (GArr ys) else h)
            | Some (GSens a) =>
                do (y, b, h) <- replace n a h;
                if b : bool then Done (GRef (length h), true, h ++ [GSens y]) else Done (x, false, h)
            | None => Skips
            end
      end
  end.
End Replace.

Section Decode.
Variable W : codec.
Variable D : dialect.

(* m.Get(key) for a string *)
Definition get_text (k : list Z) (m : list (value * gval)) : option gval := get_with (veq (VStr k)) m.
(* ToMap (array.go:1308-1339), with the keys as finite values *)
Definition to_map (n : nat) (h : graph) (l : list gval) : outcome (list (value * gval)) :=
  done_list (fun e => do k <- freeze n h (fst e); Done (k, snd e)) (pairs l).

(* decode, decoder.go:43-86; p is the address of the map m. Types, aliases and named types are not modelled. *)
Definition decode (n : nat) (ts : list Z) (p : nat) (m : list (value * gval)) (h : graph) : outcome (gval * graph) :=
  if Nat.eqb (length m) 1 then Skips
  else
    let (mv, h) := match get_text (d_value D) m with
                   | Some x => (x, h)
                   | None => (GRef (length h), h ++ [GMap (filter (fun e => negb (veq (VStr (d_type D)) (fst e))) m)])
                   end in
    if bytes_eqb ts (d_map D) then
      match mv with
      | GRef q => match nth_error h q with
                  | Some (GArr l) =>
                      do nm <- to_map n h l;
                      do (y, b, h') <- replace p (length h) n (GRef (length h)) (h ++ [GMap nm]);
                      Done (GRef (length h), h')
                  | _ => Panics
                  end
      | _ => Panics
      end
    else if bytes_eqb ts (d_sensitive D) then Done (GRef (length h), h ++ [GSens mv])
    else if bytes_eqb ts (d_binary D) then
      match mv with
      | GLeaf (VStr t) => match binary_from_encoded (fun _ => true) t EncB with Some b => Done (GLeaf (VBin b), h) | None => Panics end
      | _ => Panics
      end
    else if bytes_eqb ts (d_time D) then
      match mv with
      | GLeaf (VStr t) => match w_parse W t with Some (s, ns, z) => Done (GLeaf (VTime s ns z), h) | None => Panics end
      | _ => Panics
      end
    else if bytes_eqb ts (d_alias D) then Skips
    else if w_named W ts then Skips else Panics.

(* ReplaceLast, basiccollector.go:104-107 *)
Definition replace_last (x : gval) (c : coll) : outcome coll :=
  match stack c with
  | FArr p :: _ => match nth_error (heap c) p with
                   | Some (GArr l) => Done (mk_coll (set_node (heap c) p (GArr (removelast l ++ [x]))) (vals c) (stack c))
                   | _ => Panics
                   end
  | FTemp l :: r => Done (mk_coll (heap c) (vals c) (FTemp (removelast l ++ [x]) :: r))
  | [] => Panics
  end.
(* AddMap of the decoder after the map has been added, decoder.go:36-40. PeekLast is the map at p. *)
Definition decoding (n : nat) (p : nat) (c : coll) : outcome coll :=
  match nth_error (heap c) p with
  | Some (GMap m) =>
      match get_text (d_type D) m with
      | Some (GLeaf (VStr ts)) =>
          do (y, h) <- decode n ts p m (heap c);
          replace_last y (mk_coll h (vals c) (stack c))
      | _ => Done c
      end
  | _ => Panics
  end.
End Decode.

(* dialect.go:50-57 and pcore/pcoredialect.go:18-25 *)
From Verif Require Print.
From Coq Require Import Strings.String.
Definition dgo_dialect : dialect :=
  {| d_type := Print.lit "__type"; d_value := Print.lit "__value"; d_ref := Print.lit "__ref"; d_alias := Print.lit "alias"; d_binary := Print.lit "binary"; d_map := Print.lit "map";
     d_sensitive := Print.lit "sensitive"; d_time := Print.lit "time" |}.
Definition pcore_dialect : dialect :=
  {| d_type := Print.lit "__ptype"; d_value := Print.lit "__pvalue"; d_ref := Print.lit "__pref"; d_alias := Print.lit "Alias"; d_binary := Print.lit "Binary"; d_map := Print.lit "Hash";
     d_sensitive := Print.lit "Sensitive"; d_time := Print.lit "Timestamp" |}.
