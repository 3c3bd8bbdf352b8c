(* What Validate is to report. *)
From Coq Require Import ZArith List Bool.
From Verif Require Import Int64 Data DataSpec Types TypesSpec Validate.
Import ListNotations.
Open Scope Z_scope.

(* keys that can be the key of a struct type *)
Definition key_ok (k : value) : Prop := match k with VNil | VSens _ => False | _ => True end.

(* the error is true of the map with entries m, for a struct type with entries es *)
Definition mistake (W : world) (es : list (value * ty * bool)) (m : list (value * value)) (e : verror) : Prop :=
  match e with
  | ENotMap => False
  | EInstance k t => exists r x, In (k, t, r) es /\ assoc veq m k = Some x /\ ~ has_type W t x
  | EMissing k => exists t, In (k, t, true) es /\ assoc veq m k = None
  | EUnknown k => (exists x, In (k, x) m) /\ forall e, In e es -> veq (fst (fst e)) k = false
  end.

(* the entry is as expected *)
Definition entry_ok (W : world) (m : list (value * value)) (e : value * ty * bool) : Prop :=
  match assoc veq m (fst (fst e)) with
  | Some x => has_type W (snd (fst e)) x
  | None => snd e = false
  end.

(* The report about the map with entries m: a paragraph for each entry of the type and for each unknown key. *)
Inductive reports (p : ptr) (m : list (value * value)) : list vline -> list verror -> Prop :=
  | reports_nothing : reports p m [] []
  | reports_ok k t l errs : reports p m l errs ->
      reports p m ([LValidating k (Some t); LNewLine true; LKey k; LOk; LNewLine false] ++ l) errs
  | reports_absent k t l errs : assoc veq m k = None -> reports p m l errs ->
      reports p m ([LValidating k (Some t); LNewLine true; LKey k; LNewLine false] ++ l) errs
  | reports_type k t x l errs : assoc veq m k = Some x -> reports p m l errs ->
      reports p m ([LValidating k (Some t); LNewLine true; LKey k; LFailed; LNewLine true; LExpected t (type_of p x); LNewLine false] ++ l) (EInstance k t :: errs)
  | reports_missing k t l errs : reports p m l errs ->
      reports p m ([LValidating k (Some t); LNewLine true; LKey k; LFailed; LNewLine true; LRequired; LNewLine false] ++ l) (EMissing k :: errs)
  | reports_unknown k l errs : reports p m l errs ->
      reports p m ([LValidating k None; LNewLine true; LKeyFailed k; LNewLine true; LNotFound; LNewLine false] ++ l) (EUnknown k :: errs).
(* the types that the report tells of *)
Definition told (lines : list vline) : list ty := flat_map (fun l => match l with LValidating _ (Some t) => [t] | _ => [] end) lines.
Definition report_of (p : ptr) (t : ty) (v : value) (lines : list vline) (errs : list verror) : Prop :=
  match v with
  | VMap m => reports p m lines errs /\ option_map (map (fun e => snd (fst e))) (each p t) = Some (told lines)
  | _ => lines = [LNotMap] /\ errs = [ENotMap]
  end.
