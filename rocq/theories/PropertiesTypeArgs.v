(* Property C98. Only statements, [exact], assumptions and examples. *)
From Coq Require Import ZArith List Bool.
From Verif Require Import Int64 HMap Data DataSpec Types TypesSpec Assign Construct ConstructSpec TypeArgs TypeArgsSpec TypeArgsProofs.
Import ListNotations.
Open Scope Z_scope.

(* C98: an array type made of legal arguments accepts the arrays that they describe. Partial: the element type nil with the size 1. *)
Theorem C98_array_partial :
  forall W p args e min max, Forall arg_ok args -> array_args args e min max ->
  (exists t, array_type p args = Made t /\
     accepts W t (fun v => exists l, v = VArr l /\ length_between min max (Z.of_nat (length l)) /\ Forall (has_type W e) l)) \/
  (array_type p args = Broken /\ e = TNil /\ min = 1 /\ max = 1).
Proof. exact array_args_accepts. Qed.
Print Assumptions C98_array_partial.

Theorem C98_map :
  forall W p args k v min max, Forall arg_ok args -> map_args args k v min max ->
  exists t, map_type p args = Made t /\
    accepts W t (fun x => exists m, x = VMap m /\ length_between min max (Z.of_nat (length m)) /\
                                    Forall (fun e => has_type W k (fst e) /\ has_type W v (snd e)) m).
Proof. exact map_args_accepts. Qed.
Print Assumptions C98_map.

Theorem C98_string :
  forall W p args min max, Forall arg_ok args -> size_args args min max ->
  exists t, string_type p args = Made t /\ accepts W t (fun v => exists s, v = VStr s /\ length_between min max (Z.of_nat (length s))).
Proof. exact string_args_accepts. Qed.
Print Assumptions C98_string.

Theorem C98_string_exact :
  forall W p s, exists t, string_type p [AStr s] = Made t /\ accepts W t (fun v => v = VStr s).
Proof. exact string_exact_accepts. Qed.
Print Assumptions C98_string_exact.

Theorem C98_binary :
  forall W args min max, size_args args min max ->
  exists t, binary_type args = Made t /\ accepts W t (fun v => exists s, v = VBin s /\ length_between min max (Z.of_nat (length s))).
Proof. exact binary_args_accepts. Qed.
Print Assumptions C98_binary.

Theorem C98_sensitive :
  forall W p t, type_ok t ->
  (exists s, sensitive_type_args p [AType t] = Made s /\ accepts W s (fun v => exists x, v = VSens x /\ has_type W t x)) /\
  (exists s, sensitive_type_args p [] = Made s /\ accepts W s (fun v => exists x, v = VSens x)).
Proof. exact sensitive_args_accepts. Qed.
Print Assumptions C98_sensitive.

(* C98: all other arguments are refused, and what is said about them is true. *)
Theorem C98_refused :
  forall p args,
  refuses array_legal 3 args (array_type p args) /\ refuses map_legal 4 args (map_type p args) /\ refuses string_legal 2 args (string_type p args) /\
  refuses size_legal 2 args (binary_type args) /\ refuses sensitive_legal 1 args (sensitive_type_args p args).
Proof. intros p args. exact (conj (array_refuses p args) (conj (map_refuses p args) (conj (string_refuses p args) (conj (binary_refuses args) (sensitive_refuses p args))))). Qed.
Print Assumptions C98_refused.

(* array.go:122-124: the nil type counts as exact but has no exact value *)
Theorem C98_array_of_nil_refuted :
  array_args [AType TNil; AInt 1; AInt 1] TNil 1 1 /\ Forall arg_ok [AType TNil; AInt 1; AInt 1] /\ array_type 5 [AType TNil; AInt 1; AInt 1] = Broken.
Proof. split; [repeat constructor|]. split; [|reflexivity]. repeat constructor; vm_compute; discriminate. Qed.
Print Assumptions C98_array_of_nil_refuted.

Example ex_C98_array : array_args [AType TString; AInt 2; AInt (-1)] TString 2 (-1) /\ array_type 5 [AType TString; AInt 2; AInt (-1)] = Made (TArrSized 5 TString 0 2).
Proof. split; [repeat constructor|reflexivity]. Qed.
Example ex_C98_map : map_args [AType TString; AType TInt; AInt 3] TString TInt 3 max_int64 /\ map_type 5 [AType TString; AType TInt; AInt 3] = Made (TMapSized 5 TString TInt 3 max_int64).
Proof. split; [repeat constructor|reflexivity]. Qed.
Example ex_C98_string : size_args [AInt 1; AInt 5] 1 5 /\ string_type 5 [AInt 1; AInt 5] = Made (TStrSized 1 5) /\ string_type 5 [AStr [97]] = Made (TExact 5 (VStr [97])).
Proof. split; [repeat constructor|split; reflexivity]. Qed.
Example ex_C98_binary : size_args [AInt 4] 4 max_int64 /\ binary_type [AInt 4] = Made (TBinary 4 max_int64) /\ sensitive_type_args 5 [AType TInt] = Made (TSens 5 TInt).
Proof. split; [repeat constructor|split; reflexivity]. Qed.
Example ex_C98_refused :
  map_type 5 [AType TString] = IllegalArgument 0 /\ array_type 5 [AType TString; AInt 1; AType TInt] = IllegalArgument 2 /\
  string_type 5 [AInt 1; AInt 2; AInt 3] = IllegalCount /\ binary_type [AStr [97]] = IllegalArgument 0.
Proof. vm_compute. auto. Qed.
