(* Proofs about types made of a list of arguments. *)
From Coq Require Import ZArith List Bool Lia.
From Verif Require Import Int64 HMap HMapBase HMapInv Data DataSpec DataProofs Types TypesSpec Construct ConstructSpec ConstructProofs TypeArgs TypeArgsSpec.
Import ListNotations.
Open Scope Z_scope.

Lemma in64_le z : in64 z -> z <= max_int64.
Proof. unfold in64. lia. Qed.
Lemma max64 : max_int64 <= max_int64.
Proof. lia. Qed.
Lemma zero64 : 0 <= max_int64.
Proof. unfold max_int64. lia. Qed.
Lemma any_ok : type_ok TAny.
Proof. repeat split. Qed.

Ltac oks H := repeat match type of H with Forall _ (_ :: _) => let A := fresh "OK" in apply Forall_cons_iff in H as [A H]; cbn [arg_ok] in A end.

Lemma new_array_some p e min max t : new_array_type p e min max = Some t \/ (new_array_type p e min max = None /\ or_any e = TNil /\ min = 1 /\ max = 1) \/ exists t', new_array_type p e min max = Some t'.
Proof.
  unfold new_array_type. set (mn := if min <? 0 then 0 else min). set (mx := if max <? 0 then 0 else max).
  destruct (if mx <? mn then (mx, mn) else (mn, mx)) as [lo hi] eqn:E. cbn zeta. destruct (_ && is_any (or_any e)); [eauto|].
  destruct ((lo =? 1) && (lo =? hi) && is_exact (or_any e)) eqn:X; [|eauto]. destruct (or_any e) eqn:Ee; cbn [exact_value]; eauto;
    apply andb_true_iff in X as [X1 X2]; try (vm_compute in X2; discriminate).
  right. left. apply andb_true_iff in X1 as [X1 X3]. apply Z.eqb_eq in X1, X3. splits; auto; unfold mn, mx in E;
    destruct (Z.ltb_spec min 0), (Z.ltb_spec max 0); match type of E with (if ?c then _ else _) = _ => destruct c end; injection E; lia.
Qed.

Lemma array_args_accepts W p args e min max : Forall arg_ok args -> array_args args e min max ->
  (exists t, array_type p args = Made t /\
     accepts W t (fun v => exists l, v = VArr l /\ length_between min max (Z.of_nat (length l)) /\ Forall (has_type W e) l)) \/
  (array_type p args = Broken /\ e = TNil /\ min = 1 /\ max = 1).
Proof.
  intros OKS H.
  assert (M : forall el mn mx, mx <= max_int64 -> mn <= max_int64 -> type_ok (or_any el) ->
    (exists t, made_of (new_array_type p el mn mx) = Made t /\ accepts W t (fun v => exists l, v = VArr l /\ length_between mn mx (Z.of_nat (length l)) /\ Forall (has_type W (or_any el)) l)) \/
    (made_of (new_array_type p el mn mx) = Broken /\ or_any el = TNil /\ mn = 1 /\ mx = 1)).
  { intros el mn mx L1 L2 T. destruct (new_array_some p el mn mx TAny) as [E|[(E & E1 & E2)|[t E]]]; rewrite E; cbn [made_of]; [left|right; auto|left]; eexists; (split; [reflexivity|]); eapply new_array_type_accepts; eauto. }
  destruct H as [sz min max H|t sz min max H]; destruct H as [|mn|mn mx]; oks OKS; cbn [array_type array_type_one array_type_two array_type_three].
  - exact (M None 0 max_int64 max64 zero64 any_ok).
  - exact (M None mn max_int64 max64 (in64_le _ OK) any_ok).
  - exact (M None mn mx (in64_le _ OK0) (in64_le _ OK) any_ok).
  - exact (M (Some t) 0 max_int64 max64 zero64 OK).
  - exact (M (Some t) mn max_int64 max64 (in64_le _ OK0) OK).
  - exact (M (Some t) mn mx (in64_le _ OK1) (in64_le _ OK0) OK).
Qed.

Lemma map_args_accepts W p args k v min max : Forall arg_ok args -> map_args args k v min max ->
  exists t, map_type p args = Made t /\
    accepts W t (fun x => exists m, x = VMap m /\ length_between min max (Z.of_nat (length m)) /\ Forall (fun e => has_type W k (fst e) /\ has_type W v (snd e)) m).
Proof.
  intros OKS H. destruct H as [sz min max H|k v sz min max H]; destruct H as [|mn|mn mx]; oks OKS; cbn [map_type map_type_one map_type_two map_type_three map_type_four];
    eexists; (split; [reflexivity|]).
  - exact (new_map_type_accepts W p None None 0 max_int64 max64 zero64 any_ok any_ok).
  - exact (new_map_type_accepts W p None None mn max_int64 max64 (in64_le _ OK) any_ok any_ok).
  - exact (new_map_type_accepts W p None None mn mx (in64_le _ OK0) (in64_le _ OK) any_ok any_ok).
  - exact (new_map_type_accepts W p (Some k) (Some v) 0 max_int64 max64 zero64 OK OK0).
  - exact (new_map_type_accepts W p (Some k) (Some v) mn max_int64 max64 (in64_le _ OK1) OK OK0).
  - exact (new_map_type_accepts W p (Some k) (Some v) mn mx (in64_le _ OK2) (in64_le _ OK1) OK OK0).
Qed.

Lemma string_args_accepts W p args min max : Forall arg_ok args -> size_args args min max ->
  exists t, string_type p args = Made t /\ accepts W t (fun v => exists s, v = VStr s /\ length_between min max (Z.of_nat (length s))).
Proof.
  intros OKS H. destruct H as [|mn|mn mx]; oks OKS; cbn [string_type]; eexists; (split; [reflexivity|]).
  - exact (sized_string_type_accepts W 0 max_int64 max64).
  - exact (sized_string_type_accepts W mn max_int64 max64).
  - exact (sized_string_type_accepts W mn mx (in64_le _ OK0)).
Qed.
Lemma string_exact_accepts W p s : exists t, string_type p [AStr s] = Made t /\ accepts W t (fun v => v = VStr s).
Proof.
  eexists. split; [reflexivity|]. apply accepts_means; [repeat constructor|]. intros v Wv Mv. unfold has_type. cbn [has_type_with].
  destruct v; cbn; try (split; discriminate). split.
  - intros H. f_equal. symmetry. now apply bytes_eqb_eq.
  - intros [= ->]. now apply bytes_eqb_eq.
Qed.
Lemma binary_args_accepts W args min max : size_args args min max ->
  exists t, binary_type args = Made t /\ accepts W t (fun v => exists s, v = VBin s /\ length_between min max (Z.of_nat (length s))).
Proof.
  intros H. destruct H as [|mn|mn mx]; cbn [binary_type]; eexists; (split; [reflexivity|]).
  - exact (sized_binary_type_accepts W 0 max_int64).
  - exact (sized_binary_type_accepts W mn max_int64).
  - exact (sized_binary_type_accepts W mn mx).
Qed.
Lemma sensitive_args_accepts W p t : type_ok t -> 
  (exists s, sensitive_type_args p [AType t] = Made s /\ accepts W s (fun v => exists x, v = VSens x /\ has_type W t x)) /\
  (exists s, sensitive_type_args p [] = Made s /\ accepts W s (fun v => exists x, v = VSens x)).
Proof.
  intros T. split; eexists; (split; [reflexivity|]); (apply accepts_means; [|intros v Wv Mv]).
  - split; [exact I|exact T].
  - reflexivity.
  - repeat split.
  - unfold has_type. cbn. split; [intros (x & -> & _); eauto|intros (x & ->); eauto].
Qed.

(* ---------- refused arguments ---------- *)
(* the forms of arguments, for computing *)
Definition sizeb (args : list arg) : bool := match args with [] | [AInt _] | [AInt _; AInt _] => true | _ => false end.
Lemma size_iff args : size_legal args <-> sizeb args = true.
Proof.
  split; [intros (mn & mx & H); destruct H; reflexivity|]. intros H. unfold size_legal. destruct args as [|[| a | |] [|[| b | |] [|]]]; try discriminate; eexists; eexists; constructor.
Qed.
Lemma array_iff args : array_legal args <-> (sizeb args || match args with AType _ :: r => sizeb r | _ => false end) = true.
Proof.
  rewrite orb_true_iff, <- size_iff. split.
  - intros (e & mn & mx & H). destruct H as [sz mn mx H|t sz mn mx H]; [left; exists mn, mx; exact H|right; apply size_iff; exists mn, mx; exact H].
  - intros [(mn & mx & H)|H]; [exists TAny, mn, mx; now constructor|]. destruct args as [|[t| | |] r]; try discriminate. apply size_iff in H as (mn & mx & H). exists t, mn, mx. now constructor.
Qed.
Lemma map_iff args : map_legal args <-> (sizeb args || match args with AType _ :: AType _ :: r => sizeb r | _ => false end) = true.
Proof.
  rewrite orb_true_iff, <- size_iff. split.
  - intros (k & v & mn & mx & H). destruct H as [sz mn mx H|k v sz mn mx H]; [left; exists mn, mx; exact H|right; apply size_iff; exists mn, mx; exact H].
  - intros [(mn & mx & H)|H]; [exists TAny, TAny, mn, mx; now constructor|]. destruct args as [|[t| | |] [|[u| | |] r]]; try discriminate. apply size_iff in H as (mn & mx & H). exists t, u, mn, mx. now constructor.
Qed.
Lemma string_iff args : string_legal args <-> (sizeb args || match args with [AStr _] => true | _ => false end) = true.
Proof.
  unfold string_legal. rewrite orb_true_iff, <- size_iff. split; (intros [H|H]; [now left|right]).
  - destruct H as [s ->]. reflexivity.
  - destruct args as [|[| | s |] [|]]; try discriminate. eauto.
Qed.
Lemma sensitive_iff args : sensitive_legal args <-> (match args with [] | [AType _] => true | _ => false end) = true.
Proof. split; [intros [->|[t ->]]; reflexivity|]. destruct args as [|[t| | |] [|]]; try discriminate; [left|right]; eauto. Qed.

(* args' gets the elements that it has, those that are known from F are replaced, and the others are looked at only if the test H does *)
Ltac shapes :=
  let args' := fresh "args'" in let L := fresh "L" in let F := fresh "F" in let H := fresh "H" in
  intros args' L F H; cbn [length] in L;
  repeat (match type of L with length ?l = _ => is_var l; destruct l as [|? l]; cbn [length] in L; [try discriminate L|first [discriminate L|apply eq_add_S in L]] end);
  cbn [firstn] in F; injection F; intros; subst; clear F L;
  cbn in H; repeat (match type of H with context [match ?x with _ => _ end] => is_var x; destruct x; cbn in H; try discriminate H end); try discriminate H.
Ltac refuse iff := cbn [refuses made_of]; first
  [ apply iff; reflexivity
  | split; [cbn; lia|intros H; apply iff in H; cbn in H; discriminate H]
  | split; [cbn; lia|]; intros args' L F H; apply iff in H; revert L F H; revert args'; shapes ].

Lemma new_array_legal args p e mn mx : array_legal args -> refuses array_legal 3 args (made_of (new_array_type p e mn mx)).
Proof. intros H. destruct (new_array_type p e mn mx); exact H. Qed.
Lemma array_refuses p args : refuses array_legal 3 args (array_type p args).
Proof.
  destruct args as [|[] [|[] [|[] [|a3 r]]]]; cbn [array_type array_type_one array_type_two array_type_three]; try (apply new_array_legal; apply array_iff; reflexivity); refuse array_iff.
Qed.
Lemma map_refuses p args : refuses map_legal 4 args (map_type p args).
Proof.
  destruct args as [|[] [|[] [|[] [|[] [|a4 r]]]]]; cbn [map_type map_type_one map_type_two map_type_three map_type_four]; refuse map_iff.
Qed.
Lemma string_refuses p args : refuses string_legal 2 args (string_type p args).
Proof. destruct args as [|[] [|[] [|a2 r]]]; cbn [string_type]; refuse string_iff. Qed.
Lemma binary_refuses args : refuses size_legal 2 args (binary_type args).
Proof. destruct args as [|[] [|[] [|a2 r]]]; cbn [binary_type]; refuse size_iff. Qed.
Lemma sensitive_refuses p args : refuses sensitive_legal 1 args (sensitive_type_args p args).
Proof. destruct args as [|[] [|a1 r]]; cbn [sensitive_type_args]; refuse sensitive_iff. Qed.
