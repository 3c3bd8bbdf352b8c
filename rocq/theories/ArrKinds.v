(* The order of values that cannot be compared, Sort in /repo/internal/array.go:1284-1302. *)
From Coq Require Import ZArith List Bool Lia.
From Verif Require Import Int64 Data Arr ArrSpec.
Import ListNotations.
Open Scope Z_scope.

(* values that cannot be compared are in the order of their kinds *)
Definition kind_pos (k : sort_kind) : nat :=
  match k with
  | SKSensitive => 0 | SKArray => 1 | SKBinary => 2 | SKBoolean => 3 | SKFloat => 4 | SKInteger => 5 | SKMap => 6 | SKNil => 7 | SKRegexp => 8 | SKString => 9 | SKTime => 10
  end%nat.
Lemma kind_nth k i : nth_error sort_kinds i = Some k -> kind_pos k = i.
Proof. unfold sort_kinds. do 11 (destruct i as [|i]; [intros [= <-]; reflexivity|cbn [nth_error]]). destruct i; discriminate. Qed.
Lemma kind_before_pos k k' : kind_before k k' <-> (kind_pos k < kind_pos k')%nat.
Proof.
  split.
  - intros (a & b & c & E). rewrite (kind_nth k (length a)), (kind_nth k' (length a + S (length b))); [lia| |].
    + rewrite E, nth_error_app2 by lia. replace (length a + S (length b) - length a)%nat with (S (length b)) by lia. cbn. rewrite nth_error_app2, Nat.sub_diag by lia. reflexivity.
    + rewrite E, nth_error_app2, Nat.sub_diag by lia. reflexivity.
  - intros L. assert (nth_error sort_kinds (kind_pos k) = Some k) as E by now destruct k.
    assert (nth_error sort_kinds (kind_pos k') = Some k') as E' by now destruct k'.
    apply nth_error_split in E as (a & r & E & La). rewrite E in E'. rewrite nth_error_app2 in E' by lia.
    destruct (kind_pos k' - length a)%nat as [|j] eqn:J; [lia|]. cbn in E'. apply nth_error_split in E' as (b & c & -> & _). exists a, b, c. exact E.
Qed.
Theorem vless_kinds a b : comparable a = false \/ vcmp a b = None -> (vless a b = true <-> kind_before (kind_of a) (kind_of b)).
Proof.
  intros H. unfold vless. replace (if comparable a then vcmp a b else None) with (@None Z) by (destruct H as [-> | ->]; [reflexivity|now destruct (comparable a)]).
  rewrite kind_before_pos. clear H. destruct a, b; cbn [type_id kind_of kind_pos]; rewrite Z.ltb_lt; lia.
Qed.
