(* Properties C41 and C60. Only statements, [exact], assumptions and examples. *)
From Coq Require Import Strings.String.
From Coq Require Import ZArith List Bool Lia.
From Verif Require Import Int64 Data DataSpec Text Graph GraphSpec Print PrintSpec PrintProofs.
Import ListNotations.
Open Scope Z_scope.

(* C41. The text does not depend on what is inside of sensitive values: not for values that contain themselves,
   not with indentation, and not for the keys of maps. A is the set of nodes that can be seen. *)
Theorem C41_sensitive_not_printed :
  forall P ind A g g' n a, same_public A g g' -> within_nodes A a -> string_of P ind g n a = string_of P ind g' n a.
Proof. exact string_same. Qed.
Print Assumptions C41_sensitive_not_printed.
(* likewise in the midst of a text, and without the protection against recursion *)
Theorem C41_sensitive_not_appended :
  forall P ind A g g' n, same_public A g g' -> forall erp seen k a, within_nodes A a -> text P ind g n erp seen k a = text P ind g' n erp seen k a.
Proof. exact text_same. Qed.
Print Assumptions C41_sensitive_not_appended.
(* the same for values that do not contain themselves *)
Theorem C41_finite_values :
  forall P ind v w, same_but_secrets v w -> forall k, value_text P ind k v = value_text P ind k w.
Proof. exact value_text_same. Qed.
Print Assumptions C41_finite_values.

(* C60. String returns on all finite graphs. *)
Theorem C60_string_terminates :
  forall P ind g a, closed g -> points g a -> exists t, forall n, (length g < n)%nat -> string_of P ind g n a = Some t.
Proof. exact string_returns. Qed.
Print Assumptions C60_string_terminates.
(* For a value that does not contain itself it is the text of the value: nothing is taken for a self reference,
   even if parts are shared. *)
Theorem C60_string_of_finite_values :
  forall P ind g a v n, closed g -> points g a -> stands g a v -> (length g < n)%nat -> (forall w, v <> VSens w) -> (forall s, v <> VStr s) -> v <> VNil ->
  exists b, string_of P ind g n a = Some b /\ (b = finish (value_text P ind 0 v) \/ (flat_value v /\ b = value_text P ind 0 v)).
Proof. exact string_finite. Qed.
Print Assumptions C60_string_of_finite_values.

(* a := {a}: util.ToString(a) and ToIndentedString(a) do not return, as the indenter of util/indenter.go does not look
   for recursion. *)
Theorem C60_plain_indenter_refuted :
  forall P ind, closed [GArr [GRef 0]] /\ points [GArr [GRef 0]] (GRef 0) /\ forall n, text P ind [GArr [GRef 0]] n false [] 0 (GRef 0) = None.
Proof. intros. split; [repeat (cbn; constructor)|]. split; [cbn; lia|]. intros. apply text_loops. Qed.
Print Assumptions C60_plain_indenter_refuted.

Definition quotes : printers := {| p_float := fun _ => []; p_quote := fun s => [34] ++ s ++ [34]; p_time := fun _ => [] |}.

(* m := {"a": {m, sensitive "x"}, sensitive "k": m}, and the same with other secrets, one of them a large array *)
Definition before : graph := [GMap [(VStr [97], GRef 1); (VSens (VStr [107]), GRef 0)]; GArr [GRef 0; GRef 2]; GSens (GLeaf (VStr [120]))].
Definition after : graph := [GMap [(VStr [97], GRef 1); (VSens (VInt 7), GRef 0)]; GArr [GRef 0; GRef 2]; GSens (GRef 3); GArr [GRef 0; GRef 3]].
Example C41_ex :
  same_public (fun p => (p < 3)%nat) before after /\
  string_of quotes [] after 9 (GRef 0)
  = Some (lit "{""a"":{<recursive self reference to map>,sensitive [value redacted]},sensitive [value redacted]:<recursive self reference to map>}").
Proof.
  split; [|vm_compute; reflexivity]. intros [|[|[|p]]] Hp; [| | |lia]; cbn; do 2 eexists; (split; [reflexivity|]); (split; [reflexivity|]); repeat (constructor; cbn; try lia).
Qed.
Example C41_ex_finite : same_but_secrets (VArr [VInt 1; VSens (VInt 2)]) (VArr [VInt 1; VSens (VStr [])]).
Proof. repeat (constructor; cbn; auto). Qed.
Example C60_ex : closed before /\ points before (GRef 0) /\ string_of quotes [32; 32] before 4 (GRef 1) <> None.
Proof. split; [repeat (cbn; constructor)|]. split; [cbn; lia|]. vm_compute. discriminate. Qed.
(* {x, x} with a shared x := {-17} *)
Example C60_ex_shared :
  let g := [GArr [GRef 1; GRef 1]; GArr [GLeaf (VInt (-17))]] in
  closed g /\ stands g (GRef 0) (VArr [VArr [VInt (-17)]; VArr [VInt (-17)]]) /\
  string_of quotes [] g 3 (GRef 0) = Some (lit "{{-17},{-17}}") /\ string_of quotes [32; 32] g 3 (GRef 0) <> string_of quotes [] g 3 (GRef 0).
Proof.
  intros g. split; [repeat (cbn; constructor)|]. split; [clear|].
  - assert (S : stands [GArr [GRef 1; GRef 1]; GArr [GLeaf (VInt (-17))]] (GRef 1) (VArr [VInt (-17)])) by (eapply stands_arr; [reflexivity|]; repeat constructor).
    eapply stands_arr; [reflexivity|]. repeat (constructor; [exact S|]). constructor.
  - split; vm_compute; [reflexivity|discriminate].
Qed.
