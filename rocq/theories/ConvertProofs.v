(* Conversions keep numbers and bytes; New makes instances. *)
From Coq Require Import ZArith List Bool Lia.
From Coq Require Import Floats.SpecFloat.
From Verif Require Import Int64 HMap Data DataSpec DataProofs Types TypesSpec Assign InstProofs SemProofs TypesCor TextSpec Convert ConvertSpec.
Import ListNotations.
Open Scope Z_scope.

(* ---------- integers ---------- *)

Lemma signed_convert h z : 0 < h -> - h <= z < h -> (if h <=? z mod (2 * h) then z mod (2 * h) - 2 * h else z mod (2 * h)) = z.
Proof.
  intros Hh H. destruct (Z.ltb_spec z 0).
  - replace (z mod (2 * h)) with (z + 2 * h) by (apply Zmod_unique with (-1); lia). destruct (Z.leb_spec h (z + 2 * h)); lia.
  - rewrite Z.mod_small by lia. destruct (Z.leb_spec h z); lia.
Qed.
Lemma go_convert_same k z : number_of k z -> go_convert k z = z.
Proof.
  unfold go_convert, number_of. intros H.
  destruct k; cbn [bits signed andb]; try (apply Z.mod_small; cbn; lia).
  - apply (signed_convert 9223372036854775808); lia.
  - apply (signed_convert 9223372036854775808); lia.
  - apply (signed_convert 2147483648); lia.
  - apply (signed_convert 32768); lia.
  - apply (signed_convert 128); lia.
Qed.

Lemma to_int_same k v : number_of k v -> v <= max_int64 -> to_int k v = Some v.
Proof.
  unfold max_int64. intros H L. assert (C : go_convert KInt64 v = v).
  { apply go_convert_same. destruct k; cbn in *; lia. }
  unfold to_int. rewrite C. destruct k; try reflexivity; cbn in H; (destruct (Z.eqb_spec v 18446744073709551615); [lia|reflexivity]).
Qed.

Lemma to_int_wraps k v : number_of k v -> max_int64 < v ->
  (k = KUint \/ k = KUint64) /\ to_int k v = if v =? 18446744073709551615 then None else Some (v - 18446744073709551616).
Proof.
  unfold max_int64. intros H L. assert (K : k = KUint \/ k = KUint64) by (destruct k; cbn in H; (lia || auto)).
  split; [exact K|]. assert (0 <= v <= 18446744073709551615) by (destruct K; subst; exact H).
  assert (E : go_convert KInt64 v = v - 18446744073709551616).
  { unfold go_convert. cbn [bits signed andb]. change (2 ^ 64) with 18446744073709551616. change (2 ^ (64 - 1)) with 9223372036854775808.
    rewrite Z.mod_small by lia. destruct (Z.leb_spec 9223372036854775808 v); lia. }
  destruct K; subst; unfold to_int; rewrite E; reflexivity.
Qed.

Theorem to_int_preserves k v : number_of k v -> v <= max_int64 \/ v = 18446744073709551615 ->
  to_int k v = Some v \/ to_int k v = None.
Proof.
  intros H [L| -> ]; [left; now apply to_int_same|right]. destruct (to_int_wraps k 18446744073709551615 H) as [_ E]; [unfold max_int64; lia|exact E].
Qed.

(* the conversion fails only for numbers that do not fit *)
Theorem to_int_total k v : number_of k v -> v <= max_int64 -> to_int k v = Some v.
Proof. exact (to_int_same k v). Qed.

Theorem reflect_to_preserves k v : in64 v -> number_of k v -> reflect_to k v = v.
Proof.
  intros Hv H. unfold reflect_to. destruct (signed k) eqn:S; [now apply go_convert_same|].
  rewrite (go_convert_same KUint64 v); [now apply go_convert_same|]. unfold in64, min_int64, max_int64 in Hv. destruct k; cbn in *; try discriminate; lia.
Qed.

(* converting back and forth *)
Theorem reflect_round_trip k v : number_of k v -> v <= max_int64 -> exists z, to_int k v = Some z /\ reflect_to k z = v.
Proof.
  intros H L. exists v. split; [now apply to_int_same|]. apply reflect_to_preserves; [|exact H].
  unfold in64, min_int64, max_int64 in *. destruct k; cbn in H; lia.
Qed.

(* ---------- base64 ---------- *)

Lemma undigit_digit url n : 0 <= n < 64 -> undigit url (digit url n) = Some n.
Proof.
  intros H. unfold digit.
  destruct (Z.ltb_spec n 26).
  { unfold undigit. destruct (Z.leb_spec 65 (65 + n)), (Z.leb_spec (65 + n) 90); try lia. cbn [andb]. f_equal. lia. }
  destruct (Z.ltb_spec n 52).
  { unfold undigit. destruct (Z.leb_spec 65 (97 + (n - 26))), (Z.leb_spec (97 + (n - 26)) 90); try lia. cbn [andb].
    destruct (Z.leb_spec 97 (97 + (n - 26))), (Z.leb_spec (97 + (n - 26)) 122); try lia. cbn [andb]. f_equal. lia. }
  destruct (Z.ltb_spec n 62).
  { unfold undigit. destruct (Z.leb_spec 65 (48 + (n - 52))), (Z.leb_spec (48 + (n - 52)) 90); try lia; cbn [andb];
    (destruct (Z.leb_spec 97 (48 + (n - 52))), (Z.leb_spec (48 + (n - 52)) 122); try lia; cbn [andb];
     destruct (Z.leb_spec 48 (48 + (n - 52))), (Z.leb_spec (48 + (n - 52)) 57); try lia; cbn [andb]; f_equal; lia). }
  destruct (Z.eqb_spec n 62) as [->|]; [destruct url; reflexivity|]. assert (n = 63) as -> by lia. destruct url; reflexivity.
Qed.

Lemma digit_undigit url c n : undigit url c = Some n -> digit url n = c /\ 0 <= n < 64.
Proof.
  unfold undigit. intros E.
  destruct ((65 <=? c) && (c <=? 90)) eqn:A.
  { apply andb_true_iff in A as [A B]. apply Z.leb_le in A, B. injection E as <-. unfold digit. destruct (Z.ltb_spec (c - 65) 26); lia. }
  destruct ((97 <=? c) && (c <=? 122)) eqn:A2.
  { apply andb_true_iff in A2 as [A' B]. apply Z.leb_le in A', B. injection E as <-. unfold digit.
    destruct (Z.ltb_spec (c - 97 + 26) 26), (Z.ltb_spec (c - 97 + 26) 52); lia. }
  destruct ((48 <=? c) && (c <=? 57)) eqn:A3.
  { apply andb_true_iff in A3 as [A' B]. apply Z.leb_le in A', B. injection E as <-. unfold digit.
    destruct (Z.ltb_spec (c - 48 + 52) 26), (Z.ltb_spec (c - 48 + 52) 52), (Z.ltb_spec (c - 48 + 52) 62); lia. }
  destruct (Z.eqb_spec c (if url then 45 else 43)) as [->|]; [injection E as <-; destruct url; cbn; lia|].
  destruct (Z.eqb_spec c (if url then 95 else 47)) as [->|]; [injection E as <-; destruct url; cbn; lia|discriminate].
Qed.

(* no digit is the padding or a newline *)
Lemma digit_plain url n : 0 <= n < 64 -> digit url n <> 61 /\ digit url n <> 10 /\ digit url n <> 13.
Proof.
  intros H. unfold digit. destruct (Z.ltb_spec n 26); [lia|]. destruct (Z.ltb_spec n 52); [lia|]. destruct (Z.ltb_spec n 62); [lia|].
  destruct (n =? 62), url; lia.
Qed.

Lemma list_ind3 {A} (P : list A -> Prop) : P [] -> (forall x, P [x]) -> (forall x y, P [x; y]) ->
  (forall x y z r, P r -> P (x :: y :: z :: r)) -> forall l, P l.
Proof.
  intros H0 H1 H2 H3. fix IH 1. intros [|x [|y [|z r]]]; [exact H0|exact (H1 x)|exact (H2 x y)|exact (H3 x y z r (IH r))].
Qed.

Lemma clean_encode url s : Forall byte s -> b64_clean (b64_encode url s) = b64_encode url s.
Proof.
  assert (K : forall l, Forall (fun c => c <> 10 /\ c <> 13) l -> b64_clean l = l).
  { unfold b64_clean. induction l as [|c r IH]; intros H; [reflexivity|]. inversion H as [|? ? [N1 N2] Hr]; subst. cbn [filter].
    destruct (Z.eqb_spec c 10), (Z.eqb_spec c 13); try contradiction. cbn [orb negb]. now rewrite IH. }
  intros H. apply K. clear K. unfold byte in *.
  assert (D : forall n, 0 <= n < 64 -> digit url n <> 10 /\ digit url n <> 13) by (intros n Hn; pose proof (digit_plain url n Hn); tauto).
  induction s as [|x|x y|x y z r IH] using list_ind3.
  - constructor.
  - inversion H; subst. cbn. repeat constructor; try discriminate; try (apply D; Z.to_euclidean_division_equations; lia).
  - inversion H as [|? ? Hx H']; inversion H'; subst. cbn. repeat constructor; try discriminate; try (apply D; Z.to_euclidean_division_equations; lia).
  - inversion H as [|? ? Hx H']; inversion H' as [|? ? Hy H'']; inversion H'' as [|? ? Hz Hr]; subst. cbn [b64_encode].
    repeat (constructor; [apply D; Z.to_euclidean_division_equations; lia|]). now apply IH.
Qed.

Lemma groups_encode url strict s : Forall byte s -> b64_groups url strict (b64_encode url s) = Some s.
Proof.
  unfold byte. intros H. induction s as [|x|x y|x y z r IH] using list_ind3.
  - reflexivity.
  - inversion H; subst. cbn [b64_encode b64_groups].
    rewrite !undigit_digit by (Z.to_euclidean_division_equations; lia). cbn [Z.eqb Pos.eqb andb].
    replace ((x mod 4 * 16) mod 16 =? 0) with true by (symmetry; apply Z.eqb_eq; Z.to_euclidean_division_equations; lia).
    rewrite orb_true_r. do 2 f_equal. Z.to_euclidean_division_equations; lia.
  - inversion H as [|? ? Hx H']; inversion H'; subst. cbn [b64_encode b64_groups].
    rewrite !undigit_digit by (Z.to_euclidean_division_equations; lia).
    destruct (Z.eqb_spec (digit url (y mod 16 * 4)) 61) as [E|_].
    { exfalso. revert E. apply digit_plain. Z.to_euclidean_division_equations; lia. }
    cbn [Z.eqb Pos.eqb andb].
    replace ((y mod 16 * 4) mod 4 =? 0) with true by (symmetry; apply Z.eqb_eq; Z.to_euclidean_division_equations; lia).
    rewrite orb_true_r. f_equal. f_equal; [|f_equal]; Z.to_euclidean_division_equations; lia.
  - inversion H as [|? ? Hx H']; inversion H' as [|? ? Hy H'']; inversion H'' as [|? ? Hz Hr]; subst. cbn [b64_encode b64_groups].
    rewrite !undigit_digit by (Z.to_euclidean_division_equations; lia).
    destruct (Z.eqb_spec (digit url (y mod 16 * 4 + z / 64)) 61) as [E|_].
    { exfalso. revert E. apply digit_plain. Z.to_euclidean_division_equations; lia. }
    destruct (Z.eqb_spec (digit url (z mod 64)) 61) as [E|_].
    { exfalso. revert E. apply digit_plain. Z.to_euclidean_division_equations; lia. }
    rewrite IH by exact Hr. f_equal. f_equal; [|f_equal; [|f_equal]]; Z.to_euclidean_division_equations; lia.
Qed.

Theorem decode_encoded url strict s : Forall byte s -> b64_decode url strict (b64_encode url s) = Some s.
Proof. intros H. unfold b64_decode. rewrite clean_encode by exact H. now apply groups_encode. Qed.

Theorem binary_round_trip utf8 s : Forall byte s ->
  binary_from_encoded utf8 (encode_binary s) EncB = Some s /\ binary_from_encoded utf8 (encode_binary s) Encb = Some s.
Proof. intros H. split; now apply decode_encoded. Qed.

(* four steps at a time *)
Lemma list_ind4 {A} (P : list A -> Prop) : P [] -> (forall x, P [x]) -> (forall x y, P [x; y]) -> (forall x y z, P [x; y; z]) ->
  (forall x y z u r, P r -> P (x :: y :: z :: u :: r)) -> forall l, P l.
Proof.
  intros H0 H1 H2 H3 H4. fix IH 1. intros [|x [|y [|z [|u r]]]]; [exact H0|exact (H1 x)|exact (H2 x y)|exact (H3 x y z)|exact (H4 x y z u r (IH r))].
Qed.

(* the strict decoder accepts only what the encoder produces, up to newlines *)
Lemma groups_strict url s : forall b, b64_groups url true s = Some b -> Forall byte b /\ b64_encode url b = s.
Proof.
  unfold byte. induction s as [|x|x y|x y z|a b c e r IH] using list_ind4; intros bs E; try discriminate.
  - injection E as <-. split; [constructor|reflexivity].
  - cbn [b64_groups] in E. destruct (undigit url a) as [na|] eqn:Ea; [|discriminate]. destruct (undigit url b) as [nb|] eqn:Eb; [|discriminate].
    apply digit_undigit in Ea as [<- Ha]. apply digit_undigit in Eb as [<- Hb].
    destruct (Z.eqb_spec c 61) as [->|Nc].
    { destruct (Z.eqb_spec e 61) as [->|]; [|discriminate]. destruct r; [|discriminate]. cbn [andb negb orb] in E.
      destruct (Z.eqb_spec (nb mod 16) 0) as [Z0|]; [|discriminate]. injection E as <-.
      split; [repeat constructor; Z.to_euclidean_division_equations; lia|]. cbn [b64_encode].
      f_equal; [|f_equal]; f_equal; Z.to_euclidean_division_equations; lia. }
    destruct (undigit url c) as [nc|] eqn:Ec; [|discriminate]. apply digit_undigit in Ec as [<- Hc].
    destruct (Z.eqb_spec e 61) as [->|Ne].
    { destruct r; [|discriminate]. cbn [andb negb orb] in E. destruct (Z.eqb_spec (nc mod 4) 0) as [Z0|]; [|discriminate]. injection E as <-.
      split; [repeat constructor; Z.to_euclidean_division_equations; lia|]. cbn [b64_encode].
      f_equal; [|f_equal; [|f_equal]]; f_equal; Z.to_euclidean_division_equations; lia. }
    destruct (undigit url e) as [ne|] eqn:Ee; [|discriminate]. apply digit_undigit in Ee as [<- He].
    destruct (b64_groups url true r) as [l|] eqn:Er; [|discriminate]. injection E as <-. destruct (IH l eq_refl) as [B1 B2].
    split; [repeat (constructor; [Z.to_euclidean_division_equations; lia|]); exact B1|]. cbn [b64_encode]. rewrite B2.
    f_equal; [|f_equal; [|f_equal; [|f_equal]]]; f_equal; Z.to_euclidean_division_equations; lia.
Qed.

Theorem strict_text utf8 s b : binary_from_encoded utf8 s EncB = Some b -> Forall byte b /\ encode_binary b = b64_clean s.
Proof. intros H. apply groups_strict in H. exact H. Qed.

(* ---------- New ---------- *)

Lemma checked_instance W n p t x v : checked W n p t x = Some v -> instance W n p t v = Some true.
Proof. unfold checked. destruct (instance W n p t x) as [[|]|] eqn:E; intros H; try discriminate. injection H as <-. exact E. Qed.

Lemma new_instance W C n p t a v : (forall q s, t <> TSens q s) -> new W C n p t a = Some v -> instance W n p t v = Some true.
Proof.
  intros NS H. assert (K : forall x, checked W n p t x = Some v -> instance W n p t v = Some true) by (intros x; apply checked_instance).
  unfold new in H.
  assert (Kb : new_boolean W n p t a = Some v -> instance W n p t v = Some true).
  { unfold new_boolean. destruct (one_arg a) as [[]|]; try discriminate; eauto.
    destruct (_ || _); [eauto|discriminate]. }
  assert (Ki : new_int W C n p t a = Some v -> instance W n p t v = Some true).
  { unfold new_int. cbn zeta. intros G. match type of G with match ?m with _ => _ end = _ => destruct m end; [eauto|discriminate]. }
  assert (Kf : new_float W C n p t a = Some v -> instance W n p t v = Some true).
  { unfold new_float. destruct (one_arg a) as [x|]; [|discriminate]. destruct (float_from C x); [eauto|discriminate]. }
  assert (Ks : new_string W C n p t a = Some v -> instance W n p t v = Some true).
  { unfold new_string. destruct a as [x|[|x [|y l]]]; try discriminate.
    - destruct x; eauto.
    - destruct x; eauto.
    - destruct y; try discriminate. destruct l; [|discriminate]. destruct (c_format C x s); [eauto|discriminate]. }
  assert (Kn : new_binary W C n p t a = Some v -> instance W n p t v = Some true).
  { unfold new_binary. cbn zeta.
    assert (G : forall x enc, match x with
      | VBin s => checked W n p t (VBin s)
      | VArr l => match to_bytes l with Some s => checked W n p t (VBin s) | None => None end
      | VStr s => match binary_from_encoded (c_utf8 C) s enc with Some b => checked W n p t (VBin b) | None => None end
      | _ => None
      end = Some v -> instance W n p t v = Some true).
    { intros x enc. destruct x; try discriminate; eauto.
      - destruct (binary_from_encoded _ _ _); [eauto|discriminate].
      - destruct (to_bytes _); [eauto|discriminate]. }
    destruct a as [x|[|x [|y l]]]; try discriminate.
    - apply G.
    - destruct x; try discriminate; [apply (G (VStr s) EncB)|apply (G (VBin s) EncB)|apply (G (VArr l) EncB)].
    - destruct x; try discriminate. destruct y; try discriminate. destruct l; [|discriminate].
      destruct (c_encoding C s0) as [enc|]; [apply (G (VStr s) enc)|discriminate]. }
  assert (Kt : new_time W C n p t a = Some v -> instance W n p t v = Some true).
  { unfold new_time. destruct (one_arg a) as [[]|]; try discriminate; eauto.
    - destruct (c_time_of_float C f). eauto.
    - destruct (c_time_of_string C s) as [[[? ?] ?]|]; [eauto|discriminate]. }
  assert (Ka : new_array W C n p t a = Some v -> instance W n p t v = Some true).
  { unfold new_array. destruct (one_arg a) as [[]|]; try discriminate; eauto. }
  assert (Km : new_map W n p t a = Some v -> instance W n p t v = Some true).
  { unfold new_map. destruct (one_arg a) as [[]|]; try discriminate; eauto. destruct (Nat.even _); [eauto|discriminate]. }
  assert (Ko : new_other W n p t a = Some v -> instance W n p t v = Some true).
  { unfold new_other. destruct (one_arg a); [eauto|discriminate]. }
  destruct t as [ | | | |x y i| |x y i| | |x y|s|s|x y| | |q w|q t| |q e x y|q ts b| |q kt vt x y|q ad es|q ts|q vs|q ts|q ts|q t|t]; auto; try discriminate.
  - destruct w; auto.
  - exfalso. exact (NS q t eq_refl).
Qed.

Theorem new_has_type W C t a v p : (forall q s, t <> TSens q s) -> type_ok t -> data veq v ->
  exists N, forall n, (N <= n)%nat -> new W C n p t a = Some v -> has_type W t v.
Proof.
  intros NS Ht Wv. destruct (instance_has_type W t v Ht Wv) as [N HN]. exists N. intros n Hn H.
  apply new_instance in H; [|exact NS]. destruct (HN n p Hn) as (r & E & R). apply R. congruence.
Qed.

(* New of an instance returns it *)
Theorem new_keeps_instances W C t v p : type_ok t -> data veq v -> has_type W t v ->
  exists N, forall n, (N <= n)%nat -> new W C n p t (AVal v) = Some v.
Proof.
  intros Ht Wv H. destruct (instance_has_type W t v Ht Wv) as [N HN]. exists N. intros n Hn.
  destruct (HN n p Hn) as (r & E & R). assert (r = true) as -> by now apply R. clear R HN.
  assert (K : checked W n p t v = Some v) by (unfold checked; now rewrite E).
  unfold has_type in H.
  destruct t as [ | | | |x y i| |x y i| | |x y|s|s|x y| | |q w|q t| |q e x y|q ts b| |q kt vt x y|q ad es|q ts|q vs|q ts|q ts|q t|t];
    cbn [has_type_with] in H; try exact K; try (destruct H as (z & -> & _); exact K); try (destruct H as (z & ->); exact K).
  - destruct H as (? & ? & ? & ->). exact K.
  - destruct w, v; cbn in H; try discriminate; try exact K.
  - destruct H as (z & -> & _). reflexivity.
  - contradiction.
Qed.
