(* Decoding inverts encoding. *)
From Coq Require Import ZArith List Bool Lia.
From Verif Require Import Utf8 TextSpec.
Import ListNotations.
Open Scope Z_scope.

Ltac zdiv := Z.to_euclidean_division_equations; lia.

Lemma between_iff lo x hi : between lo x hi = true <-> lo <= x <= hi.
Proof. unfold between. rewrite andb_true_iff, !Z.leb_le. reflexivity. Qed.
Lemma between_not lo x hi : between lo x hi = false <-> ~ lo <= x <= hi.
Proof. rewrite <- between_iff. destruct (between lo x hi); split; congruence. Qed.

Lemma decode_encode c r : scalar c -> decode_rune (encode_rune c ++ r) = (c, length (encode_rune c)).
Proof.
  unfold scalar. intros H. unfold encode_rune.
  destruct (Z.ltb_spec c 128) as [L1|L1].
  { cbn. destruct (Z.ltb_spec c 128); [reflexivity|lia]. }
  destruct (Z.ltb_spec c 2048) as [L2|L2].
  { cbn [app decode_rune length]. pose proof (Z.mod_pos_bound c 64 ltac:(lia)) as M. pose proof (Z.div_mod c 64 ltac:(lia)) as D.
    destruct (Z.ltb_spec (192 + c / 64) 128); [lia|].
    replace (between 194 (192 + c / 64) 223) with true by (symmetry; apply between_iff; zdiv).
    replace (between 128 (128 + c mod 64) 191) with true by (symmetry; apply between_iff; lia).
    f_equal. lia. }
  destruct (Z.ltb_spec c 65536) as [L3|L3].
  { cbn [app decode_rune length]. pose proof (Z.mod_pos_bound c 64 ltac:(lia)) as M.
    assert (B0 : 224 <= 224 + c / 4096 <= 239) by zdiv.
    destruct (Z.ltb_spec (224 + c / 4096) 128); [lia|].
    replace (between 194 (224 + c / 4096) 223) with false by (symmetry; apply between_not; lia).
    replace (between 224 (224 + c / 4096) 239) with true by (symmetry; apply between_iff; lia).
    pose proof (Z.mod_pos_bound (c / 64) 64 ltac:(lia)) as M2.
    assert (E : c = (c / 4096) * 4096 + ((c / 64) mod 64) * 64 + c mod 64).
    { pose proof (Z.div_mod c 64 ltac:(lia)). pose proof (Z.div_mod (c / 64) 64 ltac:(lia)) as D2.
      rewrite Z.div_div in D2 by lia. change (64 * 64) with 4096 in D2. lia. }
    match goal with |- (if ?x && ?y then _ else _) = _ => replace x with true; [replace y with true|] end.
    - cbn [andb]. f_equal. lia.
    - symmetry. apply between_iff. lia.
    - symmetry. apply between_iff.
      destruct (Z.eqb_spec (224 + c / 4096) 224), (Z.eqb_spec (224 + c / 4096) 237); lia. }
  cbn [app decode_rune length]. pose proof (Z.mod_pos_bound c 64 ltac:(lia)) as M.
  assert (B0 : 240 <= 240 + c / 262144 <= 244) by zdiv.
  destruct (Z.ltb_spec (240 + c / 262144) 128); [lia|].
  replace (between 194 (240 + c / 262144) 223) with false by (symmetry; apply between_not; lia).
  replace (between 224 (240 + c / 262144) 239) with false by (symmetry; apply between_not; lia).
  replace (between 240 (240 + c / 262144) 244) with true by (symmetry; apply between_iff; lia).
  pose proof (Z.mod_pos_bound (c / 64) 64 ltac:(lia)) as M2.
  pose proof (Z.mod_pos_bound (c / 4096) 64 ltac:(lia)) as M3.
  assert (E : c = (c / 262144) * 262144 + ((c / 4096) mod 64) * 4096 + ((c / 64) mod 64) * 64 + c mod 64).
  { pose proof (Z.div_mod c 64 ltac:(lia)). pose proof (Z.div_mod (c / 64) 64 ltac:(lia)) as D2.
    rewrite Z.div_div in D2 by lia. change (64 * 64) with 4096 in D2.
    pose proof (Z.div_mod (c / 4096) 64 ltac:(lia)) as D3.
    rewrite Z.div_div in D3 by lia. change (4096 * 64) with 262144 in D3. lia. }
  match goal with |- (if ?x && ?y && ?z then _ else _) = _ => replace x with true; [replace y with true; [replace z with true|]|] end.
  - cbn [andb]. f_equal. lia.
  - symmetry. apply between_iff. lia.
  - symmetry. apply between_iff. lia.
  - symmetry. apply between_iff.
    destruct (Z.eqb_spec (240 + c / 262144) 240), (Z.eqb_spec (240 + c / 262144) 244); lia.
Qed.

Lemma encode_2 a b : 2 <= a < 32 -> 0 <= b < 64 -> encode_rune (a * 64 + b) = [192 + a; 128 + b].
Proof.
  intros Ha Hb. unfold encode_rune. destruct (Z.ltb_spec (a * 64 + b) 128); [lia|].
  destruct (Z.ltb_spec (a * 64 + b) 2048); [|lia].
  assert ((a * 64 + b) / 64 = a) as -> by zdiv. assert ((a * 64 + b) mod 64 = b) as -> by zdiv. reflexivity.
Qed.
Lemma encode_3 a b c : 0 <= a < 16 -> 0 <= b < 64 -> 0 <= c < 64 -> 2048 <= a * 4096 + b * 64 + c ->
  encode_rune (a * 4096 + b * 64 + c) = [224 + a; 128 + b; 128 + c].
Proof.
  intros Ha Hb Hc L. unfold encode_rune. set (x := a * 4096 + b * 64 + c) in *.
  destruct (Z.ltb_spec x 128); [lia|]. destruct (Z.ltb_spec x 2048); [lia|]. destruct (Z.ltb_spec x 65536); [|lia].
  assert (x / 4096 = a) as -> by zdiv. assert (x / 64 = a * 64 + b) as -> by zdiv. assert (x mod 64 = c) as -> by zdiv.
  assert ((a * 64 + b) mod 64 = b) as -> by zdiv. reflexivity.
Qed.
Lemma encode_4 a b c d : 0 <= a < 8 -> 0 <= b < 64 -> 0 <= c < 64 -> 0 <= d < 64 -> 65536 <= a * 262144 + b * 4096 + c * 64 + d ->
  encode_rune (a * 262144 + b * 4096 + c * 64 + d) = [240 + a; 128 + b; 128 + c; 128 + d].
Proof.
  intros Ha Hb Hc Hd L. unfold encode_rune. set (x := a * 262144 + b * 4096 + c * 64 + d) in *.
  destruct (Z.ltb_spec x 128); [lia|]. destruct (Z.ltb_spec x 2048); [lia|]. destruct (Z.ltb_spec x 65536); [lia|].
  assert (x / 262144 = a) as -> by zdiv. assert (x / 4096 = a * 64 + b) as -> by zdiv.
  assert (x / 64 = a * 4096 + b * 64 + c) as -> by zdiv. assert (x mod 64 = d) as -> by zdiv.
  assert ((a * 64 + b) mod 64 = b) as -> by zdiv.
  replace (a * 4096 + b * 64 + c) with (c + (a * 64 + b) * 64) by lia. rewrite Z.mod_add, Z.mod_small by lia. reflexivity.
Qed.

(* what is decoded is the encoding of a character or the marker of an invalid byte *)
Lemma decode_inv s c k : Forall byte s -> s <> [] -> decode_rune s = (c, k) ->
  (scalar c /\ exists r, s = encode_rune c ++ r /\ k = length (encode_rune c)) \/ (c = rune_error /\ k = 1%nat).
Proof.
  intros Hb Hs E. destruct s as [|b0 s]; [contradiction|]. inversion Hb as [|? ? B0 Hb']; subst. unfold byte in B0.
  unfold decode_rune in E. destruct (Z.ltb_spec b0 128).
  { injection E as <- <-. left. split; [red; lia|]. exists s. unfold encode_rune. destruct (Z.ltb_spec b0 128); [auto|lia]. }
  destruct (between 194 b0 223) eqn:B1.
  { destruct s as [|b1 s]; [right; injection E as <- <-; auto|].
    destruct (between 128 b1 191) eqn:B2; [|right; injection E as <- <-; auto].
    apply between_iff in B1, B2. injection E as <- <-. left. split; [red; lia|].
    exists s. rewrite encode_2 by lia. split; [cbn [app]; f_equal; [lia|f_equal; lia]|reflexivity]. }
  destruct (between 224 b0 239) eqn:B2.
  { destruct s as [|b1 [|b2 s]]; [right; injection E as <- <-; auto..|].
    match type of E with (if ?x then _ else _) = _ => destruct x eqn:B3 end; [|right; injection E as <- <-; auto].
    apply andb_true_iff in B3 as [B3 B4]. apply between_iff in B2, B3, B4. injection E as <- <-. left.
    assert (2048 <= (b0 - 224) * 4096 + (b1 - 128) * 64 + (b2 - 128)) by (revert B3; destruct (Z.eqb_spec b0 224), (Z.eqb_spec b0 237); lia).
    split; [red; revert B3; destruct (Z.eqb_spec b0 224), (Z.eqb_spec b0 237); lia|].
    exists s. rewrite encode_3; try (revert B3; destruct (Z.eqb_spec b0 224), (Z.eqb_spec b0 237); lia).
    split; [cbn [app]; f_equal; [lia|f_equal; [lia|f_equal; lia]]|reflexivity]. }
  destruct (between 240 b0 244) eqn:B3.
  { destruct s as [|b1 [|b2 [|b3 s]]]; [right; injection E as <- <-; auto..|].
    match type of E with (if ?x then _ else _) = _ => destruct x eqn:B4 end; [|right; injection E as <- <-; auto].
    apply andb_true_iff in B4 as [B4 B6]. apply andb_true_iff in B4 as [B4 B5]. apply between_iff in B3, B4, B5, B6. injection E as <- <-. left.
    assert (65536 <= (b0 - 240) * 262144 + (b1 - 128) * 4096 + (b2 - 128) * 64 + (b3 - 128)) by (revert B4; destruct (Z.eqb_spec b0 240), (Z.eqb_spec b0 244); lia).
    split; [red; revert B4; destruct (Z.eqb_spec b0 240), (Z.eqb_spec b0 244); lia|].
    exists s. rewrite encode_4; try (revert B4; destruct (Z.eqb_spec b0 240), (Z.eqb_spec b0 244); lia).
    split; [cbn [app]; f_equal; [lia|f_equal; [lia|f_equal; [lia|f_equal; lia]]]|reflexivity]. }
  right. injection E as <- <-. auto.
Qed.

Lemma encode_rune_bytes c : scalar c -> Forall byte (encode_rune c).
Proof.
  unfold scalar, encode_rune, byte. intros H.
  destruct (Z.ltb_spec c 128); [repeat constructor; lia|].
  destruct (Z.ltb_spec c 2048); [repeat constructor; zdiv|].
  destruct (Z.ltb_spec c 65536); [repeat constructor; zdiv|repeat constructor; zdiv].
Qed.

Lemma encode_rune_small c : 0 <= c < 128 -> encode_rune c = [c].
Proof. intros H. unfold encode_rune. destruct (Z.ltb_spec c 128); [reflexivity|lia]. Qed.

Lemma encode_rune_head c : scalar c -> exists b t, encode_rune c = b :: t /\ (128 <= c -> 128 <= b).
Proof.
  unfold scalar, encode_rune. intros H.
  destruct (Z.ltb_spec c 128); [eexists _, _; split; [reflexivity|lia]|].
  destruct (Z.ltb_spec c 2048); [eexists _, _; split; [reflexivity|zdiv]|].
  destruct (Z.ltb_spec c 65536); eexists _, _; (split; [reflexivity|zdiv]).
Qed.

Lemma encode_app a b : encode (a ++ b) = encode a ++ encode b.
Proof. unfold encode. apply flat_map_app. Qed.
Lemma encode_cons c r : encode (c :: r) = encode_rune c ++ encode r.
Proof. reflexivity. Qed.
