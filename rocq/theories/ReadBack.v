(* The text that String gives for an array or a map is read by the parser. *)
From Coq Require Import Strings.Ascii Strings.String.
From Coq Require Import ZArith List Bool Lia.
From Coq Require Import Floats.SpecFloat.
From Verif Require Import Int64 Utf8 Utf8Proofs Text TextSpec TextProofs HMap Data DataProofs Types InstProofs Construct Graph GraphSpec Print PrintSpec PrintProofs Lexer LexerSpec LexerProofs Syntax SyntaxSpec TokenProofs WriteProofs CoreProofs.
Import ListNotations.
Open Scope Z_scope.

Section ReadBack.
Variable E : env.
Variable P : printers.
(* both use the functions of the Go library *)
Definition same_library : Prop := (forall f, Print.p_float P (VFloat f) = e_ftoa E f) /\ (forall s, Print.p_quote P s = quote_bytes E s).
Hypothesis Lib : same_library.

Lemma items_join k l : items [] k true l = join (lit ",") l /\ items [] k false l = concat (map (fun x => lit "," ++ x) l).
Proof.
  induction l as [|x r [IH1 IH2]]; [split; reflexivity|]. cbn [items map concat]. change (nl [] (S k)) with (@nil Z). cbn [app]. rewrite IH2. split; [|now rewrite <- app_assoc].
  clear. revert x. induction r as [|y r IH]; intros x; [cbn; now rewrite app_nil_r|]. cbn [map concat]. rewrite <- app_assoc. rewrite IH. reflexivity.
Qed.
Lemma braces_join k l : braces [] k l = lit "{" ++ join (lit ",") l ++ lit "}".
Proof. unfold braces. rewrite (proj1 (items_join k l)). reflexivity. Qed.

Lemma value_text_exact v : readable_value E v -> forall k, Print.value_text P [] k v = exact_text E v.
Proof.
  destruct Lib as [Sf Sq].
  induction v as [ |b|z|f|s|s|s1 n1 z1|s|x IHx|l IHl|m IHm] using value_ind'; cbn [readable_value]; intros H k; try contradiction; cbn [Print.value_text exact_text leaf_text leaf_type_text]; auto.
  - rewrite braces_join. do 3 f_equal. destruct H as [_ H]. apply fold_and in H. rewrite Forall_forall in *. apply map_ext_in. auto.
  - rewrite braces_join. do 3 f_equal. destruct H as [H _]. apply fold_and in H. rewrite Forall_forall in *. apply map_ext_in. intros e He. specialize (IHm e He). specialize (H e He). unfold entry_text. cbn [length Nat.ltb Nat.leb app].
    now rewrite (proj1 IHm), (proj2 IHm) by tauto.
Qed.

(* ---------- nothing is stripped ---------- *)

Definition plain (l : list Z) : Prop := Forall (fun c => c <> 10) l.
Lemma strip_plain l : plain l -> forall wb x, TextSpec.blank x = false -> x <> 10 -> strip_loop (l ++ [x]) wb = wb ++ l ++ [x].
Proof.
  induction l as [|c r IH]; intros Pl wb x B N; cbn [app strip_loop].
  - rewrite B. destruct (Z.eqb_spec x 10); [contradiction|reflexivity].
  - inversion Pl as [|? ? Nc Pr]; subst. destruct (TextSpec.blank c); [rewrite IH by auto; now rewrite <- app_assoc|]. destruct (Z.eqb_spec c 10); [contradiction|]. now rewrite IH.
Qed.

Lemma digits_plain n : forall z, 0 <= z -> plain (digits n z).
Proof.
  induction n as [|n IH]; intros z Hz; cbn [digits]; [constructor|]. destruct (Z.ltb_spec z 10); [constructor; [lia|constructor]|].
  apply Forall_app. split; [apply IH; apply Z.div_pos; lia|]. constructor; [|constructor]. pose proof (Z.mod_pos_bound z 10). lia.
Qed.
Lemma itoa_plain z : plain (itoa z).
Proof. unfold itoa. destruct (Z.ltb_spec z 0); [constructor; [lia|]|]; apply digits_plain; lia. Qed.
Lemma digit_list_plain ds : forallb is_digit ds = true -> plain ds.
Proof. intros H. apply Forall_forall. intros c Hc. rewrite forallb_forall in H. specialize (H c Hc). unfold is_digit, between in H. lia. Qed.
Lemma float_plain expo s : float_shape expo s -> plain s.
Proof.
  intros (sign & ip & fp & ex & -> & Hs & _ & Hi & Hf & He). repeat (apply Forall_app; split).
  - destruct Hs as [-> | ->]; repeat constructor; discriminate.
  - now apply digit_list_plain.
  - destruct Hf as [-> |(ds & -> & _ & D)]; [constructor|]. constructor; [discriminate|now apply digit_list_plain].
  - destruct expo; [|destruct He as [-> _]; constructor]. destruct He as (c & ds & -> & Hc & _ & D). constructor; [discriminate|]. constructor; [lia|now apply digit_list_plain].
Qed.
Lemma quote_plain cs : Forall (literal_char (e_print E)) cs -> plain (quote (e_print E) cs).
Proof.
  intros F. unfold quote. apply Forall_app; split; [repeat constructor; discriminate|]. apply Forall_app; split; [|repeat constructor; discriminate].
  induction F as [|c cs [Hc L] F IH]; [constructor|]. cbn [flat_map]. apply Forall_app; split; [|exact IH]. unfold quote_char.
  destruct ((c =? 34) || (c =? 92)) eqn:Q; [repeat constructor; lia|].
  destruct (printable (e_print E) c) eqn:Pc.
  - constructor; [|constructor]. intros ->. discriminate.
  - destruct L as [L|[-> |[-> | ->]]]; [congruence| | |]; repeat constructor; discriminate.
Qed.
Lemma join_plain c (l : list (list pt)) : c <> 10 -> Forall (fun ts => plain (all_chars (e_print E) ts)) l -> plain (all_chars (e_print E) (tjoin c l)).
Proof.
  intros N H. induction l as [|x r IH]; [constructor|]. inversion H as [|? ? Hx Hr]; subst. destruct r as [|y r]; [exact Hx|].
  change (tjoin c (x :: y :: r)) with (x ++ PCh c :: tjoin c (y :: r)). rewrite all_chars_app. apply Forall_app; split; [exact Hx|]. change (all_chars (e_print E) (PCh c :: tjoin c (y :: r))) with (c :: all_chars (e_print E) (tjoin c (y :: r))). constructor; [exact N|apply IH; exact Hr].
Qed.
Lemma vtoks_plain v : readable_value E v -> plain (all_chars (e_print E) (vtoks E v)).
Proof.
  induction v as [ |b|z|f|s|s|s1 n1 z1|s|x IHx|l IHl|m IHm] using value_ind'; cbn [readable_value]; intros H; try contradiction; cbn [vtoks].
  - destruct b; repeat constructor; discriminate.
  - cbn [all_chars flat_map chars]. rewrite app_nil_r. apply itoa_plain.
  - destruct H as [expo [H _]]. cbn [all_chars flat_map chars]. rewrite app_nil_r. eapply float_plain, H.
  - destruct H as (cs & -> & F). cbn [all_chars flat_map chars]. rewrite app_nil_r, runes_encode by (eapply literal_chars; exact F). now apply quote_plain.
  - destruct H as [_ H]. apply fold_and in H. change (plain (123 :: all_chars (e_print E) (tjoin 44 (map (vtoks E) l) ++ [PCh 125]))). constructor; [discriminate|]. rewrite all_chars_app. apply Forall_app; split; [|repeat constructor; discriminate].
    apply join_plain; [discriminate|]. rewrite Forall_forall in *. intros ts Ht. apply in_map_iff in Ht as (v & <- & Hv). auto.
  - destruct H as [H _]. apply fold_and in H. match goal with |- plain (all_chars _ (_ :: ?a ++ _)) => change (plain (123 :: all_chars (e_print E) (a ++ [PCh 125]))) end. constructor; [discriminate|]. rewrite all_chars_app. apply Forall_app; split; [|repeat constructor; discriminate].
    apply join_plain; [discriminate|]. rewrite Forall_forall in *. intros ts Ht. apply in_map_iff in Ht as (e & <- & He). specialize (H e He). specialize (IHm e He). rewrite all_chars_app. apply Forall_app; split; [now apply IHm|].
    change (plain (58 :: all_chars (e_print E) (vtoks E (snd e)))). constructor; [discriminate|]. now apply IHm.
Qed.

Definition collection (v : value) : Prop := match v with VArr _ | VMap _ => True | _ => False end.
Lemma finish_exact v : collection v -> readable_value E v -> finish (exact_text E v) = exact_text E v.
Proof.
  intros C R. rewrite value_text by exact R. unfold enc. assert (K : lexable (e_print E) (vtoks E v)). { rewrite <- (app_nil_r (vtoks E v)). apply joins_value; [exact R|exact I|exact I]. }
  apply lexable_chars in K as [K _]. pose proof (vtoks_plain v R) as N. unfold finish, to_string. cbn [fst]. rewrite string_loop_strip; [|eapply Forall_impl; [|exact K]; intros c [Hc _]; exact Hc|reflexivity|lia]. cbn [app]. f_equal.
  assert (X : exists l, all_chars (e_print E) (vtoks E v) = l ++ [125]).
  { destruct v; try contradiction; cbn [vtoks]; rewrite app_comm_cons, all_chars_app; eexists; reflexivity. }
  destruct X as [l X]. rewrite X in *. apply Forall_app in N as [N _]. now rewrite strip_plain.
Qed.

Theorem value_read v : collection v -> readable_value E v -> parse_type E (finish (Print.value_text P [] 0 v)) = POk (TExact 0 v) LEnd.
Proof. intros C R. rewrite value_text_exact, finish_exact by assumption. exact (type_read E (TExact 0 v) R). Qed.
End ReadBack.

Theorem string_read E P g a v n : same_library E P -> closed g -> points g a -> stands g a v -> (length g < n)%nat -> collection v -> readable_value E v ->
  exists b, string_of P [] g n a = Some b /\ parse_type E b = POk (TExact 0 v) LEnd.
Proof.
  intros S C Pa St L K R. destruct (string_finite P [] g a v n C Pa St L) as (b & Eb & H); try (intros; destruct v; cbn in K; (contradiction || discriminate)).
  exists b. split; [exact Eb|]. destruct H as [-> |[F _]]; [now apply value_read|]. destruct v; contradiction.
Qed.
