(* Proofs about the hash codes of native values. *)
From Coq Require Import ZArith List Bool Lia.
From Coq Require Import Floats.SpecFloat.
From Verif Require Import Int64 Data DataProofs Native NativeSpec NativeProofs.
Import ListNotations.
Open Scope Z_scope.

(* ---------- the same values have the same hash codes ---------- *)

Inductive crel (R : nat -> nat -> Prop) : cval -> cval -> Prop :=
| cr_known z : crel R (CKnown z) (CKnown z)
| cr_arr l l' : Forall2 (crel R) l l' -> crel R (CArr l) (CArr l')
| cr_nat e v w : v = w \/ alike R v w -> crel R (CNat e v) (CNat e w).

Fixpoint crel_refl R c : crel R c c.
Proof.
  destruct c as [z|l|e v]; constructor.
  - induction l; constructor; [apply crel_refl|assumption].
  - left. reflexivity.
Qed.

Inductive orel {A} (P : A -> A -> Prop) : out A -> out A -> Prop :=
| or_done x y : P x y -> orel P (Done x) (Done y)
| or_panic : orel P Panic Panic
| or_out : orel P Out Out.
Lemma orel_refl {A} (P : A -> A -> Prop) x : (forall a, P a a) -> orel P x x.
Proof. intros H. destruct x; constructor; auto. Qed.

Lemma omap_rel {A B} (P : A -> A -> Prop) (Q : B -> B -> Prop) (f : A -> out B) : (forall x y, P x y -> orel Q (f x) (f y)) ->
  forall l l', Forall2 P l l' -> orel (Forall2 Q) (omap f l) (omap f l').
Proof.
  intros Hf l l' H. induction H as [|x y r r' Hx Hr IH]; cbn; [constructor; constructor|].
  destruct (Hf _ _ Hx); cbn; [|constructor|constructor]. destruct IH; cbn; constructor. constructor; assumption.
Qed.

Fixpoint crel_hash R c c' (H : crel R c c') {struct H} : arr_hash c = arr_hash c'.
Proof.
  destruct H as [z|l l' H|e v w H]; try reflexivity. cbn. f_equal.
  induction H as [|x y r r' Hx Hr IH]; [reflexivity|]. cbn. rewrite (crel_hash R x y Hx). f_equal. exact IH.
Qed.
Lemma crel_nat R c c' : crel R c c' -> is_nat c = is_nat c'.
Proof. intros H. destruct H; reflexivity. Qed.
Lemma crel_exists R l l' : Forall2 (crel R) l l' -> existsb is_nat l = existsb is_nat l'.
Proof. intros H. induction H as [|x y r r' Hx Hr IH]; [reflexivity|]. cbn. rewrite (crel_nat R _ _ Hx), IH. reflexivity. Qed.

Lemma float_hash f g : SFeqb f g = true -> float_to_int f = float_to_int g.
Proof.
  intros H. destruct (SFeqb_not_nan _ _ H) as [A B]. apply fkey_hash; [|assumption|assumption]. exact (proj1 (SFeqb_key _ _ A B) H).
Qed.

Section Same.
Variable h : heap.
Variable R : nat -> nat -> Prop.
Hypothesis HR : matching h R.

Lemma conv_known_rel (ex : bool) x y v w : vhash x = vhash y -> alike R v w ->
  orel (crel R) (Done (if ex then CKnown (vhash x) else CNat ex v)) (Done (if ex then CKnown (vhash y) else CNat ex w)).
Proof. intros E H. constructor. destruct ex; [rewrite E; constructor|constructor; right; exact H]. Qed.

Lemma conv_rel n : forall ex a b, alike R a b -> orel (crel R) (conv h n ex a) (conv h n ex b).
Proof.
  induction n as [|n IH]; intros ex a b H; [constructor|].
  pose proof H as H0. destruct H; cbn [conv];
    try (apply orel_refl; intros c; apply crel_refl);
    try (constructor; constructor; right; exact H0).
  - apply conv_known_rel; [cbn; apply float_hash; exact H|exact H0].
  - destruct H as [<-|H].
    + apply orel_refl. intros c. apply crel_refl.
    + destruct (HR _ _ H) as (x & y & A & B & C). rewrite A, B. destruct C; try constructor.
      assert (E : orel (Forall2 (crel R)) (omap (conv h n ex) l) (omap (conv h n ex) l')).
      { apply (omap_rel (alike R)); [intros x y; apply IH|assumption]. }
      destruct E as [cs cs' E| |]; cbn; [|constructor|constructor].
      rewrite (crel_exists R _ _ E). destruct (existsb is_nat cs'); constructor. constructor. exact E.
  - destruct H as [<-|H].
    + apply orel_refl. intros c. apply crel_refl.
    + destruct (HR _ _ H) as (x & y & A & B & C). rewrite A, B. pose proof (IH ex x y C) as IC.
      destruct C; try exact IC. constructor. constructor. right. exact H0.
  - apply IH. assumption.
  - destruct H as [<-|H].
    + apply orel_refl. intros c. apply crel_refl.
    + destruct (HR _ _ H) as (x & y & A & B & C). rewrite A, B. destruct C; try constructor.
      destruct ex; constructor. right. exact H0.
Qed.

Lemma conv_proper n : forall ex v e w, conv h n ex v = Done (CNat e w) -> proper h w.
Proof.
  induction n as [|n IH]; intros ex v e w H; [discriminate|].
  destruct v as [b0|z|f|s0|t z|t p|t p|t l|t fs|t [p|]|t [p|]|[x|]|t [x|]|p|s0 k]; cbn [conv] in H; try discriminate;
  try (injection H as <- <-; exact I);
  try (destruct ex; [discriminate|]; injection H as <- <-; exact I).
  - destruct (cell h p) as [[| | | | | | |u l| | | | | | |]|]; try discriminate.
    destruct (omap (conv h n ex) l) as [cs| |]; cbn in H; try discriminate. destruct (existsb is_nat cs); discriminate.
  - destruct (cell h p) as [x|] eqn:E; [|discriminate].
    destruct x; try (exact (IH _ _ _ _ H)). injection H as <- <-. cbn. rewrite E. eauto.
  - exact (IH _ _ _ _ H).
  - destruct (cell h p) as [[]|]; try discriminate. destruct ex; [discriminate|]. injection H as <- <-. exact I.
Qed.

Lemma struct_hash_rel n f : (forall e v w, proper h v -> v = w \/ alike R v w -> f e v = f e w) ->
  forall fs gs, Forall2 (fun e e' => fst e = fst e' /\ alike R (snd e) (snd e')) fs gs ->
  forall ex acc, struct_hash h f n ex acc fs = struct_hash h f n ex acc gs.
Proof.
  intros Hf fs gs H. induction H as [|[e x] [e' y] r r' [He Hx] Hr IH]; intros ex acc; [reflexivity|]. cbn in He, Hx. subst e'. cbn [struct_hash].
  pose proof (conv_rel n (ex && e) x y Hx) as C. destruct (conv h n (ex && e) x) as [c| |] eqn:Ex; inversion C as [c0 c' CR E0 E1|E0 E1|E0 E1]; subst; try reflexivity.
  cbn [obind].
  assert (E : match c with CNat x0 w => f x0 w | _ => Done (arr_hash c) end = match c' with CNat x0 w => f x0 w | _ => Done (arr_hash c') end).
  { pose proof (crel_hash R _ _ CR) as HH. destruct CR as [z|l l' HF|e0 v w HV]; [reflexivity|rewrite HH; reflexivity|].
    apply Hf; [exact (conv_proper _ _ _ _ _ Ex)|exact HV]. }
  rewrite E. destruct (match c' with CNat x0 w => f x0 w | _ => Done (arr_hash c') end); cbn [obind]; auto.
Qed.

Lemma native_hash_rel n : forall ex v w, proper h v -> v = w \/ alike R v w -> native_hash h n ex v = native_hash h n ex w.
Proof.
  induction n as [|n IH]; intros ex v w HP [->|H]; try reflexivity.
  destruct H; cbn [native_hash]; try reflexivity.
  - rewrite (struct_hash_rel n _ (fun e v w => IH e v w) _ _ H). reflexivity.
  - destruct H as [<-|H]; [reflexivity|]. destruct (HR _ _ H) as (x & y & A & B & C). rewrite A, B.
    destruct HP as (t0 & fs & E). rewrite E in A. injection A as <-. inversion C as [| | | | | | | |? ? gs HF| | | | | | | | | |]; subst.
    apply struct_hash_rel; [exact IH|exact HF].
Qed.
End Same.

Theorem same_hash h n ex a b : proper h a -> same h a b -> native_hash h n ex a = native_hash h n ex b.
Proof. intros HP (R & HR & H). apply (native_hash_rel h R HR); [exact HP|right; exact H]. Qed.

Theorem equal_natives_hash h n m a b : proper h a -> native_eq h n a (NoNative b) = Some true ->
  native_hash h m true a = native_hash h m true b.
Proof.
  intros HP H. cbn in H. destruct (deq h n [] a b) as [[r s]|] eqn:E; [|discriminate]. cbn in H. injection H as ->.
  apply same_hash; [exact HP|]. exact (deq_same h _ _ _ _ E).
Qed.

(* ---------- more fuel does not change the result ---------- *)

Definition ended {A} (m : out A) : Prop := m <> Out.

Lemma omap_mono {A B} (f g : A -> out B) : (forall x, ended (f x) -> g x = f x) -> forall l, ended (omap f l) -> omap g l = omap f l.
Proof.
  intros Hf l. induction l as [|x r IH]; intros E; [reflexivity|]. cbn in *.
  destruct (f x) as [y| |] eqn:Ex.
  - rewrite (Hf x) by (rewrite Ex; discriminate). rewrite Ex in *. cbn in *.
    destruct (omap f r) as [ys| |] eqn:Er; [|rewrite IH by discriminate; reflexivity|exfalso; apply E; reflexivity].
    rewrite IH by discriminate. reflexivity.
  - rewrite (Hf x) by (rewrite Ex; discriminate). rewrite Ex. reflexivity.
  - exfalso. apply E. reflexivity.
Qed.

Section Mono.
Variable h : heap.

Lemma conv_mono1 n : forall ex v, ended (conv h n ex v) -> conv h (S n) ex v = conv h n ex v.
Proof.
  induction n as [|n IH]; intros ex v E; [exfalso; apply E; reflexivity|].
  remember (S n) as m eqn:Em. cbn [conv]. subst m. cbn [conv] in E.
  destruct v as [b0|z|f|s0|t z|t p|t p|t l|t fs|t [p|]|t [p|]|[x|]|t [x|]|p|s0 k]; try reflexivity.
  - change (conv h (S n) ex (NvSlice t (Some p))) with
      (match cell h p with Some (NvArr _ l) => obind (omap (conv h n ex) l) (fun cs => if existsb is_nat cs then Panic else Done (CArr cs)) | _ => Out end).
    destruct (cell h p) as [[| | | | | | |u l| | | | | | |]|]; try reflexivity.
    rewrite (omap_mono (conv h n ex) (conv h (S n) ex)); [reflexivity|intros x; apply IH|].
    intros C. apply E. rewrite C. reflexivity.
  - change (conv h (S n) ex (NvPtr t (Some p))) with
      (match cell h p with Some (NvStruct _ _) => Done (CNat ex (NvPtr t (Some p))) | Some x => conv h n ex x | None => Out end).
    destruct (cell h p) as [x|]; [|reflexivity]. destruct x; try reflexivity; apply IH; exact E.
  - change (conv h (S n) ex (NvAny (Some x))) with (conv h n ex x). apply IH. exact E.
Qed.
Lemma conv_mono n m ex v : (n <= m)%nat -> ended (conv h n ex v) -> conv h m ex v = conv h n ex v.
Proof.
  intros L E. induction L as [|m L IH]; [reflexivity|]. rewrite conv_mono1; [exact IH|]. rewrite IH. exact E.
Qed.

Lemma struct_hash_mono f g n m : (forall e v, ended (f e v) -> g e v = f e v) -> (n <= m)%nat ->
  forall fs ex acc, ended (struct_hash h f n ex acc fs) -> struct_hash h g m ex acc fs = struct_hash h f n ex acc fs.
Proof.
  intros Hf L fs. induction fs as [|[e v] r IH]; intros ex acc E; [reflexivity|]. cbn [struct_hash] in *.
  destruct (conv h n (ex && e) v) as [c| |] eqn:Ec.
  - rewrite (conv_mono n m) by (try exact L; rewrite Ec; discriminate). rewrite Ec. cbn [obind] in *.
    assert (Hc : forall z, (match c with CNat x w => f x w | _ => Done (arr_hash c) end) = z -> z <> Out ->
      (match c with CNat x w => g x w | _ => Done (arr_hash c) end) = z).
    { intros z Hz Nz. destruct c; try exact Hz. rewrite Hf; [exact Hz|]. rewrite Hz. exact Nz. }
    destruct (match c with CNat x w => f x w | _ => Done (arr_hash c) end) as [z| |] eqn:Ez.
    + rewrite (Hc _ eq_refl) by discriminate. cbn [obind] in *. apply IH. exact E.
    + rewrite (Hc _ eq_refl) by discriminate. reflexivity.
    + exfalso. apply E. reflexivity.
  - rewrite (conv_mono n m) by (try exact L; rewrite Ec; discriminate). rewrite Ec. reflexivity.
  - exfalso. apply E. reflexivity.
Qed.

Lemma native_hash_mono1 n : forall ex v, ended (native_hash h n ex v) -> native_hash h (S n) ex v = native_hash h n ex v.
Proof.
  induction n as [|n IH]; intros ex v E; [exfalso; apply E; reflexivity|].
  remember (S n) as m eqn:Em. cbn [native_hash]. subst m. cbn [native_hash] in E.
  destruct v as [b0|z|f|s0|t z|t p|t p|t l|t fs|t [p|]|t [p|]|[x|]|t [x|]|p|s0 k]; try reflexivity.
  - change (native_hash h (S n) ex (NvStruct t fs)) with (obind (struct_hash h (native_hash h n) n ex 1 fs) (fun z => Done (w64 (z * 3)))).
    rewrite (struct_hash_mono (native_hash h n) (native_hash h (S n)) n (S n) IH ltac:(lia)); [reflexivity|].
    intros C. apply E. rewrite C. reflexivity.
  - change (native_hash h (S n) ex (NvPtr t (Some p))) with
      (match cell h p with Some (NvStruct _ fs) => struct_hash h (native_hash h n) n ex 1 fs | Some _ => Done (mix (Z.of_nat p)) | None => Out end).
    destruct (cell h p) as [x|]; [|reflexivity]. destruct x; try reflexivity.
    apply (struct_hash_mono (native_hash h n) (native_hash h (S n)) n (S n) IH ltac:(lia)). exact E.
Qed.
Lemma native_hash_mono n m ex v : (n <= m)%nat -> ended (native_hash h n ex v) -> native_hash h m ex v = native_hash h n ex v.
Proof.
  intros L E. induction L as [|m L IH]; [reflexivity|]. rewrite native_hash_mono1; [exact IH|]. rewrite IH. exact E.
Qed.

(* ---------- without cycles HashCode ends ---------- *)

Definition hash_ends (v : nval) : Prop := forall ex, exists n, ended (native_hash h n ex v).
Definition conv_ends (v : nval) : Prop :=
  forall ex, exists n, ended (conv h n ex v) /\ forall e w, conv h n ex v = Done (CNat e w) -> hash_ends w.

Lemma struct_ends fs : Forall (fun e : bool * nval => conv_ends (snd e)) fs ->
  forall ex, exists n, forall acc, ended (struct_hash h (native_hash h n) n ex acc fs).
Proof.
  intros H ex. induction H as [|[e v] r Hv Hr IH]; [exists 0%nat; intros acc; discriminate|].
  destruct IH as (n & IH). cbn in Hv. destruct (Hv (ex && e)) as (m & Hm & HN).
  assert (X : exists k, forall c, conv h m (ex && e) v = Done c -> ended (match c with CNat x w => native_hash h k x w | _ => Done (arr_hash c) end)).
  { destruct (conv h m (ex && e) v) as [c| |]; try (exists 0%nat; intros c E; discriminate).
    destruct c as [z|l|x w]; try (exists 0%nat; intros c E; injection E as <-; discriminate).
    destruct (HN x w eq_refl x) as (k & Hk). exists k. intros c E. injection E as <-. exact Hk. }
  destruct X as (k & Hk). set (N := Nat.max n (Nat.max m k)). exists N. intros acc. cbn [struct_hash].
  assert (L1 : (n <= N)%nat) by (unfold N; lia). assert (L2 : (m <= N)%nat) by (unfold N; lia). assert (L3 : (k <= N)%nat) by (unfold N; lia).
  rewrite (conv_mono m N _ _ L2 Hm). destruct (conv h m (ex && e) v) as [c| |]; [|discriminate|exfalso; apply Hm; reflexivity].
  specialize (Hk c eq_refl). cbn [obind].
  assert (E : match c with CNat x w => native_hash h N x w | _ => Done (arr_hash c) end = match c with CNat x w => native_hash h k x w | _ => Done (arr_hash c) end).
  { destruct c; try reflexivity. apply native_hash_mono; [exact L3|exact Hk]. }
  rewrite E. destruct (match c with CNat x w => native_hash h k x w | _ => Done (arr_hash c) end) as [z| |]; [|discriminate|exfalso; apply Hk; reflexivity].
  cbn [obind]. rewrite (struct_hash_mono (native_hash h n) (native_hash h N) n N); [apply IH| |exact L1|apply IH].
  intros x w Hx. apply native_hash_mono; [exact L1|exact Hx].
Qed.

Lemma omap_ends l : Forall conv_ends l -> forall ex, exists n, ended (omap (conv h n ex) l).
Proof.
  intros H ex. induction H as [|v r Hv Hr IH]; [exists 0%nat; discriminate|].
  destruct IH as (n & IH). destruct (Hv ex) as (m & Hm & _). exists (Nat.max n m). cbn.
  rewrite (conv_mono m (Nat.max n m) ex v ltac:(lia) Hm). destruct (conv h m ex v); [|discriminate|exfalso; apply Hm; reflexivity]. cbn.
  rewrite (omap_mono (conv h n ex) (conv h (Nat.max n m) ex)); [|intros y; apply conv_mono; lia|exact IH].
  destruct (omap (conv h n ex) r); [discriminate|discriminate|exfalso; apply IH; reflexivity].
Qed.

Hypothesis Hh : heap_ok h.
Variable rank : nat -> nat.
Hypothesis Hrank : forall p x k q, cell h p = Some x -> refers x k q -> (rank q < rank p)%nat.

Lemma known_ends (v : nval) : native_hash h 1 true v = Done 1234 -> native_hash h 1 false v = Done 1234 ->
  (forall ex, (exists z, conv h 1 ex v = Done (CKnown z)) \/ conv h 1 ex v = Done (CNat ex v)) -> hash_ends v /\ conv_ends v.
Proof.
  intros H1 H2 HC. assert (HE : hash_ends v).
  { intros ex. exists 1%nat. destruct ex; [rewrite H1|rewrite H2]; discriminate. }
  split; [exact HE|]. intros ex. exists 1%nat. destruct (HC ex) as [[z C]|C]; rewrite C; (split; [discriminate|]); intros e w E; [discriminate|].
  injection E as <- <-. exact HE.
Qed.

Lemma all_end k : forall v, (forall kd p, refers v kd p -> (rank p < k)%nat) -> value_ok h v -> hash_ends v /\ conv_ends v.
Proof.
  induction k as [k IHk] using lt_wf_ind.
  intros v. induction v as [v Lv|t l IHv|t fs IHv|x IHv|t x IHv] using nval_ind'; intros Hk Ok.
  - destruct v as [b0|z|f|s0|t z|t p|t p|t l|t fs|t [p|]|t [p|]|[x|]|t [x|]|p|s0 k0]; try contradiction;
    try (apply known_ends; [reflexivity|reflexivity|]; intros [|]; cbn; eauto; fail).
    + split; [intros ex; exists 1%nat; discriminate|]. intros ex. exists 1%nat. split; [discriminate|]. intros e w E. cbn in E. injection E as <- <-.
      intros ex'. exists 1%nat. discriminate.
    + split; [intros ex; exists 1%nat; discriminate|]. intros ex.
      destruct (Ok KSlice p) as (c & Hc & Fc); [constructor|]. destruct c as [| | | | | | |u l| | | | | | |]; try contradiction.
      assert (HL : Forall conv_ends l).
      { apply Forall_forall. intros x Hx. apply (IHk (rank p)).
        - exact (Hk _ _ (rf_slice t p)).
        - intros kd q Hr. apply (Hrank p _ kd q Hc). econstructor; eassumption.
        - exact (value_ok_arr h _ _ _ (Hh _ _ Hc) Hx). }
      destruct (omap_ends l HL ex) as (n & Hn). exists (S n). cbn [conv]. rewrite Hc.
      destruct (omap (conv h n ex) l) as [cs| |]; cbn [obind]; [|split; [discriminate|intros e w E; discriminate]|exfalso; apply Hn; reflexivity].
      destruct (existsb is_nat cs); (split; [discriminate|intros e w E; discriminate]).
    + assert (HE : hash_ends (NvPtr t (Some p)) /\ exists c, cell h p = Some c /\ conv_ends c).
      { destruct (Ok KPtr p) as (c & Hc & Fc); [constructor|].
        assert (B : hash_ends c /\ conv_ends c).
        { apply (IHk (rank p)); [exact (Hk _ _ (rf_ptr t p))|intros kd q Hr; exact (Hrank _ _ _ _ Hc Hr)|exact (Hh _ _ Hc)]. }
        split; [|exists c; split; [exact Hc|exact (proj2 B)]]. intros ex. destruct (proj1 B ex) as (n & Hn).
        destruct n as [|n]; [exfalso; apply Hn; reflexivity|]. exists (S n). cbn [native_hash] in *. rewrite Hc.
        destruct c; try discriminate. intros E. apply Hn. rewrite E. reflexivity. }
      destruct HE as [HE (c & Hc & CE)]. split; [exact HE|]. intros ex. destruct (CE ex) as (n & Hn & HN).
      exists (S n). cbn [conv]. rewrite Hc. destruct c; try (split; [exact Hn|exact HN]).
      split; [discriminate|]. intros e w E. injection E as <- <-. exact HE.
    + split; [intros ex; exists 1%nat; discriminate|]. intros ex. exists 1%nat. split; [discriminate|]. intros e w E. discriminate.
    + split; [intros ex; exists 1%nat; discriminate|]. intros ex. destruct (Ok KStr p) as (c & Hc & Fc); [constructor|].
      destruct c; try contradiction. exists 1%nat. cbn [conv]. rewrite Hc. split; [discriminate|].
      intros e w E. destruct ex; [discriminate|]. injection E as <- <-. intros ex'. exists 1%nat. discriminate.
  - apply known_ends; [reflexivity|reflexivity|]. intros ex. right. reflexivity.
  - assert (HF : Forall (fun e : bool * nval => conv_ends (snd e)) fs).
    { apply Forall_forall. intros e He. apply (proj1 (Forall_forall _ _) IHv e He).
      - intros kd p Hr. apply (Hk kd p). econstructor; eassumption.
      - intros kd p Hr. apply Ok. econstructor; eassumption. }
    assert (HE : hash_ends (NvStruct t fs)).
    { intros ex. destruct (struct_ends fs HF ex) as (n & Hn). exists (S n). cbn [native_hash].
      specialize (Hn 1). destruct (struct_hash h (native_hash h n) n ex 1 fs); [discriminate|discriminate|exfalso; apply Hn; reflexivity]. }
    split; [exact HE|]. intros ex. exists 1%nat. split; [discriminate|]. intros e w E. cbn in E. injection E as <- <-. exact HE.
  - destruct IHv as [_ C].
    + intros kd p Hr. apply (Hk kd p). constructor. exact Hr.
    + intros kd p Hr. apply Ok. constructor. exact Hr.
    + split; [intros ex; exists 1%nat; discriminate|]. intros ex. destruct (C ex) as (n & Hn & HN). exists (S n). split; [exact Hn|exact HN].
  - apply known_ends; [reflexivity|reflexivity|]. intros ex. right. reflexivity.
Qed.
End Mono.

Lemma list_bound (f : nat -> nat) (l : list nat) : exists k, forall x, In x l -> (f x < k)%nat.
Proof.
  induction l as [|x r (k & IH)]; [exists 0%nat; intros x []|]. exists (Nat.max k (S (f x))). intros y [<-|H]; [lia|]. specialize (IH y H). lia.
Qed.

Theorem hash_of_acyclic h v : heap_ok h -> acyclic h -> value_ok h v -> exists n r, forall m, (n <= m)%nat -> native_hash h m true v = r /\ r <> Out.
Proof.
  intros Hh (rank & HR) Ok. destruct (list_bound rank (seq 0 (List.length h))) as (k & Hk).
  destruct (all_end h Hh rank HR k v) as [HE _].
  - intros kd p Hr. apply Hk. destruct (Ok kd p Hr) as (x & Hx & _). apply in_seq. split; [lia|]. apply nth_error_Some. unfold cell in Hx. congruence.
  - exact Ok.
  - destruct (HE true) as (n & Hn). exists n, (native_hash h n true v). intros m L. split; [apply native_hash_mono; assumption|exact Hn].
Qed.

(* ---------- panics ---------- *)

Section Panics.
Variable h : heap.

Lemma conv_simple n : forall ex v, simple h ex v -> forall r, conv h n ex v = r -> r = Out \/ exists c, r = Done c /\ is_nat c = false.
Proof.
  induction n as [|n IH]; intros ex v H r E; [left; subst; reflexivity|].
  destruct H as [b|z|f|s|ex t p|ex t|ex t p u l Hc HF|ex t|ex t p x Hc Hx|ex|ex x Hx|t|p s k Hc]; cbn [conv] in E; subst r;
    try (right; eexists; split; reflexivity).
  - rewrite Hc.
    assert (A : omap (conv h n ex) l = Out \/ exists cs, omap (conv h n ex) l = Done cs /\ existsb is_nat cs = false).
    { clear Hc. induction HF as [|x r Hx HF IHF]; [right; exists []; split; reflexivity|]. cbn.
      destruct (IH ex x Hx _ eq_refl) as [->|(c & -> & Ec)]; [left; reflexivity|]. cbn.
      destruct IHF as [->|(cs & -> & Es)]; [left; reflexivity|]. right. exists (c :: cs). split; [reflexivity|]. cbn. rewrite Ec. exact Es. }
    destruct A as [->|(cs & -> & A)]; [left; reflexivity|]. cbn [obind]. rewrite A. right. eexists. split; reflexivity.
  - rewrite Hc. destruct (IH ex x Hx _ eq_refl) as [A|(c & A & B)]; destruct x; try (inversion Hx; fail); rewrite A; [..]; eauto.
  - exact (IH ex x Hx _ eq_refl).
  - rewrite Hc. right. eexists. split; reflexivity.
Qed.

Definition slices_fine (ex : bool) (v : nval) : Prop :=
  forall ex' t p, meets h ex v ex' (NvSlice t (Some p)) -> exists u l, cell h p = Some (NvArr u l) /\ Forall (simple h ex') l.

Lemma conv_fine n : forall ex v, slices_fine ex v ->
  conv h n ex v <> Panic /\ forall e w, conv h n ex v = Done (CNat e w) -> slices_fine e w.
Proof.
  induction n as [|n IH]; intros ex v H; [split; [discriminate|intros e w E; discriminate]|].
  destruct v as [b0|z|f|s0|t z|t p|t p|t l|t fs|t [p|]|t [p|]|[x|]|t [x|]|p|s0 k]; cbn [conv];
    try (split; [discriminate|]; intros e w E; destruct ex; try discriminate; injection E as <- <-; exact H; fail);
    try (split; [discriminate|]; intros e w E; try discriminate; injection E as <- <-; exact H; fail).
  - destruct (H ex t p (me_self _ _ _)) as (u & l & Hc & HF). rewrite Hc.
    assert (A : conv h (S n) ex (NvSlice t (Some p)) = Out \/ exists c, conv h (S n) ex (NvSlice t (Some p)) = Done c /\ is_nat c = false).
    { eapply conv_simple; [econstructor; eassumption|reflexivity]. }
    cbn [conv] in A. rewrite Hc in A. destruct A as [A|(c & A & B)]; rewrite A; (split; [discriminate|]); intros e w E; [discriminate|].
    injection E as ->. discriminate.
  - destruct (cell h p) as [x|] eqn:Hc; [|split; [discriminate|intros e w E; discriminate]].
    assert (Hx : slices_fine ex x).
    { intros ex' t' p' Hm. apply (H ex' t' p'). econstructor; eassumption. }
    pose proof (IH ex x Hx) as IHx. destruct x; try exact IHx.
    split; [discriminate|]. intros e w E. injection E as <- <-. exact H.
  - apply IH. intros ex' t' p' Hm. apply (H ex' t' p'). constructor. exact Hm.
  - destruct (cell h p) as [[]|]; try (split; [discriminate|intros e w E; discriminate]).
    split; [discriminate|]. intros e w E. destruct ex; [discriminate|]. injection E as <- <-. exact H.
Qed.

Lemma struct_hash_fine f n : (forall e v, slices_fine e v -> f e v <> Panic) ->
  forall fs ex, (forall e x, In (e, x) fs -> slices_fine (ex && e) x) -> forall acc, struct_hash h f n ex acc fs <> Panic.
Proof.
  intros Hf fs. induction fs as [|[e x] r IH]; intros ex H acc; [discriminate|]. cbn [struct_hash].
  destruct (conv_fine n (ex && e) x (H e x (or_introl eq_refl))) as [A B].
  destruct (conv h n (ex && e) x) as [c| |]; cbn [obind]; [|congruence|discriminate].
  assert (C : match c with CNat x0 w => f x0 w | _ => Done (arr_hash c) end <> Panic).
  { destruct c; try discriminate. apply Hf. apply B. reflexivity. }
  destruct (match c with CNat x0 w => f x0 w | _ => Done (arr_hash c) end); cbn [obind]; [|congruence|discriminate].
  apply IH. intros e' x' Hin. apply H. right. exact Hin.
Qed.

Lemma fields_fine ex t fs : slices_fine ex (NvStruct t fs) -> forall e x, In (e, x) fs -> slices_fine (ex && e) x.
Proof. intros H e x Hin ex' t' p Hm. apply (H ex' t' p). econstructor; eassumption. Qed.
Lemma native_hash_fine n : forall ex v, slices_fine ex v -> native_hash h n ex v <> Panic.
Proof.
  induction n as [|n IH]; intros ex v H; [discriminate|].
  destruct v as [b0|z|f|s0|t z|t p|t p|t l|t fs|t [p|]|t [p|]|[x|]|t [x|]|p|s0 k]; cbn [native_hash]; try discriminate.
  - pose proof (struct_hash_fine _ n IH fs ex (fields_fine _ _ _ H) 1) as A.
    destruct (struct_hash h (native_hash h n) n ex 1 fs); [discriminate|congruence|discriminate].
  - destruct (cell h p) as [x|] eqn:Hc; [|discriminate]. destruct x as [| | | | | | | |u fs| | | | | |]; try discriminate.
    apply (struct_hash_fine _ n IH). apply (fields_fine ex u fs). intros ex' t' p' Hm. apply (H ex' t' p'). econstructor; eassumption.
Qed.
End Panics.

Theorem hash_does_not_panic h n v : simple_slices h v -> native_hash h n true v <> Panic.
Proof. intros H. apply native_hash_fine. exact H. Qed.

(* ---------- what HashCode writes ---------- *)

Lemma conv_same_heaps h h' : same_but_hashes h h' -> forall n ex v, conv h n ex v = conv h' n ex v.
Proof.
  intros H n. induction n as [|n IH]; intros ex v; [reflexivity|].
  destruct v as [b0|z|f|s0|t z|t p|t p|t l|t fs|t [p|]|t [p|]|[x|]|t [x|]|p|s0 k]; cbn [conv]; try reflexivity.
  - specialize (H p). destruct (cell h p) as [[| | | | | | |u l| | | | | | |s k]|], (cell h' p) as [[| | | | | | |u' l'| | | | | | |s' k']|]; try discriminate H; try reflexivity.
    injection H as <- <-. assert (E : omap (conv h n ex) l = omap (conv h' n ex) l).
    { clear -IH. induction l as [|x r IHl]; [reflexivity|]. cbn. rewrite IH, IHl. reflexivity. }
    rewrite E. reflexivity.
  - specialize (H p). destruct (cell h p) as [x|], (cell h' p) as [x'|]; try (destruct x; discriminate H); try discriminate H; try reflexivity.
    assert (D : x = x' \/ exists s k k', x = NvHstr s k /\ x' = NvHstr s k').
    { destruct x, x'; try discriminate H; try (left; congruence). right. cbv zeta in H. subst. do 3 eexists. split; reflexivity. }
    destruct D as [<-|(s & k & k' & -> & ->)]; [destruct x; try reflexivity; apply IH|]. destruct n; reflexivity.
  - apply IH.
  - specialize (H p). destruct (cell h p) as [[| | | | | | | | | | | | | |s k]|], (cell h' p) as [[| | | | | | | | | | | | | |s' k']|]; try discriminate H; try reflexivity.
    cbv zeta in H. subst. reflexivity.
Qed.
Lemma struct_same_heaps h h' f g n : same_but_hashes h h' -> (forall e v, f e v = g e v) ->
  forall fs ex acc, struct_hash h f n ex acc fs = struct_hash h' g n ex acc fs.
Proof.
  intros H Hf fs. induction fs as [|[e x] r IH]; intros ex acc; [reflexivity|]. cbn [struct_hash]. rewrite (conv_same_heaps h h' H).
  destruct (conv h' n (ex && e) x) as [c| |]; cbn [obind]; try reflexivity.
  destruct c as [z|l|x0 w]; cbn [obind]; try apply IH. rewrite Hf. destruct (g x0 w); cbn [obind]; try reflexivity. apply IH.
Qed.
Theorem hash_same_heaps h h' : same_but_hashes h h' -> forall n ex v, native_hash h n ex v = native_hash h' n ex v.
Proof.
  intros H n. induction n as [|n IH]; intros ex v; [reflexivity|].
  destruct v as [b0|z|f|s0|t z|t p|t p|t l|t fs|t [p|]|t [p|]|[x|]|t [x|]|p|s0 k]; cbn [native_hash]; try reflexivity.
  - rewrite (struct_same_heaps h h' _ _ n H IH). reflexivity.
  - pose proof (H p) as Hp. destruct (cell h p) as [x|], (cell h' p) as [x'|]; try (destruct x; discriminate Hp); try discriminate Hp; try reflexivity.
    destruct x, x'; try discriminate Hp; try reflexivity. injection Hp as <- <-. apply (struct_same_heaps h h' _ _ n H IH).
Qed.

Lemma same_but_refl h : same_but_hashes h h.
Proof. intros p. destruct (cell h p) as [[]|]; reflexivity. Qed.
Lemma same_but_trans a b c : same_but_hashes a b -> same_but_hashes b c -> same_but_hashes a c.
Proof.
  intros H H' p. specialize (H p). specialize (H' p).
  destruct (cell a p) as [[]|], (cell b p) as [[]|], (cell c p) as [[]|]; try discriminate; congruence.
Qed.
Lemma update_same h p : same_but_hashes h (update h p).
Proof.
  revert p. induction h as [|x r IH]; intros p; [destruct p; apply same_but_refl|]. destruct p as [|p]; cbn.
  - intros [|q]; cbn; [destruct x; reflexivity|]. apply (same_but_refl r q).
  - intros [|q]; cbn; [destruct x; reflexivity|]. apply (IH p q).
Qed.
Theorem after_hash_same n h v : same_but_hashes h (after_hash n h v).
Proof.
  unfold after_hash. generalize (asked h n v). intros l. revert h. induction l as [|p r IH]; intros h; cbn; [apply same_but_refl|].
  eapply same_but_trans; [apply update_same|apply IH].
Qed.
(* HashCode gives the same again, for all natives *)
Theorem hash_again n h v m w : native_hash (after_hash n h v) m true w = native_hash h m true w.
Proof. symmetry. apply hash_same_heaps. apply after_hash_same. Qed.

Lemma update_warm h p : all_warm h -> update h p = h.
Proof.
  intros H. revert p H. induction h as [|x r IH]; intros [|p] H; cbn; try reflexivity.
  - f_equal. destruct x; try reflexivity. cbn. f_equal. symmetry. exact (H 0%nat s hash eq_refl).
  - f_equal. apply IH. intros q s k E. exact (H (S q) s k E).
Qed.
Theorem equals_after_hash n h v : all_warm h -> after_hash n h v = h.
Proof.
  intros H. unfold after_hash. generalize (asked h n v). intros l. induction l as [|p r IH]; [reflexivity|]. cbn. rewrite update_warm; assumption.
Qed.

(* a struct with a pointer to itself *)
Lemma cycle_never_ends : forall n, native_hash [NvStruct 1 [(true, NvPtr 2 (Some 0%nat))]] n true (NvPtr 2 (Some 0%nat)) = Out.
Proof.
  induction n as [|n IH]; [reflexivity|]. cbn [native_hash cell nth_error struct_hash].
  destruct n as [|n]; [reflexivity|]. cbn [conv cell nth_error obind andb]. rewrite IH. reflexivity.
Qed.
