(* Proofs about mutable arrays as keys of maps. *)
From Coq Require Import ZArith List Bool Lia.
From Verif Require Import Int64 HMap HMapSpec HMapBase HMapInv HMapRefine HMapCor MutKeys MutKeysSpec.
Import ListNotations.
Open Scope Z_scope.

(* ---------- operations use equality and hash codes of the keys that there are ---------- *)
Section Agree.
Variables (K V : Type) (keq1 keq2 : K -> K -> bool) (khash1 khash2 : K -> Z).
Variable P : K -> Prop.
Hypothesis same_eq : forall a b, P a -> P b -> keq1 a b = keq2 a b.
Hypothesis same_hash : forall a, P a -> khash1 a = khash2 a.
Definition keys_of (s : list (node K V)) : Prop := Forall (fun nd => P (nkey nd)) s.

Lemma nth_key s i nd : keys_of s -> nth_error s i = Some nd -> P (nkey nd).
Proof. intros H E. apply nth_error_In in E. unfold keys_of in H. rewrite Forall_forall in H. now apply H. Qed.
Lemma upd_keys s i nd : keys_of s -> P (nkey nd) -> keys_of (upd s i nd).
Proof. intros H Hn. revert i. induction H as [|x s Hx Hs IH]; intros [|i]; cbn; try constructor; auto. apply IH. Qed.
Lemma mutate_keys s p f s' : (forall nd, nkey (f nd) = nkey nd) -> keys_of s -> mutate s p f = Some s' -> keys_of s'.
Proof.
  intros F H E. unfold mutate in E. destruct p as [i|]; [|discriminate]. destruct (nth_error s i) as [nd|] eqn:N; [|discriminate]. injection E as <-. apply upd_keys; [exact H|]. rewrite F. now apply (nth_key s i).
Qed.
Lemma hidx_same tbl k : P k -> hidx K khash1 tbl k = hidx K khash2 tbl k.
Proof. intros H. unfold hidx. now rewrite same_hash. Qed.
Lemma find_same s k : keys_of s -> P k -> forall fuel e, find_chain K V keq1 fuel s k e = find_chain K V keq2 fuel s k e.
Proof.
  intros H Hk. induction fuel as [|fuel IH]; intros [i|]; cbn; try reflexivity. destruct (nth_error s i) as [nd|] eqn:N; [|reflexivity]. rewrite same_eq by (auto; now apply (nth_key s i)). now rewrite IH.
Qed.
Lemma hget_same s g k : keys_of s -> P k -> hget K V keq1 khash1 s g k = hget K V keq2 khash2 s g k.
Proof.
  intros H Hk. unfold hget. destruct (htbl g) as [|x tbl] eqn:T; [reflexivity|]. rewrite hidx_same by exact Hk. destruct (nth_error _ _); [|reflexivity]. now rewrite find_same.
Qed.
Lemma append_same s g k v : P k -> append_node K V khash1 s g k v = append_node K V khash2 s g k v.
Proof. intros Hk. unfold append_node. now rewrite hidx_same. Qed.
Lemma app_key s nd : keys_of s -> P (nkey nd) -> keys_of (s ++ [nd]).
Proof. intros H Hn. apply Forall_app. split; [exact H|]. now constructor. Qed.
Lemma append_keys s g k v s' g' : keys_of s -> P k -> append_node K V khash2 s g k v = Some (s', g') -> keys_of s'.
Proof.
  intros H Hk E. unfold append_node in E. destruct (nth_error _ _) as [e|]; [|discriminate]. assert (A : keys_of (s ++ [Node k v e None (hlast g)])) by now apply app_key.
  destruct (hfirst g); [|now injection E as <- <-]. destruct (mutate _ _ _) as [s2|] eqn:M; [|discriminate]. injection E as <- <-. eapply mutate_keys; [|exact A|exact M]. reflexivity.
Qed.
Lemma resize_same fuel : forall s oe nt cf prev, keys_of s ->
  resize_loop K V khash1 fuel s oe nt cf prev = resize_loop K V khash2 fuel s oe nt cf prev /\
  forall s' nt' cf' cl', resize_loop K V khash2 fuel s oe nt cf prev = Some (s', nt', cf', cl') -> keys_of s'.
Proof.
  induction fuel as [|fuel IH]; intros s oe nt cf prev H; destruct oe as [i|]; cbn; try (split; [reflexivity|]; intros; solve [discriminate | congruence]).
  - destruct (nth_error s i) as [nd|] eqn:N; [|split; [reflexivity|intros; discriminate]]. pose proof (nth_key s i nd H N) as Pk. rewrite (hidx_same nt (nkey nd) Pk).
    destruct (nth_error nt _) as [e|]; [|split; [reflexivity|intros; discriminate]].
    assert (A : keys_of (s ++ [Node (nkey nd) (nval nd) e None prev])) by now apply app_key.
    destruct prev as [q|]; [|now apply IH]. destruct (mutate _ _ _) as [s2|] eqn:M; [|split; [reflexivity|intros; discriminate]]. apply IH. eapply mutate_keys; [|exact A|exact M]. reflexivity.
Qed.
Lemma hresize_same s g c n : keys_of s -> hresize K V khash1 s g c n = hresize K V khash2 s g c n /\ forall s' g', hresize K V khash2 s g c n = Some (s', g') -> keys_of s'.
Proof.
  intros H. unfold hresize. cbv zeta. destruct (resize_same (fuel_of s) s (hfirst g) (repeat None (Z.to_nat (tableSizeFor (tlen (htbl g) + n)))) (hfirst c) None H) as [E F]. rewrite E. split; [reflexivity|].
  intros s' g' Q. match type of Q with context [resize_loop ?a ?b ?c ?d ?e ?f ?g ?h ?i] => destruct (resize_loop a b c d e f g h i) as [[[[s1 nt] cf] cl]|] end; [|discriminate Q]. injection Q as <- <-. eapply F. reflexivity.
Qed.
Lemma hput_same s g k v : keys_of s -> P k -> hput K V keq1 khash1 s g k v = hput K V keq2 khash2 s g k v /\ forall s' g' o, hput K V keq2 khash2 s g k v = Some (s', g', o) -> keys_of s'.
Proof.
  intros H Hk. unfold hput. cbv zeta. set (g1 := match htbl g with [] => _ | _ => g end). rewrite (hidx_same _ k Hk). destruct (nth_error (htbl g1) _) as [e|]; [|split; [reflexivity|intros; discriminate]].
  rewrite (find_same s k H Hk). destruct (find_chain _ _ _ _ _ _ _) as [[i|]|]; [| |split; [reflexivity|intros; discriminate]].
  - destruct (nth_error s i) as [nd|] eqn:N; [|split; [reflexivity|intros; discriminate]]. split; [reflexivity|]. intros s' g' o Q. injection Q as <- <- <-. apply upd_keys; [exact H|]. change (P (nkey nd)). now apply (nth_key s i nd).
  - destruct (over_load _ _).
    + destruct (hresize_same s g1 g1 1 H) as [E F]. rewrite E. destruct (hresize K V khash2 s g1 g1 1) as [[s1 g2]|]; [|split; [reflexivity|intros; discriminate]]. specialize (F s1 g2 eq_refl).
      rewrite (append_same s1 g2 k v Hk). split; [reflexivity|]. intros s' g' o Q. destruct (append_node _ _ _ _ _ _ _) as [[s2 g3]|] eqn:A; [|discriminate]. injection Q as <- _ _. eapply append_keys; eauto.
    + rewrite (append_same s g1 k v Hk). split; [reflexivity|]. intros s' g' o Q. destruct (append_node _ _ _ _ _ _ _) as [[s2 g3]|] eqn:A; [|discriminate]. injection Q as <- _ _. eapply append_keys; eauto.
Qed.
Lemma unlink_keys s g hk p i s' g' : keys_of s -> unlink s g hk p i = Some (s', g') -> keys_of s'.
Proof.
  intros H E. unfold unlink in E. destruct (nth_error s i) as [e|]; [|discriminate].
  assert (M : forall s p f s', (forall nd : node K V, nkey (f nd) = nkey nd) -> keys_of s -> mutate s p f = Some s' -> keys_of s') by (intros; eapply mutate_keys; eauto).
  destruct p as [p|].
  - destruct (mutate s (Some p) _) as [s1|] eqn:M1; [|discriminate]. apply M in M1; [|reflexivity|exact H].
    destruct (nprev e) as [q|].
    + destruct (mutate s1 (Some q) _) as [s2|] eqn:M2; [|discriminate]. apply M in M2; [|reflexivity|exact M1]. destruct (nnext e) as [r|]; [|now injection E as <- _].
      destruct (mutate s2 (Some r) _) as [s3|] eqn:M3; [|discriminate]. apply M in M3; [|reflexivity|exact M2]. now injection E as <- _.
    + destruct (nnext e) as [r|]; [|now injection E as <- _]. destruct (mutate s1 (Some r) _) as [s3|] eqn:M3; [|discriminate]. apply M in M3; [|reflexivity|exact M1]. now injection E as <- _.
  - destruct (nprev e) as [q|].
    + destruct (mutate s (Some q) _) as [s2|] eqn:M2; [|discriminate]. apply M in M2; [|reflexivity|exact H]. destruct (nnext e) as [r|]; [|now injection E as <- _].
      destruct (mutate s2 (Some r) _) as [s3|] eqn:M3; [|discriminate]. apply M in M3; [|reflexivity|exact M2]. now injection E as <- _.
    + destruct (nnext e) as [r|]; [|now injection E as <- _]. destruct (mutate s (Some r) _) as [s3|] eqn:M3; [|discriminate]. apply M in M3; [|reflexivity|exact H]. now injection E as <- _.
Qed.
Lemma hremove_same s g k : keys_of s -> P k -> hremove K V keq1 khash1 s g k = hremove K V keq2 khash2 s g k /\ forall s' g' o, hremove K V keq2 khash2 s g k = Some (s', g', o) -> keys_of s'.
Proof.
  intros H Hk. unfold hremove. rewrite (hidx_same _ k Hk). destruct (nth_error (htbl g) _) as [e0|]; [|split; [reflexivity|intros; discriminate]].
  generalize (@None nat) as p, e0 as e. induction (fuel_of s) as [|fuel IH]; intros p [i|]; cbn [remove_loop]; try (split; [reflexivity|]; intros; solve [discriminate | congruence]).
  destruct (nth_error s i) as [nd|] eqn:N; [|split; [reflexivity|intros; discriminate]]. rewrite same_eq by (auto; now apply (nth_key s i)). destruct (keq2 k (nkey nd)); [|apply IH].
  split; [reflexivity|]. intros s' g' o Q. destruct (unlink _ _ _ _ _) as [[s1 g1]|] eqn:U; [|discriminate]. injection Q as <- _ _. eapply unlink_keys; eauto.
Qed.
End Agree.

Section Keys.
Variables (X V : Type) (xeq : X -> X -> bool) (xhash : X -> Z) (veq : V -> V -> bool) (vnil : V -> bool) (vfreeze vthaw : V -> V).
Notation mk := (mkey X).
Notation stepH h := (step mk V (keq_at X xeq h) (khash_at X xhash h) veq vnil vfreeze vthaw).
Notation runH h := (run mk V (keq_at X xeq h) (khash_at X xhash h) veq vnil vfreeze vthaw).
Notation actsK := (acts X V xeq xhash veq vnil vfreeze vthaw).


(* a removal looks for the content of the key *)
Lemma content_hidx h k tbl : hidx mk (khash_at X xhash h) tbl k = hidx mk (khash_at X xhash h) tbl (Fixed (content X h k)).
Proof. reflexivity. Qed.
Lemma find_content h s k : forall fuel e, find_chain mk V (keq_at X xeq h) fuel s k e = find_chain mk V (keq_at X xeq h) fuel s (Fixed (content X h k)) e.
Proof. induction fuel as [|fuel IH]; intros [i|]; cbn; try reflexivity. destruct (nth_error s i); [|reflexivity]. unfold keq_at at 1 3. cbn [content]. now rewrite IH. Qed.
Lemma get_content h s g k : hget mk V (keq_at X xeq h) (khash_at X xhash h) s g k = hget mk V (keq_at X xeq h) (khash_at X xhash h) s g (Fixed (content X h k)).
Proof. unfold hget. destruct (htbl g); [reflexivity|]. rewrite (content_hidx h k). destruct (nth_error _ _); [|reflexivity]. now rewrite find_content. Qed.
Lemma remove_content h s g k : hremove mk V (keq_at X xeq h) (khash_at X xhash h) s g k = hremove mk V (keq_at X xeq h) (khash_at X xhash h) s g (Fixed (content X h k)).
Proof.
  unfold hremove. rewrite (content_hidx h k). destruct (nth_error _ _) as [e0|]; [|reflexivity]. set (hk := hidx _ _ _ _). clearbody hk. generalize (@None nat) as p, e0 as e.
  induction (fuel_of s) as [|fuel IH]; intros p [i|]; cbn [remove_loop]; try reflexivity. destruct (nth_error s i); [|reflexivity]. unfold keq_at at 1 3. cbn [content]. now rewrite IH.
Qed.

Definition fixed_event (e : event X V) : event mk V := match e with EvPut k v => EvPut (Fixed k) v | EvRemove k => EvRemove (Fixed k) end.

(* the arrays of Q are keys and do not change *)
Section Kept.
Variable Q : nat -> Prop.
Definition kept (k : mk) : Prop := match k with Fixed _ => True | Shared p => Q p end.
Definition agree (h h' : contents X) : Prop := forall p, Q p -> h p = h' p.
Definition leaves (a : action X V) : Prop := match a with Change p _ => ~ Q p | _ => True end.
Lemma kept_content h h' a : agree h h' -> kept a -> content X h a = content X h' a.
Proof. destruct a; cbn; auto. Qed.
Lemma kept_eq h h' : agree h h' -> forall a b, kept a -> kept b -> keq_at X xeq h a b = keq_at X xeq h' a b.
Proof. intros A a b Ka Kb. unfold keq_at. now rewrite (kept_content h h' a), (kept_content h h' b). Qed.
Lemma kept_hash h h' : agree h h' -> forall a, kept a -> khash_at X xhash h a = khash_at X xhash h' a.
Proof. intros A a Ka. unfold khash_at. now rewrite (kept_content h h' a). Qed.
Lemma final_agree : forall l h, Forall leaves l -> agree h (final X V h l).
Proof.
  induction l as [|a l IH]; intros h F; [intros p _; reflexivity|]. apply Forall_cons_iff in F as [Fa F]. destruct a as [p x| | | | |]; cbn [final]; try now apply IH.
  intros q Hq. rewrite <- (IH _ F q Hq). cbn in Fa. destruct (Nat.eqb_spec q p); [subst; contradiction|reflexivity].
Qed.

Lemma acts_history h0 : forall l h w, Forall (on_map X V) l -> Forall leaves l -> agree h h0 -> keys_of mk V kept (nodes w) ->
  exists w', fst (actsK h w l) = (final X V h l, w') /\
  fst (runH h0 w (map (fun e => event_op mk V 0 (fixed_event e)) (history X V h l))) = w'.
Proof.
  induction l as [|a l IH]; intros h w F Lv Ag Kw; [exists w; auto|]. apply Forall_cons_iff in F as [Fa F]. apply Forall_cons_iff in Lv as [La Lv]. destruct a as [p x| | |m k v|m k|m k]; cbn in Fa; try contradiction.
  - assert (Ag' : agree (changed X h p x) h0).
    { intros q Hq. unfold changed. cbn in La. destruct (Nat.eqb_spec q p); [subst; contradiction|]. now apply Ag. }
    destruct (IH (changed X h p x) w F Lv Ag' Kw) as (w' & E & R). exists w'. cbn [acts act history final]. destruct (actsK (changed X h p x) w l) as [[h1 w1] xs] eqn:A. cbn [fst snd app] in *. auto.
  - subst m. cbn [acts act op_of history final map fixed_event event_op HMap.run]. unfold frozen_copy.
    assert (S : exists w1 r, stepH h w (OpPut 0 (Fixed (content X h k)) v) = (w1, r) /\ stepH h0 w (OpPut 0 (Fixed (content X h k)) v) = (w1, r) /\ keys_of mk V kept (nodes w1)).
    { cbn [HMap.step]. unfold with_map. destruct (nth_error (maps w) 0) as [g|]; [|eexists _, _; auto]. destruct (hfrozen g); [eexists _, _; auto|].
      destruct (hput_same mk V _ _ _ _ kept (kept_eq h h0 Ag) (kept_hash h h0 Ag) (nodes w) g (Fixed (content X h k)) v Kw I) as [E G]. rewrite E. clear E.
      destruct (hput mk V (keq_at X xeq h0) (khash_at X xhash h0) (nodes w) g (Fixed (content X h k)) v) as [[[s g'] o]|]; [|eexists _, _; auto]. eexists _, _. split; [reflexivity|]. split; [reflexivity|]. cbn. eapply G. reflexivity. }
    destruct S as (w1 & r & S1 & S2 & K1). rewrite S1. destruct (IH h w1 F Lv Ag K1) as (w' & E & R). exists w'. destruct (actsK h w1 l) as [[h2 w2] xs] eqn:A. cbn [fst snd app] in *. split; [exact E|].
    change (match k with Fixed x => x | Shared p => h p end) with (content X h k). rewrite S2. destruct (runH h0 w1 _). exact R.
  - subst m. cbn [acts act op_of history final map fixed_event event_op HMap.run].
    assert (S : exists w1 r, stepH h w (OpRemove 0 k) = (w1, r) /\ stepH h0 w (OpRemove 0 (Fixed (content X h k))) = (w1, r) /\ keys_of mk V kept (nodes w1)).
    { cbn [HMap.step]. unfold with_map. destruct (nth_error (maps w) 0) as [g|]; [|eexists _, _; auto]. destruct (hfrozen g); [eexists _, _; auto|]. rewrite remove_content.
      destruct (hremove_same mk V _ _ _ _ kept (kept_eq h h0 Ag) (kept_hash h h0 Ag) (nodes w) g (Fixed (content X h k)) Kw I) as [E G]. rewrite E. clear E.
      destruct (hremove mk V (keq_at X xeq h0) (khash_at X xhash h0) (nodes w) g (Fixed (content X h k))) as [[[s g'] o]|]; [|eexists _, _; auto]. eexists _, _. split; [reflexivity|]. split; [reflexivity|]. cbn. eapply G. reflexivity. }
    destruct S as (w1 & r & S1 & S2 & K1). rewrite S1. destruct (IH h w1 F Lv Ag K1) as (w' & E & R). exists w'. destruct (actsK h w1 l) as [[h2 w2] xs] eqn:A. cbn [fst snd app] in *. split; [exact E|].
    change (match k with Fixed x => x | Shared p => h p end) with (content X h k). rewrite S2. destruct (runH h0 w1 _). exact R.
  - cbn [acts act op_of history final].
    assert (S : exists r, stepH h w (OpGet m k) = (w, r)).
    { cbn [HMap.step]. unfold with_map. destruct (nth_error (maps w) m) as [g|]; [|eauto]. destruct (hget _ _ _ _ _ _ _); eauto. }
    destruct S as (r & S1). rewrite S1. destruct (IH h w F Lv Ag Kw) as (w' & E & R). exists w'. destruct (actsK h w l) as [[h2 w2] xs]. auto.
Qed.

Lemma acts_app : forall l1 l2 h w, actsK h w (l1 ++ l2) = let '(h1, w1, x1) := actsK h w l1 in let '(h2, w2, x2) := actsK h1 w1 l2 in (h2, w2, x1 ++ x2).
Proof.
  induction l1 as [|a l1 IH]; intros l2 h' w'; cbn [acts app].
  - destruct (actsK h' w' l2) as [[h2 w2] x2]. reflexivity.
  - destruct (act _ _ _ _ _ _ _ _ h' w' a) as [[h1 w1] x1]. rewrite IH. destruct (actsK h1 w1 l1) as [[h3 w3] x3]. destruct (actsK h3 w3 l2) as [[h4 w4] x4]. now rewrite app_assoc.
Qed.
Lemma run_two hf : forall os1 os2 w, runH hf w (os1 ++ os2) = let (w1, x1) := runH hf w os1 in let (w2, x2) := runH hf w1 os2 in (w2, x1 ++ x2).
Proof.
  induction os1 as [|o os1 IH]; intros os2 w; cbn [HMap.run app].
  - destruct (runH hf w os2). reflexivity.
  - destruct (stepH hf w o) as [w2 x]. rewrite IH. destruct (runH hf w2 os1) as [w3 x3]. destruct (runH hf w3 os2). reflexivity.
Qed.
(* the program behaves as if the arrays had had their final content all the time, and copies had been put and removed *)
Lemma acts_get l h w k : Forall (on_map X V) l -> Forall leaves l -> keys_of mk V kept (nodes w) ->
  exists xs ys r, snd (actsK h w (l ++ [Get 0 k])) = xs ++ [r] /\
  snd (runH (final X V h l) w (map (event_op mk V 0) (map fixed_event (history X V h l)) ++ [OpGet 0 (Fixed (content X (final X V h l) k))])) = ys ++ [r].
Proof.
  intros F Lv Kw. set (hf := final X V h l). destruct (acts_history hf l h w F Lv (final_agree l h Lv) Kw) as (w' & E & R). rewrite acts_app, run_two, map_map. destruct (actsK h w l) as [[h1 w1] xs]. cbn [fst snd] in E |- *. injection E as -> ->. fold hf.
  destruct (runH hf w _) as [w2 ys]. cbn [fst] in R. subst w2. exists xs, ys.
  cbn [acts act op_of HMap.run HMap.step]. unfold with_map. destruct (nth_error (maps w') 0); [|eexists; split; reflexivity]. rewrite get_content. destruct (hget _ _ _ _ _ _ _); eexists; split; reflexivity.
Qed.
End Kept.

Lemma lawful_at h : lawful X xeq xhash -> lawful mk (keq_at X xeq h) (khash_at X xhash h).
Proof. intros [A B C D]. constructor; unfold keq_at, khash_at; eauto. Qed.
Lemma latest_content h es x : latest mk V (keq_at X xeq h) es (Fixed x) =
  latest X V xeq (map (fun e => match e with EvPut k v => EvPut (content X h k) v | EvRemove k => EvRemove (content X h k) end) es) x.
Proof.
  unfold latest.
  match goal with |- fold_left ?f _ _ = fold_left ?g (map ?c _) _ => assert (A : forall es acc, fold_left f es acc = fold_left g (map c es) acc) end.
  { clear es. induction es as [|e es IH]; intros acc; [reflexivity|]. cbn [map fold_left]. rewrite IH. destruct e; reflexivity. }
  apply A.
Qed.
Lemma content_fixed h es : map (fun e => match e with EvPut k v => EvPut (content X h k) v | EvRemove k => EvRemove (content X h k) end) (map fixed_event es) = es.
Proof. induction es as [|[k v|k] es IH]; cbn; [reflexivity| |]; now rewrite IH. Qed.

Theorem get_latest_content : lawful X xeq xhash -> forall h cap l k, Forall (on_map X V) l ->
  last (snd (actsK h init (NewMap cap :: l ++ [Get 0 k]))) RBad = RVal (latest X V xeq (history X V h l) (content X (final X V h l) k)).
Proof.
  intros L h cap l k F. set (hf := final X V h l).
  pose proof (get_after_history mk V (keq_at X xeq hf) (khash_at X xhash hf) veq vnil vfreeze vthaw (lawful_at hf L) cap (map fixed_event (history X V h l)) (Fixed (content X hf k))) as G.
  rewrite (latest_content hf), content_fixed in G. rewrite <- G. clear G.
  cbn [acts act op_of HMap.run HMap.step]. unfold add_map. cbn [nodes maps init length app].
  set (w0 := World [] [new_with_capacity cap] : world mk V).
  assert (Kw : keys_of mk V (kept (fun _ => False)) (nodes w0)) by constructor.
  pose proof (acts_get (fun _ => False) l h w0 k F) as A. fold hf in A.
  destruct A as (xs & ys & r & A1 & A2); [apply Forall_forall; intros [| | | | |] _; cbn; tauto|exact Kw|].
  destruct (actsK h w0 (l ++ [Get 0 k])) as [[h1 w1] zs]. destruct (runH hf w0 _) as [w2 us]. cbn [snd] in *. subst. now rewrite !app_comm_cons, !last_last.
Qed.

(* ---------- ToMap ---------- *)
Lemma tomap_same (P : mk -> Prop) kh1 kh2 : (forall a, P a -> kh1 a = kh2 a) -> forall kvs s g, keys_of mk V P s -> Forall (fun kv => P (fst kv)) kvs ->
  tomap_loop mk V kh1 s g kvs = tomap_loop mk V kh2 s g kvs /\ forall s' g', tomap_loop mk V kh2 s g kvs = Some (s', g') -> keys_of mk V P s'.
Proof.
  intros H. induction kvs as [|[k v] kvs IH]; intros s g Ks F; cbn [tomap_loop]; [split; [reflexivity|congruence]|]. apply Forall_cons_iff in F as [Fk F]. cbn in Fk.
  rewrite (append_same mk V kh1 kh2 P H s g k v Fk). destruct (append_node mk V kh2 s g k v) as [[s1 g1]|] eqn:A; [|split; [reflexivity|congruence]]. apply IH; [|exact F]. eapply (append_keys mk V kh2 P); eauto.
Qed.

Lemma dget_putall : lawful X xeq xhash -> forall h kvs d k, dget mk V (keq_at X xeq h) (dputall mk V (keq_at X xeq h) d kvs) k =
  fold_left (fun acc e => match e with EvPut k' v => if keq_at X xeq h k k' then Some v else acc | EvRemove k' => if keq_at X xeq h k k' then None else acc end) (map (fun kv => EvPut (fst kv) (snd kv)) kvs) (dget mk V (keq_at X xeq h) d k).
Proof.
  intros L h. induction kvs as [|[k0 v0] kvs IH]; intros d k; [reflexivity|]. change (dputall mk V (keq_at X xeq h) d ((k0, v0) :: kvs)) with (dputall mk V (keq_at X xeq h) (dput mk V (keq_at X xeq h) d k0 v0) kvs).
  rewrite IH. cbn [map fold_left fst snd]. now rewrite (dget_dput mk V (keq_at X xeq h) (khash_at X xhash h) (lawful_at h L)).
Qed.
Lemma distinct_at h kvs : distinct X V xeq (entries_at X V h kvs) -> distinct mk V (keq_at X xeq h) kvs.
Proof.
  induction kvs as [|[k v] kvs IH]; cbn; [auto|]. intros [A B]. split; [|now apply IH]. intros k' v' Hin. apply (A (content X h k') v'). apply in_map_iff. exists (k', v'). auto.
Qed.
Lemma get_after_tomap : lawful X xeq xhash -> forall h kvs es k, distinct mk V (keq_at X xeq h) kvs ->
  last (snd (runH h init (OpToMap kvs false :: map (event_op mk V 0) es ++ [OpGet 0 k]))) RBad = RVal (latest mk V (keq_at X xeq h) (map (fun kv => EvPut (fst kv) (snd kv)) kvs ++ es) k).
Proof.
  intros L h kvs es k D. pose proof (lawful_at h L) as Lh.
  rewrite (refines mk V (keq_at X xeq h) (khash_at X xhash h) veq vnil vfreeze vthaw Lh).
  2: { intros o [<-|Ho]; [exact D|]. apply in_app_iff in Ho. destruct Ho as [Ho|[<-|[]]]; [|exact I]. apply in_map_iff in Ho. destruct Ho as ([a b|a] & <- & _); exact I. }
  change (OpToMap kvs false :: map (event_op mk V 0) es ++ [OpGet 0 k]) with ([OpToMap kvs false] ++ (map (event_op mk V 0) es ++ [OpGet 0 k])).
  rewrite run_spec_app, run_spec_app. cbn [HMapSpec.run_spec HMapSpec.step_spec fst snd anew].
  assert (Dp : dputall mk V (keq_at X xeq h) [] kvs = kvs) by (apply (dputall_distinct mk V (keq_at X xeq h)); [apply Lh|exact D]).
  destruct (run_spec_history mk V (keq_at X xeq h) (khash_at X xhash h) veq vfreeze vthaw Lh es (dputall mk V (keq_at X xeq h) [] kvs)) as (d' & A & B & C); [rewrite Dp; exact D|]. cbn [app].
  rewrite A. cbn [fst snd]. unfold awith. cbn [nth_error ad snd]. rewrite app_comm_cons, last_last. rewrite C, dget_putall by exact L. unfold latest. now rewrite fold_left_app.
Qed.

Theorem get_latest_tomap : lawful X xeq xhash -> forall h kvs l k, Forall (on_map X V) l -> keeps_keys X V kvs l -> distinct X V xeq (entries_at X V h kvs) ->
  last (snd (actsK h init (ToMap kvs :: l ++ [Get 0 k]))) RBad =
  RVal (latest X V xeq (map (fun kv => EvPut (fst kv) (snd kv)) (entries_at X V h kvs) ++ history X V h l) (content X (final X V h l) k)).
Proof.
  intros L h kvs l k F Kk D. set (hf := final X V h l). set (Q := fun p => In (Shared p) (map fst kvs)).
  assert (Lv : Forall (leaves Q) l) by (apply Forall_forall; intros [p x| | | | |] Hin; cbn; auto; now apply (Kk p x)).
  pose proof (final_agree Q l h Lv) as Ag. fold hf in Ag.
  assert (Kp : Forall (fun kv => kept Q (fst kv)) kvs).
  { apply Forall_forall. intros [[x|p] v] Hin; cbn; [exact I|]. apply in_map_iff. now exists (Shared p, v). }
  assert (Ee : entries_at X V h kvs = entries_at X V hf kvs).
  { unfold entries_at. apply map_ext_in. intros kv Hin. rewrite Forall_forall in Kp. specialize (Kp kv Hin). f_equal. now apply (kept_content Q h hf). }
  pose proof (get_after_tomap L hf kvs (map fixed_event (history X V h l)) (Fixed (content X hf k))) as G.
  specialize (G ltac:(apply distinct_at; now rewrite <- Ee)).
  rewrite (latest_content hf), map_app, content_fixed in G.
  assert (Em : map (fun e => match e with EvPut k v => EvPut (content X hf k) v | EvRemove k => EvRemove (content X hf k) end) (map (fun kv : mk * V => EvPut (fst kv) (snd kv)) kvs) = map (fun kv => EvPut (fst kv) (snd kv)) (entries_at X V h kvs)).
  { rewrite Ee. unfold entries_at. rewrite !map_map. reflexivity. }
  rewrite Em in G. rewrite <- G. clear G Em.
  cbn [acts act op_of HMap.run HMap.step nodes init]. unfold htomap.
  set (g0 := HMap _ _ _ _ _).
  destruct (tomap_same (kept Q) _ _ (kept_hash Q h hf Ag) kvs [] g0 (Forall_nil _) Kp) as [E Ks]. rewrite E. clear E.
  destruct (tomap_loop mk V (khash_at X xhash hf) [] g0 kvs) as [[s g]|].
  - specialize (Ks s g eq_refl). unfold add_map. cbn [nodes maps init length app]. set (w0 := World s [g]).
    pose proof (acts_get Q l h w0 k F Lv Ks) as A. fold hf in A.
    destruct A as (xs & ys & r & A1 & A2). destruct (actsK h w0 (l ++ [Get 0 k])) as [[h1 w1] zs]. destruct (runH hf w0 _) as [w2 us]. cbn [snd app] in *. subst. now rewrite !app_comm_cons, !last_last.
  - pose proof (acts_get Q l h init k F Lv (Forall_nil _)) as A. fold hf in A.
    destruct A as (xs & ys & r & A1 & A2). destruct (actsK h init (l ++ [Get 0 k])) as [[h1 w1] zs]. destruct (runH hf init _) as [w2 us]. cbn [snd app] in *. subst. now rewrite !app_comm_cons, !last_last.
Qed.
End Keys.
