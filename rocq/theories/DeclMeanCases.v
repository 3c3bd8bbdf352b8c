(* The theorem on texts, and a text where Instance is wrong. *)
From Coq Require Import Strings.Ascii Strings.String.
From Coq Require Import ZArith List Bool Lia.
From Verif Require Import Int64 Utf8 Text TextSpec Print HMap Data DataSpec Types TypesSpec Lexer Syntax Graph RecTypes RecTypesSpec RecTypesCases.
From Verif Require Import Resolve ResolveSpec Declare DeclareSpec DeclareRead DeclareCases DeclMeanSpec DeclMeanProofs DeclMeanDone DeclPlain.
Import ListNotations.
Open Scope Z_scope.

Theorem text_instance E any backing named h K e : there any backing h -> knows K (types_of h) backing e ->
  types_ok (only K (types_of h)) -> flat_alternatives (only K (types_of h)) -> contractive (only K (types_of h)) ->
  correct e -> direct e -> scoped named backing e ->
  exists B, forall n m s, (B <= n)%nat -> (B <= m)%nat -> tokens s = read_as (written Anywhere e) ->
  exists p names h', declare_text E any backing named n m s h = DOk p names h' /\
  forall W G, values_ok G ->
  (exists N, as_declared W G (sized G) e N /\ as_known W G (sized G) e (types_of h) backing N) /\
  forall N, as_declared W G (sized G) e N -> as_known W G (sized G) e (types_of h) backing N -> forall x, sized G x -> val_ok G x ->
  exists M r, (forall k, (M <= k)%nat -> rec_instance W (types_of h') G k p x = Some r) /\ (r = true <-> belongs W G N e x).
Proof.
  intros TH KK OT OF OC C D S. destruct (text_declared E any backing named h e TH C S) as [B H]. exists B. intros n m s Ln Lm Q.
  destruct (H n m s Ln Lm Q) as (p & names & h' & R & NA & BU & _ & _ & OLD). exists p, names, h'. split; [exact R|]. intros W G VG. split.
  - destruct (names_mean_something any backing named h e p names h' K TH C D S KK OT OF OC NA BU OLD W G VG) as (N & [X Y] & _). exists N. auto.
  - intros N X Y. apply (instance_exact any backing named h e p names h' K TH C D S KK OT OF OC NA BU OLD W G VG N (conj X Y)).
Qed.
Theorem text_plain_instance E any backing named h K e : there any backing h -> knows K (types_of h) backing e ->
  types_ok (only K (types_of h)) -> not_recursive (only K (types_of h)) ->
  correct e -> plain e -> no_loops e -> scoped named backing e ->
  exists B, forall n m s, (B <= n)%nat -> (B <= m)%nat -> tokens s = read_as (written Anywhere e) ->
  exists p names h', declare_text E any backing named n m s h = DOk p names h' /\
  forall W G, values_ok G ->
  (exists N, as_declared W G (measured G) e N /\ as_known W G (measured G) e (types_of h) backing N) /\
  forall N, as_declared W G (measured G) e N -> as_known W G (measured G) e (types_of h) backing N -> forall x, measured G x -> val_ok G x ->
  exists M r, (forall k, (M <= k)%nat -> rec_instance W (types_of h') G k p x = Some r) /\ (r = true <-> belongs W G N e x).
Proof.
  intros TH KK OT ON C D NL S. destruct (text_declared E any backing named h e TH C S) as [B H]. exists B. intros n m s Ln Lm Q.
  destruct (H n m s Ln Lm Q) as (p & names & h' & R & NA & BU & _ & _ & OLD). exists p, names, h'. split; [exact R|]. intros W G VG. split.
  - destruct (plain_names_mean_something any backing named h e p names h' K TH C D NL S KK OT ON NA BU OLD W G VG) as (N & [X Y] & _). exists N. auto.
  - intros N X Y. apply (plain_instance_exact any backing named h e p names h' K TH C D NL S KK OT ON NA BU OLD W G VG N (conj X Y)).
Qed.

(* node={v:int,n:string|node} *)
Definition node_ex : ex :=
  XDecl (lit "node") (XStruct false [(lit "v", true, XWord (lit "int")); (lit "n", true, XOr [XWord (lit "string"); XName (lit "node")])]).
Definition node_text : list Z := lit "node={v:int, n:string|node}".
(* {v:1,n:{}} *)
Definition node_value : gval := GLeaf (VMap [(VStr (lit "v"), VInt 1); (VStr (lit "n"), VMap [])]).
Lemma sized_leaf_map m : Z.of_nat (length m) <= max_int64 -> Forall (fun e : value * value => sized [] (GLeaf (fst e)) /\ sized [] (GLeaf (snd e))) m -> sized [] (GLeaf (VMap m)).
Proof.
  intros L F. constructor; [intros l E; inversion E|intros l E; inversion E; subst; now rewrite map_length|exact I|]. intros y P. rewrite Forall_forall in F.
  inversion P as [? ? ? H|? ? k z H I|? ? k z H I|? ? H]; subst; inversion H; subst; apply in_map_iff in I as ([a b] & Q & I); injection Q as <- <-; destruct (F _ I) as [F1 F2]; first [exact F1|exact F2].
Qed.
Lemma sized_plain v : match v with VArr _ | VMap _ | VSens _ => False | VStr s => Z.of_nat (length s) <= max_int64 | VInt z => min_int64 <= z <= max_int64 | _ => True end -> sized [] (GLeaf v).
Proof.
  intros K. constructor; try (intros l E; inversion E; subst; contradiction); [destruct v; auto|]. intros y P. inversion P as [? ? ? H|? ? ? ? H|? ? ? ? H|? ? H]; subst; inversion H; subst; contradiction.
Qed.
Lemma node_accepts : exists p names h', tokens node_text = read_as (written Anywhere node_ex) /\ correct node_ex /\ scoped no_named back0 node_ex /\
  declare_text env0 0 back0 no_named 50 50 node_text heap0 = DOk p names h' /\ rec_instance toy (types_of h') [] 30 p node_value = Some true /\
  sized [] node_value /\ val_ok [] node_value /\ forall N, as_declared toy [] (sized []) node_ex N -> ~ belongs toy [] N node_ex node_value.
Proof.
  eexists _, _, _. split; [vm_compute; reflexivity|]. split; [|split; [|split; [vm_compute; reflexivity|split; [vm_compute; reflexivity|split; [|split]]]]].
  - cbn [correct node_ex solid by_name snd fst map]. repeat split; try discriminate; try exact I; try (intros X; vm_compute in X; repeat (destruct X as [X|X]; [discriminate X|]); exact X); try (cbn; lia);
      try (unfold words; cbn [map fst In]; tauto).
    constructor; [intros [X|[]]; discriminate X|]. constructor; [intros []|constructor].
  - split; [|split].
    + constructor; [intros []|constructor].
    + repeat constructor.
    + repeat constructor.
  - apply sized_leaf_map; [vm_compute; discriminate|]. repeat (apply Forall_cons; [split; try (apply sized_plain; vm_compute; first [exact I|discriminate|split; discriminate]; fail)|]); [|constructor]. apply sized_leaf_map; [vm_compute; discriminate|constructor].
  - cbn [val_ok node_value]. apply data_map.
    + apply Forall_cons; [split; [apply data_str|apply data_int]|]. apply Forall_cons; [split; [apply data_str|apply data_map; constructor]|constructor].
    + constructor; [apply Forall_cons; [vm_compute; reflexivity|constructor]|]. constructor; [constructor|constructor].
  - intros N D. cbn [belongs node_ex]. intros (m & E & F & _). inversion E; subst. cbn [every fst snd map] in F. destruct F as (_ & [(y & I & B)|[X _]] & _); [|discriminate X].
    assert (y = GLeaf (VMap [])) as ->. { destruct I as [I|[I|[]]]; [discriminate I|congruence]. }
    cbn [some] in B. destruct B as [(t & I1 & X)|[B|[]]].
    + assert (t = TString) as ->. { apply (DeclMeanBuilt.word_fun (lit "string")); [exact I1|]. unfold words. cbn [In]. tauto. } destruct X as [s X]. discriminate X.
    + apply (D (lit "node") (XStruct false [(lit "v", true, XWord (lit "int")); (lit "n", true, XOr [XWord (lit "string"); XName (lit "node")])])) in B;
        [|now left|apply sized_leaf_map; [vm_compute; discriminate|constructor]|apply data_map; constructor].
      cbn [belongs] in B. destruct B as (m & E' & F & _). inversion E'; subst. cbn [every fst snd map] in F. destruct F as ([(y & [] & _)|[X _]] & _). discriminate X.
Qed.

(* string|(l={v:int,next?:l}): no alternative is within what refers to itself *)
Definition list_decl : ex := XStruct false [(lit "v", true, XWord (lit "int")); (lit "next", false, XName (lit "l"))].
Definition list_ex : ex := XOr [XWord (lit "string"); XDecl (lit "l") list_decl].
Definition list_text : list Z := lit "string|(l={v:int, next?:l})".
(* {v:1,next:{}} *)
Definition list_value : gval := GLeaf (VMap [(VStr (lit "v"), VInt 1); (VStr (lit "next"), VMap [])]).
Lemma list_accepts : exists p names h', tokens list_text = read_as (written Anywhere list_ex) /\ correct list_ex /\ scoped no_named back0 list_ex /\
  declare_text env0 0 back0 no_named 50 50 list_text heap0 = DOk p names h' /\ rec_instance toy (types_of h') [] 30 p list_value = Some true /\
  sized [] list_value /\ val_ok [] list_value /\ forall N, as_declared toy [] (sized []) list_ex N -> ~ belongs toy [] N list_ex list_value.
Proof.
  eexists _, _, _. split; [vm_compute; reflexivity|]. split; [|split; [|split; [vm_compute; reflexivity|split; [vm_compute; reflexivity|split; [|split]]]]].
  - cbn [correct list_ex list_decl solid by_name snd fst map]. repeat split; try discriminate; try exact I; try (intros X; vm_compute in X; repeat (destruct X as [X|X]; [discriminate X|]); exact X); try (cbn; lia);
      try (unfold words; cbn [map fst In]; tauto).
    constructor; [intros [X|[]]; discriminate X|]. constructor; [intros []|constructor].
  - split; [|split].
    + constructor; [intros []|constructor].
    + repeat constructor.
    + repeat constructor.
  - apply sized_leaf_map; [vm_compute; discriminate|]. repeat (apply Forall_cons; [split; try (apply sized_plain; vm_compute; first [exact I|discriminate|split; discriminate]; fail)|]); [|constructor]. apply sized_leaf_map; [vm_compute; discriminate|constructor].
  - cbn [val_ok list_value]. apply data_map.
    + apply Forall_cons; [split; [apply data_str|apply data_int]|]. apply Forall_cons; [split; [apply data_str|apply data_map; constructor]|constructor].
    + constructor; [apply Forall_cons; [vm_compute; reflexivity|constructor]|]. constructor; [constructor|constructor].
  - intros N D. cbn [belongs list_ex list_decl some]. intros [(t & I1 & X)|[(m & E & F & _)|[]]].
    + assert (t = TString) as ->. { apply (DeclMeanBuilt.word_fun (lit "string")); [exact I1|]. unfold words. cbn [In]. tauto. } destruct X as [s X]. discriminate X.
    + inversion E; subst. cbn [every fst snd map] in F. destruct F as (_ & [(y & I & B)|[_ X]] & _); [|apply (X (GLeaf (VMap []))); right; now left].
      assert (y = GLeaf (VMap [])) as ->. { destruct I as [I|[I|[]]]; [discriminate I|congruence]. }
      apply (D (lit "l") list_decl) in B; [|now left|apply sized_leaf_map; [vm_compute; discriminate|constructor]|apply data_map; constructor].
      cbn [belongs list_decl] in B. destruct B as (m & E' & F & _). inversion E'; subst. cbn [every fst snd map] in F. destruct F as ([(y & [] & _)|[X _]] & _). discriminate X.
Qed.

(* all integers but the last *)
Definition most_ex : ex := XRange min_int64 max_int64 false.
Definition most_text : list Z := lit "-9223372036854775808...9223372036854775807".
Lemma most_accepts : exists p names h', tokens most_text = read_as (written Anywhere most_ex) /\ correct most_ex /\ scoped no_named back0 most_ex /\
  declare_text env0 0 back0 no_named 50 50 most_text heap0 = DOk p names h' /\ rec_instance toy (types_of h') [] 30 p (GLeaf (VInt max_int64)) = Some true /\
  sized [] (GLeaf (VInt max_int64)) /\ val_ok [] (GLeaf (VInt max_int64)) /\ forall N, ~ belongs toy [] N most_ex (GLeaf (VInt max_int64)).
Proof.
  eexists _, _, _. split; [vm_compute; reflexivity|]. split; [|split; [|split; [vm_compute; reflexivity|split; [vm_compute; reflexivity|split; [|split]]]]].
  - cbn [correct most_ex]. unfold min_int64, max_int64. lia.
  - split; [|split]; repeat constructor.
  - apply sized_plain. unfold min_int64, max_int64. lia.
  - apply data_int.
  - intros N (z & Q & _ & L). injection Q as <-. cbn in L. lia.
Qed.
