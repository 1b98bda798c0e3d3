(** Visibility (C38), shadowing across scopes (C41), bindings of blocks (C42). *)
From Verif Require Import Base SyntaxKind ItemScopeModel NameResModel ParserProofs2.

(** * Specification of visibility *)
(** the nearest strict ancestor of kind [k] *)
Definition encloses (k : kind) (c : chain) (n : node) : Prop :=
  exists a pre post, c = a :: pre ++ n :: post /\ n_kind n = k /\ Forall (fun x => n_kind x <> k) pre.
Definition spec_only (k : kind) : Prop := In k [ITEM_SPEC; LEMMA; MODULE_SPEC; SCHEMA; SCHEMA_FIELD; SPEC_BLOCK_EXPR; SPEC_FUN; SPEC_INLINE_FUN].
(** inside a specification: a specification node is met before a module, function, struct or enum *)
Definition in_spec (c : chain) : Prop :=
  exists pre a post, c = pre ++ a :: post /\ spec_only (n_kind a) /\ Forall (fun x => ~ In (n_kind x) [MODULE; FUN; STRUCT; ENUM]) pre.
Definition in_attr (c : chain) : Prop := exists n, encloses ATTR_ITEM c n.
(** the path is a (prefix of a) path directly below a node of kind [k] *)
Definition path_below (k : kind) (c : chain) : Prop :=
  exists paths n post, c = paths ++ n :: post /\ paths <> [] /\ Forall (fun x => n_kind x = PATH) paths /\ n_kind n = k /\ k <> PATH.
Definition kind_of (i : item) (k : kind) : Prop := exists n rest, i_chain i = n :: rest /\ n_kind n = k.
Definition spec_item (i : item) : Prop := exists k, kind_of i k /\ spec_only k.

(** what may be named in a use statement *)
Definition importable (c : context) (i : item) : Prop :=
  path_below USE_SPECK (c_chain c) /\
  ((exists k, kind_of i k /\ In k [MODULE; STRUCT; ENUM]) \/ (exists v, i_vis i = Some v /\ v <> Private) \/ spec_item i \/ (c_scope c = ScTest /\ i_ns i = NAME)).
Definition builtin (i : item) : Prop := (kind_of i FUN \/ kind_of i CONST) /\ i_builtins i = true /\ exists m, encloses MODULE (i_chain i) m.
(** the item's scope, narrowed by the use statement that imported it, and the context's *)
Definition effective_scope (i : item) : item_scope := match i_scope i, i_adjust i with ScMain, Some a => a | s, _ => s end.
Definition scope_fits (c : context) (i : item) : Prop := effective_scope i = ScMain \/ effective_scope i = c_scope c.
Inductive admitted (c : context) (i : item) : Prop :=
| adm_module : forall m, encloses MODULE (i_chain i) m -> encloses MODULE (c_chain c) m -> admitted c i
| adm_script : forall s, encloses SCRIPT (i_chain i) s -> encloses SCRIPT (c_chain c) s -> admitted c i
| adm_type : In (i_ns i) [TYPE; TUPLE_STRUCT; ENUM_NS] -> path_below PATH_TYPE (c_chain c) -> admitted c i
| adm_public : i_vis i = None \/ i_vis i = Some Public -> admitted c i
| adm_friend : forall m mi, i_vis i = Some (Restricted VFriend) -> encloses MODULE (i_chain i) mi -> encloses MODULE (c_chain c) m -> In (Some m) (i_friends i) -> admitted c i
| adm_package : i_vis i = Some (Restricted VPackage) -> c_package c = i_package i -> admitted c i.
Definition may_see (it : option item) (c : context) : Prop :=
  in_spec (c_chain c) \/ in_attr (c_chain c) \/
  exists i, it = Some i /\ (importable c i \/ builtin i \/ (scope_fits c i /\ ~ spec_item i /\ admitted c i)).

(** * Proofs about chains *)
Lemma msl_only_iff : forall k, msl_only k = true <-> spec_only k.
Proof. intros k. unfold spec_only. split; [intros H; destruct k; try discriminate H; cbn; tauto|intros H; cbn in H; repeat (destruct H as [<-|H]; [reflexivity|]); destruct H]. Qed.
Lemma node_eqb_iff : forall a b, node_eqb a b = true <-> a = b.
Proof.
  intros [i k] [j l]. unfold node_eqb. cbn. rewrite andb_true_iff, Nat.eqb_eq. split; [intros [-> H]; destruct (kind_eqb_reflect k l); [congruence|discriminate]|intros E; injection E as -> ->; split; auto; apply kind_eqb_refl].
Qed.
Lemma ns_eqb_iff : forall a b, ns_eqb a b = true <-> a = b.
Proof. intros a b. unfold ns_eqb. destruct (ns_eq_dec a b); split; intros; auto; discriminate. Qed.
Lemma ns_mem_iff : forall a l, ns_mem a l = true <-> In a l.
Proof. intros a l. unfold ns_mem. rewrite existsb_exists. split; [intros (x & H & E); apply ns_eqb_iff in E; now subst|intros H; exists a; split; auto; now apply ns_eqb_iff]. Qed.
Lemma kind_eqb_iff : forall a b, kind_eqb a b = true <-> a = b.
Proof. intros a b. destruct (kind_eqb_reflect a b); split; intros; auto; try discriminate; contradiction. Qed.
Lemma find_first : forall (f : node -> bool) l n, find f l = Some n <-> exists pre post, l = pre ++ n :: post /\ f n = true /\ Forall (fun x => f x = false) pre.
Proof.
  intros f l. induction l as [|a l IH]; intros n; cbn.
  - split; [discriminate|]. intros (pre & post & E & _). destruct pre; discriminate.
  - destruct (f a) eqn:F.
    + split; [intros E; injection E as <-; exists [], l; auto|]. intros (pre & post & E & Fn & FA). destruct pre as [|x pre]; cbn in E; injection E as -> ->; auto. inversion FA; subst. congruence.
    + rewrite IH. split.
      * intros (pre & post & -> & Fn & FA). exists (a :: pre), post. auto.
      * intros (pre & post & E & Fn & FA). destruct pre as [|x pre]; cbn in E; injection E as -> ->; [congruence|]. inversion FA; subst. eauto.
Qed.
Lemma ancestor_iff : forall k c n, ancestor_strict k c = Some n <-> encloses k c n.
Proof.
  intros k c n. unfold ancestor_strict, encloses. rewrite find_first. destruct c as [|a c]; cbn.
  - split; [intros (pre & post & E & _); destruct pre; discriminate|intros (a & pre & post & E & _); discriminate].
  - split.
    + intros (pre & post & -> & F & FA). exists a, pre, post. split; auto. split; [now apply kind_eqb_iff|]. eapply Forall_impl; [|exact FA]. intros x H E. apply kind_eqb_iff in E. congruence.
    + intros (a' & pre & post & E & F & FA). injection E as -> ->. exists pre, post. split; auto. split; [now apply kind_eqb_iff|]. eapply Forall_impl; [|exact FA]. intros x H. apply not_true_is_false. now rewrite kind_eqb_iff.
Qed.
Lemma ancestor_some : forall k c, (match ancestor_strict k c with Some _ => true | None => false end) = true <-> exists n, encloses k c n.
Proof. intros k c. destruct (ancestor_strict k c) as [n|] eqn:E; split; intros H; auto; try discriminate; [apply ancestor_iff in E; eauto|]. destruct H as [n H]. apply ancestor_iff in H. congruence. Qed.
Lemma encloses_det : forall k c a b, encloses k c a -> encloses k c b -> a = b.
Proof. intros k c a b H1 H2. apply ancestor_iff in H1. apply ancestor_iff in H2. congruence. Qed.
Lemma is_kind_own : forall k c, is_kind k (own_kind c) = true <-> exists n rest, c = n :: rest /\ n_kind n = k.
Proof. intros k [|a c]; cbn; [split; [discriminate|intros (n & r & E & _); discriminate]|]. rewrite kind_eqb_iff. split; [intros E; eauto|intros (n & r & E & K); injection E as -> ->; auto]. Qed.
Lemma spec_item_b : forall i, (match own_kind (i_chain i) with Some k => msl_only k | None => false end) = true <-> spec_item i.
Proof.
  intros i. unfold spec_item, kind_of. destruct (i_chain i) as [|a c]; cbn.
  - split; [discriminate|]. intros (k & (n & r & E & _) & _). discriminate.
  - rewrite msl_only_iff. split; [intros H; exists (n_kind a); split; auto; eauto|intros (k & (n & r & E & <-) & H); injection E as -> ->; auto].
Qed.
Lemma msl_context_iff : forall c, is_msl_context c = true <-> in_spec c.
Proof.
  induction c as [|a c IH]; cbn [is_msl_context].
  - split; [discriminate|]. intros (pre & x & post & E & _). destruct pre; discriminate.
  - assert (ALT : In (n_kind a) [MODULE; FUN; STRUCT; ENUM] \/ ~ In (n_kind a) [MODULE; FUN; STRUCT; ENUM]).
    { destruct (n_kind a); cbn; tauto || (right; intros H; repeat (destruct H as [H|H]; [discriminate|]); exact H). }
    destruct ALT as [B|B].
    + assert (E : match n_kind a with MODULE | FUN | STRUCT | ENUM => false | k => if msl_only k then true else is_msl_context c end = false) by (cbn in B; repeat (destruct B as [<-|B]; [reflexivity|]); destruct B).
      rewrite E. split; [discriminate|]. intros (pre & x & post & EQ & SP & FA). exfalso. destruct pre as [|y pre]; cbn in EQ; injection EQ as -> ->.
      * unfold spec_only in SP. cbn in B, SP. repeat (destruct B as [B|B]; [rewrite <- B in SP; repeat (destruct SP as [SP|SP]; [discriminate|]); exact SP|]). exact B.
      * inversion FA; subst. contradiction.
    + assert (E : match n_kind a with MODULE | FUN | STRUCT | ENUM => false | k => if msl_only k then true else is_msl_context c end = if msl_only (n_kind a) then true else is_msl_context c) by (destruct (n_kind a); try reflexivity; exfalso; apply B; cbn; tauto).
      rewrite E. destruct (msl_only (n_kind a)) eqn:M.
      * split; auto. intros _. exists [], a, c. split; auto. split; auto. now apply msl_only_iff.
      * rewrite IH. split.
        -- intros (pre & x & post & -> & SP & FA). exists (a :: pre), x, post. auto.
        -- intros (pre & x & post & EQ & SP & FA). destruct pre as [|y pre]; cbn in EQ; injection EQ as -> ->; [apply msl_only_iff in SP; congruence|]. inversion FA; subst. exists pre, x, post. auto.
Qed.
Lemma path_below_iff : forall k c, k <> PATH -> is_kind PATH (own_kind c) && is_kind k (root_parent_kind c) = true <-> path_below k c.
Proof.
  intros k c NK. induction c as [|a c IH].
  - cbn. split; [discriminate|]. intros (ps & n & post & E & _). destruct ps; discriminate.
  - rewrite andb_true_iff, is_kind_own. split.
    + intros [(n & r & E & K) R]. injection E as <- <-. destruct c as [|b c]; [discriminate|]. unfold root_parent_kind in R. cbn [root_path] in R. destruct (kind_eqb (n_kind b) PATH) eqn:KB.
      * assert (P : path_below k (b :: c)) by (apply IH; apply andb_true_iff; split; [exact KB|exact R]). destruct P as (ps & n & post & E & N & F & Kn & _). exists (a :: ps), n, post. rewrite E. split; auto. split; [discriminate|]. auto.
      * exists [a], b, c. split; auto. split; [discriminate|]. split; auto. split; auto. cbn in R. now apply kind_eqb_iff.
    + intros (ps & n & post & E & N & F & Kn & _). destruct ps as [|x ps]; [congruence|]. cbn in E. injection E as -> ->. inversion F as [|? ? F1 F2]; subst. split; [eauto|].
      destruct ps as [|y ps].
      * cbn. assert (KB : kind_eqb (n_kind n) PATH = false) by (apply not_true_is_false; now rewrite kind_eqb_iff). unfold root_parent_kind. cbn. rewrite KB. cbn. now apply kind_eqb_iff.
      * inversion F2 as [|? ? F3 F4]; subst. assert (R : is_kind (n_kind n) (root_parent_kind ((y :: ps) ++ n :: post)) = true).
        { assert (P : path_below (n_kind n) ((y :: ps) ++ n :: post)) by (exists (y :: ps), n, post; split; auto; split; [discriminate|auto]). apply IH in P. now apply andb_true_iff in P. }
        unfold root_parent_kind in *. cbn [app] in *. cbn [root_path]. assert (KB : kind_eqb (n_kind y) PATH = true) by now apply kind_eqb_iff. rewrite KB. exact R.
Qed.

(** * C38 *)
Theorem visible_exact : forall it c, is_visible it c = None <-> may_see it c.
Proof.
  intros it c. unfold is_visible, may_see.
  destruct (is_msl_context (c_chain c)) eqn:M; [apply msl_context_iff in M; tauto|]. assert (NM : ~ in_spec (c_chain c)) by (rewrite <- msl_context_iff; congruence).
  destruct (match ancestor_strict ATTR_ITEM (c_chain c) with Some _ => true | None => false end) eqn:A; [apply ancestor_some in A; split; auto|]. assert (NA : ~ in_attr (c_chain c)) by (unfold in_attr; rewrite <- ancestor_some; congruence).
  destruct it as [i|]; [|split; [discriminate|intros [H|[H|(i & E & _)]]; [contradiction|contradiction|discriminate]]].
  assert (RED : (in_spec (c_chain c) \/ in_attr (c_chain c) \/ exists j, Some i = Some j /\ (importable c j \/ builtin j \/ (scope_fits c j /\ ~ spec_item j /\ admitted c j))) <-> (importable c i \/ builtin i \/ (scope_fits c i /\ ~ spec_item i /\ admitted c i))).
  { split; [intros [H|[H|(j & E & H)]]; [contradiction|contradiction|injection E as <-; exact H]|intros H; right; right; eauto]. }
  rewrite RED. clear RED NM NA M A. cbv zeta.
  (* the use speck rule *)
  match goal with |- context [if ?u then None else _] => destruct u eqn:U end.
  { split; auto. intros _. left. unfold importable. destruct (is_kind PATH (own_kind (c_chain c)) && is_kind USE_SPECK (root_parent_kind (c_chain c))) eqn:P; [|discriminate]. apply path_below_iff in P; [|discriminate]. split; auto.
    destruct (is_kind MODULE (own_kind (i_chain i)) || is_kind STRUCT (own_kind (i_chain i)) || is_kind ENUM (own_kind (i_chain i))) eqn:K.
    - left. apply orb_true_iff in K. destruct K as [K|K]; [apply orb_true_iff in K; destruct K as [K|K]|]; apply is_kind_own in K; [exists MODULE|exists STRUCT|exists ENUM]; (split; [exact K|cbn; tauto]).
    - destruct (match i_vis i with Some v => negb (vis_private (Some v)) | None => false end) eqn:V.
      + right. left. destruct (i_vis i) as [v|]; [|discriminate]. exists v. split; auto. intros ->. discriminate.
      + destruct (match own_kind (i_chain i) with Some k => msl_only k | None => false end) eqn:SI; [right; right; left; now apply spec_item_b|]. right. right. right. apply andb_true_iff in U. destruct U as [U1 U2]. apply ns_eqb_iff in U2. split; auto. destruct (c_scope c); auto; discriminate. }
  assert (NI : ~ importable c i).
  { intros [P H]. apply path_below_iff in P; [|discriminate]. rewrite P in U. apply not_true_iff_false in U. apply U. clear U.
    destruct H as [(k & K & I)|[(v & V & NP)|[SI|[T N]]]].
    - assert (KK : is_kind MODULE (own_kind (i_chain i)) || is_kind STRUCT (own_kind (i_chain i)) || is_kind ENUM (own_kind (i_chain i)) = true).
      { rewrite !orb_true_iff, !is_kind_own. cbn in I. destruct I as [<-|[<-|[<-|[]]]]; auto. }
      now rewrite KK.
    - destruct (_ || _ || _); auto. rewrite V. destruct v; auto; try contradiction; congruence.
    - destruct (_ || _ || _); auto. destruct (match i_vis i with Some v => _ | None => _ end); auto. apply spec_item_b in SI. now rewrite SI.
    - destruct (_ || _ || _); auto. destruct (match i_vis i with Some v => _ | None => _ end); auto. destruct (match own_kind _ with Some k => _ | None => _ end); auto. rewrite T, N. reflexivity. }
  clear U.
  match goal with |- context [if ?u then None else _] => destruct u eqn:B end.
  { split; auto. intros _. right. left. apply andb_true_iff in B. destruct B as [B1 B2]. unfold builtin, containing_module in *. destruct (ancestor_strict MODULE (i_chain i)) as [m|] eqn:AM; [|discriminate]. apply ancestor_iff in AM. split; [|split; eauto]. apply orb_true_iff in B1. rewrite !is_kind_own in B1. exact B1. }
  assert (NB : ~ builtin i).
  { intros (K & BI & m & E). apply ancestor_iff in E. unfold containing_module in B. rewrite E, BI, andb_true_r in B. apply not_true_iff_false in B. apply B. rewrite orb_true_iff, !is_kind_own. exact K. }
  clear B.
  assert (ES : match i_adjust i with Some a => shrink_scope (i_scope i) a | None => i_scope i end = effective_scope i) by (unfold effective_scope, shrink_scope; destruct (i_scope i), (i_adjust i); reflexivity).
  rewrite ES.
  destruct (negb (scope_eqb (effective_scope i) ScMain) && negb (scope_eqb (effective_scope i) (c_scope c))) eqn:SC.
  { split; [discriminate|]. intros [H|[H|(SF & _)]]; [contradiction|contradiction|]. exfalso. unfold scope_fits in SF. destruct (effective_scope i), (c_scope c); try discriminate SC; destruct SF; discriminate. }
  assert (SF : scope_fits c i) by (unfold scope_fits; destruct (effective_scope i), (c_scope c); auto; discriminate).
  destruct (match own_kind (i_chain i) with Some k => msl_only k | None => false end) eqn:SI.
  { apply spec_item_b in SI. split; [discriminate|]. intros [H|[H|(_ & N & _)]]; contradiction. }
  assert (NS : ~ spec_item i) by (rewrite <- spec_item_b; congruence).
  assert (RED : (importable c i \/ builtin i \/ (scope_fits c i /\ ~ spec_item i /\ admitted c i)) <-> admitted c i) by tauto.
  rewrite RED. clear RED NI NB SC SF SI NS ES. unfold containing_module, containing_script.
  match goal with |- context [if ?u then None else _] => destruct u eqn:MO end.
  { destruct (ancestor_strict MODULE (i_chain i)) as [m|] eqn:E1; [|discriminate]. destruct (ancestor_strict MODULE (c_chain c)) as [m'|] eqn:E2; [|discriminate]. apply node_eqb_iff in MO. subst m'. apply ancestor_iff in E1. apply ancestor_iff in E2. split; auto. intros _. eapply adm_module; eauto. }
  match goal with |- context [if ?u then None else _] => destruct u eqn:SO end.
  { destruct (ancestor_strict SCRIPT (c_chain c)) as [m|] eqn:E1; [|discriminate]. destruct (ancestor_strict SCRIPT (i_chain i)) as [m'|] eqn:E2; [|discriminate]. apply node_eqb_iff in SO. subst m'. apply ancestor_iff in E1. apply ancestor_iff in E2. split; auto. intros _. eapply adm_script; eauto. }
  destruct (ns_mem (i_ns i) ITEM_TYPE_NS && is_kind PATH (own_kind (c_chain c)) && is_kind PATH_TYPE (root_parent_kind (c_chain c))) eqn:TY.
  { split; auto. intros _. rewrite <- andb_assoc in TY. apply andb_true_iff in TY. destruct TY as [T1 T2]. apply path_below_iff in T2; [|discriminate]. apply ns_mem_iff in T1. now apply adm_type. }
  assert (X1 : forall m, encloses MODULE (i_chain i) m -> encloses MODULE (c_chain c) m -> False).
  { intros m H1 H2. apply ancestor_iff in H1. apply ancestor_iff in H2. rewrite H1, H2 in MO. assert (node_eqb m m = true) by now apply node_eqb_iff. congruence. }
  assert (X2 : forall m, encloses SCRIPT (i_chain i) m -> encloses SCRIPT (c_chain c) m -> False).
  { intros m H1 H2. apply ancestor_iff in H1. apply ancestor_iff in H2. rewrite H1, H2 in SO. assert (node_eqb m m = true) by now apply node_eqb_iff. congruence. }
  assert (X3 : In (i_ns i) [TYPE; TUPLE_STRUCT; ENUM_NS] -> path_below PATH_TYPE (c_chain c) -> False).
  { intros H1 H2. apply path_below_iff in H2; [|discriminate]. rewrite <- andb_assoc, H2, andb_true_r in TY. apply not_true_iff_false in TY. apply TY. now apply ns_mem_iff. }
  split.
  - destruct (i_vis i) as [[|[|]|]|] eqn:V; try discriminate; intros H; try (now apply adm_public; auto).
    + destruct (ancestor_strict MODULE (i_chain i)) as [mi|] eqn:E1; [|discriminate]. destruct (ancestor_strict MODULE (c_chain c)) as [m|] eqn:E2; [|discriminate]. apply ancestor_iff in E1. apply ancestor_iff in E2.
      destruct (existsb _ (i_friends i)) eqn:F; [|discriminate]. apply existsb_exists in F. destruct F as ([x|] & I & E); [|discriminate]. apply node_eqb_iff in E. subst x. eapply adm_friend; eauto.
    + destruct (c_package c =? i_package i) eqn:P; [|discriminate]. apply Nat.eqb_eq in P. now apply adm_package.
  - intros [m H1 H2|s H1 H2|H1 H2|[V|V]|m mi V H1 H2 H3|V P]; try (exfalso; eauto; fail); rewrite V; auto.
    + apply ancestor_iff in H1. pose proof H2 as H2'. apply ancestor_iff in H2'. rewrite H1, H2'. assert (F : existsb (fun f => match f with Some x => node_eqb x m | None => false end) (i_friends i) = true) by (apply existsb_exists; exists (Some m); split; auto; now apply node_eqb_iff). now rewrite F.
    + rewrite P, Nat.eqb_refl. reflexivity.
Qed.

(** plain code: neither in a specification nor in an attribute nor in a use statement *)
Definition plain (c : context) : Prop := ~ in_spec (c_chain c) /\ ~ in_attr (c_chain c) /\ ~ path_below USE_SPECK (c_chain c).
Theorem test_only_hidden : forall i c, is_visible (Some i) c = None -> plain c -> ~ builtin i -> effective_scope i = ScTest -> c_scope c = ScTest.
Proof.
  intros i c H (P1 & P2 & P3) NB ET. apply visible_exact in H. destruct H as [H|[H|(j & E & H)]]; [contradiction|contradiction|]. injection E as <-. destruct H as [[H _]|[H|(SF & _)]]; [contradiction|contradiction|]. destruct SF as [SF|SF]; congruence.
Qed.
Theorem spec_items_hidden : forall i c, is_visible (Some i) c = None -> plain c -> ~ builtin i -> ~ spec_item i.
Proof.
  intros i c H (P1 & P2 & P3) NB. apply visible_exact in H. destruct H as [H|[H|(j & E & H)]]; [contradiction|contradiction|]. injection E as <-. destruct H as [[H _]|[H|(_ & N & _)]]; [contradiction|contradiction|auto].
Qed.
(** a private function or constant is visible only in its own module or script *)
Theorem private_hidden : forall i c, is_visible (Some i) c = None -> plain c -> ~ builtin i -> i_vis i = Some Private -> ~ In (i_ns i) [TYPE; TUPLE_STRUCT; ENUM_NS] ->
  (exists m, encloses MODULE (i_chain i) m /\ encloses MODULE (c_chain c) m) \/ (exists s, encloses SCRIPT (i_chain i) s /\ encloses SCRIPT (c_chain c) s).
Proof.
  intros i c H (P1 & P2 & P3) NB V NT. apply visible_exact in H. destruct H as [H|[H|(j & E & H)]]; [contradiction|contradiction|]. injection E as <-. destruct H as [[H _]|[H|(_ & _ & A)]]; [contradiction|contradiction|].
  destruct A as [m H1 H2|s H1 H2|H1 H2|[V'|V']|m mi V' H1 H2 H3|V' P]; eauto; try contradiction; congruence.
Qed.
(** package visibility never leaves the package, except inside the module itself and for types *)
Theorem package_hidden : forall i c, is_visible (Some i) c = None -> plain c -> ~ builtin i -> i_vis i = Some (Restricted VPackage) -> ~ In (i_ns i) [TYPE; TUPLE_STRUCT; ENUM_NS] ->
  c_package c = i_package i \/ (exists m, encloses MODULE (i_chain i) m /\ encloses MODULE (c_chain c) m) \/ (exists s, encloses SCRIPT (i_chain i) s /\ encloses SCRIPT (c_chain c) s).
Proof.
  intros i c H (P1 & P2 & P3) NB V NT. apply visible_exact in H. destruct H as [H|[H|(j & E & H)]]; [contradiction|contradiction|]. injection E as <-. destruct H as [[H _]|[H|(_ & _ & A)]]; [contradiction|contradiction|].
  destruct A as [m H1 H2|s H1 H2|H1 H2|[V'|V']|m mi V' H1 H2 H3|V' P]; eauto; try contradiction; congruence.
Qed.

(** examples: module 1 with a private test-only function 2; a path in module 1 or in module 9 *)
Definition chain_in (m : nat) (k : kind) : chain := [mkNode 50 k; mkNode 51 FUN; mkNode m MODULE; mkNode 0 SOURCE_FILE].
Definition fun_item (v : vis) (s : item_scope) : item := mkItem [mkNode 2 FUN; mkNode 1 MODULE; mkNode 0 SOURCE_FILE] FUNCTION (Some v) s None false [Some (mkNode 9 MODULE)] 7.
Example visible_example :
  is_visible (Some (fun_item Private ScMain)) (mkCtx (chain_in 1 PATH) ScMain 7) = None /\
  is_visible (Some (fun_item Private ScMain)) (mkCtx (chain_in 9 PATH) ScMain 7) = Some (RPrivate Private) /\
  is_visible (Some (fun_item (Restricted VFriend) ScMain)) (mkCtx (chain_in 9 PATH) ScMain 8) = None /\
  is_visible (Some (fun_item (Restricted VFriend) ScMain)) (mkCtx (chain_in 8 PATH) ScMain 8) = Some (RPrivate (Restricted VFriend)) /\
  is_visible (Some (fun_item (Restricted VPackage) ScMain)) (mkCtx (chain_in 8 PATH) ScMain 7) = None /\
  is_visible (Some (fun_item (Restricted VPackage) ScMain)) (mkCtx (chain_in 8 PATH) ScMain 6) = Some (RPrivate (Restricted VPackage)) /\
  is_visible (Some (fun_item Public ScTest)) (mkCtx (chain_in 1 PATH) ScMain 7) = Some (RWrongScope ScTest) /\
  is_visible (Some (fun_item Public ScTest)) (mkCtx (chain_in 9 PATH) ScTest 7) = None.
Proof. vm_compute. repeat split. Qed.
Example plain_example : plain (mkCtx (chain_in 1 PATH) ScTest 7) /\ ~ builtin (fun_item Private ScTest) /\ effective_scope (fun_item Private ScTest) = ScTest /\ ~ In (i_ns (fun_item Private ScTest)) [TYPE; TUPLE_STRUCT; ENUM_NS].
Proof.
  split; [|split; [|split]].
  - split; [|split]; cbn [c_chain]; [rewrite <- msl_context_iff; vm_compute; discriminate|unfold in_attr; rewrite <- ancestor_some; vm_compute; discriminate|rewrite <- path_below_iff by discriminate; vm_compute; discriminate].
  - intros (_ & B & _). discriminate.
  - reflexivity.
  - cbn. intros [H|[H|[H|[]]]]; discriminate.
Qed.
(** In a use statement the scope of an item is not looked at: a public test-only function can be imported
    by code that is not test-only. *)
Theorem test_only_in_use_refuted : exists i c, effective_scope i = ScTest /\ c_scope c = ScMain /\ ~ in_spec (c_chain c) /\ ~ in_attr (c_chain c) /\ is_visible (Some i) c = None.
Proof.
  exists (fun_item Public ScTest), (mkCtx [mkNode 50 PATH; mkNode 51 USE_SPECK; mkNode 52 USE_STMT; mkNode 9 MODULE; mkNode 0 SOURCE_FILE] ScMain 7).
  split; [reflexivity|]. split; [reflexivity|]. cbn [c_chain]. split; [rewrite <- msl_context_iff; vm_compute; discriminate|]. split; [unfold in_attr; rewrite <- ancestor_some; vm_compute; discriminate|]. vm_compute. reflexivity.
Qed.

(** * Resolve scopes *)
Definition scope_kinds : list kind :=
  [MODULE; MODULE_SPEC; SCRIPT; ITEM_SPEC; FUN; SPEC_FUN; SPEC_INLINE_FUN; LAMBDA_EXPR; SCHEMA; FOR_EXPR; FORALL_EXPR; EXISTS_EXPR; CHOOSE_EXPR;
   AXIOM_STMT; INVARIANT_STMT; APPLY_SCHEMA; MATCH_ARM; BLOCK_EXPR; GLOBAL_VARIABLE_DECL; ENUM; STRUCT; SPEC_BLOCK_EXPR; LEMMA; FORALL_APPLY_LEMMA].
Lemma valid_scope_iff : forall k, valid_scope k = true <-> In k scope_kinds.
Proof. intros k. split; [intros H; destruct k; try discriminate H; cbn; tauto|intros H; cbn in H; repeat (destruct H as [<-|H]; [reflexivity|]); destruct H]. Qed.
(** the enclosing scopes, innermost first, come before everything else *)
Theorem enclosing_scopes_first : forall inner related target c, exists more,
  get_resolve_scopes inner related target c = filter (fun a => valid_scope (n_kind a)) (tl c) ++ more /\
  (more <> [] -> exists last pre, filter (fun a => valid_scope (n_kind a)) (tl c) = pre ++ [last] /\ (n_kind last = MODULE \/ n_kind last = MODULE_SPEC)).
Proof.
  intros inner related target c. assert (L : forall l, scope_loop l = filter (fun a => valid_scope (n_kind a)) l) by (induction l as [|a l IH]; cbn; auto; destruct (valid_scope (n_kind a)); now rewrite IH).
  unfold get_resolve_scopes. rewrite L. set (s := filter _ (tl c)). destruct (rev s) as [|x r] eqn:R; [exists []; rewrite app_nil_r; split; auto; congruence|].
  assert (E : s = rev r ++ [x]) by (rewrite <- (rev_involutive s), R; reflexivity).
  destruct (n_kind x) eqn:K; try (exists []; rewrite app_nil_r; split; auto; congruence); (eexists; split; [reflexivity|]); intros _; exists x, (rev r); auto.
Qed.
Example enclosing_scopes_example : get_resolve_scopes (fun m => [mkNode 7 SPEC_BLOCK_EXPR]) (fun m => [mkNode 8 MODULE_SPEC]) (fun _ => None)
  [mkNode 1 PATH; mkNode 2 PATH_EXPR; mkNode 3 BLOCK_EXPR; mkNode 4 FUN; mkNode 5 MODULE; mkNode 6 SOURCE_FILE] = [mkNode 3 BLOCK_EXPR; mkNode 4 FUN; mkNode 5 MODULE; mkNode 7 SPEC_BLOCK_EXPR; mkNode 8 MODULE_SPEC].
Proof. reflexivity. Qed.

(** * Bindings of a block (C42) *)
Lemma unique_spec : forall l seen e, In e (unique_by_name seen l) <-> exists a b, l = a ++ e :: b /\ ~ In (e_name e) (map e_name a) /\ ~ In (e_name e) seen.
Proof.
  induction l as [|x l IH]; intros seen e; cbn.
  - split; [intros []|]. intros (a & b & E & _). destruct a; discriminate.
  - destruct (existsb (Nat.eqb (e_name x)) seen) eqn:S.
    + apply existsb_exists in S. destruct S as (n & Hn & En). apply Nat.eqb_eq in En. subst n. rewrite IH. split.
      * intros (a & b & -> & N1 & N2). exists (x :: a), b. split; auto. split; auto. cbn. intros [E|E]; [congruence|contradiction].
      * intros (a & b & E & N1 & N2). destruct a as [|y a]; cbn in E; injection E as <- ->; [contradiction|]. exists a, b. split; auto. split; auto. intros I. apply N1. now right.
    + assert (NS : ~ In (e_name x) seen) by (intros I; assert (existsb (Nat.eqb (e_name x)) seen = true) by (apply existsb_exists; exists (e_name x); split; auto; apply Nat.eqb_refl); congruence).
      cbn [In]. rewrite IH. split.
      * intros [<-|(a & b & -> & N1 & N2)]; [exists [], l; cbn; auto|]. exists (x :: a), b. split; auto. cbn in N2. split; [cbn; intros [E|E]; [apply N2; auto|contradiction]|intros I; apply N2; auto].
      * intros (a & b & E & N1 & N2). destruct a as [|y a]; cbn in E; injection E as <- ->; [auto|]. right. exists a, b. split; auto. cbn in N1. split; [intros I; apply N1; auto|]. cbn. intros [I|I]; [apply N1; left; auto|contradiction].
Qed.
Lemma unique_nodup : forall l seen, NoDup (map e_name (unique_by_name seen l)).
Proof.
  induction l as [|x l IH]; intros seen; cbn; [constructor|]. destruct (existsb _ seen); auto. cbn. constructor; auto. intros I. apply in_map_iff in I. destruct I as (e & E & I). apply unique_spec in I. destruct I as (a & b & _ & _ & N). apply N. left. auto.
Qed.
(** a binding is offered iff its statement is visible from the point, it is the first of its name in the
    statement, and no later visible statement binds the name *)
Theorem block_bindings_exact : forall msl off cur funs lets e, In e (block_entries msl off cur funs lets) <->
  (msl = true /\ In e funs) \/
  exists before s after a b, lets = before ++ s :: after /\ let_visible msl off cur s = true /\ l_bindings s = a ++ e :: b /\ ~ In (e_name e) (map e_name a) /\
    forall s', In s' after -> let_visible msl off cur s' = true -> ~ In (e_name e) (map e_name (l_bindings s')).
Proof.
  intros msl off cur funs lets e. unfold block_entries. rewrite in_app_iff, unique_spec.
  assert (A : In e (if msl then funs else []) <-> msl = true /\ In e funs) by (destruct msl; cbn; intuition discriminate). rewrite A. clear A.
  assert (G : forall L, (exists a b, flat_map l_bindings (rev L) = a ++ e :: b /\ ~ In (e_name e) (map e_name a) /\ ~ In (e_name e) []) <->
    exists before s after a b, L = before ++ s :: after /\ l_bindings s = a ++ e :: b /\ ~ In (e_name e) (map e_name a) /\ forall s', In s' after -> ~ In (e_name e) (map e_name (l_bindings s'))).
  { intros L. induction L as [|s L IH] using rev_ind.
    - cbn. split; [intros (a & b & E & _); destruct a; discriminate|intros (be & s & af & a & b & E & _); destruct be; discriminate].
    - rewrite rev_app_distr. cbn [rev app flat_map]. split.
      + intros (a & b & E & N & _). assert (SP : (exists a' , l_bindings s = a' ++ e :: skipn (S (length a)) (l_bindings s) /\ a = a') \/ exists a2, a = l_bindings s ++ a2 /\ flat_map l_bindings (rev L) = a2 ++ e :: b).
        { clear -E. revert a E. generalize (l_bindings s) as l, (flat_map l_bindings (rev L)) as m. induction l as [|x l IHl]; intros m a E; cbn in E; [right; exists a; auto|].
          destruct a as [|y a]; cbn in E; injection E as -> E; [left; exists []; split; auto|]. destruct (IHl _ _ E) as [(a' & E1 & ->)|(a2 & -> & E2)]; [left; exists (y :: a'); cbn; split; auto; f_equal; exact E1|right; exists a2; auto]. }
        destruct SP as [(a' & E1 & ->)|(a2 & -> & E2)].
        * exists L, s, [], a', (skipn (S (length a')) (l_bindings s)). repeat split; auto.
        * rewrite map_app, in_app_iff in N. destruct (proj1 IH) as (be & s0 & af & a0 & b0 & -> & E3 & N3 & F3); [exists a2, b; split; auto; tauto|]. exists be, s0, (af ++ [s]), a0, b0. rewrite <- app_assoc. cbn. split; auto. split; auto. split; auto. intros s' I. apply in_app_iff in I. destruct I as [I|[<-|[]]]; auto.
      + intros (be & s0 & af & a0 & b0 & E & E1 & N1 & F). destruct af as [|z af] using rev_ind.
        * apply app_inj_tail in E. destruct E as [-> ->]. exists a0, (b0 ++ flat_map l_bindings (rev be)). rewrite E1, <- app_assoc. split; auto.
        * rewrite app_comm_cons, app_assoc in E. apply app_inj_tail in E. destruct E as [-> ->]. destruct (proj2 IH) as (a & b & E2 & N2 & _); [exists be, s0, af, a0, b0; split; auto; split; auto; split; auto; intros s' I; apply F; apply in_app_iff; auto|].
          exists (l_bindings z ++ a), b. rewrite E2, <- app_assoc. split; auto. split; auto. rewrite map_app, in_app_iff. intros [I|I]; [|contradiction]. eapply F; [|exact I]. apply in_app_iff. right. now left. }
  rewrite G. clear G. apply or_iff_compat_l. set (f := let_visible msl off cur).
  split.
  - intros (be & s & af & a & b & E & E1 & N & F).
    assert (SP : forall L be s af, filter f L = be ++ s :: af -> exists B A, L = B ++ s :: A /\ f s = true /\ filter f A = af).
    { induction L as [|x L IHL]; intros be' s' af' H; cbn in H; [destruct be'; discriminate|]. destruct (f x) eqn:FX.
      - destruct be' as [|y be']; cbn in H; injection H as -> H; [exists [], L; auto|]. destruct (IHL _ _ _ H) as (B & A & -> & F1 & F2). exists (y :: B), A. auto.
      - destruct (IHL _ _ _ H) as (B & A & -> & F1 & F2). exists (x :: B), A. auto. }
    destruct (SP _ _ _ _ E) as (B & A & -> & FS & FA). exists B, s, A, a, b. split; auto. split; auto. split; auto. split; auto. intros s' I V. apply F. rewrite <- FA. apply filter_In. auto.
  - intros (be & s & af & a & b & -> & V & E1 & N & F). exists (filter f be), s, (filter f af), a, b. rewrite filter_app. cbn. rewrite V. split; auto. split; auto. split; auto. intros s' I. apply filter_In in I. destruct I as [I V']. auto.
Qed.
(** outside specifications each name is offered once, and only bindings of statements that end before the
    point *)
Theorem block_names_unique : forall off cur funs lets, NoDup (map e_name (block_entries false off cur funs lets)).
Proof. intros. unfold block_entries. cbn [app]. apply unique_nodup. Qed.
Theorem let_not_visible_inside_itself : forall off cur funs lets e, In e (block_entries false off cur funs lets) -> exists s, In s lets /\ In e (l_bindings s) /\ l_end s <= off.
Proof.
  intros off cur funs lets e H. apply block_bindings_exact in H. destruct H as [[H _]|(be & s & af & a & b & -> & V & E & _)]; [discriminate|]. exists s. split; [apply in_app_iff; right; now left|]. split; [rewrite E; apply in_app_iff; right; now left|]. cbn in V. now apply Nat.leb_le in V.
Qed.
Example block_example : block_entries false 30 None [] [mkLet 10 false [mkEntry 1 NAME 100; mkEntry 2 NAME 101]; mkLet 20 false [mkEntry 1 NAME 102]; mkLet 40 false [mkEntry 1 NAME 103]] = [mkEntry 1 NAME 102; mkEntry 2 NAME 101].
Proof. reflexivity. Qed.

(** * Walking the scopes (C41) *)
Lemma pair_in_iff : forall n x l, pair_in n x l = true <-> In (n, x) l.
Proof. intros n x l. unfold pair_in. rewrite existsb_exists. split; [intros ([n' x'] & I & E); apply andb_true_iff in E; cbn in E; destruct E as [E1 E2]; apply ns_eqb_iff in E1; apply Nat.eqb_eq in E2; now subst|intros I; exists (n, x); split; auto; cbn; rewrite Nat.eqb_refl, andb_true_r; now apply ns_eqb_iff]. Qed.
Lemma scan_spec : forall allowed expected prev l visited acc, scan_scope allowed expected prev visited acc l =
  let keep := filter (fun e => wanted allowed expected e && negb (pair_in (e_ns e) (e_name e) prev)) l in
  (rev (map (fun e => (e_ns e, e_name e)) keep) ++ visited, acc ++ keep).
Proof.
  induction l as [|e l IH]; intros visited acc; cbn; [now rewrite app_nil_r|]. destruct (wanted allowed expected e && negb (pair_in (e_ns e) (e_name e) prev)); rewrite IH; cbn; auto. rewrite <- !app_assoc. reflexivity.
Qed.
(** hidden by an entry of an inner scope that is looked for too *)
Definition hidden (allowed : ns_set) (expected : option nat) (inner : list (list entry)) (e : entry) : Prop :=
  exists s e', In s inner /\ In e' s /\ wanted allowed expected e' = true /\ e_ns e' = e_ns e /\ e_name e' = e_name e.
Lemma walk_from_spec : forall allowed expected scopes visited acc done,
  (forall e, pair_in (e_ns e) (e_name e) visited = true <-> hidden allowed expected done e) ->
  forall e, In e (walk_scopes_from allowed expected visited acc scopes) <->
    In e acc \/ exists inner s outer, scopes = inner ++ s :: outer /\ In e s /\ wanted allowed expected e = true /\ ~ hidden allowed expected (done ++ inner) e.
Proof.
  induction scopes as [|s scopes IH]; intros visited acc dn HV e.
  - cbn. split; auto. intros [H|(i & s & o & E & _)]; auto. destruct i; discriminate.
  - cbn [walk_scopes_from]. rewrite scan_spec. cbv zeta. set (keep := filter _ s).
    rewrite (IH _ _ (dn ++ [s])).
    + rewrite in_app_iff. unfold keep at 1. rewrite filter_In, andb_true_iff, negb_true_iff. split.
      * intros [[H|(I & W & N)]|(i & s' & o & -> & I & W & N)]; auto; right.
        -- exists [], s, scopes. rewrite app_nil_r. split; auto. split; auto. split; auto. rewrite <- HV. congruence.
        -- exists (s :: i), s', o. split; auto. split; auto. split; auto. now rewrite <- app_assoc in N.
      * intros [H|(i & s' & o & E & I & W & N)]; auto. destruct i as [|x i]; cbn in E; injection E as -> ->.
        -- left. right. rewrite app_nil_r in N. split; auto. split; auto. rewrite <- HV in N. now apply not_true_is_false.
        -- right. exists i, s', o. split; auto. split; auto. split; auto. now rewrite <- app_assoc.
    + intros e0. rewrite pair_in_iff, in_app_iff, <- in_rev, in_map_iff. unfold hidden. split.
      * intros [(x & E & I)|I].
        -- unfold keep in I. apply filter_In in I. destruct I as [I W]. apply andb_true_iff in W. injection E as E1 E2. exists s, x. split; [apply in_app_iff; right; now left|]. tauto.
        -- apply pair_in_iff in I. apply HV in I. destruct I as (s' & e' & I1 & I2). exists s', e'. split; auto. apply in_app_iff. auto.
      * intros (s' & e' & I & I2 & W & E1 & E2). apply in_app_iff in I. destruct (pair_in (e_ns e0) (e_name e0) visited) eqn:PV; [right; now apply pair_in_iff|].
        destruct I as [I|[<-|[]]].
        -- exfalso. assert (H : hidden allowed expected dn e0) by (exists s', e'; auto). apply HV in H. congruence.
        -- left. exists e'. split; [congruence|]. unfold keep. apply filter_In. split; auto. rewrite W, E1, E2, PV. reflexivity.
Qed.
(** an entry is found iff it is in some scope, has the wanted namespace and name, and no inner scope has a
    wanted entry of the same namespace and name *)
Theorem walk_exact : forall allowed expected scopes e, In e (walk_scopes allowed expected scopes) <->
  exists inner s outer, scopes = inner ++ s :: outer /\ In e s /\ In (e_ns e) allowed /\ (forall x, expected = Some x -> e_name e = x) /\
    forall s' e', In s' inner -> In e' s' -> e_ns e' = e_ns e -> e_name e' <> e_name e.
Proof.
  intros allowed expected scopes e. unfold walk_scopes. rewrite (walk_from_spec allowed expected scopes [] [] []).
  2:{ intros x. split; [discriminate|]. intros (s & e' & [] & _). }
  assert (W : forall x, wanted allowed expected x = true <-> In (e_ns x) allowed /\ forall y, expected = Some y -> e_name x = y).
  { intros x. unfold wanted. rewrite andb_true_iff, ns_mem_iff. destruct expected as [y|]; [|intuition discriminate]. rewrite Nat.eqb_eq. split; [intros [-> H]; split; auto; intros z E; congruence|intros [H1 H2]; split; auto; symmetry; auto]. }
  split.
  - intros [[]|(i & s & o & -> & I & WE & N)]. exists i, s, o. apply W in WE. destruct WE as [W1 W2]. split; auto. split; auto. split; auto. split; auto. intros s' e' I1 I2 E1 E2. apply N. exists s', e'. split; auto. split; auto. split; auto. apply W. rewrite E1, E2. auto.
  - intros (i & s & o & -> & I & W1 & W2 & N). right. exists i, s, o. split; auto. split; auto. split; [apply W; auto|]. intros (s' & e' & I1 & I2 & _ & E1 & E2). eapply N; eauto.
Qed.
(** entries come innermost scope first *)
Theorem walk_order : forall allowed expected a b, exists rest, walk_scopes allowed expected (a ++ b) = walk_scopes allowed expected a ++ rest.
Proof.
  intros allowed expected a b. unfold walk_scopes. assert (G : forall a v acc, exists rest, walk_scopes_from allowed expected v acc (a ++ b) = walk_scopes_from allowed expected v acc a ++ rest).
  { assert (P : forall b v acc, exists rest, walk_scopes_from allowed expected v acc b = acc ++ rest).
    { induction b0 as [|s b0 IH]; intros v acc; cbn; [exists []; now rewrite app_nil_r|]. rewrite scan_spec. cbv zeta. destruct (IH (rev (map (fun e => (e_ns e, e_name e)) (filter (fun e => wanted allowed expected e && negb (pair_in (e_ns e) (e_name e) v)) s)) ++ v) (acc ++ filter (fun e => wanted allowed expected e && negb (pair_in (e_ns e) (e_name e) v)) s)) as [r ->]. rewrite <- app_assoc. eauto. }
    induction a0 as [|s a0 IH]; intros v acc; cbn; [apply P|]. rewrite scan_spec. cbv zeta. apply IH. }
  apply G.
Qed.
Definition scopes_ex : list (list entry) := [[mkEntry 1 NAME 100]; [mkEntry 1 NAME 200; mkEntry 2 FUNCTION 201]; [mkEntry 1 FUNCTION 300; mkEntry 2 FUNCTION 301]].
Example walk_example : walk_scopes [NAME; FUNCTION] None scopes_ex = [mkEntry 1 NAME 100; mkEntry 2 FUNCTION 201; mkEntry 1 FUNCTION 300].
Proof. reflexivity. Qed.

(** * Resolving an unqualified path *)
Theorem special_case_subset : forall is_call l x, In x (function_special_case is_call l) -> In x l.
Proof.
  intros is_call l x H. unfold function_special_case in H. destruct is_call.
  - destruct (filter fn_entry l) as [|y f] eqn:F; auto. rewrite <- F in H. now apply filter_In in H.
  - destruct l as [|a [|b l]]; auto. destruct (filter _ (a :: b :: l)) as [|y [|z f]] eqn:F; auto. rewrite <- F in H. now apply filter_In in H.
Qed.
Theorem special_case_nonempty : forall is_call l, l <> [] -> function_special_case is_call l <> [].
Proof. intros is_call l N. unfold function_special_case. destruct is_call; [destruct (filter fn_entry l); [auto|discriminate]|]. destruct l as [|a [|b l]]; auto. destruct (filter _ _) as [|y [|z f]]; discriminate. Qed.
(** in call position a function is preferred over anything else of that name *)
Theorem call_prefers_functions : forall l x, In x l -> fn_entry x = true -> forall y, In y (function_special_case true l) -> fn_entry y = true.
Proof. intros l x I F y H. unfold function_special_case in H. destruct (filter fn_entry l) as [|z f] eqn:E; [exfalso; assert (In x (filter fn_entry l)) by (apply filter_In; auto); rewrite E in *; contradiction|]. rewrite <- E in H. now apply filter_In in H. Qed.
(** what a name resolves to: visible, of that name, in an allowed namespace, and not hidden by an inner scope *)
Theorem resolve_sound : forall visible is_call allowed name scopes e, resolve_single (resolve_unqualified visible is_call allowed name scopes) = Some e ->
  visible e = None /\ e_name e = name /\ In (e_ns e) allowed /\
  exists inner s outer, scopes = inner ++ s :: outer /\ In e s /\ forall s' e', In s' inner -> In e' s' -> e_ns e' = e_ns e -> e_name e' <> name.
Proof.
  intros visible is_call allowed name scopes e H. unfold resolve_single in H. match type of H with context [match ?F0 with _ => _ end] => destruct F0 as [|[x r] [|y f]] eqn:F; try discriminate end. injection H as <-.
  assert (I : In (x, r) (filter (fun e : entry * option invis_reason => match snd e with None => true | Some _ => false end) (resolve_unqualified visible is_call allowed name scopes))) by (rewrite F; now left).
  apply filter_In in I. destruct I as [I V]. unfold resolve_unqualified in I. apply special_case_subset in I. apply in_map_iff in I. destruct I as (x' & E & I). injection E as -> <-. apply filter_In in I. destruct I as [I N]. apply Nat.eqb_eq in N.
  apply walk_exact in I. destruct I as (inner & s & outer & -> & Is & A & _ & HH). cbn in V. destruct (visible x); [discriminate|]. split; auto. split; auto. split; auto. exists inner, s, outer. split; auto. split; auto. intros s' e' I1 I2 E1. rewrite <- N. eauto.
Qed.
Example resolve_example : resolve_single (resolve_unqualified (fun _ => None) true [NAME; FUNCTION] 1 scopes_ex) = Some (mkEntry 1 FUNCTION 300) /\
  resolve_single (resolve_unqualified (fun _ => None) false [NAME; FUNCTION] 1 scopes_ex) = Some (mkEntry 1 NAME 100).
Proof. vm_compute. auto. Qed.
(** Shadowing looks at namespaces separately and ignores visibility: an invisible entry of an inner scope
    hides a visible one further out. *)
Theorem invisible_hides_visible_refuted : exists visible allowed name scopes e, In e (concat scopes) /\ visible e = None /\ e_name e = name /\ In (e_ns e) allowed /\
  resolve_single (resolve_unqualified visible false allowed name scopes) = None.
Proof.
  exists (fun e => if e_loc e =? 100 then Some (RWrongScope ScTest) else None), [FUNCTION], 1, [[mkEntry 1 FUNCTION 100]; [mkEntry 1 FUNCTION 200]], (mkEntry 1 FUNCTION 200).
  vm_compute. repeat split; auto.
Qed.

Print Assumptions visible_exact.
Print Assumptions test_only_hidden.
Print Assumptions spec_items_hidden.
Print Assumptions private_hidden.
Print Assumptions package_hidden.
Print Assumptions enclosing_scopes_first.
Print Assumptions block_bindings_exact.
Print Assumptions block_names_unique.
Print Assumptions walk_exact.
Print Assumptions walk_order.
Print Assumptions resolve_sound.
