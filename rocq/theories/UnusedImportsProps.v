(** Unused imports: what is reported, what is removed, what is offered to become test-only. *)
From Coq Require Import String Lia FinFun.
From Verif Require Import Base AddressModel ItemScopeModel UnusedImportsModel UnusedImportsSpec UnusedImportsProofs.
Close Scope string_scope. Close Scope N_scope. Open Scope nat_scope. Open Scope list_scope.

(** ** The items of a use statement are what it imports *)
Theorem statement_imports o i s :
  (readable s <-> use_items_for_stmt o i s <> None) /\
  forall items, use_items_for_stmt o i s = Some items -> forall u,
    In u items <-> exists sp, st_speck s = Some sp /\ u_scope u = st_scope s /\
      exists j, u_loc u = mkLoc o i j /\ imports sp j (u_name u) (u_type u).
Proof.
  split.
  - rewrite <- (items_some o i s). destruct (use_items_for_stmt o i s); split; try congruence; eauto. intros [? H]. discriminate.
  - intros items H u. now apply items_in.
Qed.

(** ** A consistent world *)
Record consistent (w : world) : Prop := mkConsistent {
  c_paired : paired w;
  c_flat : forall s m, w_module w s = Some m -> w_module w m = None;
  c_distinct : forall m, NoDup (w_specs w m)
}.
Lemma shares_sym w o o' : consistent w -> shares w o o' -> shares w o' o.
Proof. intros C [->|[H|H]]; [now left | right; right; now apply (c_paired w C) | right; left; now apply (c_paired w C)]. Qed.
(** the path that uses an import lies where its scope looks for uses *)
Lemma user_reachable w o o' p u : consistent w -> shares w o o' -> (w_module w o = None \/ o' = o) -> declares w o' u ->
  In p (w_paths w) -> uses w p u -> In p (reachable_paths w o).
Proof.
  intros C S K D P (inner & oo & outer & O & ((o2 & S2 & D2) & _ & _) & _).
  assert (o2 = o'). { destruct D as (i & s & sp & _ & _ & _ & j & L & _), D2 as (i2 & s2 & sp2 & _ & _ & _ & j2 & L2 & _). congruence. } subst o2.
  apply reachable_in. split; [exact P|]. exists oo. split; [|rewrite O; apply in_or_app; right; now left].
  destruct K as [K| ->]; [|now apply shares_sym].
  destruct S as [->|[S|S]]; [now apply shares_sym | | congruence].
  pose proof (proj1 (c_paired w C _ _) S) as M. destruct S2 as [->|[S2|S2]].
  - right; now left.
  - apply (c_paired w C) in S2. left. congruence.
  - pose proof (c_flat w C _ _ S2). congruence.
Qed.

Lemma unused_not_used w o o' r p u : consistent w -> shares w o o' -> (w_module w o = None \/ o' = o) -> declares w o' u ->
  find_unused_use_items w o = Some r -> In u r -> In p (w_paths w) -> plain (po_path p) u -> ~ uses w p u.
Proof.
  intros C S K D F I P L U. apply (find_unused_in w o r u F) in I as [_ N]. apply N. exists p. split.
  - eapply user_reachable; eauto.
  - exists (po_scope p). now apply used_hit.
Qed.

(** ** From unused items to reported statements *)
Definition covers (k : unused_kind) (u : use_item) : Prop := match k with Specks l => In (u_loc u) l | _ => True end.
Lemma item_place x items u : items_of x = Some items -> In u items -> stmt_contains x u = true /\ (l_owner (u_loc u), l_stmt (u_loc u)) = fst x.
Proof.
  destruct x as [[o i] s]. cbn. intros H I. apply (items_in o i s items u H) in I as (sp & _ & _ & j & -> & _). cbn. now rewrite !Nat.eqb_refl.
Qed.
Lemma filter_none {A} (f : A -> bool) l : (forall x, In x l -> f x = false) -> filter f l = [].
Proof. induction l as [|x l IH]; intros H; cbn; [reflexivity|]. rewrite (H x (or_introl eq_refl)). apply IH. auto with datatypes. Qed.
Lemma filter_all {A} (f : A -> bool) l : (forall x, In x l -> f x = true) -> filter f l = l.
Proof. induction l as [|x l IH]; intros H; cbn; [reflexivity|]. rewrite (H x (or_introl eq_refl)), IH; auto with datatypes. Qed.
Lemma filter_other hits l r x : unused_in hits l = Some r -> ~ In (fst x) (map fst l) -> filter (stmt_contains x) r = [].
Proof.
  intros H N. apply filter_none. intros u U. apply (unused_in_in _ _ _ u H) in U as [(y & items & Y & E & I) _].
  destruct (item_place y items u E I) as [_ L]. destruct x as [[o i] s]. cbn. destruct (Nat.eqb_spec (l_owner (u_loc u)) o); [|reflexivity].
  destruct (Nat.eqb_spec (l_stmt (u_loc u)) i); [|reflexivity]. exfalso. apply N. cbn. apply in_map_iff. exists y. split; [congruence|exact Y].
Qed.
Definition missed (hits : list use_item) (u : use_item) : bool := negb (existsb (use_eqb u) hits).
Lemma filter_own hits l r x items : NoDup (map fst l) -> In x l -> items_of x = Some items -> unused_in hits l = Some r ->
  filter (stmt_contains x) r = filter (missed hits) items.
Proof.
  revert r. induction l as [|y l IH]; intros r ND I E H; [easy|]. cbn in ND, H. inversion ND as [|? ? N1 N2]; subst.
  destruct (items_of y) as [its|] eqn:Y; [|discriminate]. destruct (unused_in hits l) as [r'|] eqn:R; [|discriminate]. inversion H; subst r. rewrite filter_app.
  destruct I as [->|I].
  - rewrite (filter_other hits l r' x R N1), app_nil_r. assert (its = items) by congruence; subst its. unfold missed. apply filter_all. intros u U. apply filter_In in U as [U _]. now apply (item_place x items u E).
  - rewrite (IH r' N2 I E eq_refl). rewrite (filter_none (stmt_contains x)); [reflexivity|]. intros u U. apply filter_In in U as [U _].
    destruct (item_place y its u Y U) as [_ L]. destruct x as [[o i] s]. cbn. destruct (Nat.eqb_spec (l_owner (u_loc u)) o); [|reflexivity].
    destruct (Nat.eqb_spec (l_stmt (u_loc u)) i); [|reflexivity]. exfalso. apply N1. apply in_map_iff. exists (o, i, s). split; [cbn; congruence|exact I].
Qed.
Lemma filter_le {A} (f : A -> bool) l : length (filter f l) <= length l.
Proof. induction l as [|x l IH]; cbn; [lia|]. destruct (f x); cbn; lia. Qed.
Lemma filter_length_all {A} (f : A -> bool) l x : length l = length (filter f l) -> In x l -> f x = true.
Proof.
  induction l as [|y l IH]; cbn; [easy|]. pose proof (filter_le f l). destruct (f y) eqn:E; cbn; intros L; [|lia].
  intros [->|I]; [exact E|]. apply IH; [lia|exact I].
Qed.
(** only a statement `use A::m` imports a module *)
Lemma module_alone x items u v : items_of x = Some items -> In u items -> In v items -> u_type u = TModule -> v = u.
Proof.
  destruct x as [[o i] s]. cbn. intros H I J T.
  pose proof (proj1 (items_in o i s items u H) I) as (sp & S & C & j & L & M). rewrite T in M. inversion M as [m a n G P A Sh| | | |]; subst.
  pose proof (proj1 (items_in o i s items v H) J) as (sp' & S' & C' & j' & L' & M'). assert (sp' = sp) by congruence; subst sp'.
  destruct u as [lu nu tu su], v as [lv nv tv sv]; cbn in *. inversion M'; subst; try congruence.
  assert (m0 = m) by congruence; subst m0. repeat match goal with A : shown _ _ _ |- _ => apply or_else_shown in A end. congruence.
Qed.
Lemma kind_covers x items unused k u hits : items_of x = Some items -> unused = filter (missed hits) items ->
  unused_use_kind x unused = Some k -> In u items -> covers k u -> ~ In u hits.
Proof.
  intros E U K I C N.
  assert (B : ~ In u unused).
  { rewrite U, filter_In. intros [_ M]. unfold missed in M. apply negb_true_iff in M. assert (existsb (use_eqb u) hits = true); [|congruence]. apply existsb_exists. exists u. split; [exact N|now apply use_eqb_spec]. }
  unfold unused_use_kind in K. destruct (existsb _ unused) eqn:X.
  - apply existsb_exists in X as (v & V & T). apply item_type_eqb_spec in T. pose proof V as V'. rewrite U in V'. apply filter_In in V' as [V' _].
    apply B. now rewrite (module_alone x items v u E V' I T).
  - rewrite E in K. destruct items as [|a items]; [destruct I|]. destruct (Nat.eqb_spec (length (a :: items)) (length unused)) as [L|_].
    + apply B. rewrite U. apply filter_In. split; [exact I|]. apply (filter_length_all (missed hits) (a :: items)); [congruence|exact I].
    + inversion K; subst k. cbn [covers] in C. apply in_map_iff in C as (v & L & V). apply B.
      assert (v = u); [|now subst]. rewrite U in V. apply filter_In in V as [V _].
      (* two items of one statement at one place are one *)
      destruct x as [[o i] s]. cbn in E.
      pose proof (proj1 (items_in o i s _ u E) I) as (sp & S & Cu & j & Lu & M).
      pose proof (proj1 (items_in o i s _ v E) V) as (sp' & S' & Cv & j' & Lv & M'). assert (sp' = sp) by congruence; subst sp'. assert (j' = j) by congruence; subst j'.
      assert (u_name v = u_name u /\ u_type v = u_type u) as [Q1 Q2].
      { clear -M M'. inversion M; subst; inversion M'; subst; try congruence; (split; [|congruence]);
        repeat match goal with A : shown ?a _ _ |- _ => apply or_else_shown in A end; congruence. }
      destruct u, v; cbn in *; congruence.
Qed.
Lemma nodup_app_intro {A} (l r : list A) : NoDup l -> NoDup r -> (forall x, In x l -> ~ In x r) -> NoDup (l ++ r).
Proof.
  induction l as [|x l IH]; intros L R D; cbn; [exact R|]. inversion L; subst. constructor.
  - rewrite in_app_iff. intros [H|H]; [contradiction|]. exact (D x (or_introl eq_refl) H).
  - apply IH; auto. intros y Y. apply D. now right.
Qed.
Lemma own_distinct w o : NoDup (map fst (own_stmts w o)).
Proof.
  unfold own_stmts. rewrite map_map. replace (map _ (number_from 0 (w_stmts w o))) with (map (fun i => (o, i)) (seq 0 (length (w_stmts w o)))).
  - apply FinFun.Injective_map_NoDup; [intros a b; congruence | apply seq_NoDup].
  - generalize 0. induction (w_stmts w o) as [|s r IH]; intros n; cbn; [reflexivity|]. f_equal. apply IH.
Qed.
Lemma own_fst w o y : In y (map fst (own_stmts w o)) -> fst y = o.
Proof. intros H. apply in_map_iff in H as (x & <- & H). apply own_stmts_in in H as (i & s & -> & _). reflexivity. Qed.
Lemma stmts_distinct w l : NoDup l -> NoDup (map fst (flat_map (own_stmts w) l)).
Proof.
  induction l as [|o l IH]; intros N; cbn; [constructor|]. inversion N; subst. rewrite map_app. apply nodup_app_intro; [apply own_distinct | auto |].
  intros y Y Z. apply own_fst in Y. apply in_map_iff in Z as (x & E & Z). apply in_flat_map in Z as (o' & O & Z).
  assert (fst y = o'). { apply (own_fst w). rewrite <- E. now apply in_map. } congruence.
Qed.
Lemma siblings_distinct w o : consistent w -> NoDup (with_siblings w o).
Proof.
  intros C. unfold with_siblings. assert (forall s m, In s (w_specs w m) -> w_module w m = None) as F by (intros s m H; apply (c_paired w C) in H; now apply (c_flat w C) in H).
  constructor.
  - rewrite in_app_iff. intros [H|H].
    + pose proof (F _ _ H). apply (c_paired w C) in H. congruence.
    + destruct (w_module w o) as [m|] eqn:M; [|destruct H]. destruct H as [->|[]]. pose proof (c_flat w C _ _ M). congruence.
  - destruct (w_module w o) as [m|] eqn:M.
    + destruct (w_specs w o) as [|s l] eqn:S; [constructor; [easy|constructor]|]. assert (In s (w_specs w o)) by (rewrite S; now left). rewrite (F _ _ H) in M. discriminate.
    + rewrite app_nil_r. apply (c_distinct w C).
Qed.
Lemma declared_item w o i u : declares w o u -> l_stmt (u_loc u) = i -> exists s items, In (o, i, s) (own_stmts w o) /\ items_of (o, i, s) = Some items /\ In u items.
Proof.
  intros (i' & s & sp & N & S & C & j & L & I) E. rewrite L in E. cbn in E. subst i'. exists s.
  destruct (imports_readable o i s sp j _ _ S I) as [items H]. exists items. split; [apply own_stmts_in; eauto|]. split; [exact H|].
  apply (items_in o i s items u H). exists sp. repeat split; auto. exists j. auto.
Qed.

(** the statements looked at are among those the unused items come from *)
Lemma reported_missed w o l o' i k u :
  consistent w -> (forall x, In x l -> In x (combined_use_stmts w o)) -> shares w o o' -> declares w o' u -> l_stmt (u_loc u) = i ->
  In ((o', i), k) (report (or_nil (find_unused_use_items w o)) l) -> covers k u ->
  exists r, find_unused_use_items w o = Some r /\ In u r.
Proof.
  intros C Sub S D E R K. apply report_in in R as (x & X & F & U). specialize (Sub x X).
  destruct (declared_item w o' i u D E) as (s & items & O & J & I).
  assert (x = (o', i, s)).
  { apply combined_stmts_in in Sub as (o2 & _ & Y). apply own_stmts_in in Y as (i2 & s2 & -> & Y). cbn in F. inversion F; subst o2 i2.
    apply own_stmts_in in O as (i3 & s3 & Q & O). inversion Q; subst. congruence. } subst x.
  destruct (find_unused_use_items w o) as [r|] eqn:FU; cbn [or_nil] in U.
  - exists r. split; [reflexivity|]. pose proof FU as FU'. unfold find_unused_use_items in FU'.
    assert (G : filter (stmt_contains (o', i, s)) r = filter (missed (map fst (hits_with_scopes w o))) items).
    { apply (filter_own _ (combined_use_stmts w o)); auto. unfold combined_use_stmts. apply stmts_distinct. now apply siblings_distinct. }
    apply (find_unused_in w o r u FU). split; [eauto|]. intros (p & P & sc & H).
    eapply (kind_covers (o', i, s) items _ k u (map fst (hits_with_scopes w o)) J eq_refl); eauto; [now rewrite <- G|].
    apply in_map_iff. exists (u, sc). split; [reflexivity|]. apply hits_in. eauto.
  - cbn [filter] in U. unfold unused_use_kind in U. cbn [existsb] in U. rewrite J in U. destruct items as [|a items]; [destruct I|]. cbn in U. inversion U; subst k. destruct K.
Qed.

(** ** Nothing in use is reported.

    Diagnostics (for modules and blocks: scopes that are not specifications of another scope) and
    the removal of unused imports (any scope, its own statements) name no import that a path uses --
    provided the path is a name `x` of an imported item or `m::x` with an imported module `m`.

    Missing: paths `E::V` with an imported enum and `m::E::V` with an imported module; for those the claim
    is false, see below. *)
Theorem used_not_reported_partial w o o' i k u p :
  consistent w -> w_module w o = None ->
  In ((o', i), k) (reported_unused w o) -> shares w o o' -> declares w o' u -> l_stmt (u_loc u) = i -> covers k u ->
  In p (w_paths w) -> plain (po_path p) u -> ~ uses w p u.
Proof.
  intros C M R S D E K P L. destruct (reported_missed w o (combined_use_stmts w o) o' i k u C (fun x H => H) S D E R K) as (r & F & I).
  eapply unused_not_used; eauto.
Qed.
Theorem used_not_removed_partial w o i k u p :
  consistent w -> In ((o, i), k) (organized_unused w o) -> declares w o u -> l_stmt (u_loc u) = i -> covers k u ->
  In p (w_paths w) -> plain (po_path p) u -> ~ uses w p u.
Proof.
  intros C R D E K P L. unfold organized_unused in R. destruct (find_unused_use_items w o) as [r|] eqn:F; [|destruct R].
  assert (R' : In ((o, i), k) (report (or_nil (find_unused_use_items w o)) (own_stmts w o))) by now rewrite F.
  destruct (reported_missed w o (own_stmts w o) o i k u C) as (r' & F' & I); auto.
  - intros x X. apply combined_stmts_in. exists o. split; [now left|exact X].
  - now left.
  - eapply (unused_not_used w o o); eauto. now left.
Qed.

(** ** Everything unused is reported, if every use statement can be read *)
Definition mentions (p : upath) (x : text) : Prop := In (SName x) p.
Lemma hit_mentions w p u s : hit_for_path w p = Some (u, s) -> mentions (po_path p) (u_name u) /\ s = po_scope p /\ exists o, In o (po_owners p) /\ In u (combined_use_items w o) /\ visible_in (po_scope p) u.
Proof.
  unfold hit_for_path, base_path_type. intros H. destruct (match tl (po_path p) with [] => _ | _ => _ end) as [b|] eqn:B; [|discriminate].
  destruct (hit_in_owners w b (po_scope p) (po_owners p)) as [v|] eqn:HO; [|discriminate]. inversion H; subst v s. split; [|split; [reflexivity|]].
  - apply hit_in_owners_some in HO as (o & _ & HO). apply hit_in_owner_sound in HO as (_ & _ & HB). unfold mentions.
    destruct (po_path p) as [|a [|c q]]; cbn [tl] in B; [discriminate| |].
    + destruct a; cbn in B; try discriminate. inversion B; subst b. cbn in HB. apply andb_true_iff in HB as [_ HB]. apply text_eqb_spec in HB as ->. now left.
    + destruct (is_address (c :: q)); [inversion B; subst b; discriminate|]. destruct (match reference_name (tl (c :: q)) with Some a0 => _ | None => _ end); [inversion B; subst b; discriminate|].
      destruct c; cbn in B; try discriminate. inversion B; subst b. cbn in HB. apply andb_true_iff in HB as [_ HB]. apply text_eqb_spec in HB as ->. right; now left.
  - apply hit_in_owners_some in HO as (o & O & HO). apply hit_in_owner_sound in HO as (I & V & _). exists o. auto.
Qed.
Theorem unused_reported w o o' u :
  consistent w -> (forall o2 s, shares w o o2 -> In s (w_stmts w o2) -> readable s) ->
  shares w o o' -> declares w o' u -> (forall p, In p (w_paths w) -> ~ mentions (po_path p) (u_name u)) ->
  exists k, In ((o', l_stmt (u_loc u)), k) (reported_unused w o) /\ covers k u.
Proof.
  intros C Rd S D N. destruct (declared_item w o' _ u D eq_refl) as (s & items & O & J & I).
  set (x := (o', l_stmt (u_loc u), s)) in *.
  assert (All : forall y, In y (combined_use_stmts w o) -> exists its, items_of y = Some its).
  { intros y Y. apply combined_stmts_in in Y as (o2 & S2 & Y). apply own_stmts_in in Y as (i2 & s2 & -> & Y). cbn. apply items_some. apply (Rd o2); auto. eapply nth_error_In; eauto. }
  assert (X : In x (combined_use_stmts w o)) by (apply combined_stmts_in; eauto).
  unfold reported_unused. destruct (proj1 (unused_in_some (map fst (hits_with_scopes w o)) (combined_use_stmts w o)) All) as [r F].
  change (find_unused_use_items w o = Some r) in F. rewrite F. cbn [or_nil].
  destruct (report_complete r (combined_use_stmts w o) x All X) as (k & K & R). exists k. split; [exact R|].
  destruct k as [| | |l]; cbn; auto. unfold unused_use_kind in K. destruct existsb; [discriminate|]. rewrite J in K. destruct items; [discriminate|]. destruct Nat.eqb; [discriminate|].
  inversion K; subst l. apply in_map. apply filter_In. split.
  - apply (find_unused_in w o r u F). split; [eauto|]. intros (p & P & sc & H). apply reachable_in in P as [P _]. apply (N p P). now apply hit_mentions in H as [H _].
  - apply (item_place x (u0 :: items) u J I).
Qed.

(** ** `#[test_only]` is suggested for imports needed by tests only *)
Lemma redundant_in_in hits l r u : redundant_in hits l = Some r -> In u r <-> (exists x items, In x l /\ items_of x = Some items /\ In u items) /\ redundant_main hits u = true.
Proof.
  revert r. induction l as [|x l IH]; intros r; cbn.
  - intros E. inversion E; subst. split; [easy|]. intros [(x & _ & [] & _) _].
  - destruct (items_of x) as [items|] eqn:E; [|discriminate]. destruct (redundant_in hits l) as [r'|]; [|discriminate]. intros H. inversion H; subst r.
    rewrite in_app_iff, (IH r' eq_refl), filter_In. split.
    + intros [[I N]|[(y & it & Y & F & I) N]]; (split; [|exact N]); [exists x, items; auto | exists y, it; auto].
    + intros [(y & it & [->|Y] & F & I) N]; [left; split; [congruence|exact N] | right; split; [exists y, it; auto|exact N]].
Qed.
Lemma hit_in_scope_spec hits u s : hit_in_scope hits u s = true <-> exists s', In (u, s') hits /\ as_main s' = s.
Proof.
  unfold hit_in_scope. rewrite existsb_exists. split.
  - intros ([v s'] & I & E). cbn in E. apply andb_true_iff in E as [E F]. apply use_eqb_spec in E as <-. apply scope_eqb_spec in F. exists s'. auto.
  - intros (s' & I & E). exists (u, s'). split; [exact I|]. cbn. apply andb_true_iff. split; [now apply use_eqb_spec|]. rewrite E. apply scope_eqb_refl.
Qed.
Lemma redundant_main_spec hits u : redundant_main hits u = true <->
  u_scope u = ScMain /\ In (u, ScTest) hits /\ forall s, In (u, s) hits -> s = ScTest.
Proof.
  unfold redundant_main, unused_scopes.
  assert (T : hit_in_scope hits u ScTest = true <-> In (u, ScTest) hits).
  { rewrite hit_in_scope_spec. split; [intros ([| |] & I & E); try discriminate; exact I | intros I; exists ScTest; auto]. }
  assert (M : hit_in_scope hits u ScMain = false <-> forall s, In (u, s) hits -> s = ScTest).
  { split.
    - intros E s I. destruct s; try reflexivity; exfalso; assert (hit_in_scope hits u ScMain = true); try congruence; apply hit_in_scope_spec; [exists ScMain | exists ScVerify]; auto.
    - intros H. destruct (hit_in_scope hits u ScMain) eqn:E; [|reflexivity]. apply hit_in_scope_spec in E as (s & I & E). rewrite (H s I) in E. discriminate. }
  destruct (u_scope u) eqn:S.
  - cbn [filter]. destruct (hit_in_scope hits u ScMain) eqn:A, (hit_in_scope hits u ScTest) eqn:B; cbn; split; try discriminate.
    all: try (intros (_ & I & H)). all: try (apply M in H; discriminate). all: try (apply T in I; discriminate).
    + intros _. split; [reflexivity|]. split; [now apply T|now apply M].
    + reflexivity.
  - cbn [filter]. destruct (hit_in_scope hits u ScTest); cbn; (split; [discriminate | intros (H & _); discriminate]).
  - split; [discriminate | intros (H & _); discriminate].
Qed.

(** an import is suggested only if it is a main import, a path in a test mentions it, and every path using
    it (of the two forms above) is in a test *)
Theorem suggested_test_only_partial w o o' r u :
  consistent w -> find_redundant_main w o = Some r -> In u r -> w_module w o = None -> shares w o o' -> declares w o' u ->
  u_scope u = ScMain /\
  (exists p, In p (w_paths w) /\ po_scope p = ScTest /\ mentions (po_path p) (u_name u)) /\
  (forall p, In p (w_paths w) -> plain (po_path p) u -> uses w p u -> po_scope p = ScTest).
Proof.
  intros C F I M S D. unfold find_redundant_main in F. apply (redundant_in_in _ _ _ u F) in I as [_ I]. apply redundant_main_spec in I as (A & T & N). split; [exact A|]. split.
  - apply hits_in in T as (p & P & H). apply hit_mentions in H as (H & E & _). apply reachable_in in P as [P _]. exists p. auto.
  - intros p P L U. apply N. apply hits_in. exists p. split; [eapply user_reachable; eauto|]. now apply used_hit.
Qed.
(** and every import used in a test and mentioned nowhere else is suggested *)
Theorem tests_only_suggested w o o' u p :
  consistent w -> (forall o2 s, shares w o o2 -> In s (w_stmts w o2) -> readable s) -> w_module w o = None ->
  shares w o o' -> declares w o' u -> u_scope u = ScMain ->
  In p (w_paths w) -> uses w p u -> plain (po_path p) u -> po_scope p = ScTest ->
  (forall q, In q (w_paths w) -> mentions (po_path q) (u_name u) -> po_scope q = ScTest) ->
  exists r, find_redundant_main w o = Some r /\ In u r.
Proof.
  intros C Rd M S D A P U L T N. unfold find_redundant_main.
  assert (R : exists r, redundant_in (hits_with_scopes w o) (combined_use_stmts w o) = Some r).
  { assert (All : forall y, In y (combined_use_stmts w o) -> exists its, items_of y = Some its).
    { intros y Y. apply combined_stmts_in in Y as (o2 & S2 & Y). apply own_stmts_in in Y as (i2 & s2 & -> & Y). cbn. apply items_some. apply (Rd o2); auto. eapply nth_error_In; eauto. }
    revert All. generalize (hits_with_scopes w o) as h. induction (combined_use_stmts w o) as [|y l IH]; intros h All; cbn; [eauto|].
    destruct (All y (or_introl eq_refl)) as [its ->]. destruct (IH h) as [r ->]; eauto. intros z Z. apply All. now right. }
  destruct R as [r R]. exists r. split; [exact R|]. apply (redundant_in_in _ _ _ u R). split.
  - destruct (declared_item w o' _ u D eq_refl) as (s & items & O & J & I). exists (o', l_stmt (u_loc u), s), items. split; [apply combined_stmts_in; eauto|auto].
  - apply redundant_main_spec. split; [exact A|]. split.
    + apply hits_in. exists p. split; [eapply user_reachable; eauto|]. rewrite <- T. now apply used_hit.
    + intros s H. apply hits_in in H as (q & Q & H). apply hit_mentions in H as (H & E & _). apply reachable_in in Q as [Q _]. rewrite E. auto.
Qed.

(** ** Examples and counterexamples *)
Definition name (s : string) : seg := SName (str s).
(** `use 0x1::a;`, `use 0x1::b::{x, y as z};`, `#[test_only] use 0x1::a;`, `use 0x1::c::E;` *)
Definition use_a := mkStmt ScMain (Some (mkSpeck (Some [name "a"; SAddr]) None None)).
Definition use_b := mkStmt ScMain (Some (mkSpeck (Some [name "b"; SAddr]) None (Some [mkChild (Some [name "x"]) None; mkChild (Some [name "y"]) (Some (str "z"))]))).
Definition use_e := mkStmt ScMain (Some (mkSpeck (Some [name "E"; name "c"; SAddr]) None None)).
Definition use_nothing := mkStmt ScMain None.
(** scope 0: a module; scope 1: the block of a function in it *)
Definition world_of (stmts : list use_stmt) (paths : list (list seg * item_scope)) : world :=
  mkWorld (fun o => if o =? 0 then stmts else []) (fun _ => []) (fun _ => None) (map (fun x => mkPath (fst x) (snd x) [1; 0]) paths) (fun _ => false).
Lemma world_consistent s p : consistent (world_of s p).
Proof. constructor; cbn; [split; [easy|discriminate] | discriminate | constructor]. Qed.
Definition item_a := mkUse (mkLoc 0 0 None) (str "a") TModule ScMain.
Definition item_e i := mkUse (mkLoc 0 i None) (str "E") TItem ScMain.

(** decides [uses] in these worlds *)
Lemma declares_0 stmts paths o u : declares (world_of stmts paths) o u <-> In u (use_items (world_of stmts paths) o).
Proof. symmetry. apply use_items_in. Qed.
Lemma uses_intro stmts paths p u x :
  po_owners p = [1; 0] -> In u (use_items (world_of stmts paths) 0) -> can_mean (po_path p) u -> visible_in (po_scope p) u ->
  first_name (po_path p) = Some x -> filter (fun v => text_eqb (u_name v) x) (use_items (world_of stmts paths) 0) = [u] ->
  uses (world_of stmts paths) p u.
Proof.
  intros O I M V F U. exists [1], 0, []. split; [exact O|]. split; [|split].
  - split; [exists 0; split; [now left | now apply declares_0]|auto].
  - intros i v [<-|[]] ((o' & S & D) & _). destruct S as [<-|[[]|S]]; [|discriminate]. apply declares_0 in D. destruct D.
  - intros v ((o' & S & D) & [Mv _] & _). left. destruct S as [<-|[[]|S]]; [|discriminate]. apply declares_0 in D.
    assert (In v [u]); [|destruct H as [H|[]]; congruence]. rewrite <- U. apply filter_In. split; [exact D|]. rewrite F in Mv. inversion Mv. apply text_eqb_refl.
Qed.

(** `use 0x1::a; use 0x1::b::{x, y as z};` with `a::f` and `z`: only `x` is reported *)
Definition w1 := world_of [use_a; use_b] [([name "f"; name "a"], ScMain); ([name "z"], ScTest)].
Example reported_example :
  consistent w1 /\
  reported_unused w1 0 = [((0, 0), Specks []); ((0, 1), Specks [mkLoc 0 1 (Some 0)])] /\
  uses w1 (mkPath [name "f"; name "a"] ScMain [1; 0]) item_a /\
  plain [name "f"; name "a"] item_a /\
  (exists u, declares w1 0 u /\ u_loc u = mkLoc 0 1 (Some 0) /\ forall p, In p (w_paths w1) -> ~ mentions (po_path p) (u_name u)) /\
  (forall s, In s (w_stmts w1 0) -> readable s).
Proof.
  split; [apply world_consistent|]. split; [reflexivity|]. split.
  - apply (uses_intro _ _ _ _ (str "a")); try reflexivity; [now left | split; [reflexivity|discriminate] | now left].
  - split; [right; split; [reflexivity|discriminate]|]. split.
    + exists (mkUse (mkLoc 0 1 (Some 0)) (str "x") TItem ScMain). split; [apply declares_0; right; now left|]. split; [reflexivity|].
      intros p [<-|[<-|[]]]; cbn; intros H; repeat destruct H as [H|H]; try discriminate; auto.
    + intros s [<-|[<-|[]]]; eexists; (split; [reflexivity|]); [right | left; discriminate]. exists (str "a"), [SAddr]. split; [reflexivity|]. intros a E. now inversion E.
Qed.
(** `z` is used by a test only *)
Example suggested_example : find_redundant_main w1 0 = Some [mkUse (mkLoc 0 1 (Some 1)) (str "z") TItem ScMain] /\
  uses w1 (mkPath [name "z"] ScTest [1; 0]) (mkUse (mkLoc 0 1 (Some 1)) (str "z") TItem ScMain).
Proof. split; [reflexivity|]. apply (uses_intro _ _ _ _ (str "z")); try reflexivity; [right; right; now left | split; reflexivity | now left]. Qed.

(** An enum imported by `use 0x1::c::E;` and used in the one form `E::V` is reported as unused, and removed
    when imports are organised *)
Definition w2 := world_of [use_e] [([name "V"; name "E"], ScMain)].
Theorem enum_import_refuted :
  exists w o i u p, consistent w /\ w_module w o = None /\ In p (w_paths w) /\ uses w p u /\ declares w o u /\ l_stmt (u_loc u) = i /\
    In ((o, i), AllSpecks) (reported_unused w o) /\ In ((o, i), AllSpecks) (organized_unused w o).
Proof.
  exists w2, 0, 0, (item_e 0), (mkPath [name "V"; name "E"] ScMain [1; 0]). split; [apply world_consistent|]. split; [reflexivity|]. split; [now left|]. split.
  - apply (uses_intro _ _ _ _ (str "E")); try reflexivity; [now left | split; [reflexivity|discriminate] | now left].
  - split; [apply declares_0; now left|]. split; [reflexivity|]. split; now left.
Qed.
(** in general: an imported item that is not used as a path of one segment is always unused *)
Theorem enum_import_always_refuted w o o' r u :
  find_unused_use_items w o = Some r -> shares w o o' -> declares w o' u -> u_type u = TItem ->
  (forall p, In p (w_paths w) -> po_path p <> [SName (u_name u)]) -> In u r.
Proof.
  intros F S D T N. apply (find_unused_in w o r u F). split; [eauto|]. intros (p & P & s & H). apply reachable_in in P as [P _]. apply (N p P). clear N.
  unfold hit_for_path, base_path_type in H. destruct (match tl (po_path p) with [] => _ | _ => _ end) as [b|] eqn:B; [|discriminate].
  destruct (hit_in_owners w b (po_scope p) (po_owners p)) as [v|] eqn:HO; [|discriminate]. inversion H; subst v s.
  apply hit_in_owners_some in HO as (oo & _ & HO). apply hit_in_owner_sound in HO as (_ & _ & HB).
  destruct (po_path p) as [|a [|c q]]; cbn [tl] in B; [discriminate| |].
  - destruct a; cbn in B; try discriminate. inversion B; subst b. cbn in HB. apply andb_true_iff in HB as [_ HB]. apply text_eqb_spec in HB as ->. reflexivity.
  - exfalso. destruct (is_address (c :: q)); [inversion B; subst b; discriminate|]. destruct (match reference_name (tl (c :: q)) with Some a0 => _ | None => _ end); [inversion B; subst b; discriminate|].
    destruct c; cbn in B; try discriminate. inversion B; subst b. cbn in HB. rewrite T in HB. discriminate.
Qed.
(** A module imported by `use 0x1::a;` and used in the one form `a::E::V` is reported as unused *)
Definition w3 := world_of [use_a] [([name "V"; name "E"; name "a"], ScMain)].
Theorem nested_path_refuted :
  exists w o i u p, consistent w /\ w_module w o = None /\ In p (w_paths w) /\ uses w p u /\ declares w o u /\ l_stmt (u_loc u) = i /\
    In ((o, i), WholeModule) (reported_unused w o) /\ In ((o, i), WholeModule) (organized_unused w o).
Proof.
  exists w3, 0, 0, item_a, (mkPath [name "V"; name "E"; name "a"] ScMain [1; 0]). split; [apply world_consistent|]. split; [reflexivity|]. split; [now left|]. split.
  - apply (uses_intro _ _ _ _ (str "a")); try reflexivity; [now left | split; [reflexivity|discriminate] | now left].
  - split; [apply declares_0; now left|]. split; [reflexivity|]. split; now left.
Qed.
(** An enum whose variants main code uses is offered to become test-only *)
Definition w4 := world_of [use_e] [([name "V"; name "E"], ScMain); ([name "E"], ScTest)].
Theorem enum_test_only_refuted :
  exists w o u p r, consistent w /\ w_module w o = None /\ In p (w_paths w) /\ po_scope p = ScMain /\ uses w p u /\ declares w o u /\
    find_redundant_main w o = Some r /\ In u r.
Proof.
  exists w4, 0, (item_e 0), (mkPath [name "V"; name "E"] ScMain [1; 0]), [item_e 0]. split; [apply world_consistent|]. split; [reflexivity|]. split; [now left|]. split; [reflexivity|]. split.
  - apply (uses_intro _ _ _ _ (str "E")); try reflexivity; [now left | split; [reflexivity|discriminate] | now left].
  - split; [apply declares_0; now left|]. split; [reflexivity|now left].
Qed.
(** One statement that cannot be read, such as `use ;`, hides all unused imports of its scope *)
Theorem unreadable_statement_refuted :
  exists w o u, consistent w /\ w_paths w = [] /\ declares w o u /\
    (forall k, In ((o, l_stmt (u_loc u)), k) (reported_unused w o) -> ~ covers k u) /\ organized_unused w o = [].
Proof.
  exists (world_of [use_a; use_nothing] []), 0, item_a. split; [apply world_consistent|]. split; [reflexivity|]. split; [apply declares_0; now left|]. split; [|reflexivity].
  intros k [H|[]]. inversion H; subst k. exact (fun x => x).
Qed.
Theorem unreadable_statement_always_refuted w o o' s :
  shares w o o' -> In s (w_stmts w o') -> ~ readable s ->
  organized_unused w o = [] /\
  forall st k, In (st, k) (reported_unused w o) -> k = EmptyGroup \/ k = Specks [].
Proof.
  intros S I N. assert (F : find_unused_use_items w o = None).
  { destruct (find_unused_use_items w o) as [r|] eqn:F; [|reflexivity]. exfalso. apply N. apply In_nth_error in I as [i I].
    assert (A := proj2 (unused_in_some (map fst (hits_with_scopes w o)) (combined_use_stmts w o)) (ex_intro _ r F) (o', i, s)).
    apply (items_some o' i). apply A. apply combined_stmts_in. exists o'. split; [exact S|]. apply own_stmts_in. eauto. }
  unfold organized_unused, reported_unused. rewrite F. split; [reflexivity|]. intros st k R. apply report_in in R as (x & _ & _ & U). cbn in U. unfold unused_use_kind in U. cbn [existsb] in U.
  destruct (items_of x) as [[|a l]|]; cbn in U; inversion U; auto.
Qed.

Print Assumptions statement_imports.
Print Assumptions used_not_reported_partial.
Print Assumptions used_not_removed_partial.
Print Assumptions unused_reported.
Print Assumptions suggested_test_only_partial.
Print Assumptions tests_only_suggested.
Print Assumptions enum_import_always_refuted.
Print Assumptions nested_path_refuted.
Print Assumptions unreadable_statement_always_refuted.
