(** Proofs about the detection of unused imports. *)
From Coq Require Import String Lia.
From Verif Require Import Base AddressModel ItemScopeModel UnusedImportsModel UnusedImportsSpec.
Close Scope string_scope. Close Scope N_scope. Open Scope nat_scope. Open Scope list_scope.

Local Arguments SELF : simpl never.
Lemma scope_eqb_spec a b : scope_eqb a b = true <-> a = b. Proof. destruct a, b; cbn; split; congruence. Qed.
Lemma scope_eqb_refl a : scope_eqb a a = true. Proof. destruct a; reflexivity. Qed.
Lemma text_eqb_spec a b : text_eqb a b = true <-> a = b. Proof. unfold text_eqb. destruct text_eq_dec; split; congruence. Qed.
Lemma text_eqb_refl a : text_eqb a a = true. Proof. now apply text_eqb_spec. Qed.
Lemma item_type_eqb_spec a b : item_type_eqb a b = true <-> a = b. Proof. destruct a, b; cbn; split; congruence. Qed.
Lemma loc_eqb_spec a b : loc_eqb a b = true <-> a = b.
Proof.
  destruct a as [o i [j|]], b as [o' i' [j'|]]; unfold loc_eqb; cbn; rewrite ?andb_true_iff, ?Nat.eqb_eq; split.
  all: try (intros [[-> ->] ->]; reflexivity). all: try (intros [[-> ->] H]; congruence). all: intros H; inversion H; auto.
Qed.
Lemma use_eqb_spec a b : use_eqb a b = true <-> a = b.
Proof.
  destruct a, b; unfold use_eqb; cbn. rewrite !andb_true_iff, loc_eqb_spec, text_eqb_spec, item_type_eqb_spec, scope_eqb_spec. split.
  - intros [[[-> ->] ->] ->]. reflexivity.
  - intros H. inversion H. auto.
Qed.

Lemma or_else_shown a x n : or_else a x = n <-> shown a x n.
Proof. unfold shown, or_else. destruct a; split; intros H; [left; congruence | destruct H as [H|[H _]]; congruence | right; auto | destruct H as [H|[_ H]]; congruence]. Qed.

(** ** statements *)
Lemma number_from_in {A} (l : list A) i k x : In (k, x) (number_from i l) <-> exists j, k = i + j /\ nth_error l j = Some x.
Proof.
  revert i. induction l as [|y l IH]; intros i; cbn.
  - split; [easy|]. intros (j & _ & H). destruct j; discriminate.
  - rewrite IH. split.
    + intros [H|(j & -> & H)]; [inversion H; exists 0; split; [lia|reflexivity] | exists (S j); split; [lia|exact H]].
    + intros ([|j] & -> & H); cbn in H; [left; f_equal; [lia|congruence] | right; exists j; split; [lia|exact H]].
Qed.
Lemma own_stmts_in w o x : In x (own_stmts w o) <-> exists i s, x = (o, i, s) /\ nth_error (w_stmts w o) i = Some s.
Proof.
  unfold own_stmts. rewrite in_map_iff. split.
  - intros ([i s] & <- & H). apply number_from_in in H as (j & -> & H). now exists j, s.
  - intros (i & s & -> & H). exists (i, s). split; [reflexivity|]. apply number_from_in. exists i. now split.
Qed.

Lemma child_item_spec root o i sc j c u :
  child_item root (mkLoc o i (Some j)) sc c = Some u <->
  u_loc u = mkLoc o i (Some j) /\ u_scope u = sc /\
  ((exists m q r, sp_path root = Some (SName m :: q) /\ cs_path c = Some (SName SELF :: r) /\ shown (cs_alias c) m (u_name u) /\ u_type u = TSelf) \/
   (exists m a q x r, sp_path root = Some (SName m :: a :: q) /\ (q = [] -> a <> SNone) /\ cs_path c = Some (SName x :: r) /\ x <> SELF /\ shown (cs_alias c) x (u_name u) /\ u_type u = TItem)).
Proof.
  unfold child_item. split.
  - intros H. destruct (sp_path root) as [q|] eqn:P; [|discriminate].
    destruct q as [|[m| |] q]; cbn [reference_name] in H; try discriminate.
    destruct (cs_path c) as [[|[x| |] r]|] eqn:C; cbn [reference_name] in H; try discriminate.
    destruct (text_eqb x SELF) eqn:E.
    + apply text_eqb_spec in E as ->. inversion H; subst u; cbn. repeat split; auto. left. exists m, q, r. repeat split; auto. now apply or_else_shown.
    + assert (x <> SELF) by (intros ->; rewrite text_eqb_refl in E; discriminate).
      destruct q as [|a [|b q]]; cbn in H; try discriminate.
      * assert (a <> SNone) by (intros ->; discriminate).
        assert (H' : Some (mkUse (mkLoc o i (Some j)) (or_else (cs_alias c) x) TItem sc) = Some u) by (destruct a; congruence).
        inversion H'; subst u; cbn. repeat split; auto. right. exists m, a, [], x, r. repeat split; auto. now apply or_else_shown.
      * inversion H; subst u; cbn. repeat split; auto. right. exists m, a, (b :: q), x, r. repeat split; auto; [discriminate|]. now apply or_else_shown.
  - intros (L & S & [(m & q & r & -> & -> & N & T)|(m & a & q & x & r & -> & A & -> & X & N & T)]); cbn [reference_name].
    + rewrite text_eqb_refl. destruct u; cbn in *. subst. apply or_else_shown in N. now rewrite N.
    + destruct (text_eqb x SELF) eqn:E; [apply text_eqb_spec in E; contradiction|]. destruct u; cbn in *. subst. apply or_else_shown in N. rewrite N.
      destruct q as [|b q]; cbn; [|reflexivity]. destruct a; try reflexivity. now destruct (A eq_refl).
Qed.
Lemma group_items_in root o i sc l : forall j u, In u (group_items root o i sc j l) <-> exists k c, nth_error l k = Some c /\ child_item root (mkLoc o i (Some (j + k))) sc c = Some u.
Proof.
  induction l as [|c l IH]; intros j u; cbn [group_items].
  - split; [easy|]. intros (k & c & H & _). destruct k; discriminate.
  - rewrite in_app_iff, IH. split.
    + intros [H|(k & c' & H & E)].
      * exists 0, c. split; [reflexivity|]. rewrite Nat.add_0_r. destruct (child_item root _ sc c); [destruct H as [->|[]]; reflexivity | destruct H].
      * exists (S k), c'. split; [exact H|]. now replace (j + S k) with (S j + k) by lia.
    + intros ([|k] & c' & H & E); cbn in H.
      * left. inversion H; subst c'. rewrite Nat.add_0_r in E. rewrite E. now left.
      * right. exists k, c'. split; [exact H|]. now replace (S j + k) with (j + S k) by lia.
Qed.

(** the items of a statement are what it imports *)
Lemma items_in o i s items u : use_items_for_stmt o i s = Some items ->
  In u items <-> exists sp, st_speck s = Some sp /\ u_scope u = st_scope s /\ exists j, u_loc u = mkLoc o i j /\ imports sp j (u_name u) (u_type u).
Proof.
  unfold use_items_for_stmt. intros H. destruct (st_speck s) as [sp|]; [|discriminate].
  destruct (sp_group sp) as [l|] eqn:G.
  - inversion H; subst items. rewrite group_items_in. split.
    + intros (k & c & N & E). apply child_item_spec in E as (L & S & E). exists sp. split; [reflexivity|]. split; [exact S|]. exists (Some k). split; [exact L|].
      destruct E as [(m & q & r & P & C & A & ->)|(m & a & q & x & r & P & Q & C & X & A & ->)].
      * eapply i_group_self; eassumption.
      * eapply i_group_item; eassumption.
    + intros (sp' & E & S & j & L & I). inversion E; subst sp'. destruct u as [lu nu tu su]; cbn in *. inversion I; subst; try congruence.
      * rewrite G in H0. inversion H0; subst l0. exists j0, c. split; [assumption|]. apply child_item_spec; cbn. repeat split. left. exists m, q, r. auto.
      * rewrite G in H0. inversion H0; subst l0. exists j0, c. split; [assumption|]. apply child_item_spec; cbn. repeat split. right. exists m, a, q, x, r. auto 10.
  - destruct (sp_path sp) as [p|] eqn:P; [|discriminate].
    destruct p as [|[x| |] p]; cbn [reference_name] in H; try discriminate.
    assert (F : forall t n, (u_loc u = mkLoc o i None /\ u_scope u = st_scope s /\ u_name u = n /\ u_type u = t) <-> u = mkUse (mkLoc o i None) n t (st_scope s)).
    { intros t n. destruct u; cbn. split; [intros (-> & -> & -> & ->); reflexivity | intros E; inversion E; auto]. }
    destruct p as [|a [|b p]]; cbn in H.
    + inversion H; subst items. split; [easy|]. intros (sp' & E & _ & j & _ & I). inversion E; subst sp'. inversion I; subst; congruence.
    + assert (A : a <> SNone) by (intros ->; discriminate).
      assert (H' : items = [mkUse (mkLoc o i None) (or_else (sp_alias sp) x) TModule (st_scope s)]) by (destruct a; congruence). subst items. cbn [In]. split.
      * intros [E|[]]. exists sp. subst u; cbn. split; [reflexivity|]. split; [reflexivity|]. exists None. split; [reflexivity|]. eapply i_module; eauto. now apply or_else_shown.
      * intros (sp' & E & S & j & L & I). inversion E; subst sp'. inversion I; subst; try congruence.
        left. symmetry. apply F. split; [assumption|split; [assumption|split; [|congruence]]]. symmetry. assert (m = x) by congruence; subst m. now apply or_else_shown.
    + destruct a as [m| |]; cbn in H.
      * destruct (text_eqb x SELF) eqn:X.
        -- apply text_eqb_spec in X as ->. inversion H; subst items. cbn [In]. split.
           ++ intros [E|[]]. exists sp. subst u; cbn. split; [reflexivity|]. split; [reflexivity|]. exists None. split; [reflexivity|]. eapply i_self with (m := m) (r := b :: p); eauto; [discriminate|]. now apply or_else_shown.
           ++ intros (sp' & E & S & j & L & I). inversion E; subst sp'. inversion I; subst; try congruence.
              left. symmetry. apply F. split; [assumption|split; [assumption|split; [|congruence]]]. symmetry. assert (m0 = m) by congruence; subst m0. now apply or_else_shown.
        -- assert (x <> SELF) by (intros ->; rewrite text_eqb_refl in X; discriminate). inversion H; subst items. cbn [In]. split.
           ++ intros [E|[]]. exists sp. subst u; cbn. split; [reflexivity|]. split; [reflexivity|]. exists None. split; [reflexivity|]. eapply i_item with (m := m) (r := b :: p); eauto; [discriminate|]. now apply or_else_shown.
           ++ intros (sp' & E & S & j & L & I). inversion E; subst sp'. inversion I; subst; try congruence.
              left. symmetry. apply F. split; [assumption|split; [assumption|split; [|congruence]]]. symmetry. assert (x0 = x) by congruence; subst x0. now apply or_else_shown.
      * inversion H; subst items. split; [easy|]. intros (sp' & E & _ & j & _ & I). inversion E; subst sp'. inversion I; subst; congruence.
      * inversion H; subst items. split; [easy|]. intros (sp' & E & _ & j & _ & I). inversion E; subst sp'. inversion I; subst; congruence.
Qed.
Lemma items_some o i s : (exists items, use_items_for_stmt o i s = Some items) <-> readable s.
Proof.
  unfold use_items_for_stmt, readable. destruct (st_speck s) as [sp|]; [|split; [intros [? H]; discriminate | intros (? & H & _); discriminate]].
  split.
  - intros [items H]. exists sp. split; [reflexivity|]. destruct (sp_group sp) as [l|]; [left; discriminate|right].
    destruct (sp_path sp) as [[|[x| |] p]|]; cbn [reference_name] in H; try discriminate. exists x, p. split; [reflexivity|].
    intros a -> ->. cbn in H. discriminate.
  - intros (sp' & E & H). inversion E; subst sp'. destruct (sp_group sp) as [l|]; [eauto|].
    destruct H as [H|(x & r & -> & A)]; [congruence|]. cbn [reference_name].
    destruct r as [|a [|b r]]; cbn; eauto.
    + destruct a; cbn; eauto. now destruct (A SNone).
    + destruct a; cbn; eauto. destruct (text_eqb x SELF); eauto.
Qed.
(** an import that is declared is among the items of its statement, which may be read *)
Lemma imports_readable o i s sp j n t : st_speck s = Some sp -> imports sp j n t -> exists items, use_items_for_stmt o i s = Some items.
Proof.
  intros E I. apply items_some. exists sp. split; [exact E|]. inversion I; subst; try (left; congruence); right.
  - exists m, [a]. split; [assumption|]. intros b Hb. now inversion Hb; subst b.
  - exists SELF, (SName m :: r). split; [assumption|]. intros a Ha. inversion Ha; subst. contradiction.
  - exists x, (SName m :: r). split; [assumption|]. intros a Ha. inversion Ha; subst. contradiction.
Qed.

Lemma use_items_in w o u : In u (use_items w o) <-> declares w o u.
Proof.
  unfold use_items, declares. rewrite in_flat_map. split.
  - intros (x & X & U). apply own_stmts_in in X as (i & s & -> & N). cbn [items_of] in U. destruct (use_items_for_stmt o i s) as [items|] eqn:E; [|destruct U].
    apply (items_in o i s items u E) in U as (sp & S & C & j & L & I). exists i, s, sp. repeat split; auto. now exists j.
  - intros (i & s & sp & N & S & C & j & L & I). exists (o, i, s). split; [apply own_stmts_in; now exists i, s|]. cbn [items_of].
    destruct (imports_readable o i s sp j _ _ S I) as [items E]. rewrite E. apply (items_in o i s items u E). exists sp. repeat split; auto. now exists j.
Qed.
Lemma siblings_in w o o' : In o' (with_siblings w o) <-> shares w o o'.
Proof.
  unfold with_siblings, shares. cbn [In]. rewrite in_app_iff. destruct (w_module w o) as [m|]; cbn [In]; split.
  - intros [H|[H|[H|[]]]]; subst; auto.
  - intros [H|[H|H]]; auto. inversion H; auto.
  - intros [H|[H|[]]]; auto.
  - intros [H|[H|H]]; auto; discriminate.
Qed.
Lemma combined_in w o u : In u (combined_use_items w o) <-> exists o', shares w o o' /\ declares w o' u.
Proof. unfold combined_use_items. rewrite in_flat_map. split; intros (o' & A & B); exists o'; rewrite siblings_in, use_items_in in *; auto. Qed.
Lemma combined_stmts_in w o x : In x (combined_use_stmts w o) <-> exists o', shares w o o' /\ In x (own_stmts w o').
Proof. unfold combined_use_stmts. rewrite in_flat_map. split; intros (o' & A & B); exists o'; rewrite siblings_in in *; auto. Qed.
Lemma reachable_in w o p : In p (reachable_paths w o) <-> In p (w_paths w) /\ exists o', shares w o o' /\ In o' (po_owners p).
Proof.
  unfold reachable_paths, descendant_paths. rewrite in_flat_map. split.
  - intros (o' & A & B). apply filter_In in B as [B C]. apply existsb_exists in C as (k & K & E). apply Nat.eqb_eq in E as <-. rewrite siblings_in in A. eauto.
  - intros (P & o' & A & B). exists o'. rewrite siblings_in, filter_In. repeat split; auto. apply existsb_exists. exists o'. split; [exact B|apply Nat.eqb_refl].
Qed.

(** ** hits *)
Lemma hits_in w o h : In h (hits_with_scopes w o) <-> exists p, In p (reachable_paths w o) /\ hit_for_path w p = Some h.
Proof.
  unfold hits_with_scopes. rewrite in_flat_map. split.
  - intros (p & P & H). exists p. split; [exact P|]. destruct (hit_for_path w p); [destruct H as [->|[]]; reflexivity|destruct H].
  - intros (p & P & H). exists p. split; [exact P|]. rewrite H. now left.
Qed.
Lemma in_reach_spec s u : in_reach (specific s) u = true <-> visible_in s u.
Proof.
  unfold in_reach, specific, visible_in. rewrite orb_true_iff, scope_eqb_spec. destruct (scope_eqb s ScMain) eqn:E.
  - apply scope_eqb_spec in E as ->. split; [intros [H|H]; [auto|discriminate] | intros [H|H]; auto].
  - rewrite scope_eqb_spec. reflexivity.
Qed.
Lemma find_some_in {A} (f : A -> bool) l x : find f l = Some x -> In x l /\ f x = true. Proof. apply find_some. Qed.
Lemma hit_in_owner_sound w b s o u : hit_in_owner w b s o = Some u ->
  In u (combined_use_items w o) /\ visible_in s u /\ hit_by b u = true.
Proof.
  unfold hit_in_owner. set (hits := filter _ (filter _ _)). intros H.
  assert (In u hits) as U.
  { destruct (specific s) as [sc|].
    - destruct (find _ hits) eqn:F; [inversion H; subst; apply (find_some_in _ _ _ F) | apply (find_some_in _ _ _ H)].
    - apply (find_some_in _ _ _ H). }
  unfold hits in U. apply filter_In in U as [U B]. apply filter_In in U as [U V]. apply in_reach_spec in V. auto.
Qed.
Lemma hit_in_owner_none w b s o : (forall u, In u (combined_use_items w o) -> visible_in s u -> hit_by b u = false) -> hit_in_owner w b s o = None.
Proof.
  intros H. destruct (hit_in_owner w b s o) as [u|] eqn:E; [|reflexivity]. apply hit_in_owner_sound in E as (I & V & B). rewrite (H u I V) in B. discriminate.
Qed.
Lemma find_only {A} (f : A -> bool) l x : In x l -> f x = true -> (forall y, In y l -> f y = true -> y = x) -> find f l = Some x.
Proof.
  intros I F U. destruct (find f l) as [y|] eqn:E.
  - apply find_some in E as [Y G]. now rewrite (U y Y G).
  - pose proof (find_none _ _ E x I). congruence.
Qed.
Lemma hit_in_owner_complete w b s o u :
  In u (combined_use_items w o) -> visible_in s u -> hit_by b u = true ->
  (forall v, In v (combined_use_items w o) -> visible_in s v -> hit_by b v = true -> v = u \/ (u_scope u <> ScMain /\ u_scope v = ScMain)) ->
  hit_in_owner w b s o = Some u.
Proof.
  intros I V B U. unfold hit_in_owner. set (hits := filter _ (filter _ _)).
  assert (HI : forall v, In v hits <-> In v (combined_use_items w o) /\ visible_in s v /\ hit_by b v = true).
  { intros v. unfold hits. rewrite !filter_In, in_reach_spec. tauto. }
  assert (Uh : In u hits) by (apply HI; auto).
  assert (Oh : forall v, In v hits -> v = u \/ (u_scope u <> ScMain /\ u_scope v = ScMain)) by (intros v Hv; apply HI in Hv as (? & ? & ?); auto).
  clearbody hits. unfold specific. destruct (scope_eqb s ScMain) eqn:E.
  - apply scope_eqb_spec in E as ->. assert (u_scope u = ScMain) as M by (destruct V; assumption).
    apply find_only; [exact Uh | now rewrite M |]. intros v Hv _. destruct (Oh v Hv) as [H|[H _]]; [exact H|contradiction].
  - assert (S : s <> ScMain) by (intros ->; discriminate).
    destruct (scope_eqb (u_scope u) s) eqn:D.
    + apply scope_eqb_spec in D. rewrite (find_only _ hits u Uh); [reflexivity | now rewrite D, scope_eqb_refl |].
      intros v Hv F. apply scope_eqb_spec in F. destruct (Oh v Hv) as [H|[_ H]]; [exact H | congruence].
    + assert (M : u_scope u = ScMain). { destruct V as [M|M]; [exact M|]. rewrite M, scope_eqb_refl in D. discriminate. }
      destruct (find (fun v => scope_eqb (u_scope v) s) hits) as [v|] eqn:F.
      * apply find_some in F as [Hv F]. destruct (Oh v Hv) as [->|[H _]]; [congruence | contradiction].
      * apply find_only; [exact Uh | now rewrite M |]. intros v Hv _. destruct (Oh v Hv) as [H|[H _]]; [exact H|contradiction].
Qed.
Lemma hit_in_owners_app w b s l r : (forall o, In o l -> hit_in_owner w b s o = None) -> hit_in_owners w b s (l ++ r) = hit_in_owners w b s r.
Proof. induction l as [|o l IH]; intros H; cbn; [reflexivity|]. rewrite (H o (or_introl eq_refl)). apply IH. intros o' I. apply H. now right. Qed.
Lemma hit_in_owners_some w b s l u : hit_in_owners w b s l = Some u -> exists o, In o l /\ hit_in_owner w b s o = Some u.
Proof. induction l as [|o l IH]; cbn; [discriminate|]. destruct (hit_in_owner w b s o) eqn:E; intros H; [inversion H; subst; eauto | destruct (IH H) as (o' & ? & ?); eauto]. Qed.

(** a path of one segment, or of two of which the first is a module *)
Definition plain (p : upath) (u : use_item) : Prop := length p = 1 \/ (length p = 2 /\ u_type u <> TItem).
Lemma base_plain named p u : can_mean p u -> plain p u -> exists b, base_path_type named p = Some b /\ hit_by b u = true /\
  forall v, hit_by b v = true -> can_mean p v.
Proof.
  intros [F T] [L|[L Q]]; destruct p as [|x [|y [|z p]]]; cbn in L; try discriminate; unfold first_name in F; cbn in F.
  - destruct x as [x| |]; try discriminate. inversion F; subst x. exists (BItem (u_name u)). split; [reflexivity|]. split; [cbn; now rewrite (T eq_refl), text_eqb_refl|].
    intros v V. cbn in V. apply andb_true_iff in V as [V1 V2]. apply item_type_eqb_spec in V1. apply text_eqb_spec in V2. split; [unfold first_name; cbn; now rewrite V2|auto].
  - destruct y as [y| |]; try discriminate. inversion F; subst y. exists (BModule (u_name u)). split; [reflexivity|]. split.
    + cbn. rewrite text_eqb_refl, andb_true_r. destruct (u_type u); try reflexivity. congruence.
    + intros v V. cbn in V. apply andb_true_iff in V as [V1 V2]. apply text_eqb_spec in V2. split; [unfold first_name; cbn; now rewrite V2|discriminate].
Qed.
Lemma used_hit w p u : uses w p u -> plain (po_path p) u -> hit_for_path w p = Some (u, po_scope p).
Proof.
  intros (inner & o & outer & O & C & I & U) P. destruct C as ((o' & S & D) & M & V).
  destruct (base_plain (w_named w) _ _ M P) as (b & B & H & A). unfold hit_for_path. rewrite B, O.
  rewrite hit_in_owners_app.
  - cbn. rewrite (hit_in_owner_complete w b (po_scope p) o u); auto.
    + apply combined_in. eauto.
    + intros v Iv Vv Hv. apply U. apply combined_in in Iv. repeat split; auto; apply A; assumption.
  - intros i Ii. apply hit_in_owner_none. intros v Iv Vv. destruct (hit_by b v) eqn:Hv; [|reflexivity].
    exfalso. apply (I i v Ii). apply combined_in in Iv. repeat split; auto; apply A; assumption.
Qed.

(** ** what is unused *)
Lemma unused_in_some hits l : (forall x, In x l -> exists items, items_of x = Some items) <-> exists r, unused_in hits l = Some r.
Proof.
  induction l as [|x l IH]; cbn.
  - split; [eauto|easy].
  - split.
    + intros H. destruct (H x (or_introl eq_refl)) as [items ->]. destruct (proj1 IH) as [r ->]; eauto.
    + intros [r H]. destruct (items_of x) as [items|] eqn:E; [|discriminate]. destruct (unused_in hits l) as [r'|]; [|discriminate].
      intros y [->|Y]; [eauto|]. apply IH; eauto.
Qed.
Lemma unused_in_in hits l r u : unused_in hits l = Some r -> In u r <-> (exists x items, In x l /\ items_of x = Some items /\ In u items) /\ ~ In u hits.
Proof.
  revert r. induction l as [|x l IH]; intros r; cbn.
  - intros E. inversion E; subst. split; [easy|]. intros [(x & _ & [] & _) _].
  - destruct (items_of x) as [items|] eqn:E; [|discriminate]. destruct (unused_in hits l) as [r'|]; [|discriminate]. intros H. inversion H; subst r.
    rewrite in_app_iff, (IH r' eq_refl), filter_In.
    assert (X : negb (existsb (use_eqb u) hits) = true <-> ~ In u hits).
    { rewrite negb_true_iff. split.
      - intros N I. assert (existsb (use_eqb u) hits = true) by (apply existsb_exists; exists u; split; [exact I|now apply use_eqb_spec]). congruence.
      - intros N. destruct (existsb (use_eqb u) hits) eqn:B; [|reflexivity]. apply existsb_exists in B as (v & V & Q). apply use_eqb_spec in Q as <-. contradiction. }
    rewrite X. split.
    + intros [[I N]|[(y & it & Y & F & I) N]]; (split; [|exact N]); [exists x, items; auto | exists y, it; auto].
    + intros [(y & it & [->|Y] & F & I) N]; [left; split; [congruence|exact N] | right; split; [exists y, it; auto|exact N]].
Qed.

Lemma find_unused_in w o r u : find_unused_use_items w o = Some r ->
  In u r <-> (exists o', shares w o o' /\ declares w o' u) /\ ~ exists p, In p (reachable_paths w o) /\ exists s, hit_for_path w p = Some (u, s).
Proof.
  intros H. unfold find_unused_use_items in H. rewrite (unused_in_in _ _ _ u H). rewrite <- combined_in.
  assert (A : (exists x items, In x (combined_use_stmts w o) /\ items_of x = Some items /\ In u items) <-> In u (combined_use_items w o)).
  { unfold combined_use_items, combined_use_stmts, use_items. split.
    - intros (x & items & X & E & I). apply in_flat_map in X as (o' & S & X). apply in_flat_map. exists o'. split; [exact S|]. apply in_flat_map. exists x. split; [exact X|]. now rewrite E.
    - intros I. apply in_flat_map in I as (o' & S & I). apply in_flat_map in I as (x & X & I). destruct (items_of x) as [items|] eqn:E; [|destruct I]. exists x, items. split; [apply in_flat_map; eauto|auto]. }
  rewrite A. apply and_iff_compat_l. apply not_iff_compat. rewrite in_map_iff. split.
  - intros ([v s] & E & I). cbn in E. subst v. apply hits_in in I as (p & P & Hp). eauto.
  - intros (p & P & s & Hp). exists (u, s). split; [reflexivity|]. apply hits_in. eauto.
Qed.

(** ** which statements are reported *)
Lemma unused_use_kind_some x unused : (exists items, items_of x = Some items) -> exists k, unused_use_kind x unused = Some k.
Proof. intros [items E]. unfold unused_use_kind. destruct existsb; [eauto|]. rewrite E. destruct items; [eauto|]. destruct Nat.eqb; eauto. Qed.
Lemma report_in unused l st k : In (st, k) (report unused l) -> exists x, In x l /\ fst x = st /\ unused_use_kind x (filter (stmt_contains x) unused) = Some k.
Proof.
  induction l as [|x l IH]; cbn; [easy|]. destruct (unused_use_kind x _) as [k'|] eqn:E; [|easy].
  intros [H|H]; [inversion H; subst; exists x; auto|]. destruct (IH H) as (y & ? & ? & ?). exists y. auto.
Qed.
Lemma report_complete unused l x : (forall y, In y l -> exists items, items_of y = Some items) -> In x l ->
  exists k, unused_use_kind x (filter (stmt_contains x) unused) = Some k /\ In (fst x, k) (report unused l).
Proof.
  induction l as [|y l IH]; intros H I; [easy|]. cbn [report].
  destruct (unused_use_kind_some y (filter (stmt_contains y) unused) (H y (or_introl eq_refl))) as [k K]. rewrite K.
  destruct I as [->|I]; [exists k; split; [exact K|now left]|].
  destruct (IH (fun z Z => H z (or_intror Z)) I) as (k' & K' & I'). exists k'. split; [exact K'|now right].
Qed.
