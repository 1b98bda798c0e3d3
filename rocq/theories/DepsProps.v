(** Properties of package loading and of the package graph. *)
From Verif Require Import Base DepsModel DepsProofs.

(** ** C35: the manifests found from a workspace manifest *)
Theorem reach_terminates : forall f ws, exists r, collect_reachable f ws = Some r.
Proof. intros f [w b]. apply reach_loop_stops. cbn [length fst snd]. rewrite budget_all. lia. Qed.
Theorem reach_exact : forall f w r, collect_reachable f (w, true) = Some r -> NoDup (map fst r) /\ forall p, In p (map fst r) <-> reachable f w p.
Proof.
  intros f w r H. split; [apply (reach_nodup _ _ _ _ _ H); constructor|]. pose proof (reach_loop_inv f w _ _ _ _ H (reach_start_inv f w)) as [I1 I2 I3 I4].
  intros p. rewrite <- get_key. split.
  - intros G. destruct (get r p) as [o|] eqn:E; [|congruence]. now destruct (I2 _ _ E).
  - intros R. induction R as [|q x k R IH F]; [destruct I3 as [I3|(k & [])]; auto|]. destruct (I4 _ _ _ IH F) as [X|(k' & [])]; auto.
Qed.
Theorem reach_entries : forall f w r p o, collect_reachable f (w, true) = Some r -> In (p, o) r -> described f p o.
Proof.
  intros f w r p o H I. pose proof (reach_loop_inv f w _ _ _ _ H (reach_start_inv f w)) as [I1 I2 I3 I4]. apply in_get in I; [now destruct (I2 _ _ I) as (_ & D & _)|apply (reach_nodup _ _ _ _ _ H); constructor].
Qed.
(** without dependency resolution only the manifest itself is read *)
Theorem reach_unresolved : forall f w r, collect_reachable f (w, false) = Some r ->
  r = [(w, match read_manifest f w with Some t => Some (mkEntry (t_name t) Local [] false [] (t_addrs t)) | None => None end)].
Proof. intros f w r. unfold collect_reachable. cbn [reach_loop fst snd get put]. destruct (read_manifest f w); intros [= <-]; reflexivity. Qed.
(** a package is local only if local dependencies lead to it, and from git only if a git dependency does *)
Theorem reach_kind : forall f w r p e, collect_reachable f (w, true) = Some r -> In (p, Some e) r ->
  match en_kind e with Local => local_reach f w p | Git => git_reach f w p end.
Proof.
  intros f w r p e H I. pose proof (reach_loop_inv f w _ _ _ _ H (reach_start_inv f w)) as [I1 I2 I3 I4]. apply in_get in I; [|apply (reach_nodup _ _ _ _ _ H); constructor].
  destruct (I2 _ _ I) as (_ & _ & K). destruct (K _ eq_refl) as [K1 K2]. destruct (en_kind e); auto.
Qed.

(** an example: 1 has the dependencies 2 (local), 3 (git) and a missing one; 2 and 3 depend on 4 locally, 4 on 1 *)
Definition ex_fs : fs := mkFs
  [(1, Some (mkToml (Some 101) [mkDep 50 Local (Some 12); mkDep 51 Git (Some 13); mkDep 52 Local (Some 19); mkDep 53 Git None] [(7, 8)]));
   (2, Some (mkToml (Some 102) [mkDep 54 Local (Some 14)] []));
   (3, Some (mkToml (Some 103) [mkDep 55 Local (Some 14); mkDep 56 Local (Some 15)] []));
   (4, Some (mkToml (Some 104) [mkDep 57 Local (Some 11)] []));
   (5, None)] [(11, 1); (12, 2); (13, 3); (14, 4); (15, 5)].
Example ex_reach : collect_reachable ex_fs (1, true) = Some
  [(1, Some (mkEntry (Some 101) Local [(2, Local); (3, Git)] true [52] [(7, 8)]));
   (2, Some (mkEntry (Some 102) Local [(4, Local)] true [] []));
   (3, Some (mkEntry (Some 103) Git [(4, Git); (5, Git)] true [] []));
   (4, Some (mkEntry (Some 104) Local [(1, Local)] true [] []));
   (5, None)].
Proof. reflexivity. Qed.
Example ex_reach_unresolved : collect_reachable ex_fs (3, false) = Some [(3, Some (mkEntry (Some 103) Local [] false [] []))].
Proof. reflexivity. Qed.

(** The kind depends on which dependency is met first: a package that a chain of local dependencies leads to counts as a git
    package when a git dependency leads to it in fewer steps. *)
Definition fs_kind : fs := mkFs
  [(1, Some (mkToml (Some 101) [mkDep 50 Local (Some 12); mkDep 51 Git (Some 13)] []));
   (2, Some (mkToml (Some 102) [mkDep 52 Local (Some 13)] []));
   (3, Some (mkToml (Some 103) [] []))] [(11, 1); (12, 2); (13, 3)].
Theorem reach_kind_local_refuted : exists f w r p e, collect_reachable f (w, true) = Some r /\ In (p, Some e) r /\ local_reach f w p /\ en_kind e = Git.
Proof.
  exists fs_kind, 1. eexists. exists 3. eexists. split; [reflexivity|]. split; [right; right; left; reflexivity|]. split; [|reflexivity].
  eapply lr_step with (q := 2); [eapply lr_step with (q := 1); [constructor|]|].
  - exists (mkToml (Some 101) [mkDep 50 Local (Some 12); mkDep 51 Git (Some 13)] []), (mkDep 50 Local (Some 12)), 12. cbn. auto.
  - exists (mkToml (Some 102) [mkDep 52 Local (Some 13)] []), (mkDep 52 Local (Some 13)), 13. cbn. auto.
Qed.

(** ** C35: the dependencies of one package *)
Theorem deps_terminate : forall es start, exists r, collect_deps es start = Some r.
Proof. intros es start. apply deps_loop_stops. rewrite left_all. lia. Qed.
(** every dependency is listed once, is declared somewhere along the chain, and no two of them have the same name *)
Theorem deps_sound : forall es start r, collect_deps es start = Some r ->
  NoDup (map fst r) /\ (forall d, In d r -> edge es start d) /\ (forall p q x, listed r p -> listed r q -> named es p x -> named es q x -> p = q).
Proof.
  intros es start r H. destruct (deps_loop_inv es start _ _ _ _ _ _ H (deps_start_inv es start)) as (seen & names & I). destruct I. split; auto. split; eauto.
  intros d I. eapply kept_is_edge; eauto.
Qed.
(** every declared dependency of the package and of a listed dependency is listed, or one with its name is *)
Theorem deps_closed : forall es start r, collect_deps es start = Some r ->
  (forall d, In d start -> covered es r (fst d)) /\ (forall p e d, listed r p -> get es p = Some e -> In d (en_deps e) -> covered es r (fst d)).
Proof.
  intros es start r H. destruct (deps_loop_inv es start _ _ _ _ _ _ H (deps_start_inv es start)) as (seen & names & I). destruct I as [_ _ _ _ COV _ _ ST CL]. split.
  - intros d I. apply COV. destruct (ST d I) as [X|[]]. exact X.
  - intros p e d L G I. apply COV. destruct (CL p e d L G I) as [X|[]]. exact X.
Qed.
(** with distinct names the list is exactly the transitive closure *)
Theorem deps_exact : forall es start r, collect_deps es start = Some r ->
  (forall d d' x, edge es start d -> edge es start d' -> named es (fst d) x -> named es (fst d') x -> fst d = fst d') ->
  forall p, listed r p <-> exists k, edge es start (p, k).
Proof.
  intros es start r H U p. destruct (deps_sound es start r H) as (_ & S1 & _). destruct (deps_closed es start r H) as [C1 C2].
  assert (LE : forall q, listed r q -> exists k, edge es start (q, k)).
  { intros q L. unfold listed in L. apply in_map_iff in L. destruct L as ([q' k] & <- & I). exists k. apply S1, I. }
  assert (CV : forall d, edge es start d -> covered es r (fst d) -> listed r (fst d)).
  { intros d E [L|(q & x & L & N1 & N2)]; auto. destruct (LE q L) as (k & EQ). rewrite (U d (q, k) x E EQ N1 N2). exact L. }
  split; [apply LE|]. intros (k & E). change p with (fst (p, k)). remember (p, k) as d eqn:D. clear D p k. induction E as [d I|d e d' E IH G I].
  - apply CV; [now constructor|auto].
  - apply CV; [eapply ed_step; eauto|eauto].
Qed.
(** in general a package is lost when another one with the name of its only dependant is met first *)
Definition es_names : list (mpath * entry) :=
  [(1, mkEntry (Some 101) Local [(2, Local); (3, Local)] true [] []); (2, mkEntry (Some 102) Local [] true [] []);
   (3, mkEntry (Some 102) Local [(4, Local)] true [] []); (4, mkEntry (Some 104) Local [] true [] [])].
Theorem deps_exact_refuted : exists es start r p, collect_deps es start = Some r /\ (exists k, edge es start (p, k)) /\ ~ listed r p /\
  (forall x q, named es p x -> named es q x -> p = q).
Proof.
  exists es_names, [(2, Local); (3, Local)], [(2, Local)], 4. split; [reflexivity|]. split; [exists Local|split].
  - eapply ed_step with (d := (3, Local)); [constructor; cbn; auto|reflexivity|cbn; auto].
  - cbn. lia.
  - intros x q (e & G & N) (e' & G' & N'). cbn in G. injection G as <-. injection N as <-.
    unfold es_names in G'. cbn [get] in G'. repeat match type of G' with (if ?b then _ else _) = _ => destruct b eqn:?; [injection G' as <-; try discriminate; apply Nat.eqb_eq; assumption|] end. discriminate.
Qed.
Example ex_deps : collect_deps [(2, mkEntry (Some 102) Local [(4, Local)] true [] []); (3, mkEntry (Some 103) Git [(4, Git); (5, Git)] true [] []); (4, mkEntry None Local [(1, Local); (2, Local)] true [] []);
  (1, mkEntry (Some 101) Local [(2, Local); (3, Git)] true [] [])] [(2, Local); (3, Git)] = Some [(2, Local); (3, Git); (4, Local); (5, Git); (1, Local)].
Proof. reflexivity. Qed.

(** ** C35: all packages of the workspace *)
Lemma all_reach_total : forall f ws acc, exists l, all_reachable f ws acc = Some l.
Proof. intros f ws. induction ws as [|w ws IH]; intros acc; cbn [all_reachable]; [eauto|]. destruct (reach_terminates f w) as (r & ->). apply IH. Qed.
Lemma packages_total : forall l es, exists r, packages_from l es = Some r.
Proof.
  intros l es. induction l as [|[p o] l [r IH]]; cbn [packages_from]; [eauto|]. rewrite IH. destruct o as [e|]; [|eauto]. unfold package_from_entry. destruct (deps_terminate es (en_deps e)) as (ds & ->). eauto.
Qed.
Theorem load_terminates : forall f ws, exists l, load_packages f ws = Some l.
Proof. intros f ws. unfold load_packages. destruct (all_reach_total f ws []) as (l & ->). apply packages_total. Qed.

Lemma all_reach_resolved : forall f ws acc l, (forall w b, In (w, b) ws -> b = true) -> NoDup (map fst acc) -> all_reachable f ws acc = Some l ->
  NoDup (map fst l) /\ (forall p, get l p <> None <-> get acc p <> None \/ exists w, In (w, true) ws /\ reachable f w p) /\
  ((forall p o, get acc p = Some o -> described f p o) -> forall p o, get l p = Some o -> described f p o).
Proof.
  intros f ws. induction ws as [|[w b] ws IH]; intros acc l B N H; cbn [all_reachable] in H.
  { injection H as <-. split; auto. split; auto. intros p. split; auto. intros [X|(w & [] & _)]; auto. }
  rewrite (B w b (or_introl eq_refl)) in *. destruct (collect_reachable f (w, true)) as [r|] eqn:E; [|discriminate].
  destruct (reach_exact f w r E) as [NR RE].
  destruct (IH (extend acc r) l) as (N1 & K1 & D1); auto; [intros w' b' I; apply (B w' b'); now right|now apply extend_nodup|].
  split; auto. split.
  - intros p. rewrite K1, get_extend by auto. specialize (RE p). rewrite <- get_key in RE. destruct (get r p) as [o|] eqn:G.
    + split; [intros _; right; exists w; split; [now left|apply RE; discriminate]|intros _; left; discriminate].
    + split.
      * intros [X|(w' & I & R)]; [now left|right; exists w'; split; [now right|auto]].
      * intros [X|(w' & [I|I] & R)]; [now left| |right; eauto]. injection I as <-. apply RE in R. congruence.
  - intros DA. apply D1. intros p o G. rewrite get_extend in G by auto. destruct (get r p) as [o'|] eqn:G'; [|auto]. injection G as <-. apply (reach_entries f w r p o' E). now apply get_in.
Qed.
Lemma in_valid : forall l p e, In (p, e) (valid_entries l) <-> In (p, Some e) l.
Proof.
  intros l p e. unfold valid_entries. rewrite in_flat_map. split.
  - intros ([q [x|]] & I & X); cbn in X; [destruct X as [X|[]]; now injection X as -> ->|contradiction].
  - intros I. exists (p, Some e). split; auto. now left.
Qed.
Lemma valid_keys : forall l, NoDup (map fst l) -> NoDup (map fst (valid_entries l)).
Proof.
  intros l. induction l as [|[p o] l IH]; cbn; intros N; [constructor|]. inversion N as [|x m N1 N2]; subst. destruct o as [e|]; cbn; [|auto]. constructor; [|auto].
  intros I. apply N1. apply in_map_iff in I. destruct I as ([q y] & E & I). cbn in E. subst q. apply in_valid in I. change p with (fst (p, Some y)). now apply in_map.
Qed.
Lemma get_valid : forall l p e, NoDup (map fst l) -> (get (valid_entries l) p = Some e <-> get l p = Some (Some e)).
Proof.
  intros l p e N. split; intros H.
  - apply in_get; auto. apply in_valid. now apply get_in.
  - apply in_get; [now apply valid_keys|]. apply in_valid. now apply get_in.
Qed.
Lemma packages_from_in : forall l es r, packages_from l es = Some r ->
  (forall pk, In pk (valid_packages r) -> exists e ds, In (pk_manifest pk, Some e) l /\ collect_deps es (en_deps e) = Some ds /\
     pk = mkPackage (en_name e) (pk_manifest pk) (en_kind e) ds (en_resolve e) (en_addrs e) (en_missing e)) /\
  (forall p e, In (p, Some e) l -> exists pk, In pk (valid_packages r) /\ pk_manifest pk = p) /\
  map pk_manifest (valid_packages r) = map fst (valid_entries l).
Proof.
  intros l es. induction l as [|[p o] l IH]; intros r H; cbn [packages_from] in H.
  { injection H as <-. repeat split; cbn; tauto. }
  destruct (packages_from l es) as [xs|] eqn:E; [|destruct o; [destruct (package_from_entry _ _ _)|]; discriminate].
  destruct (IH xs eq_refl) as (I1 & I2 & I3). destruct o as [e|].
  - unfold package_from_entry in H. destruct (collect_deps es (en_deps e)) as [ds|] eqn:D; [|discriminate]. injection H as <-. cbn [valid_packages flat_map app]. split; [|split].
    + intros pk [<-|I]; [exists e, ds; cbn; auto|]. destruct (I1 pk I) as (e' & ds' & A & B & C). exists e', ds'. cbn. auto.
    + intros q e' [X|I]; [injection X as <- <-; eexists; split; [now left|reflexivity]|]. destruct (I2 q e' I) as (pk & A & B). exists pk. split; [now right|auto].
    + cbn. f_equal. exact I3.
  - injection H as <-. cbn [valid_packages flat_map app]. split; [|split].
    + intros pk I. destruct (I1 pk I) as (e' & ds' & A & B & C). exists e', ds'. cbn. auto.
    + intros q e' [X|I]; [discriminate|]. exact (I2 q e' I).
    + exact I3.
Qed.

(** two different reachable packages have different names *)
Definition distinct_names (f : fs) (ws : list (mpath * bool)) : Prop :=
  forall w1 w2 p q t u x, In (w1, true) ws -> In (w2, true) ws -> reachable f w1 p -> reachable f w2 q ->
    read_manifest f p = Some t -> read_manifest f q = Some u -> t_name t = Some x -> t_name u = Some x -> p = q.
(** a dependency, direct or not *)
Definition depends (f : fs) (p q : mpath) : Prop := exists r k, found f p r k /\ reachable f r q.

(** The packages of the workspace are the readable reachable manifests, each once. *)
Theorem load_packages_exact : forall f ws l, (forall w b, In (w, b) ws -> b = true) -> load_packages f ws = Some l ->
  NoDup (map pk_manifest (valid_packages l)) /\
  forall p, In p (map pk_manifest (valid_packages l)) <-> (exists w, In (w, true) ws /\ reachable f w p) /\ read_manifest f p <> None.
Proof.
  intros f ws l B H. unfold load_packages in H. destruct (all_reachable f ws []) as [m|] eqn:E; [|discriminate].
  destruct (all_reach_resolved f ws [] m B (NoDup_nil _) E) as (N & K & D). specialize (D ltac:(discriminate)).
  destruct (packages_from_in _ _ _ H) as (_ & _ & MM). rewrite MM. split; [now apply valid_keys|].
  intros p. rewrite <- get_key. specialize (K p). split.
  - intros G. destruct (get (valid_entries m) p) as [e|] eqn:V; [|congruence]. apply get_valid in V; auto. split.
    + destruct (proj1 K) as [X|X]; [congruence|now destruct X|auto].
    + specialize (D _ _ V). unfold described in D. destruct (read_manifest f p); [discriminate|contradiction].
  - intros [R M]. assert (G : get m p <> None) by (apply K; now right). destruct (get m p) as [o|] eqn:V; [|congruence]. pose proof (D _ _ V) as DS. unfold described in DS.
    destruct (read_manifest f p) as [t|]; [|congruence]. destruct o as [e|]; [|contradiction]. apply (get_valid m p e N) in V. congruence.
Qed.
(** Their dependencies are exactly the packages the declared dependencies lead to, each once. *)
Theorem load_deps_exact : forall f ws l pk, (forall w b, In (w, b) ws -> b = true) -> distinct_names f ws -> load_packages f ws = Some l -> In pk (valid_packages l) ->
  NoDup (map fst (pk_deps pk)) /\ forall q, In q (map fst (pk_deps pk)) <-> depends f (pk_manifest pk) q.
Proof.
  intros f ws l pk B U H I. unfold load_packages in H. destruct (all_reachable f ws []) as [m|] eqn:E; [|discriminate].
  destruct (all_reach_resolved f ws [] m B (NoDup_nil _) E) as (N & K & D). specialize (D ltac:(discriminate)).
  destruct (packages_from_in _ _ _ H) as (P1 & _ & _). destruct (P1 _ I) as (e & ds & IE & CD & EQ). rewrite EQ. cbn [pk_deps pk_manifest]. set (p := pk_manifest pk) in *. clearbody p. clear EQ P1 I.
  apply in_get in IE; auto. pose proof (deps_sound _ _ _ CD) as (ND & _ & _). split; auto.
  assert (RW : forall q, get m q <> None -> exists w, In (w, true) ws /\ reachable f w q) by (intros q G; destruct (proj1 (K q) G) as [X|X]; [now destruct X|auto]).
  assert (CL : forall q r k, get m q <> None -> found f q r k -> get m r <> None).
  { intros q r k G F. destruct (RW q G) as (w & IW & R). apply K. right. exists w. split; auto. eapply re_step; eauto. }
  assert (DEP : forall q e', get m q = Some (Some e') -> forall r k, In (r, k) (en_deps e') -> exists k', found f q r k').
  { intros q e' G r k IN. specialize (D _ _ G). unfold described in D. destruct (read_manifest f q); [|contradiction]. destruct D as (_ & _ & _ & D & _). apply D in IN. destruct IN as (k' & F & _). eauto. }
  assert (DEP2 : forall q e', get m q = Some (Some e') -> forall r k', found f q r k' -> exists k, In (r, k) (en_deps e')).
  { intros q e' G r k' F. specialize (D _ _ G). unfold described in D. destruct (read_manifest f q); [|contradiction]. destruct D as (_ & _ & _ & D & _). eexists. apply D. eauto. }
  assert (ED : forall d, edge (valid_entries m) (en_deps e) d -> depends f p (fst d) /\ get m (fst d) <> None).
  { intros d X. induction X as [[q k] X|d e' [q k] X IH G Y]; cbn [fst] in *.
    - destruct (DEP _ _ IE _ _ X) as (k' & F). split; [exists q, k'; split; auto; constructor|]. eapply CL; [|exact F]. congruence.
    - destruct IH as ((r & k0 & F & R) & GD). apply get_valid in G; auto. destruct (DEP _ _ G _ _ Y) as (k' & F'). split; [exists r, k0; split; auto; eapply re_step; eauto|]. eapply CL; eauto. }
  intros q.
  assert (EX : listed ds q <-> exists k, edge (valid_entries m) (en_deps e) (q, k)).
  { apply (deps_exact _ _ _ CD). intros d d' x X X' (e1 & G1 & N1) (e2 & G2 & N2). apply ED in X, X'. destruct X as [_ X], X' as [_ X']. destruct (RW _ X) as (w1 & I1 & R1). destruct (RW _ X') as (w2 & I2 & R2).
    apply get_valid in G1, G2; auto. pose proof (D _ _ G1) as D1. pose proof (D _ _ G2) as D2. unfold described in D1, D2.
    destruct (read_manifest f (fst d)) as [t|] eqn:M1; [|contradiction]. destruct (read_manifest f (fst d')) as [u|] eqn:M2; [|contradiction].
    destruct D1 as (D1 & _). destruct D2 as (D2 & _). eapply (U w1 w2 (fst d) (fst d') t u x); eauto; congruence. }
  unfold listed in EX. rewrite EX. split; [intros (k & X); now apply ED in X|].
  intros (r & k & F & R). assert (GP : get m p <> None) by congruence. clear EX. induction R as [|y z k' R IH F'].
  - destruct (DEP2 _ _ IE _ _ F) as (k' & X). exists k'. now constructor.
  - destruct IH as (k2 & X). destruct (ED _ X) as (_ & GY). cbn [fst] in GY. destruct (get m y) as [o|] eqn:G; [|congruence]. pose proof (D _ _ G) as DY. unfold described in DY.
    destruct F' as (t & dd & rr & RM & F'). rewrite RM in DY. destruct o as [e'|]; [|contradiction].
    destruct (DEP2 _ _ G z k') as (k3 & Z); [exists t, dd, rr; auto|]. exists k3. eapply ed_step; [exact X| |exact Z]. apply get_valid; auto.
Qed.

Lemma ex_distinct : distinct_names ex_fs [(1, true); (3, true)].
Proof.
  intros w1 w2 p q t u x _ _ _ _ H1 H2 N1 N2. unfold read_manifest, ex_fs in *. cbn [manifests get] in *.
  repeat match type of H1 with context [if ?b then _ else _] => destruct b eqn:?; [|] end; try discriminate; injection H1 as <-; injection N1 as <-;
  repeat match type of H2 with context [if ?b then _ else _] => destruct b eqn:?; [|] end; try discriminate; injection H2 as <-; try discriminate;
  repeat match goal with H : (_ =? _) = true |- _ => apply Nat.eqb_eq in H end; congruence.
Qed.
Example ex_load : load_packages ex_fs [(1, true); (3, true)] = Some
  [Package (mkPackage (Some 101) 1 Local [(2, Local); (3, Git); (4, Local); (5, Local); (1, Local)] true [(7, 8)] [52]);
   Package (mkPackage (Some 102) 2 Local [(4, Local); (1, Local); (2, Local); (3, Git); (5, Local)] true [] []);
   Package (mkPackage (Some 103) 3 Local [(4, Local); (5, Local); (1, Local); (2, Local); (3, Git)] true [] []);
   Package (mkPackage (Some 104) 4 Local [(1, Local); (2, Local); (3, Git); (4, Local); (5, Local)] true [] []);
   ParseError 5].
Proof. reflexivity. Qed.

(** When some workspace manifests are loaded without their dependencies (the aptos-core case of lib.rs:80-117) a
    later such manifest replaces the full entry, and the packages that depend on it lose its dependencies. *)
Theorem load_mixed_refuted : exists f ws l pk q, distinct_names f ws /\ load_packages f ws = Some l /\ In pk (valid_packages l) /\ pk_resolve pk = true /\
  depends f (pk_manifest pk) q /\ ~ In q (map fst (pk_deps pk)) /\
  (exists l' pk', load_packages f (rev ws) = Some l' /\ In pk' (valid_packages l') /\ pk_manifest pk' = pk_manifest pk /\ In q (map fst (pk_deps pk'))).
Proof.
  set (f := mkFs [(1, Some (mkToml (Some 101) [mkDep 50 Local (Some 12)] [])); (2, Some (mkToml (Some 102) [mkDep 51 Local (Some 13)] [])); (3, Some (mkToml (Some 103) [] []))] [(11, 1); (12, 2); (13, 3)]).
  exists f, [(1, true); (2, false)]. eexists. eexists. exists 3. split; [|split; [reflexivity|split; [now left|split; [reflexivity|split; [|split]]]]].
  - intros w1 w2 p q t u x _ _ _ _ H1 H2 N1 N2. unfold read_manifest, f in *. cbn [manifests get] in *.
    repeat match type of H1 with context [if ?b then _ else _] => destruct b eqn:?; [|] end; try discriminate; injection H1 as <-; injection N1 as <-;
    repeat match type of H2 with context [if ?b then _ else _] => destruct b eqn:?; [|] end; try discriminate; injection H2 as <-; try discriminate;
    repeat match goal with H : (_ =? _) = true |- _ => apply Nat.eqb_eq in H end; congruence.
  - exists 2, Local. split.
    + exists (mkToml (Some 101) [mkDep 50 Local (Some 12)] []), (mkDep 50 Local (Some 12)), 12. cbn. auto.
    + eapply re_step; [constructor|]. exists (mkToml (Some 102) [mkDep 51 Local (Some 13)] []), (mkDep 51 Local (Some 13)), 13. cbn. eauto 8.
  - cbn. lia.
  - eexists. eexists. split; [reflexivity|]. split; [right; left; reflexivity|]. cbn. auto.
Qed.

(** ** The package graph *)
(** the directory of a manifest holds that manifest *)
Definition same_manifest (f : fs) (root : mpath -> dir) (p : mpath) : Prop := find_toml f (root p) = Some p.
Lemma dep_ids_spec : forall f root load ds, (forall d, In d ds -> same_manifest f root (fst d)) ->
  match dep_ids f root load ds with Some is => map load (map fst ds) = map Some is | None => exists d, In d ds /\ load (fst d) = None end.
Proof.
  intros f root load ds. induction ds as [|d ds IH]; intros S1; cbn [dep_ids]; [reflexivity|]. rewrite (S1 d (or_introl eq_refl)).
  specialize (IH (fun x I => S1 x (or_intror I))). destruct (load (fst d)) as [i|] eqn:L; [|exists d; split; [now left|auto]].
  destruct (dep_ids f root load ds) as [is|]; cbn; [rewrite L, IH; reflexivity|]. destruct IH as (x & I & E). exists x. auto.
Qed.
(** The graph exists exactly when every manifest and every dependency manifest can be loaded; *)
Theorem graph_exists_iff : forall f root load ps acc, (forall p d, In p ps -> In d (pk_deps p) -> same_manifest f root (fst d)) ->
  (collect_graph f root load ps acc <> None <-> forall p, In p ps -> load (pk_manifest p) <> None /\ forall d, In d (pk_deps p) -> load (fst d) <> None).
Proof.
  intros f root load ps. induction ps as [|p ps IH]; intros acc S1; cbn [collect_graph]; [split; [intros _ p []|discriminate]|].
  pose proof (dep_ids_spec f root load (pk_deps p) (fun d I => S1 p d (or_introl eq_refl) I)) as D.
  assert (IH' : forall acc, collect_graph f root load ps acc <> None <-> (forall p0, In p0 ps -> load (pk_manifest p0) <> None /\ (forall d, In d (pk_deps p0) -> load (fst d) <> None))) by (intros acc'; apply IH; intros p0 d I; apply S1; now right).
  destruct (load (pk_manifest p)) as [i|] eqn:L; [|split; [congruence|intros H; destruct (H p (or_introl eq_refl)); congruence]].
  destruct (dep_ids f root load (pk_deps p)) as [is|].
  - rewrite IH'. split.
    + intros H q [<-|I]; [|auto]. split; [congruence|]. intros d I E. assert (X : In (load (fst d)) (map Some is)) by (rewrite <- D; apply in_map, in_map, I). apply in_map_iff in X. destruct X as (y & Y & _). congruence.
    + intros H q I. apply H. now right.
  - destruct D as (d & I & E). split; [congruence|]. intros H. destruct (H p (or_introl eq_refl)) as (_ & X). destruct (X d I E).
Qed.
(** and gives every package the ids of exactly its dependencies. *)
Theorem graph_exact : forall f root load ps g, (forall p d, In p ps -> In d (pk_deps p) -> same_manifest f root (fst d)) ->
  NoDup (map pk_manifest ps) -> (forall p q i, load p = Some i -> load q = Some i -> p = q) ->
  collect_graph f root load ps [] = Some g ->
  (forall p, In p ps -> exists i is, load (pk_manifest p) = Some i /\ map load (map fst (pk_deps p)) = map Some is /\
     get g i = Some (mkMeta (pk_name p) is (pk_resolve p) (pk_addrs p) (pk_missing p))) /\
  (forall i, get g i <> None -> exists p, In p ps /\ load (pk_manifest p) = Some i).
Proof.
  intros f root load ps g S1 N INJ. assert (GEN : forall ps acc g, (forall p d, In p ps -> In d (pk_deps p) -> same_manifest f root (fst d)) -> NoDup (map pk_manifest ps) ->
    collect_graph f root load ps acc = Some g ->
    (forall p, In p ps -> exists i is, load (pk_manifest p) = Some i /\ map load (map fst (pk_deps p)) = map Some is /\ get g i = Some (mkMeta (pk_name p) is (pk_resolve p) (pk_addrs p) (pk_missing p))) /\
    (forall i, (forall p, In p ps -> load (pk_manifest p) <> Some i) -> get g i = get acc i)).
  2:{ intros H. destruct (GEN ps [] g S1 N H) as [A B]. split; auto. intros i G.
      destruct (existsb (fun p => match load (pk_manifest p) with Some j => j =? i | None => false end) ps) eqn:E.
      - apply existsb_exists in E. destruct E as (p & I & X). destruct (load (pk_manifest p)) as [j|] eqn:L; [|discriminate]. apply Nat.eqb_eq in X. subst j. eauto.
      - exfalso. apply G. rewrite B; [reflexivity|]. intros p I L. rewrite <- not_true_iff_false, existsb_exists in E. apply E. exists p. split; auto. rewrite L. apply Nat.eqb_refl. }
  clear ps g S1 N. intros ps. induction ps as [|p ps IH]; intros acc g S1 N H; cbn [collect_graph] in H.
  { injection H as <-. split; [intros p []|auto]. }
  pose proof (dep_ids_spec f root load (pk_deps p) (fun d I => S1 p d (or_introl eq_refl) I)) as D.
  destruct (load (pk_manifest p)) as [i|] eqn:L; [|discriminate]. destruct (dep_ids f root load (pk_deps p)) as [is|]; [|discriminate].
  cbn in N. inversion N as [|x m N1 N2]; subst. destruct (IH _ _ (fun q d I => S1 q d (or_intror I)) N2 H) as [A B]. split.
  - intros q [<-|I]; [|auto]. exists i, is. split; auto. split; auto. rewrite B, get_put, Nat.eqb_refl; [reflexivity|].
    intros q I E. apply N1. rewrite (INJ _ _ _ L E). now apply in_map.
  - intros j J. rewrite B, get_put; [|intros q I; apply J; now right]. destruct (i =? j) eqn:E; [|reflexivity]. apply Nat.eqb_eq in E. subst j. exfalso. apply (J p (or_introl eq_refl)). exact L.
Qed.
(** one manifest that cannot be read leaves the whole workspace without a package graph *)
Theorem graph_one_bad_refuted : exists f root load ps good bad, ps = [good; bad] /\ pk_deps good = [] /\ load (pk_manifest good) <> None /\
  (forall p d, In p ps -> In d (pk_deps p) -> same_manifest f root (fst d)) /\ collect_graph f root load ps [] = None /\ collect_graph f root load [good] [] <> None.
Proof.
  exists (mkFs [] []), (fun p => p), (fun p => if p =? 2 then None else Some p). eexists. exists (mkPackage None 1 Local [] true [] []), (mkPackage None 2 Local [] true [] []).
  split; [reflexivity|]. repeat split; try discriminate. intros p d [<-|[<-|[]]] [].
Qed.
Example ex_graph : collect_graph ex_fs (fun p => 10 + p) (fun p => Some (20 + p)) (valid_packages [Package (mkPackage (Some 101) 1 Local [(2, Local); (4, Local)] true [(7, 8)] [52]); ParseError 5; Package (mkPackage None 3 Git [] true [] [])]) []
  = Some [(21, mkMeta (Some 101) [22; 24] true [(7, 8)] [52]); (23, mkMeta None [] true [] [])].
Proof. reflexivity. Qed.

(** From the workspace to the graph: the ids of a package's metadata are those of its dependencies. *)
Theorem workspace_graph_exact : forall f ws root load l g, (forall w b, In (w, b) ws -> b = true) -> distinct_names f ws ->
  (forall w q, In (w, true) ws -> reachable f w q -> same_manifest f root q) -> (forall p q i, load p = Some i -> load q = Some i -> p = q) ->
  load_packages f ws = Some l -> collect_graph f root load (valid_packages l) [] = Some g ->
  forall w p i, In (w, true) ws -> reachable f w p -> read_manifest f p <> None -> load p = Some i ->
  exists m, get g i = Some m /\ NoDup (md_deps m) /\ forall j, In j (md_deps m) <-> exists q, depends f p q /\ load q = Some j.
Proof.
  intros f ws root load l g B U SM INJ HL HG w p i IW R RM LP. destruct (load_packages_exact f ws l B HL) as [ND PE].
  assert (IP : In p (map pk_manifest (valid_packages l))) by (apply PE; eauto). apply in_map_iff in IP. destruct IP as (pk & <- & IP).
  assert (DR : forall pk d, In pk (valid_packages l) -> In d (pk_deps pk) -> same_manifest f root (fst d)).
  { intros pk' d I I'. destruct (load_deps_exact f ws l pk' B U HL I) as [_ DE]. destruct (proj1 (DE (fst d)) (in_map fst _ _ I')) as (r & k & F & RR).
    destruct (proj1 (PE (pk_manifest pk')) (in_map _ _ _ I)) as ((w' & IW' & R') & _). apply (SM w' (fst d) IW'). eapply reachable_trans; [exact R'|]. eapply reachable_trans; [eapply found_reachable; eauto|auto]. }
  destruct (graph_exact f root load _ g DR ND INJ HG) as [GE _]. destruct (GE pk IP) as (i' & is & L' & M & G). rewrite LP in L'. injection L' as <-.
  destruct (load_deps_exact f ws l pk B U HL IP) as [NDD DE]. eexists. split; [exact G|]. cbn [md_deps]. split.
  - clear -NDD M INJ. revert is M. induction (map fst (pk_deps pk)) as [|d ds IH]; intros [|j is] M; try discriminate; [constructor|]. cbn in M. injection M as M1 M2. inversion NDD as [|x m N1 N2]; subst.
    constructor; [|auto]. intros I. assert (X : In (Some j) (map load ds)) by (rewrite M2; now apply in_map). apply in_map_iff in X. destruct X as (q & X & I'). rewrite (INJ _ _ _ M1 X) in N1. auto.
  - intros j. split.
    + intros I. assert (X : In (Some j) (map load (map fst (pk_deps pk)))) by (rewrite M; now apply in_map). apply in_map_iff in X. destruct X as (q & X & I'). exists q. split; auto. now apply DE.
    + intros (q & DQ & LQ). apply DE in DQ. assert (X : In (load q) (map Some is)) by (rewrite <- M; now apply in_map). rewrite LQ in X. apply in_map_iff in X. destruct X as (y & [= <-] & Y). exact Y.
Qed.
Example ex_workspace_graph : exists l g, load_packages ex_fs [(1, true); (3, true)] = Some l /\ collect_graph ex_fs (fun p => 10 + p) (fun p => Some (20 + p)) (valid_packages l) [] = Some g /\
  (exists m, get g 21 = Some m /\ md_deps m = [22; 23; 24; 25; 21]) /\ forall q, reachable ex_fs 1 q -> same_manifest ex_fs (fun p => 10 + p) q.
Proof.
  eexists. eexists. split; [reflexivity|]. split; [reflexivity|]. split; [eexists; split; reflexivity|]. intros q R.
  assert (C : In q [1; 2; 3; 4; 5]).
  { induction R as [|y z k R IH (t & d & r & RM & ID & DR & FT & _)]; [cbn; auto|]. cbn in IH. unfold read_manifest in RM. cbn [manifests ex_fs get] in RM.
    repeat match type of RM with context [if ?b then _ else _] => destruct b eqn:?; [|] end; try discriminate; injection RM as <-; cbn in ID;
    repeat match type of ID with _ \/ _ => destruct ID as [<-|ID] end; try contradiction; cbn in DR; try discriminate; injection DR as <-; cbn in FT; try discriminate; injection FT as <-; cbn; auto 6. }
  cbn in C. repeat match type of C with _ \/ _ => destruct C as [<-|C] end; try contradiction; reflexivity.
Qed.

(** ** C43: dependencies between packages in the database *)
(** the metadata of [p] lists a file of [q] *)
Definition lists_package (h : hir) (p q : pkg) : Prop := exists m d i, h_manifest h p = Some m /\ get (h_meta h) m = Some d /\ In i (md_deps d) /\ get (h_package h) i = Some q.
(** metadata is set for every manifest and a package for every dependency *)
Definition complete (h : hir) : Prop := forall p m, h_manifest h p = Some m -> exists d, get (h_meta h) m = Some d /\ forall i, In i (md_deps d) -> get (h_package h) i <> None.
Lemma packages_of_spec : forall h is, (forall i, In i is -> get (h_package h) i <> None) -> exists ps, packages_of h is = Ok ps /\ forall q, In q ps <-> exists i, In i is /\ get (h_package h) i = Some q.
Proof.
  intros h is. induction is as [|i is IH]; intros C; cbn [packages_of]; [exists []; split; auto; intros q; split; [intros []|intros (i & [] & _)]|].
  destruct IH as (ps & E & S1); [intros j I; apply C; now right|]. specialize (C i (or_introl eq_refl)). destruct (get (h_package h) i) as [p|] eqn:G; [|congruence]. rewrite E. exists (p :: ps). split; auto.
  intros q. cbn. rewrite S1. split.
  - intros [<-|(j & I & X)]; eauto.
  - intros (j & [<-|I] & X); [left; congruence|right; eauto].
Qed.
Theorem dep_packages_exact : forall h p, complete h -> exists ps, dep_packages h p = Ok ps /\ hd_error ps = Some p /\ forall q, In q ps <-> q = p \/ lists_package h p q.
Proof.
  intros h p C. unfold dep_packages, metadata_for. destruct (h_manifest h p) as [m|] eqn:M.
  - destruct (C p m M) as (d & G & X). rewrite G. cbn [bind]. destruct (packages_of_spec h (md_deps d) X) as (ps & E & S1). rewrite E. cbn [bind]. exists (p :: ps). split; auto. split; auto. intros q. cbn. rewrite S1. split.
    + intros [<-|(i & I & Y)]; auto. right. exists m, d, i. auto.
    + intros [->|(m' & d' & i & M' & G' & I & Y)]; auto. right. rewrite M in M'. injection M' as <-. rewrite G in G'. injection G' as <-. eauto.
  - cbn. exists [p]. split; auto. split; auto. intros q. cbn. split; [intros [<-|[]]; auto|]. intros [->|(m' & d' & i & M' & _)]; auto. congruence.
Qed.
(** the reverse dependencies are the packages whose dependencies contain the package *)
Theorem reverse_deps_exact : forall h p, complete h -> exists ps, reverse_deps h p = Ok ps /\
  forall q, In q ps <-> q = p \/ (In q (h_all h) /\ exists ds, dep_packages h q = Ok ds /\ In p ds).
Proof.
  intros h p C. unfold reverse_deps.
  assert (GEN : forall all, exists r, rev_loop h p all = Ok r /\ forall q, In q r <-> In q all /\ exists ds, dep_packages h q = Ok ds /\ In p ds).
  { intros all. induction all as [|d all (r & E & S1)]; cbn [rev_loop]; [exists []; split; auto; intros q; split; [intros []|intros [[] _]]|].
    destruct (dep_packages_exact h d C) as (ds & ED & _). rewrite ED, E. cbn [bind]. destruct (mem p ds) eqn:M.
    - apply mem_iff in M. exists (d :: r). split; auto. intros q. cbn. rewrite S1. split; [intros [<-|[I X]]; eauto|]. intros [[<-|I] X]; auto.
    - exists r. split; auto. intros q. rewrite S1. split; [intros [I X]; split; [now right|auto]|]. intros [[<-|I] X]; auto. destruct X as (ds' & E' & I). rewrite ED in E'. injection E' as <-. apply mem_iff in I. congruence. }
  destruct (GEN (h_all h)) as (r & E & S1). rewrite E. cbn [bind]. exists (p :: r). split; auto. intros q. cbn. rewrite S1. intuition.
Qed.
Corollary reverse_deps_inverse : forall h p q, complete h -> In q (h_all h) -> q <> p ->
  forall rs ds, reverse_deps h p = Ok rs -> dep_packages h q = Ok ds -> (In q rs <-> In p ds).
Proof.
  intros h p q C I N rs ds R D. destruct (reverse_deps_exact h p C) as (ps & E & S1). rewrite R in E. injection E as <-. rewrite S1. split.
  - intros [X|(_ & ds' & D' & X)]; [contradiction|]. rewrite D in D'. now injection D' as <-.
  - intros X. right. split; auto. eauto.
Qed.
(** the package itself is among its reverse dependencies twice *)
Theorem reverse_deps_repeats_self : forall h p ps, complete h -> In p (h_all h) -> reverse_deps h p = Ok ps -> ~ NoDup ps.
Proof.
  intros h p ps C I H N. unfold reverse_deps in H. destruct (rev_loop h p (h_all h)) as [r|] eqn:E; [|discriminate]. cbn in H. injection H as <-. inversion N as [|x m N1 N2]; subst. apply N1.
  clear N N1 N2. revert r E I. induction (h_all h) as [|d all IH]; intros r E I; [destruct I|]. cbn [rev_loop] in E. destruct (dep_packages_exact h d C) as (ds & ED & _ & S1). rewrite ED in E. cbn [bind] in E.
  destruct (rev_loop h p all) as [r'|] eqn:E'; [|discriminate]. cbn [bind] in E. injection E as <-. destruct I as [->|I].
  - assert (M : mem p ds = true) by (apply mem_iff, S1; auto). rewrite M. now left.
  - destruct (mem p ds); [right|]; eauto.
Qed.
(** the missing dependencies of a package and its dependencies, no others *)
Theorem missing_exact : forall h p, complete h -> exists ns, missing_dependencies h p = Ok ns /\
  forall n, In n ns <-> exists q m d, (q = p \/ lists_package h p q) /\ h_manifest h q = Some m /\ get (h_meta h) m = Some d /\ In n (md_missing d).
Proof.
  intros h p C. unfold missing_dependencies. destruct (dep_packages_exact h p C) as (ps & -> & _ & S1). cbn [bind].
  assert (GEN : forall ps, exists ns, missing_of h ps = Ok ns /\ forall n, In n ns <-> exists q m d, In q ps /\ h_manifest h q = Some m /\ get (h_meta h) m = Some d /\ In n (md_missing d)).
  { clear ps S1. intros ps. induction ps as [|q ps (ns & E & S1)]; cbn [missing_of]; [exists []; split; auto; intros n; split; [intros []|intros (q & m & d & [] & _)]|].
    unfold metadata_for. destruct (h_manifest h q) as [m|] eqn:M.
    - destruct (C q m M) as (d & G & _). rewrite G, E. cbn [bind]. eexists. split; [reflexivity|]. intros n. rewrite in_app_iff, S1. split.
      + intros [I|(q' & m' & d' & I & X)]; [exists q, m, d; cbn; auto|exists q', m', d'; cbn; tauto].
      + intros (q' & m' & d' & [<-|I] & M' & G' & X); [left; congruence|right; exists q', m', d'; auto].
    - rewrite E. cbn [bind]. exists ns. split; auto. intros n. rewrite S1. split.
      + intros (q' & m' & d' & I & X). exists q', m', d'. cbn. tauto.
      + intros (q' & m' & d' & [<-|I] & M' & X); [congruence|exists q', m', d'; auto]. }
  destruct (GEN ps) as (ns & E & S2). exists ns. split; auto. intros n. rewrite S2. split; intros (q & m & d & I & X); exists q, m, d; (split; [apply S1; exact I|exact X]).
Qed.
Definition ex_hir : hir := mkHir (fun p => match p with 0 => Some 20 | 1 => Some 21 | _ => None end) [(20, 0); (21, 1); (22, 2)]
  [(20, mkMeta (Some 100) [21; 22] true [] [5]); (21, mkMeta (Some 101) [22] true [] [6])] [0; 1; 2].
Example ex_hir_complete : complete ex_hir.
Proof. intros [|[|p]] m H; cbn in H; try discriminate; injection H as <-; eexists; (split; [reflexivity|]); cbn; intros i; intuition subst; discriminate. Qed.
Example ex_dep_packages : dep_packages ex_hir 0 = Ok [0; 1; 2] /\ reverse_deps ex_hir 2 = Ok [2; 0; 1; 2] /\ missing_dependencies ex_hir 0 = Ok [5; 6].
Proof. repeat split. Qed.

Print Assumptions reach_exact.
Print Assumptions reach_entries.
Print Assumptions reach_kind.
Print Assumptions deps_sound.
Print Assumptions deps_closed.
Print Assumptions deps_exact.
Print Assumptions deps_exact_refuted.
Print Assumptions load_terminates.
Print Assumptions load_packages_exact.
Print Assumptions load_deps_exact.
Print Assumptions load_mixed_refuted.
Print Assumptions workspace_graph_exact.
Print Assumptions graph_exists_iff.
Print Assumptions graph_exact.
Print Assumptions graph_one_bad_refuted.
Print Assumptions dep_packages_exact.
Print Assumptions reverse_deps_exact.
Print Assumptions reverse_deps_repeats_self.
Print Assumptions missing_exact.
