(** C36: each file is assigned to the innermost package root. *)
From Coq Require Import String Sorted Permutation.
From Verif Require Import Base AddressModel FileSetModel.

(** * Specification *)
(** [p] lies somewhere below directory [d] *)
Definition inside (d p : path) : Prop := exists rest, p = d ++ SLASH :: rest.
(** root number [i] contains [p] and no other containing root is deeper *)
Definition innermost (roots : list path) (p : path) (i : nat) : Prop :=
  exists d, nth_error roots i = Some d /\ inside d p /\ forall j d', nth_error roots j = Some d' -> inside d' p -> length d' <= length d.
(** No root is the beginning of a sibling's name: a root that is a textual prefix of the file's directory
    is that directory or one of its ancestors. *)
Definition no_name_clash (roots : list path) (p : path) : Prop :=
  forall d, In d roots -> (exists rest, p = d ++ rest /\ In SLASH rest) -> inside d p.

(** * Lemmas *)
Lemma is_prefix_spec : forall k p, is_prefix k p = true <-> exists r, p = k ++ r.
Proof.
  induction k as [|x k IH]; intros p; cbn; [split; eauto|].
  destruct p as [|y p]; [split; [discriminate|intros [r H]; discriminate]|].
  rewrite andb_true_iff, N.eqb_eq, IH. split.
  - intros [-> [r ->]]. eauto.
  - intros [r H]. injection H as -> ->. eauto.
Qed.

Lemma bytes_compare_eq : forall a b, bytes_compare a b = Eq <-> a = b.
Proof.
  induction a as [|x a IH]; intros [|y b]; cbn; split; intros H; try discriminate; auto.
  - destruct (N.compare_spec x y); try discriminate. subst. f_equal. now apply IH.
  - injection H as -> ->. rewrite N.compare_refl. now apply IH.
Qed.
Lemma bytes_compare_sym : forall a b, bytes_compare a b = CompOpp (bytes_compare b a).
Proof.
  induction a as [|x a IH]; intros [|y b]; cbn; auto. rewrite N.compare_antisym. destruct (N.compare y x); cbn; auto.
Qed.
Lemma bytes_lt_trans : forall a b c, bytes_compare a b = Lt -> bytes_compare b c = Lt -> bytes_compare a c = Lt.
Proof.
  induction a as [|x a IH]; intros [|y b] [|z c]; cbn; auto; try discriminate.
  destruct (N.compare_spec x y), (N.compare_spec y z); subst; intros H1 H2; try discriminate.
  - rewrite N.compare_refl. eauto.
  - apply N.compare_lt_iff in H0. now rewrite H0.
  - apply N.compare_lt_iff in H. now rewrite H.
  - assert (E : (x < z)%N) by lia. apply N.compare_lt_iff in E. now rewrite E.
Qed.
Lemma prefix_compare : forall k r, bytes_compare k (k ++ r) = match r with [] => Eq | _ => Lt end.
Proof. induction k as [|x k IH]; intros r; cbn; [now destruct r|]. now rewrite N.compare_refl, IH. Qed.

Lemma entry_leb_total : forall a b, entry_leb a b = false -> entry_leb b a = true.
Proof.
  intros [a i] [b j]. unfold entry_leb. cbn. rewrite (bytes_compare_sym b a). destruct (bytes_compare a b); cbn; auto; try discriminate.
  intros H. apply Nat.leb_gt in H. apply Nat.leb_le. lia.
Qed.

(** key order of entries *)
Definition key_le (a b : entry) : Prop := bytes_compare (fst a) (fst b) <> Gt.
Lemma entry_leb_key : forall a b, entry_leb a b = true -> key_le a b.
Proof. intros a b. unfold entry_leb, key_le. destruct (bytes_compare _ _); discriminate. Qed.
Lemma key_le_trans : forall a b c, key_le a b -> key_le b c -> key_le a c.
Proof.
  intros [a i] [b j] [c k]. unfold key_le. cbn. intros H1 H2.
  destruct (bytes_compare a b) eqn:E1; [apply bytes_compare_eq in E1; now subst| |congruence].
  destruct (bytes_compare b c) eqn:E2; [apply bytes_compare_eq in E2; subst; congruence| |congruence].
  rewrite (bytes_lt_trans a b c); auto; discriminate.
Qed.

Lemma insert_entry_in : forall e l x, In x (insert_entry e l) <-> x = e \/ In x l.
Proof.
  induction l as [|y l IH]; intros x; cbn; [intuition|]. destruct (entry_leb e y); cbn; [intuition|]. rewrite IH. intuition.
Qed.
Lemma sort_entries_in : forall l x, In x (sort_entries l) <-> In x l.
Proof. induction l as [|e l IH]; intros x; cbn; [tauto|]. rewrite insert_entry_in, IH. intuition. Qed.
Lemma insert_sorted : forall e l, StronglySorted key_le l -> StronglySorted key_le (insert_entry e l).
Proof.
  induction l as [|y l IH]; intros H; cbn; [repeat constructor|]. inversion H as [|? ? H1 H2]; subst.
  destruct (entry_leb e y) eqn:E.
  - apply entry_leb_key in E. constructor; auto. constructor; auto. eapply Forall_impl; [|exact H2]. intros a Ha. eapply key_le_trans; eauto.
  - apply entry_leb_total, entry_leb_key in E. constructor; auto. apply Forall_forall. intros x Hx. apply insert_entry_in in Hx.
    destruct Hx as [->|Hx]; auto. rewrite Forall_forall in H2. auto.
Qed.
Lemma sort_sorted : forall l, StronglySorted key_le (sort_entries l).
Proof. induction l as [|e l IH]; cbn; [constructor|now apply insert_sorted]. Qed.

Lemma dedup_sub : forall l x, In x (dedup_entries l) -> In x l.
Proof.
  induction l as [|e l IH]; intros x; cbn; auto. destruct (dedup_entries l) as [|y r]; cbn in *; [tauto|].
  destruct (text_eqb (fst e) (fst y)); cbn; intuition.
Qed.
Lemma dedup_keys : forall l x, In x l -> exists y, In y (dedup_entries l) /\ fst y = fst x.
Proof.
  induction l as [|e l IH]; intros x H; [destruct H|]. cbn. destruct H as [->|H].
  - exists x. destruct (dedup_entries l) as [|y r]; [now split; [left|]|]. destruct (text_eqb _ _); split; cbn; auto.
  - destruct (IH x H) as (y & Hy & E). destruct (dedup_entries l) as [|z r]; [destruct Hy|].
    unfold text_eqb. destruct (text_eq_dec (fst e) (fst z)) as [E'|E'].
    + destruct Hy as [->|Hy]; [exists e; split; [now left|congruence]|exists y; split; [now right|auto]].
    + exists y. split; [now right|auto].
Qed.
Lemma dedup_sorted : forall l, StronglySorted key_le l -> StronglySorted key_le (dedup_entries l).
Proof.
  induction l as [|e l IH]; intros H; cbn; [constructor|]. inversion H as [|? ? H1 H2]; subst. specialize (IH H1).
  pose proof (dedup_sub l) as S. rewrite Forall_forall in H2.
  destruct (dedup_entries l) as [|y r]; [repeat constructor|].
  destruct (text_eqb _ _).
  - inversion IH; subst. constructor; auto. apply Forall_forall. intros x Hx. apply H2, S. now right.
  - constructor; auto. apply Forall_forall. intros x Hx. apply H2, S. exact Hx.
Qed.

Lemma number_from_in : forall l i r j, In (r, j) (number_from i l) <-> exists k, j = i + k /\ nth_error l k = Some r.
Proof.
  induction l as [|x l IH]; intros i r j; cbn; [split; [tauto|intros (k & _ & H); destruct k; discriminate]|].
  rewrite IH. split.
  - intros [H|(k & -> & H)]; [injection H as -> ->; exists 0; auto|exists (S k); split; [lia|auto]].
  - intros ([|k] & -> & H); cbn in H; [left; f_equal; [congruence|lia]|right; exists k; split; [lia|auto]].
Qed.

Lemma build_in : forall roots r j, In (r, j) (build roots) -> nth_error roots j = Some r.
Proof.
  intros roots r j H. apply dedup_sub, sort_entries_in, number_from_in in H. now destruct H as (k & -> & H).
Qed.
Lemma build_complete : forall roots r, In r roots -> exists j, In (r, j) (build roots).
Proof.
  intros roots r H. apply In_nth_error in H. destruct H as [k H].
  assert (K : In (r, k) (sort_entries (number_from 0 roots))) by (apply sort_entries_in, number_from_in; exists k; auto).
  apply dedup_keys in K. destruct K as ([r' j] & K & E). cbn in E. subst. eauto.
Qed.

(** In a key-sorted list the last prefix of a string is a longest one. *)
Lemma last_prefix : forall l p acc, StronglySorted key_le l ->
  let out := fold_left (fun acc (e : entry) => if is_prefix (fst e) p then snd e else acc) l acc in
  (exists k, In (k, out) l /\ is_prefix k p = true /\ forall e, In e l -> is_prefix (fst e) p = true -> length (fst e) <= length k) \/
  (out = acc /\ forall e, In e l -> is_prefix (fst e) p = false).
Proof.
  intros l. induction l as [|[k i] l IH] using rev_ind; intros p acc HS; cbn zeta; [right; split; [reflexivity|intros e []]|].
  rewrite fold_left_app. cbn [fold_left fst snd].
  assert (HS' : StronglySorted key_le l /\ forall e, In e l -> key_le e (k, i)).
  { clear IH. induction l as [|x l IHl]; [split; [constructor|intros e []]|]. cbn in HS. inversion HS as [|? ? H1 H2]; subst.
    destruct (IHl H1) as [A B]. rewrite Forall_forall in H2. split.
    - constructor; auto. apply Forall_forall. intros y Hy. apply H2, in_or_app. now left.
    - intros e [->|He]; auto. apply H2, in_or_app. right. now left. }
  destruct HS' as [HS' HK]. destruct (is_prefix k p) eqn:E.
  - left. exists k. split; [apply in_or_app; right; now left|]. split; auto.
    intros e He Hp. apply in_app_or in He. destruct He as [He|[<-|[]]]; [|reflexivity].
    specialize (HK e He). unfold key_le in HK. cbn in HK. apply is_prefix_spec in E, Hp. destruct E as [r1 E], Hp as [r2 E2].
    destruct (Nat.le_gt_cases (length (fst e)) (length k)); auto. exfalso.
    rewrite E in E2. assert (F : fst e = k ++ firstn (length (fst e) - length k) r1).
    { apply (f_equal (firstn (length (fst e)))) in E2. rewrite (firstn_app _ (fst e)), Nat.sub_diag, firstn_all in E2. cbn in E2. rewrite app_nil_r in E2.
      transitivity (firstn (length (fst e)) (k ++ r1)); [symmetry; exact E2|]. rewrite firstn_app, firstn_all2 by lia. reflexivity. }
    revert F. generalize (firstn (length (fst e) - length k) r1) as t. intros t F. rewrite F in HK, H.
    rewrite bytes_compare_sym, prefix_compare in HK. rewrite app_length in H. destruct t; [cbn in H; lia|]. now apply HK.
  - destruct (IH p acc HS') as [(k' & H1 & H2 & H3)|[H1 H2]].
    + left. exists k'. split; [apply in_or_app; now left|]. split; auto. intros e He Hp. apply in_app_or in He.
      destruct He as [He|[<-|[]]]; auto. cbn in Hp. congruence.
    + right. split; auto. intros e He. apply in_app_or in He. destruct He as [He|[<-|[]]]; auto.
Qed.

Lemma parent_spec : forall p, match parent p with
  | Some d => exists name, p = d ++ SLASH :: name /\ ~ In SLASH name
  | None => ~ In SLASH p end.
Proof.
  induction p as [|c p IH]; cbn; auto. destruct (parent p) as [q|].
  - destruct IH as (name & -> & H). exists name. auto.
  - destruct (N.eqb_spec c SLASH) as [->|H]; [exists p; auto|]. intros [K|K]; auto.
Qed.

Definition dir_of (p : path) : path := match parent p with Some d => d | None => p end.

(** The chosen root is the longest textual prefix of the directory of the file. *)
Theorem classify_longest_prefix : forall roots p,
  (exists d, nth_error roots (classify roots p) = Some d /\ is_prefix d (dir_of p) = true /\
     forall d', In d' roots -> is_prefix d' (dir_of p) = true -> length d' <= length d) \/
  (classify roots p = length roots /\ forall d', In d' roots -> is_prefix d' (dir_of p) = false).
Proof.
  intros roots p. unfold classify. fold (dir_of p).
  destruct (last_prefix (build roots) (dir_of p) (length roots)) as [(k & H1 & H2 & H3)|[H1 H2]].
  - apply dedup_sorted, sort_sorted.
  - left. exists k. split; [now apply build_in|]. split; auto. intros d' Hd Hp. apply build_complete in Hd. destruct Hd as [j Hj].
    apply (H3 _ Hj). exact Hp.
  - right. split; auto. intros d' Hd. apply build_complete in Hd. destruct Hd as [j Hj]. apply (H2 _ Hj).
Qed.
Print Assumptions classify_longest_prefix.

(** Every file is in exactly one partition. *)
Theorem partition_exactly_one : forall roots files p, In p files ->
  exists i, i <= length roots /\ forall j part, nth_error (partition roots files) j = Some part -> (In p part <-> j = i).
Proof.
  intros roots files p Hp. exists (classify roots p). split.
  - destruct (classify_longest_prefix roots p) as [(d & H & _)|[H _]]; [|lia].
    assert (classify roots p < length roots) by (apply nth_error_Some; congruence). lia.
  - intros j part H. unfold partition in H.
    assert (L : j < S (length roots)).
    { assert (K : nth_error (map (fun i => filter (fun p => Nat.eqb (classify roots p) i) files) (seq 0 (S (length roots)))) j <> None) by congruence.
      apply nth_error_Some in K. now rewrite map_length, seq_length in K. }
    rewrite nth_error_map in H. rewrite (nth_error_nth' _ 0) in H by (rewrite seq_length; lia). cbn [option_map] in H.
    rewrite seq_nth in H by lia. injection H as <-. rewrite filter_In, Nat.eqb_eq. cbn. intuition.
Qed.
Print Assumptions partition_exactly_one.

Lemma inside_prefix : forall d p, inside d p -> is_prefix d (dir_of p) = true.
Proof.
  intros d p [rest ->]. apply is_prefix_spec. unfold dir_of. pose proof (parent_spec (d ++ SLASH :: rest)) as H.
  destruct (parent (d ++ SLASH :: rest)) as [q|]; [|exfalso; apply H; apply in_or_app; right; now left].
  destruct H as (name & E & Hn).
  assert (L : length d <= length q).
  { destruct (Nat.le_gt_cases (length d) (length q)); auto. exfalso.
    apply (f_equal (skipn (S (length q)))) in E.
    assert (A : skipn (S (length q)) (q ++ SLASH :: name) = name).
    { rewrite skipn_app. rewrite skipn_all2 by lia. replace (S (length q) - length q) with 1 by lia. reflexivity. }
    rewrite A in E. apply Hn. rewrite <- E. rewrite skipn_app. apply in_or_app. right.
    replace (S (length q) - length d) with 0 by lia. cbn. now left. }
  exists (skipn (length d) q). apply (f_equal (firstn (length q))) in E.
  rewrite (firstn_app _ q), Nat.sub_diag, firstn_all in E. cbn in E. rewrite app_nil_r in E.
  rewrite firstn_app, firstn_all2 in E by lia. rewrite <- E at 2. rewrite <- E at 2.
  rewrite skipn_app, skipn_all, Nat.sub_diag. cbn. now rewrite E.
Qed.

Lemma prefix_has_slash : forall d p, In SLASH p -> is_prefix d (dir_of p) = true -> exists rest, p = d ++ rest /\ In SLASH rest.
Proof.
  intros d p Hs H. apply is_prefix_spec in H. destruct H as [r H]. unfold dir_of in H. pose proof (parent_spec p) as P.
  destruct (parent p) as [q|]; [|contradiction]. destruct P as (name & -> & _). subst q. exists (r ++ SLASH :: name). rewrite app_assoc. split; auto.
  apply in_or_app. right. now left.
Qed.

(** When no package directory name is the beginning of another path component, the file goes to its innermost
    package, or to the extra partition when no package contains it. *)
Theorem classify_innermost_partial : forall roots p, In SLASH p -> no_name_clash roots p ->
  innermost roots p (classify roots p) \/
  (classify roots p = length roots /\ forall d, In d roots -> ~ inside d p).
Proof.
  intros roots p Hs Hc. destruct (classify_longest_prefix roots p) as [(d & H1 & H2 & H3)|[H1 H2]].
  - left. exists d. split; auto. split.
    + apply Hc; [eapply nth_error_In; eauto|]. now apply prefix_has_slash.
    + intros j d' Hj Hi. apply H3; [eapply nth_error_In; eauto|]. now apply inside_prefix.
  - right. split; auto. intros d Hd Hi. apply inside_prefix in Hi. rewrite H2 in Hi; [discriminate|auto].
Qed.
Print Assumptions classify_innermost_partial.

(** In general this fails: the package directory "/ws/a" takes the files of "/ws/ab", both away from the enclosing
    package "/ws" and when no package contains them. *)
Theorem classify_innermost_refuted :
  (exists roots p i, innermost roots p i /\ classify roots p <> i) /\
  (exists roots p, (forall d, In d roots -> ~ inside d p) /\ classify roots p < length roots).
Proof.
  split.
  - exists [str "/ws"; str "/ws/a"], (str "/ws/ab/sources/m.move"), 0. split; [|vm_compute; discriminate].
    exists (str "/ws"). split; [reflexivity|]. split; [exists (str "ab/sources/m.move"); reflexivity|].
    intros [|[|j]] d' Hj Hi; cbn in Hj; [injection Hj as <-; auto| |destruct j; discriminate].
    injection Hj as <-. destruct Hi as [rest Hi]. discriminate Hi.
  - exists [str "/ws/a"], (str "/ws/ab/sources/m.move"). split; [|vm_compute; auto].
    intros d [<-|[]] [rest Hi]. discriminate Hi.
Qed.
Print Assumptions classify_innermost_refuted.

Example ex_nested : innermost [str "/ws"; str "/ws/a"; str "/lib"] (str "/ws/a/sources/m.move") 1 /\
  classify [str "/ws"; str "/ws/a"; str "/lib"] (str "/ws/a/sources/m.move") = 1 /\
  no_name_clash [str "/ws"; str "/ws/a"; str "/lib"] (str "/ws/a/sources/m.move").
Proof.
  split; [|split; [reflexivity|]].
  - exists (str "/ws/a"). split; [reflexivity|]. split; [exists (str "sources/m.move"); reflexivity|].
    intros [|[|[|j]]] d' Hj Hi; cbn in Hj; try (injection Hj as <-; cbn; lia). destruct j; discriminate.
  - intros d [<-|[<-|[<-|[]]]] (rest & E & _); try discriminate E; cbn in E.
    + exists (str "a/sources/m.move"). reflexivity.
    + exists (str "sources/m.move"). reflexivity.
Qed.
