(** Proofs about the syntax tree editor: the order of the changes, and that changes that do not touch each
    other are neither in conflict nor dependent. *)
From Coq Require Import Permutation Sorted.
From Verif Require Import Base SyntaxKind TextEditModel ParserModel TreeSinkModel TreeSinkSpec TreeDiffModel TreeDiffSpec TreeDiffProofs EditorModel EditorSpec.
Close Scope N_scope.
Open Scope nat_scope.

(** * Sorting *)
Lemma put_perm : forall t c l, Permutation (put t c l) (c :: l).
Proof. intros t c l. induction l as [|d l IH]; [reflexivity|]. cbn. destruct (before t c d); [reflexivity|]. rewrite IH. apply perm_swap. Qed.
Lemma sorted_perm : forall t l, Permutation (sorted_changes t l) l.
Proof. intros t l. induction l as [|c l IH]; [reflexivity|]. cbn. rewrite put_perm. now constructor. Qed.
Definition key (t : tree) (c : change) : nat * nat * nat := (r_start (target_range t c), depth (target_parent c), change_rank c).
Definition key_le (a b : nat * nat * nat) : Prop := let '(x, y, z) := a in let '(x', y', z') := b in x < x' \/ (x = x' /\ (y < y' \/ (y = y' /\ z <= z'))).
Lemma before_key : forall t a b, before t a b = true <-> key_le (key t a) (key t b).
Proof.
  intros t a b. unfold before, key, key_le. rewrite !orb_true_iff, !andb_true_iff, !orb_true_iff, !andb_true_iff, !Nat.ltb_lt, !Nat.eqb_eq, Nat.leb_le. reflexivity.
Qed.
Lemma key_le_trans : forall a b c, key_le a b -> key_le b c -> key_le a c.
Proof. intros [[a a'] a''] [[b b'] b''] [[c c'] c'']. cbn. lia. Qed.
Lemma key_le_total : forall a b, ~ key_le a b -> key_le b a.
Proof. intros [[a a'] a''] [[b b'] b'']. cbn. lia. Qed.
Definition in_order (t : tree) (a b : change) : Prop := key_le (key t a) (key t b).
Lemma put_sorted : forall t c l, StronglySorted (in_order t) l -> StronglySorted (in_order t) (put t c l).
Proof.
  intros t c l H. induction H as [|d l H IH F]; cbn; [repeat constructor|]. destruct (before t c d) eqn:E.
  - constructor; [constructor; auto|]. apply before_key in E. constructor; auto. eapply Forall_impl; [|exact F]. intros x X. eapply key_le_trans; eauto.
  - constructor; auto. rewrite put_perm. constructor; auto. apply key_le_total. intros X. apply before_key in X. congruence.
Qed.
Lemma sorted_sorted : forall t l, StronglySorted (in_order t) (sorted_changes t l).
Proof. intros t l. induction l as [|c l IH]; [constructor|]. cbn. now apply put_sorted. Qed.

(** * Pairwise relations do not depend on the order *)
Lemma put_pairs : forall (R : change -> change -> Prop) t c l, (forall a b, R a b -> R b a) -> Forall (R c) l -> ForallOrdPairs R l -> ForallOrdPairs R (put t c l).
Proof.
  intros R t c l S. induction l as [|d l IH]; intros F P; cbn; [repeat constructor|]. destruct (before t c d); [now constructor|].
  inversion P; subst. inversion F; subst. constructor; [rewrite put_perm; constructor; auto|auto].
Qed.
Lemma sorted_pairs : forall (R : change -> change -> Prop) t l, (forall a b, R a b -> R b a) -> ForallOrdPairs R l -> ForallOrdPairs R (sorted_changes t l).
Proof.
  intros R t l S P. induction P as [|c l F P IH]; [constructor|]. cbn. apply put_pairs; auto. rewrite sorted_perm. auto.
Qed.
Lemma apart_sym : forall t c d, apart t c d -> apart t d c.
Proof. intros t c d. unfold apart. destruct c as [a e|a es|p e|p es|p q es], d as [b f|b fs|r f|r fs|r s fs]; cbn; auto; tauto. Qed.

(** * Ranges *)
Lemma element_at_app : forall p q t, element_at t (p ++ q) = match element_at t p with Some e => element_at e q | None => None end.
Proof.
  intros p. induction p as [|i p IH]; intros q t; [reflexivity|]. cbn. destruct t as [k ch|]; auto. destruct (nth_error ch i); auto.
Qed.
Lemma offset_at_app : forall p q t e, element_at t p = Some e -> offset_at t (p ++ q) = offset_at t p + offset_at e q.
Proof.
  intros p. induction p as [|i p IH]; intros q t e H; [cbn in H; injection H as ->; reflexivity|]. cbn in *. destruct t as [k ch|]; [|discriminate]. destruct (nth_error ch i) as [c|]; [|discriminate]. rewrite (IH q c e H). lia.
Qed.
Lemma text_len_le : forall p t e, element_at t p = Some e -> offset_at t p + length (elem_text e) <= length (elem_text t).
Proof.
  intros p. induction p as [|i p IH]; intros t e H; [cbn in H; injection H as ->; cbn; lia|]. cbn in H. destruct t as [k ch|]; [|discriminate]. destruct (nth_error ch i) as [c|] eqn:E; [|discriminate].
  apply IH in H. cbn [offset_at]. rewrite E. apply nth_error_split in E as (a & b & -> & <-). rewrite firstn_app, Nat.sub_diag, firstn_all. cbn [firstn]. rewrite app_nil_r.
  replace (elem_text (TNode k (a ++ c :: b))) with (flat_map elem_text (a ++ c :: b)) by reflexivity. rewrite flat_map_app, app_length. cbn [flat_map]. rewrite app_length. lia.
Qed.
(** two children, the first before the second *)
Lemma siblings_ordered : forall t i j p q e f, i < j -> element_at t (i :: p) = Some e -> element_at t (j :: q) = Some f -> offset_at t (i :: p) + length (elem_text e) <= offset_at t (j :: q).
Proof.
  intros t i j p q e f L Hi Hj. cbn in Hi, Hj. destruct t as [k ch|]; [|discriminate]. destruct (nth_error ch i) as [c|] eqn:E; [|discriminate]. destruct (nth_error ch j) as [d|] eqn:E'; [|discriminate].
  cbn [offset_at]. rewrite E, E'. apply text_len_le in Hi. apply nth_error_split in E as (a & b & -> & La). rewrite !firstn_app. rewrite (firstn_all2 a) by lia. rewrite (firstn_all2 a) by lia.
  replace (i - length a) with 0 by lia. destruct (j - length a) as [|m] eqn:M; [lia|]. cbn [firstn]. rewrite app_nil_r, flat_map_app, app_length. cbn [flat_map]. rewrite app_length. lia.
Qed.
Lemma incomparable : forall p q : place_path, ~ prefix p q -> ~ prefix q p -> exists r i j p' q', i <> j /\ p = r ++ i :: p' /\ q = r ++ j :: q'.
Proof.
  intros p. induction p as [|i p IH]; intros q A B; [exfalso; apply A; exists q; reflexivity|]. destruct q as [|j q]; [exfalso; apply B; exists (i :: p); reflexivity|].
  destruct (Nat.eq_dec i j) as [->|N].
  - destruct (IH q) as (r & x & y & p' & q' & D & -> & ->).
    + intros [r ->]. apply A. exists r. reflexivity.
    + intros [r ->]. apply B. exists r. reflexivity.
    + exists (j :: r), x, y, p', q'. auto.
  - exists [], i, j, p, q. auto.
Qed.
Lemma disjoint_ranges : forall t p q, ~ prefix p q -> ~ prefix q p -> element_at t p <> None -> element_at t q <> None ->
  r_end (range_at t p) <= r_start (range_at t q) \/ r_end (range_at t q) <= r_start (range_at t p).
Proof.
  intros t p q A B Hp Hq. destruct (incomparable p q A B) as (r & i & j & p' & q' & D & -> & ->). unfold range_at, text_at. cbn [r_start r_end].
  destruct (element_at t (r ++ i :: p')) as [e|] eqn:Ep; [|contradiction]. destruct (element_at t (r ++ j :: q')) as [f|] eqn:Eq; [|contradiction]. clear Hp Hq.
  rewrite element_at_app in Ep, Eq. destruct (element_at t r) as [u|] eqn:U; [|discriminate]. rewrite !(offset_at_app r _ t u U).
  destruct (Nat.lt_trichotomy i j) as [L|[L|L]]; [left|contradiction|right].
  - pose proof (siblings_ordered u i j p' q' e f L Ep Eq). lia.
  - pose proof (siblings_ordered u j i q' p' f e L Eq Ep). lia.
Qed.

(** * No conflict, no dependence *)
Lemma text_at_some : forall t p, text_at t p <> [] -> element_at t p <> None.
Proof. intros t p. unfold text_at. destruct (element_at t p); [discriminate|]. intros H. now contradiction H. Qed.
Lemma text_at_len : forall t p, text_at t p <> [] -> 0 < length (text_at t p).
Proof. intros t p H. destruct (text_at t p); [contradiction|cbn; lia]. Qed.
Lemma replaces_removed : forall t c, points_into t c -> replaces c = true -> exists p, removed c = Some p /\ text_at t p <> [] /\ target_range t c = range_at t p.
Proof. intros t c P R. destruct c as [a e|a es|p e|p es|p q es]; try discriminate R; cbn in P; try tauto; exists p; cbn; tauto. Qed.
Lemma disjoint_step : forall t a b, points_into t a -> points_into t b -> apart t a b -> in_order t a b ->
  negb (replaces a && replaces b) || negb (depth (target_parent a) =? depth (target_parent b)) || (r_end (target_range t a) <=? r_start (target_range t b)) = true.
Proof.
  intros t a b Pa Pb A O. destruct (replaces a && replaces b) eqn:R; [|reflexivity]. apply andb_true_iff in R as [Ra Rb]. apply orb_true_iff. right. apply Nat.leb_le.
  destruct (replaces_removed t a Pa Ra) as (p & Hp & Tp & Ep). destruct (replaces_removed t b Pb Rb) as (q & Hq & Tq & Eq). unfold apart in A. rewrite Hp, Hq in A. destruct A as [A1 A2].
  unfold in_order, key, key_le in O. rewrite Ep, Eq in *. destruct (disjoint_ranges t p q A1 A2 (text_at_some t p Tp) (text_at_some t q Tq)) as [L|L]; [lia|].
  apply text_at_len in Tp, Tq. cbn in *. lia.
Qed.
Lemma no_conflict : forall t l, Forall (points_into t) l -> ForallOrdPairs (apart t) l -> StronglySorted (in_order t) l -> disjoint_replaces t l = true.
Proof.
  intros t l P A O. induction l as [|a l IH]; [reflexivity|]. inversion P; subst. inversion A; subst. inversion O; subst. destruct l as [|b l]; [reflexivity|].
  change (disjoint_replaces t (a :: b :: l)) with ((negb (replaces a && replaces b) || negb (depth (target_parent a) =? depth (target_parent b)) || (r_end (target_range t a) <=? r_start (target_range t b))) && disjoint_replaces t (b :: l)).
  rewrite IH by auto. rewrite disjoint_step; auto; [now inversion H2|now inversion H3|now inversion H6].
Qed.
Lemma depends_step : forall t a b r, points_into t a -> points_into t b -> apart t a b -> in_order t a b -> ancestor_range t a = Some r -> contains_range r (target_range t b) = false.
Proof.
  intros t a b r Pa Pb A O R.
  assert (Ra : exists p, removed a = Some p /\ text_at t p <> [] /\ target_range t a = range_at t p /\ r = range_at t p /\ is_node_at t p = true /\ target_parent a = parent p /\ change_rank a = 2).
  { destruct a as [x e|x es|p e|p es|p q es]; try discriminate R; cbn in Pa; try tauto; cbn in R; destruct (is_node_at t p) eqn:N; try discriminate R; injection R as <-; exists p; cbn; tauto. }
  destruct Ra as (p & Hp & Tp & Ep & -> & Np & Dp & Rk). unfold contains_range. apply andb_false_iff. rewrite !Nat.leb_gt.
  destruct (replaces b) eqn:Rb.
  - destruct (replaces_removed t b Pb Rb) as (q & Hq & Tq & Eq). unfold apart in A. rewrite Hp, Hq in A. destruct A as [A1 A2]. rewrite Eq.
    destruct (disjoint_ranges t p q A1 A2 (text_at_some t p Tp) (text_at_some t q Tq)) as [L|L]; apply text_at_len in Tp, Tq; cbn in *; lia.
  - assert (SB : exists x, removed b = None /\ spot b = Some x /\ target_range t b = mkRange (place_offset t x) (place_offset t x) /\ target_parent b = place_parent x /\ change_rank b = 0).
    { destruct b as [x e|x es|q e|q es|q q' es]; try discriminate Rb; exists x; cbn; auto. }
    destruct SB as (x & Nb & Sb & Eb & Db & Rkb). unfold apart in A. rewrite Hp, Nb, Sb in A. assert (A' : clear_of t x p) by (destruct (spot a); exact A). clear A. destruct A' as (_ & _ & A). specialize (A Np).
    unfold in_order, key, key_le, depth in O. rewrite Ep, Eb, Dp, Db, Rk, Rkb in O. rewrite Eb. cbn [r_start r_end range_at] in *. apply text_at_len in Tp. lia.
Qed.
Lemma no_dependent : forall t l i anc, Forall (points_into t) l -> ForallOrdPairs (apart t) l -> StronglySorted (in_order t) l ->
  (forall r j c, In (r, j) anc -> In c l -> contains_range r (target_range t c) = false) -> dependent_changes t i l anc = [].
Proof.
  intros t l. induction l as [|c l IH]; intros i anc P A O H; [reflexivity|]. inversion P; subst. inversion A; subst. inversion O; subst. cbn.
  replace (position (fun a => contains_range (fst a) (target_range t c)) (rev anc)) with (@None nat).
  - apply IH; auto. intros r j d I J. cbn in I. destruct (ancestor_range t c) as [r'|] eqn:R; [|destruct I]. destruct I as [[= <- <-]|[]]. rewrite Forall_forall in *. eapply depends_step; eauto.
  - symmetry. assert (X : forall x, In x (rev anc) -> contains_range (fst x) (target_range t c) = false) by (intros [r j] I; apply in_rev in I; apply (H r j c I); now left).
    revert X. generalize (rev anc). clear. intros l. induction l as [|x l IH]; intros X; [reflexivity|]. cbn. rewrite X by now left. rewrite IH; [reflexivity|]. intros y Y. apply X. now right.
Qed.

(** * Finding an element again *)
Lemma resolve_from_self : forall t, no_twins t -> forall rest done p, p = done ++ rest -> resolve_from t p done rest = p.
Proof.
  intros t NT rest. induction rest as [|i rest IH]; intros done p E; cbn.
  - rewrite app_nil_r in E. subst. destruct (same_ptr t done done); reflexivity.
  - destruct (same_ptr t done p) eqn:S.
    + unfold same_ptr in S. destruct (element_at t done) as [[k ch|]|] eqn:E1; try discriminate. destruct (element_at t p) as [[k' ch'|]|] eqn:E2; try discriminate.
      apply andb_true_iff in S as [S L]. apply andb_true_iff in S as [K O]. apply kind_eqb_spec in K. subst k'. apply Nat.eqb_eq in L, O. apply (NT done p k ch ch'); auto; [now exists (i :: rest)|]. unfold range_at. congruence.
    + apply IH. rewrite E, <- app_assoc. reflexivity.
Qed.
Lemma resolve_node_self : forall t p, no_twins t -> resolve_node t p = p.
Proof. intros. now apply resolve_from_self. Qed.
Lemma resolve_self : forall t p, no_twins t -> p <> [] \/ is_node_at t p = true -> resolve t p = p.
Proof.
  intros t p NT H. unfold resolve. destruct (is_node_at t p) eqn:N; [now apply resolve_node_self|]. rewrite resolve_node_self by auto. destruct H as [H|H]; [|discriminate]. symmetry. apply app_removelast_last. exact H.
Qed.
Lemma resolve_change_self : forall t c, no_twins t -> is_node_at t [] = true -> points_into t c -> resolve_change t c = c.
Proof.
  intros t c NT R P. destruct c as [a e|a es|p e|p es|p q es]; cbn in *; try tauto.
  1,2: destruct a as [p|p]; cbn; [rewrite resolve_node_self by auto; reflexivity|rewrite resolve_self; [reflexivity|auto|left; tauto]].
  1,2: rewrite resolve_self; auto; destruct p; [right; auto|left; discriminate].
Qed.
