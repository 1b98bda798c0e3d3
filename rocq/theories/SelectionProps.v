(** Expanding the selection: it always grows, skips nothing, and ends with the whole file. *)
From Coq Require Import String.
Close Scope string_scope.
From Verif Require Import Base SyntaxKind TextEditModel TreeSinkModel TreeSinkSpec TreeDiffModel TreeDiffSpec TreeDiffProofs EditorModel EditorSpec EditorProofs EditorOrder AddressModel LexerProps GrammarProps SelectionModel SelectionProofs.
Close Scope N_scope.
Open Scope nat_scope.

(** ** The parts *)
Section grow.
Variable word_char : text -> bool.

Lemma chars_concat x : concat (chars x) = x.
Proof.
  induction x as [|b x IH]; [reflexivity|]. cbn. destruct x as [|c x]; [reflexivity|]. destruct (is_cont c).
  - destruct (chars (c :: x)) as [|y ys]; [discriminate|]. cbn in *. now rewrite IH.
  - cbn [concat app]. now rewrite IH.
Qed.
Lemma after_last_gap_le cs : forall pos k, after_last_gap word_char pos cs = Some k -> pos <= k <= pos + length (concat cs).
Proof.
  induction cs as [|c cs IH]; intros pos k; cbn; [discriminate|]. rewrite app_length. destruct (after_last_gap word_char (pos + length c) cs) as [k'|] eqn:E.
  - intros H. inversion H; subst. apply IH in E. lia.
  - destruct (word_char c); [discriminate|]. intros H. inversion H; subst. lia.
Qed.
Lemma first_gap_le cs : forall pos, pos <= first_gap word_char pos cs <= pos + length (concat cs).
Proof.
  induction cs as [|c cs IH]; intros pos; cbn; [lia|]. rewrite app_length. destruct (word_char c); [|lia]. pose proof (IH (pos + length c)). lia.
Qed.
Lemma some_eq {A} (a b : A) : Some a = Some b -> b = a. Proof. congruence. Qed.
Definition point (o : nat) : range := mkRange o o.
Lemma extend_word_inside t p o r : r_start (range_at t p) <= o <= r_end (range_at t p) -> extend_word word_char t p o = Ok (Some r) ->
  inside (point o) r /\ inside r (range_at t p) /\ r_start r < r_end r.
Proof.
  unfold extend_word. destruct (negb _); [discriminate|]. set (x := text_at t p). set (k := o - offset_at t p). intros L.
  assert (K : k <= length x /\ offset_at t p + k = o) by (unfold range_at, k in *; fold x in L; cbn in L; lia).
  destruct (after_last_gap _ 0 _) as [from|] eqn:A; [|discriminate]. apply after_last_gap_le in A. rewrite chars_concat, firstn_length in A.
  pose proof (first_gap_le (chars (skipn k x)) 0) as B. rewrite chars_concat, skipn_length in B.
  destruct (from =? _) eqn:E; [discriminate|]. apply Nat.eqb_neq in E. intros H. inversion H; subst r. unfold inside, range_at. cbn. fold x. lia.
Qed.
Lemma last_newline_some x : forall pos k, last_newline pos x = Some k -> pos <= k < pos + length x.
Proof.
  induction x as [|b x IH]; intros pos k; cbn; [discriminate|]. destruct (last_newline (S pos) x) as [k'|] eqn:E; [intros H; inversion H; subst; apply IH in E; lia|].
  destruct (b =? 10)%N; [|discriminate]. intros H. inversion H. lia.
Qed.
Lemma last_newline_none x : forall pos, last_newline pos x = None -> has_newline x = false.
Proof.
  unfold has_newline. induction x as [|b x IH]; intros pos; [reflexivity|]. cbn [last_newline existsb]. destruct (last_newline (S pos) x) as [k'|] eqn:E; [discriminate|].
  rewrite (N.eqb_sym 10). destruct (b =? 10)%N; [discriminate|]. intros _. apply (IH _ E).
Qed.
(** Whitespace ends at the cursor, an empty element follows it, and nothing but whitespace touches the cursor. *)
Definition stuck (t : tree) (o : nat) : Prop :=
  exists q i, is_kind_at t (q ++ [i]) WHITESPACE = true /\ r_end (range_at t (q ++ [i])) = o /\
    exists_at t (q ++ [S i]) /\ text_at t (q ++ [S i]) = [] /\
    forall p k x, element_at t p = Some (TTok k x) -> x <> [] -> r_start (range_at t p) <= o <= r_end (range_at t p) -> k = WHITESPACE.

Lemma extend_ws_grows t p o r : exists_at t p -> r_start (range_at t p) < r_end (range_at t p) -> r_start (range_at t p) <= o <= r_end (range_at t p) ->
  (r_end (range_at t p) = o -> forall q i, p = q ++ [i] -> exists_at t (q ++ [S i]) -> text_at t (q ++ [S i]) <> []) ->
  extend_ws t p o = Ok r -> inside (point o) r /\ inside r (file_range t) /\ r_start r < r_end r.
Proof.
  intros X Ne L Free. unfold extend_ws. destruct (negb (is_char_boundary _ _)); [discriminate|]. set (x := text_at t p). set (s := offset_at t p).
  assert (O : s + (o - s) = o /\ o - s <= length x) by (unfold range_at in L; fold x s in L; cbn in L; lia).
  pose proof (range_file t p X) as F.
  assert (Own : forall r, Ok (range_at t p) = Ok r -> inside (point o) r /\ inside r (file_range t) /\ r_start r < r_end r).
  { intros r' H. inversion H; subst r'. split; [unfold inside, point; cbn -[range_at]; lia|auto]. }
  destruct (has_newline x && _) eqn:N; [|apply Own]. apply andb_true_iff in N as [N1 N2]. apply negb_true_iff in N2.
  unfold next_sibling. destruct (rev p) as [|i rq] eqn:R; [apply Own|].
  assert (P : p = rev rq ++ [i]) by (rewrite <- (rev_involutive p), R; reflexivity).
  destruct (element_at t (rev rq ++ [S i])) as [e|] eqn:E; [|apply Own].
  assert (Xq : exists_at t (rev rq ++ [S i])) by (unfold exists_at; congruence).
  pose proof (siblings_next t (rev rq) i Xq) as Adj. rewrite <- P in Adj. pose proof (range_file t _ Xq) as Fq. pose proof (range_order t (rev rq ++ [S i])) as Oq.
  assert (Ne' : r_end (range_at t p) = o -> r_start (range_at t (rev rq ++ [S i])) < r_end (range_at t (rev rq ++ [S i]))).
  { intros Eo. pose proof (Free Eo _ _ P Xq) as T. unfold range_at. cbn. destruct (text_at t (rev rq ++ [S i])); [congruence|cbn; lia]. }
  destruct (last_newline 0 (firstn (o - s) x)) as [k|] eqn:K.
  2:{ apply last_newline_none in K. exfalso. unfold has_newline in *. rewrite <- (firstn_skipn (o - s) x) in N1. apply existsb_exists in N1 as (b & Hb & B). apply in_app_iff in Hb as [Hb|Hb].
      - assert (T : existsb (N.eqb 10) (firstn (o - s) x) = true) by (apply existsb_exists; eauto). pose proof (eq_trans (eq_sym T) K). discriminate.
      - assert (T : existsb (N.eqb 10) (skipn (o - s) x) = true) by (apply existsb_exists; eauto). pose proof (eq_trans (eq_sym T) N2). discriminate. }
  apply last_newline_some in K. rewrite firstn_length in K.
  set (q := rev rq ++ [S i]) in *.
  assert (Sp : r_start (range_at t p) = s) by reflexivity.
  assert (En : forall e', e' = match nth_error (elem_text t) (r_end (range_at t q)) with Some b => if (b =? 10)%N then r_end (range_at t q) + 1 else r_end (range_at t q) | None => r_end (range_at t q) end ->
    r_end (range_at t q) <= e' <= length (elem_text t)).
  { destruct Fq as [_ Fq]. change (r_end (file_range t)) with (length (elem_text t)) in Fq.
    destruct (nth_error (elem_text t) (r_end (range_at t q))) as [b|] eqn:B; [|intros e' ->; lia]. assert (r_end (range_at t q) < length (elem_text t)) by (apply nth_error_Some; congruence).
    destruct (b =? 10)%N; intros e' ->; lia. }
  intros H. assert (Hr : exists e', r = mkRange (s + (k + 1)) e' /\ r_end (range_at t q) <= e' <= length (elem_text t)) by (eexists; split; [symmetry; injection H as H; exact H | apply En; reflexivity]).
  destruct Hr as (e' & -> & En'). unfold inside, point, file_range. change (r_start (mkRange ?a ?b)) with a. change (r_end (mkRange ?a ?b)) with b. lia.
Qed.

(** *** List items and comments *)
Definition solid (t : tree) : Prop := forall p k x, element_at t p = Some (TTok k x) -> x <> [].
Lemma span_inside t q i j : i <= j -> exists_at t (q ++ [i]) -> exists_at t (q ++ [j]) ->
  let r := mkRange (r_start (range_at t (q ++ [i]))) (r_end (range_at t (q ++ [j]))) in
  inside r (range_at t q) /\ forall m, i <= m <= j -> exists_at t (q ++ [m]) -> inside (range_at t (q ++ [m])) r.
Proof.
  intros L A B r. pose proof (range_prefix t q [i] A). pose proof (range_prefix t q [j] B). pose proof (range_order t (q ++ [i])). pose proof (range_order t (q ++ [j])).
  split.
  - unfold inside, r in *. cbn [r_start r_end] in *. lia.
  - intros m M X. pose proof (range_order t (q ++ [m])). unfold inside, r. cbn [r_start r_end].
    assert (r_start (range_at t (q ++ [i])) <= r_start (range_at t (q ++ [m]))).
    { destruct (Nat.eq_dec i m) as [->|]; [lia|]. pose proof (siblings_range t q i m ltac:(lia) A X). lia. }
    assert (r_end (range_at t (q ++ [m])) <= r_end (range_at t (q ++ [j]))).
    { destruct (Nat.eq_dec j m) as [->|]; [lia|]. pose proof (siblings_range t q m j ltac:(lia) X B). lia. }
    lia.
Qed.
Lemma nearby_comma_at l : forall d n, nearby_comma d l = Some n -> d <= n /\ exists x, nth_error l (n - d) = Some (TTok COMMA x).
Proof.
  induction l as [|e l IH]; intros d n; cbn; [discriminate|]. destruct (single_line_ws e).
  - intros H. apply IH in H as (A & x & B). split; [lia|]. exists x. replace (n - d) with (S (n - S d)) by lia. exact B.
  - destruct e as [? ?|k x]; cbn; [discriminate|]. destruct k; try discriminate. intros H. inversion H; subst. rewrite Nat.sub_diag. split; [lia|]. exists x. reflexivity.
Qed.
Lemma nth_rev_firstn {A} (l : list A) i n e : i <= length l -> nth_error (rev (firstn i l)) n = Some e -> n < i /\ nth_error l (i - 1 - n) = Some e.
Proof.
  intros L H. assert (N : n < i) by (assert (n < length (rev (firstn i l))) by (apply nth_error_Some; congruence); rewrite rev_length, firstn_length in *; lia).
  split; [exact N|]. assert (X : nth_error (rev (firstn i l)) n = nth_error (firstn i l) (i - 1 - n)).
  { destruct (nth_error (firstn i l) (i - 1 - n)) as [f|] eqn:F.
    - destruct (nth_error_split _ _ F) as (a & b & Eq & La). rewrite Eq. rewrite rev_app_distr. cbn. rewrite <- app_assoc. cbn.
      assert (length (firstn i l) = i) by (rewrite firstn_length; lia). rewrite Eq, app_length in H0. cbn in H0. rewrite nth_error_app2 by (rewrite rev_length; lia).
      rewrite rev_length. replace (n - length b) with 0 by lia. reflexivity.
    - apply nth_error_None in F. rewrite firstn_length in F. lia. }
  rewrite X in H. rewrite <- (firstn_skipn i l), nth_error_app1; [exact H|]. rewrite firstn_length. lia.
Qed.
Lemma nth_skipn {A} (l : list A) i n : nth_error (skipn i l) n = nth_error l (i + n).
Proof. revert l. induction i as [|i IH]; intros l; cbn; [reflexivity|]. destruct l; [destruct n; reflexivity|]. apply IH. Qed.
Lemma token_wide t q i k x : solid t -> nth_error (children_of t q) i = Some (TTok k x) -> r_start (range_at t (q ++ [i])) < r_end (range_at t (q ++ [i])).
Proof.
  intros W H. apply child_at in H. pose proof (W _ _ _ H) as N. unfold range_at, text_at. rewrite H. cbn. destruct x; [congruence|cbn; lia].
Qed.
Lemma child_exists t q i e : nth_error (children_of t q) i = Some e -> exists_at t (q ++ [i]).
Proof. intros H. apply child_at in H. unfold exists_at. congruence. Qed.
(** a stretch of siblings around the i-th one that has a token besides it *)
Lemma stretch_grows t q i j a b k x : solid t -> a <= i <= b -> a <= j <= b -> i <> j -> nth_error (children_of t q) j = Some (TTok k x) -> exists_at t (q ++ [i]) -> exists_at t (q ++ [a]) -> exists_at t (q ++ [b]) ->
  let r := mkRange (r_start (range_at t (q ++ [a]))) (r_end (range_at t (q ++ [b]))) in
  inside (range_at t (q ++ [i])) r /\ inside r (range_at t q) /\ r <> range_at t (q ++ [i]).
Proof.
  intros W I J Ne C Xi Xa Xb r. pose proof (child_exists _ _ _ _ C) as Xj. pose proof (token_wide _ _ _ _ _ W C) as Wd.
  destruct (span_inside t q a b ltac:(lia) Xa Xb) as [In Mem]. fold r in In, Mem. pose proof (Mem i I Xi) as Mi. pose proof (Mem j J Xj) as Mj.
  repeat split; try apply Mi; try apply In. intros E. rewrite E in Mj. destruct (Nat.lt_ge_cases i j).
  - pose proof (siblings_range t q i j ltac:(lia) Xi Xj). unfold inside in Mj. lia.
  - pose proof (siblings_range t q j i ltac:(lia) Xj Xi). unfold inside in Mj. lia.
Qed.
Lemma list_item_grows t q i r : solid t -> exists_at t (q ++ [i]) -> extend_list_item t q i = Some r ->
  inside (range_at t (q ++ [i])) r /\ inside r (range_at t q) /\ r <> range_at t (q ++ [i]).
Proof.
  intros W X. unfold extend_list_item. destruct (exist_children t q i X) as (e & Ei & _). assert (Li : i < length (children_of t q)) by (apply nth_error_Some; congruence).
  destruct (nearby_comma 1 (skipn (S i) (children_of t q))) as [d|] eqn:D.
  - apply nearby_comma_at in D as (D & x & C). rewrite nth_skipn in C. replace (S i + (d - 1)) with (i + d) in C by lia. intros H. apply some_eq in H. subst r.
    destruct (nth_error (children_of t q) (S (i + d))) as [f|] eqn:F; [destruct (single_line_ws f)|].
    + eapply stretch_grows with (j := i + d); eauto using child_exists; lia.
    + eapply stretch_grows with (j := i + d); eauto using child_exists; lia.
    + eapply stretch_grows with (j := i + d); eauto using child_exists; lia.
  - destruct (nearby_comma 1 (rev (firstn i (children_of t q)))) as [d|] eqn:D2; [|discriminate]. apply nearby_comma_at in D2 as (D2 & x & C).
    apply nth_rev_firstn in C; [|lia]. destruct C as [Lt C]. replace (i - 1 - (d - 1)) with (i - d) in C by lia. intros H. apply some_eq in H. subst r.
    eapply stretch_grows with (j := i - d); eauto using child_exists; lia.
Qed.
Lemma adj_comments_at l : forall d best n, adj_comments d best l = n -> n = best \/ (d <= n /\ exists x, nth_error l (n - d) = Some (TTok COMMENT x)).
Proof.
  induction l as [|e l IH]; intros d best n; cbn; [auto|]. destruct e as [? ?|k x]; [auto|]. destruct k; auto.
  - destruct (has_blank_line x); [auto|]. intros H. apply IH in H as [H|(A & y & B)]; [auto|]. right. split; [lia|]. exists y. replace (n - d) with (S (n - S d)) by lia. exact B.
  - intros H. apply IH in H as [H|(A & y & B)]; right.
    + subst n. rewrite Nat.sub_diag. split; [lia|]. now exists x.
    + split; [lia|]. exists y. replace (n - d) with (S (n - S d)) by lia. exact B.
Qed.
Lemma comments_grow t q i r : solid t -> exists_at t (q ++ [i]) -> extend_comments t q i = Some r ->
  inside (range_at t (q ++ [i])) r /\ inside r (range_at t q) /\ r <> range_at t (q ++ [i]).
Proof.
  intros W X. unfold extend_comments. destruct (exist_children t q i X) as (e & Ei & _). assert (Li : i < length (children_of t q)) by (apply nth_error_Some; congruence).
  set (nx := adj_comments 1 0 (skipn (S i) (children_of t q))). set (pv := adj_comments 1 0 (rev (firstn i (children_of t q)))).
  destruct (adj_comments_at _ _ _ _ (eq_refl nx)) as [N|(Nn & x & C)]; destruct (adj_comments_at _ _ _ _ (eq_refl pv)) as [P|(Pn & y & D)].
  - rewrite N, P. cbn. discriminate.
  - rewrite N. apply nth_rev_firstn in D; [|lia]. destruct D as [Lt D]. replace (i - 1 - (pv - 1)) with (i - pv) in D by lia.
    replace (pv =? 0) with false by (symmetry; apply Nat.eqb_neq; lia). cbn [andb]. intros H. apply some_eq in H. subst r. rewrite Nat.add_0_r.
    eapply stretch_grows with (j := i - pv); eauto using child_exists; lia.
  - rewrite P. rewrite nth_skipn in C. replace (S i + (nx - 1)) with (i + nx) in C by lia. replace (nx =? 0) with false by (symmetry; apply Nat.eqb_neq; lia).
    rewrite andb_false_r. intros H. apply some_eq in H. subst r. rewrite Nat.sub_0_r. eapply stretch_grows with (j := i + nx); eauto using child_exists; lia.
  - rewrite nth_skipn in C. replace (S i + (nx - 1)) with (i + nx) in C by lia. apply nth_rev_firstn in D; [|lia]. destruct D as [Lt D]. replace (i - 1 - (pv - 1)) with (i - pv) in D by lia.
    replace (nx =? 0) with false by (symmetry; apply Nat.eqb_neq; lia). rewrite andb_false_r. intros H. apply some_eq in H. subst r.
    eapply stretch_grows with (j := i + nx); eauto using child_exists; lia.
Qed.

(** *** From the covering element on *)
Lemma prefix_inside t p q : prefix p q -> exists_at t q -> inside (range_at t q) (range_at t p) /\ exists_at t p.
Proof. intros [s ->] X. split; [now apply range_prefix | eapply exists_prefix; eauto]. Qed.
Lemma prefix_snoc q p i : prefix q (p ++ [i]) -> q = p ++ [i] \/ prefix q p.
Proof.
  intros [s H]. destruct s as [|j s _] using rev_ind; [left; now rewrite app_nil_r in H|]. rewrite app_assoc in H. apply app_inj_tail in H as [-> _]. right. now exists s.
Qed.
Lemma inside_antisym a b : inside a b -> inside b a -> a = b.
Proof. destruct a, b; unfold inside; cbn. intros. f_equal; lia. Qed.
Lemma prefixes_of p q s : prefix p s -> prefix q s -> prefix p q \/ prefix q p.
Proof.
  intros [a ->]. revert q. induction p as [|x p IH]; intros q [b H]; [left; now exists q|]. destruct q as [|y q]; [right; now exists (x :: p)|].
  cbn in H. inversion H; subst y. destruct (IH q (ex_intro _ b H2)) as [[c ->]|[c ->]]; [left | right]; now exists c.
Qed.
(** everything [extend_node] gives lies around the range and inside every element properly around it *)
Definition fits (t : tree) (r r' : range) (p : place_path) : Prop :=
  inside r r' /\ r' <> r /\ inside r' (file_range t) /\ forall q, prefix q p -> range_at t q <> r -> inside r' (range_at t q).
Lemma extend_node_fits t r p r' : solid t -> exists_at t p -> inside r (range_at t p) -> extend_node t r p = Some r' -> fits t r r' p.
Proof.
  intros W X In. unfold extend_node. destruct (same_range (range_at t p) r) eqn:E; cbn [negb].
  - apply same_range_spec in E. destruct (climb_spec t (range_at t p) (rev p)) as (P & R & M); try (rewrite rev_involutive); [exact X|reflexivity|]. rewrite rev_involutive in P.
    fold (shallowest t p) in *. destruct (rev (shallowest t p)) as [|i rq] eqn:S; [discriminate|].
    assert (Sq : shallowest t p = rev rq ++ [i]) by (rewrite <- (rev_involutive (shallowest t p)), S; reflexivity).
    destruct (prefix_inside t _ _ P X) as [_ Xs]. rewrite Sq in *. rewrite E in R, M.
    pose proof (range_prefix t (rev rq) [i] Xs) as Up. rewrite R in Up. pose proof (exists_prefix _ _ _ Xs) as Xq. pose proof (range_file t _ Xq) as Fq.
    assert (Around : forall q, prefix q p -> range_at t q <> r -> inside (range_at t (rev rq)) (range_at t q)).
    { intros q Q Nq. destruct (prefixes_of q (rev rq ++ [i]) p Q P) as [B|B].
      - apply prefix_snoc in B as [->|B]; [congruence|]. now apply prefix_inside.
      - exfalso. apply Nq. apply inside_antisym.
        + destruct (prefix_inside t _ _ Q X) as [_ Xq']. destruct (prefix_inside t _ _ B Xq') as [I1 _]. now rewrite R in I1.
        + rewrite <- E. apply prefix_inside; assumption. }
    intros H. assert (C : (extend_list_item t (rev rq) i = Some r') \/ r' = range_at t (rev rq)).
    { destruct (match kind_at t (rev rq) with Some k => list_kind k | None => false end); [destruct (extend_list_item t (rev rq) i) as [y|]|]; inversion H; auto. }
    destruct C as [C| ->].
    + apply list_item_grows in C as (A & B & D); [|assumption..]. rewrite R in A, D. refine (conj A (conj D (conj (inside_trans _ _ _ B Fq) _))). intros q Q Nq. exact (inside_trans _ _ _ B (Around q Q Nq)).
    + exact (conj Up (conj M (conj Fq Around))).
  - intros H. apply some_eq in H. subst r'. assert (range_at t p <> r) by (intros Z; apply same_range_spec in Z; congruence). pose proof (range_file t p X).
    refine (conj In (conj H (conj H0 _))). intros q Q _. now apply prefix_inside.
Qed.
Lemma extend_node_none t r p : exists_at t p -> inside r (range_at t p) -> extend_node t r p = None -> r = file_range t.
Proof.
  intros X In. unfold extend_node. destruct (same_range (range_at t p) r) eqn:E; cbn [negb]; [|discriminate]. apply same_range_spec in E.
  destruct (climb_spec t (range_at t p) (rev p)) as (P & R & M); try (rewrite rev_involutive); [exact X|reflexivity|]. fold (shallowest t p) in *.
  destruct (rev (shallowest t p)) as [|i rq] eqn:S.
  - intros _. assert (Sq : shallowest t p = []) by (rewrite <- (rev_involutive (shallowest t p)), S; reflexivity). rewrite Sq in R. rewrite <- E, <- R. reflexivity.
  - destruct (match kind_at t (rev rq) with Some k => list_kind k | None => false end); [destruct (extend_list_item t (rev rq) i)|]; discriminate.
Qed.
Lemma fits_weaken t r r' p i : fits t r r' p -> inside (range_at t (p ++ [i])) r -> inside r (range_at t (p ++ [i])) -> fits t r r' (p ++ [i]).
Proof.
  intros (A & B & C & D) I1 I2. refine (conj A (conj B (conj C _))). intros q Q Nq.
  destruct (prefix_snoc _ _ _ Q) as [->|Q']; [exfalso; apply Nq; now apply inside_antisym | now apply D].
Qed.
(** a selection that is not empty *)
Lemma extend_wide t r : solid t -> r_start r < r_end r -> inside r (file_range t) ->
  exists r', extend_selection word_char t r = Ok r' /\ (r' = r -> r = file_range t) /\ inside r r' /\ inside r' (file_range t) /\
    forall q, exists_at t q -> inside r (range_at t q) -> range_at t q <> r -> inside r' (range_at t q).
Proof.
  intros W O F. unfold extend_selection, try_extend. replace (length (elem_text t) <? r_end r) with false by (symmetry; apply Nat.ltb_ge; apply F).
  unfold r_is_empty. replace (r_start r =? r_end r) with false by (symmetry; apply Nat.eqb_neq; lia).
  destruct (covering_range t r ltac:(lia) F) as [X In]. pose proof (fun q => covering_deepest t r q O F) as Deep. set (p := covering 0 t r) in *.
  assert (Done : forall r', fits t r r' p -> (r' = r -> r = file_range t) /\ inside r r' /\ inside r' (file_range t) /\
    forall q, exists_at t q -> inside r (range_at t q) -> range_at t q <> r -> inside r' (range_at t q)).
  { intros r' (A & B & C & D). split; [congruence|]. split; [exact A|]. split; [exact C|]. intros q Xq Iq. apply D. now apply Deep. }
  assert (Whole : r = file_range t -> (r = r -> r = file_range t) /\ inside r r /\ inside r (file_range t) /\
    forall q, exists_at t q -> inside r (range_at t q) -> range_at t q <> r -> inside r (range_at t q)).
  { intros E. split; [auto|]. split; [apply inside_refl|]. split; [exact F|]. auto. }
  assert (Node : forall u, exists_at t u -> inside r (range_at t u) -> (forall r', fits t r r' u -> fits t r r' p) ->
    exists r', bind (Ok (extend_node t r u)) (fun x => Ok match x with Some y => y | None => r end) = Ok r' /\ (r' = r -> r = file_range t) /\ inside r r' /\ inside r' (file_range t) /\
    forall q, exists_at t q -> inside r (range_at t q) -> range_at t q <> r -> inside r' (range_at t q)).
  { intros u Xu Iu Wk. cbn [bind]. destruct (extend_node t r u) as [y|] eqn:E.
    - exists y. split; [reflexivity|]. apply Done, Wk. eapply extend_node_fits; eauto.
    - exists r. split; [reflexivity|]. apply Whole. eapply extend_node_none; eauto. }
  destruct (element_at t p) as [e|] eqn:Ep; [|exfalso; now apply X]. destruct e as [k ch|k x]; [apply Node; auto|].
  destruct (same_range (range_at t p) r) eqn:E; cbn [negb].
  - apply same_range_spec in E. destruct (rev p) as [|i rq] eqn:R.
    + exists r. split; [reflexivity|]. apply Whole. assert (p = []) by (rewrite <- (rev_involutive p), R; reflexivity). rewrite H in E. now rewrite <- E.
    + assert (Pq : p = rev rq ++ [i]) by (rewrite <- (rev_involutive p), R; reflexivity). rewrite Pq in *.
      pose proof (exists_prefix _ _ _ X) as Xq. pose proof (range_prefix t (rev rq) [i] X) as Up. rewrite E in Up.
      destruct (if kind_eqb k COMMENT then extend_comments t (rev rq) i else None) as [y|] eqn:C.
      * destruct (kind_eqb k COMMENT); [|discriminate]. apply comments_grow in C as (A & B & D); [|assumption..]. rewrite E in A, D. exists y. split; [reflexivity|]. apply Done.
        pose proof (range_file t _ Xq) as Fq. apply fits_weaken; try (rewrite E; apply inside_refl). refine (conj A (conj D (conj (inside_trans _ _ _ B Fq) _))).
        intros q Q _. apply (inside_trans _ _ _ B). now apply prefix_inside.
      * apply Node; auto. intros r' H. apply fits_weaken; try (rewrite E; apply inside_refl). exact H.
  - exists (range_at t p). split; [reflexivity|]. apply Done. assert (range_at t p <> r) by (intros Z; apply same_range_spec in Z; congruence). pose proof (range_file t p X).
    refine (conj In (conj H (conj H0 _))). intros q Q _. now apply prefix_inside.
Qed.

(** *** The cursor *)
Lemma slice t : forall p e, element_at t p = Some e -> exists a b, elem_text t = a ++ elem_text e ++ b /\ length a = offset_at t p.
Proof.
  intros p. revert t. induction p as [|i p IH]; intros t e H; cbn in H.
  - inversion H; subst e. exists [], []. cbn. rewrite app_nil_r. auto.
  - destruct t as [k ch|]; [|discriminate]. destruct (nth_error ch i) as [c|] eqn:C; [|discriminate]. destruct (IH c e H) as (a & b & E & L).
    destruct (nth_error_split _ _ C) as (u & v & -> & <-). rewrite child_offset. exists (flat_map elem_text u ++ a), (b ++ flat_map elem_text v). cbn [elem_text].
    rewrite flat_map_app. cbn [flat_map]. rewrite E, !app_length, L, <- !app_assoc. auto.
Qed.
Lemma boundary_at t p o e : element_at t p = Some e -> r_start (range_at t p) <= o <= r_end (range_at t p) -> is_char_boundary (elem_text t) o = true -> is_char_boundary (text_at t p) (o - offset_at t p) = true.
Proof.
  intros E. destruct (slice t p e E) as (a & b & T & L). unfold range_at, text_at. rewrite E. cbn [r_start r_end]. intros [A B]. unfold is_char_boundary. rewrite T, <- L in *.
  destruct (o - length a =? 0) eqn:Z; [reflexivity|]. destruct (o - length a =? length (elem_text e)) eqn:Z2; [reflexivity|]. apply Nat.eqb_neq in Z, Z2.
  destruct (o =? 0) eqn:Z3; [apply Nat.eqb_eq in Z3; lia|]. rewrite !app_length.
  destruct (o =? length a + (length (elem_text e) + length b)) eqn:Z4; [apply Nat.eqb_eq in Z4; lia|].
  rewrite nth_error_app2 by lia. rewrite nth_error_app1 by lia. auto.
Qed.
Lemma go_tokens_nodup p ch : forall i, Forall (fun t => forall p, NoDup (tokens_from p t)) ch -> NoDup (go_tokens p i ch).
Proof.
  induction ch as [|c ch IH]; intros i F; cbn; [constructor|]. inversion F; subst. rewrite <- (rev_involutive (tokens_from _ _)) at 1.
  assert (D : forall x, In x (tokens_from (p ++ [i]) c) -> ~ In x (go_tokens p (S i) ch)).
  { intros x A B. apply tokens_in in A as (s & k & y & -> & _). apply go_tokens_in in B as (j & d & _ & B). apply tokens_in in B as (s' & k' & y' & B & _).
    rewrite <- !app_assoc in B. apply app_inv_head in B. cbn in B. inversion B. lia. }
  rewrite rev_involutive. specialize (H1 (p ++ [i])). specialize (IH (S i) H2). clear - D H1 IH. induction (tokens_from (p ++ [i]) c) as [|x l IHl]; [exact IH|].
  cbn. inversion H1; subst. constructor.
  - rewrite in_app_iff. intros [A|A]; [auto|]. eapply D; [left; reflexivity|exact A].
  - apply IHl; [assumption|]. intros y Y. apply D. now right.
Qed.
Lemma tokens_nodup t : forall p, NoDup (tokens_from p t).
Proof.
  induction t as [k ch IH|k x] using tree_ind2; intros p; [|cbn; constructor; [auto|constructor]]. rewrite tokens_node. now apply go_tokens_nodup.
Qed.
Lemma tokens_disjoint t p q k x k' x' : element_at t p = Some (TTok k x) -> element_at t q = Some (TTok k' x') -> p <> q ->
  r_end (range_at t p) <= r_start (range_at t q) \/ r_end (range_at t q) <= r_start (range_at t p).
Proof.
  intros P Q N. assert (Leaf : forall u v k x, element_at t u = Some (TTok k x) -> exists_at t v -> prefix u v -> u = v).
  { intros u v k0 x0 U V [s ->]. unfold exists_at in V. rewrite element_at_app, U in V. destruct s; [now rewrite app_nil_r|]. cbn in V. congruence. }
  assert (X : exists_at t p) by (unfold exists_at; congruence). assert (Y : exists_at t q) by (unfold exists_at; congruence).
  apply disjoint_ranges; auto; intros H; apply N.
  - eapply Leaf; eauto.
  - symmetry. eapply Leaf; eauto.
Qed.
Definition touching (t : tree) (o : nat) (p : place_path) : Prop :=
  (exists k x, element_at t p = Some (TTok k x) /\ x <> []) /\ r_start (range_at t p) <= o <= r_end (range_at t p).
Lemma token_at_touching t o p : In p (token_at_offset t o) <-> touching t o p.
Proof.
  rewrite token_at_in. unfold touching. split.
  - intros ((k & x & E) & A & B). split; [|exact B]. exists k, x. split; [exact E|]. unfold range_at, text_at in A. rewrite E in A. cbn in A. intros ->. cbn in A. lia.
  - intros ((k & x & E & N) & B). split; [eauto|]. split; [|exact B]. unfold range_at, text_at. rewrite E. cbn. destruct x; [congruence|cbn; lia].
Qed.
Lemma token_at_two t o : length (token_at_offset t o) <= 2.
Proof.
  assert (N : NoDup (token_at_offset t o)) by (apply NoDup_filter, tokens_nodup). remember (token_at_offset t o) as l eqn:El. assert (F : forall p, In p l -> In p (token_at_offset t o)) by (subst; auto). clear El.
  destruct l as [|a [|b [|c l]]]; cbn; try lia. exfalso.
  assert (A : In a (token_at_offset t o)) by (apply F; cbn; auto). assert (B : In b (token_at_offset t o)) by (apply F; cbn; auto). assert (C : In c (token_at_offset t o)) by (apply F; cbn; auto).
  apply token_at_in in A as ((ka & xa & Ea) & A1 & A2). apply token_at_in in B as ((kb & xb & Eb) & B1 & B2). apply token_at_in in C as ((kc & xc & Ec) & C1 & C2).
  inversion N as [|? ? Na N']; subst. inversion N' as [|? ? Nb N'']; subst. cbn in Na, Nb.
  pose proof (tokens_disjoint t a b _ _ _ _ Ea Eb ltac:(intros ->; tauto)). pose proof (tokens_disjoint t a c _ _ _ _ Ea Ec ltac:(intros ->; tauto)). pose proof (tokens_disjoint t b c _ _ _ _ Eb Ec ltac:(intros ->; tauto)). lia.
Qed.
Lemma touching_wide t o p : touching t o p -> exists_at t p /\ r_start (range_at t p) < r_end (range_at t p) /\ inside (point o) (range_at t p) /\ inside (range_at t p) (file_range t).
Proof.
  intros H. pose proof H as H'. apply token_at_touching, token_at_in in H' as ((k & x & E) & A & B). assert (X : exists_at t p) by (unfold exists_at; congruence).
  split; [exact X|]. split; [exact A|]. split; [unfold inside, point; cbn -[range_at]; lia | now apply range_file].
Qed.
Lemma extend_word_ok t p o : is_char_boundary (text_at t p) (o - offset_at t p) = true -> exists w, extend_word word_char t p o = Ok w.
Proof. intros B. unfold extend_word. rewrite B. cbn. destruct (after_last_gap _ _ _); [destruct (_ =? _)|]; eauto. Qed.
Lemma extend_ws_ok t p o : is_char_boundary (text_at t p) (o - offset_at t p) = true -> exists w, extend_ws t p o = Ok w.
Proof. intros B. unfold extend_ws. rewrite B. cbn [negb]. destruct (_ && _); [destruct (next_sibling t p)|]; eauto. Qed.
Lemma extend_point t o : elem_text t <> [] -> o <= length (elem_text t) -> is_char_boundary (elem_text t) o = true -> ~ stuck t o ->
  exists r', extend_selection word_char t (point o) = Ok r' /\ inside (point o) r' /\ r_start r' < r_end r' /\ inside r' (file_range t) /\
    ((exists p, touching t o p /\ kind_at t p <> Some WHITESPACE) -> exists p, touching t o p /\ kind_at t p <> Some WHITESPACE /\ inside r' (range_at t p)) /\
    ((exists p, touching t o p /\ kind_at t p = Some IDENT) -> exists p, touching t o p /\ kind_at t p = Some IDENT /\ r' = range_at t p).
Proof.
  intros Ne L B St. unfold extend_selection, try_extend, point. cbn [r_end r_start]. replace (length (elem_text t) <? o) with false by (symmetry; apply Nat.ltb_ge; lia).
  unfold r_is_empty. cbn [r_start r_end]. rewrite Nat.eqb_refl. pose proof (token_at_some t o Ne L) as Some'. pose proof (token_at_two t o) as Two. pose proof (token_at_touching t o) as T.
  assert (WS : forall p, touching t o p -> is_kind_at t p WHITESPACE = true <-> kind_at t p = Some WHITESPACE).
  { intros p _. unfold is_kind_at. destruct (kind_at t p) as [k|]; [|split; discriminate]. rewrite kind_eqb_spec. split; congruence. }
  assert (Bd : forall p, touching t o p -> is_char_boundary (text_at t p) (o - offset_at t p) = true).
  { intros p ((k & x & E & _) & R). eapply boundary_at; eauto. }
  destruct (forallb _ (token_at_offset t o)) eqn:All.
  - rewrite forallb_forall in All. destruct (token_at_offset t o) as [|p l] eqn:Eq; [congruence|]. assert (Tp : touching t o p) by (apply T; cbn; auto).
    destruct (touching_wide t o p Tp) as (X & W & In & F). destruct (extend_ws_ok t p o (Bd p Tp)) as [w Ew]. rewrite Ew. cbn [bind]. exists w. split; [reflexivity|].
    destruct (extend_ws_grows t p o w X W (proj2 Tp)) as (G1 & G2 & G3); [|exact Ew|].
    { intros Eo q i -> Xn Te. apply St. exists q, i. refine (conj (All _ (or_introl eq_refl)) (conj Eo (conj Xn (conj Te _)))).
      intros p k x Ep Nx Rp. assert (Tp' : touching t o p) by (split; eauto). pose proof (All p (proj2 (T p) Tp')) as K. apply WS in K; [|exact Tp']. unfold kind_at in K. rewrite Ep in K. cbn in K. congruence. }
    refine (conj G1 (conj G3 (conj G2 (conj _ _)))).
    + intros (q & Tq & Kq). exfalso. apply Kq, WS; [exact Tq|]. now apply All, T.
    + intros (q & Tq & Kq). exfalso. assert (kind_at t q = Some WHITESPACE) by (apply WS; [exact Tq|]; now apply All, T). congruence.
  - destruct (token_at_offset t o) as [|p [|q l]] eqn:Eq; [congruence| |].
    + assert (Tp : touching t o p) by (apply T; cbn; auto). destruct (touching_wide t o p Tp) as (X & W & In & F). cbn in All. rewrite andb_true_r in All.
      assert (Np : kind_at t p <> Some WHITESPACE) by (intros H; apply WS in H; [congruence|exact Tp]).
      assert (One : forall q, touching t o q -> q = p) by (intros q Tq; apply T in Tq as [->|[]]; reflexivity).
      assert (Own : inside (point o) (range_at t p) /\ r_start (range_at t p) < r_end (range_at t p) /\ inside (range_at t p) (file_range t) /\
        ((exists p0, touching t o p0 /\ kind_at t p0 <> Some WHITESPACE) -> exists p0, touching t o p0 /\ kind_at t p0 <> Some WHITESPACE /\ inside (range_at t p) (range_at t p0)) /\
        ((exists p0, touching t o p0 /\ kind_at t p0 = Some IDENT) -> exists p0, touching t o p0 /\ kind_at t p0 = Some IDENT /\ range_at t p = range_at t p0)).
      { refine (conj In (conj W (conj F (conj _ _)))); [intros _; exists p; auto using inside_refl|]. intros (q & Tq & Kq). exists q. rewrite (One q Tq) in *. auto. }
      destruct (string_kind (kind_at t p)) eqn:Sk; [|exists (range_at t p); split; [reflexivity|exact Own]].
      destruct (extend_word_ok t p o (Bd p Tp)) as [w Ew]. rewrite Ew. cbn [bind]. destruct w as [w|]; [|exists (range_at t p); split; [reflexivity|exact Own]].
      destruct (extend_word_inside t p o w (proj2 Tp) Ew) as (G1 & G2 & G3). exists w. split; [reflexivity|]. refine (conj G1 (conj G3 (conj (inside_trans _ _ _ G2 F) (conj _ _)))).
      * intros _. exists p. auto.
      * intros (q & Tq & Kq). rewrite (One q Tq) in Kq. rewrite Kq in Sk. discriminate.
    + destruct l as [|? l]; [|cbn in Two; lia]. assert (Tp : touching t o p) by (apply T; cbn; auto). assert (Tq : touching t o q) by (apply T; cbn; auto).
      cbn in All. rewrite andb_true_r in All. cbn [bind]. exists (range_at t (pick_best t p q)). split; [reflexivity|].
      assert (Best : touching t o (pick_best t p q)) by (unfold pick_best; destruct (_ <? _); assumption).
      destruct (touching_wide t o _ Best) as (X & W & In & F). refine (conj In (conj W (conj F (conj _ _)))).
      * intros _. exists (pick_best t p q). split; [exact Best|]. split; [|apply inside_refl]. unfold pick_best. destruct (priority (kind_at t p) <? priority (kind_at t q)) eqn:Pr.
        -- intros H. rewrite H in Pr. cbn in Pr. discriminate.
        -- intros H. rewrite H in Pr. cbn in Pr. apply (WS p Tp) in H. rewrite H in All. cbn in All.
           assert (priority (kind_at t q) <> 0). { intros Z. assert (kind_at t q = Some WHITESPACE) by (destruct (kind_at t q) as [[]|]; try discriminate Z; reflexivity). apply (WS q Tq) in H0. congruence. }
           destruct (priority (kind_at t q)); [congruence|discriminate].
      * intros (u & Tu & Ku). exists (pick_best t p q). split; [exact Best|]. split; [|reflexivity]. unfold pick_best.
        assert (Id : forall k : option kind, priority k = 2 -> k = Some IDENT) by (intros [k|]; [|discriminate]; destruct k; try discriminate; reflexivity).
        assert (Top : forall k : option kind, priority k <= 2) by (intros [k|]; [|cbn; lia]; destruct k; cbn; lia).
        destruct (priority (kind_at t p) <? priority (kind_at t q)) eqn:Pr; apply T in Tu as [<-|[<-|[]]]; try exact Ku.
        -- apply Nat.ltb_lt in Pr. rewrite Ku in Pr. change (priority (Some IDENT)) with 2 in Pr. pose proof (Top (kind_at t q)). lia.
        -- apply Nat.ltb_ge in Pr. rewrite Ku in Pr. change (priority (Some IDENT)) with 2 in Pr. pose proof (Top (kind_at t p)). apply Id. lia.
Qed.
End grow.

(** * The theorems *)
(** A selection that is not empty grows to something around it, unless it is the whole file, and never beyond
    an element that is properly around it. *)
Theorem expand_selection_grows : forall word_char t r, solid t -> r_start r < r_end r -> inside r (file_range t) ->
  exists r', extend_selection word_char t r = Ok r' /\ inside r r' /\ inside r' (file_range t) /\ (r' = r <-> r = file_range t) /\
    forall q, exists_at t q -> inside r (range_at t q) -> range_at t q <> r -> inside r' (range_at t q).
Proof.
  intros wc t r W O F. destruct (extend_wide wc t r W O F) as (r' & E & A & B & C & D). exists r'. repeat (split; [assumption|]). split; [|exact D].
  split; [exact A|]. intros ->. now apply inside_antisym.
Qed.
(** A cursor becomes a non-empty selection around it; if anything but whitespace touches it, the selection stays
    inside one such token, and an identifier is taken as a whole.  Not when the cursor is [stuck]. *)
Theorem expand_cursor_partial : forall word_char t o, elem_text t <> [] -> o <= length (elem_text t) -> is_char_boundary (elem_text t) o = true -> ~ stuck t o ->
  exists r', extend_selection word_char t (point o) = Ok r' /\ inside (point o) r' /\ r_start r' < r_end r' /\ inside r' (file_range t) /\
    ((exists p, touching t o p /\ kind_at t p <> Some WHITESPACE) -> exists p, touching t o p /\ kind_at t p <> Some WHITESPACE /\ inside r' (range_at t p)) /\
    ((exists p, touching t o p /\ kind_at t p = Some IDENT) -> exists p, touching t o p /\ kind_at t p = Some IDENT /\ r' = range_at t p).
Proof. exact extend_point. Qed.

(** The ranges sent to the client: each properly inside the next one, from the given one to the whole file. *)
Fixpoint nested (l : list range) : Prop :=
  match l with a :: ((b :: _) as r) => inside a b /\ a <> b /\ nested r | _ => True end.
Theorem selection_ranges_nested_partial : forall word_char t r, solid t -> r_start r <= r_end r -> inside r (file_range t) ->
  (r_start r = r_end r -> is_char_boundary (elem_text t) (r_start r) = true /\ ~ stuck t (r_start r)) ->
  exists l, selection_ranges word_char (length (elem_text t) + 2) t r = Ok (Some l) /\ nested l /\ hd_error l = Some r /\ last l r = file_range t.
Proof.
  intros wc t r W O F Cur.
  assert (Wide : forall n r, r_start r < r_end r -> inside r (file_range t) -> length (elem_text t) <= n + (r_end r - r_start r) ->
    exists l, selection_ranges wc (S n) t r = Ok (Some l) /\ nested l /\ hd_error l = Some r /\ forall d, last l d = file_range t).
  { clear r O F Cur. induction n as [|n IH]; intros r O F L; destruct (expand_selection_grows wc t r W O F) as (r' & E & A & B & C & _); cbn [selection_ranges]; rewrite E; cbn [bind].
    - assert (R : r = file_range t). { unfold inside, file_range in *. destruct r as [a b]. cbn in *. f_equal; lia. } apply C in R as R'. subst r'. rewrite (proj2 (same_range_spec r r) eq_refl).
      exists [r]. cbn. auto.
    - destruct (same_range r' r) eqn:S.
      + apply same_range_spec in S. apply C in S. exists [r]. cbn. auto.
      + assert (N : r' <> r) by (intros H; apply same_range_spec in H; congruence).
        assert (Wd : r_end r - r_start r < r_end r' - r_start r'). { unfold inside in A. destruct r as [a b], r' as [a' b']. cbn in *. destruct (Nat.eq_dec a a'), (Nat.eq_dec b b'); try lia. subst. congruence. }
        destruct (IH r' ltac:(unfold inside in A; lia) B ltac:(lia)) as (l & El & Nl & Hl & Ll). cbn [selection_ranges] in El. rewrite El. exists (r :: l). destruct l as [|y l]; [discriminate|]. cbn in Hl. inversion Hl; subst y.
        split; [reflexivity|]. split; [split; [exact A|]; split; [congruence|exact Nl]|]. split; [reflexivity|]. intros d. exact (Ll d). }
  destruct (Nat.eq_dec (r_start r) (r_end r)) as [Em|Nm].
  - assert (P : r = point (r_start r)) by (destruct r as [a b]; cbn in *; subst; reflexivity). destruct (Cur Em) as [Bd St]. destruct (elem_text t) as [|b0 x0] eqn:Te.
    + assert (R : r = file_range t). { unfold inside, file_range in *. rewrite Te in *. destruct r as [a b]. cbn in *. f_equal; lia. }
      exists [r]. cbn. assert (Ex : extend_selection wc t r = Ok r).
      { unfold extend_selection, try_extend. rewrite Te. cbn [length]. unfold file_range in F. rewrite Te in F. destruct F as [_ F]. cbn in F. cbn zeta. replace (0 <? r_end r) with false by (symmetry; apply Nat.ltb_ge; lia).
        unfold r_is_empty. rewrite Em, Nat.eqb_refl. destruct (token_at_offset t (r_end r)) as [|p l] eqn:Tk; [reflexivity|]. exfalso.
        assert (Tp : touching t (r_end r) p) by (apply token_at_touching; rewrite Tk; cbn; auto). apply touching_wide in Tp as (_ & Wd & _ & Fp). unfold inside, file_range in Fp. rewrite Te in Fp. cbn -[range_at] in Fp. lia. }
      rewrite Ex. cbn. rewrite (proj2 (same_range_spec r r) eq_refl). auto.
    + rewrite <- Te in *. destruct (extend_point wc t (r_start r)) as (r' & E & A & B & C & _); [congruence| |exact Bd|exact St|].
      { destruct F as [_ F]. cbn in F. lia. }
      rewrite <- P in E, A. assert (Ln : length (elem_text t) + 2 = S (S (length (elem_text t)))) by lia. rewrite Ln. cbn [selection_ranges]. rewrite E. cbn [bind].
      assert (N : r' <> r) by (intros ->; lia). destruct (same_range r' r) eqn:S; [apply same_range_spec in S; congruence|].
      destruct (Wide (length (elem_text t)) r' B C ltac:(lia)) as (l & El & Nl & Hl & Ll). cbn [selection_ranges] in El. rewrite El. exists (r :: l). destruct l as [|y l]; [discriminate|]. cbn in Hl. inversion Hl; subst y.
      split; [reflexivity|]. split; [split; [exact A|]; split; [congruence|exact Nl]|]. split; [reflexivity|]. exact (Ll r).
  - destruct (Wide (length (elem_text t) + 1) r ltac:(lia) F ltac:(lia)) as (l & El & Nl & Hl & Ll). exists l. replace (length (elem_text t) + 2) with (S (length (elem_text t) + 1)) by lia. auto.
Qed.

(** ** What is selected on the way *)
Definition plain_space (e : tree) : Prop := exists x, e = TTok WHITESPACE x /\ ~ In 10%N x.
Definition comma (e : tree) : Prop := exists x, e = TTok COMMA x.
Lemma plain_space_ws e : single_line_ws e = true <-> plain_space e.
Proof.
  unfold single_line_ws, plain_space, has_newline. destruct e as [? ?|k x]; [split; [discriminate|intros (x & H & _); discriminate]|]. split.
  - destruct k; try discriminate. intros H. exists x. split; [reflexivity|]. intros I. apply negb_true_iff in H.
    assert (T : existsb (N.eqb 10) x = true) by (apply existsb_exists; exists 10%N; auto using N.eqb_refl). pose proof (eq_trans (eq_sym T) H). discriminate.
  - intros (y & E & H). inversion E; subst. apply negb_true_iff. destruct (existsb (N.eqb 10) y) eqn:T; [|reflexivity]. exfalso. apply existsb_exists in T as (b & I & T). apply N.eqb_eq in T. now subst b.
Qed.
Lemma nearby_comma_skip l : forall d n e, (forall j, j < n -> exists f, nth_error l j = Some f /\ plain_space f) -> nth_error l n = Some e -> ~ plain_space e ->
  nearby_comma d l = if is_comma e then Some (d + n) else None.
Proof.
  induction l as [|f l IH]; intros d n e Sp C Np; [destruct n; discriminate|]. destruct n as [|n].
  - cbn in C. inversion C; subst f. cbn. destruct (single_line_ws e) eqn:S; [apply plain_space_ws in S; contradiction|]. now rewrite Nat.add_0_r.
  - cbn in C. destruct (Sp 0 ltac:(lia)) as (g & G & P). cbn in G. inversion G; subst g. cbn. rewrite (proj2 (plain_space_ws f) P). rewrite (IH (S d) n e); [now rewrite Nat.add_succ_comm| |exact C|exact Np].
    intros j J. exact (Sp (S j) ltac:(lia)).
Qed.
Lemma nearby_comma_run l : forall d, Forall plain_space l -> nearby_comma d l = None.
Proof. induction l as [|f l IH]; intros d F; [reflexivity|]. inversion F; subst. cbn. rewrite (proj2 (plain_space_ws f) H1). now apply IH. Qed.
(** the selection of an element goes to the outermost element with its range *)
Lemma from_element wc t q i r k0 ch0 : solid t -> r_start r < r_end r -> element_at t (q ++ [i]) = Some (TNode k0 ch0) -> range_at t (q ++ [i]) = r -> range_at t q <> r ->
  (forall p x, element_at t p = Some (TTok COMMENT x) -> range_at t p <> r) ->
  extend_selection wc t r = Ok match (if match kind_at t q with Some k => list_kind k | None => false end then extend_list_item t q i else None) with Some y => y | None => range_at t q end.
Proof.
  intros W O X0 R Nq Nc. assert (X : exists_at t (q ++ [i])) by (unfold exists_at; congruence). pose proof (range_file t _ X) as F. rewrite R in F. unfold extend_selection, try_extend. replace (length (elem_text t) <? r_end r) with false by (symmetry; apply Nat.ltb_ge; apply F).
  unfold r_is_empty. replace (r_start r =? r_end r) with false by (symmetry; apply Nat.eqb_neq; lia).
  destruct (covering_range t r ltac:(lia) F) as [Xp In]. pose proof (covering_deepest t r (q ++ [i]) O F X ltac:(rewrite R; apply inside_refl)) as Deep. set (p := covering 0 t r) in *.
  assert (Rp : range_at t p = r). { apply inside_antisym; [|exact In]. rewrite <- R. now apply prefix_inside. }
  assert (Node : forall u, prefix (q ++ [i]) u -> prefix u p -> extend_node t r u = Some match (if match kind_at t q with Some k => list_kind k | None => false end then extend_list_item t q i else None) with Some y => y | None => range_at t q end).
  { intros u Pu Up. destruct (prefix_inside t _ _ Up Xp) as [I1 Xu]. rewrite Rp in I1. destruct (prefix_inside t _ _ Pu Xu) as [I2 _]. rewrite R in I2. pose proof (inside_antisym _ _ I2 I1) as Ru.
    unfold extend_node. rewrite (proj2 (same_range_spec _ _) Ru). cbn [negb]. assert (Sh : shallowest t u = q ++ [i]).
    { destruct (climb_spec t (range_at t u) (rev u)) as (P & R' & M); try (rewrite rev_involutive); [exact Xu|reflexivity|]. rewrite rev_involutive in P. fold (shallowest t u) in *.
      destruct (prefixes_of _ _ _ P Pu) as [Q|Q].
      - apply prefix_snoc in Q as [Q|Q]; [exact Q|]. exfalso. apply Nq. rewrite Ru in R'. apply inside_antisym.
        + rewrite <- R'. apply prefix_inside; [exact Q|]. eapply exists_prefix; eauto.
        + rewrite <- R. now apply range_prefix.
      - destruct Q as [s Q]. destruct s as [|j s _] using rev_ind; [now rewrite app_nil_r in Q|]. exfalso. rewrite Q, app_assoc, rev_app_distr in M. cbn in M. rewrite rev_involutive in M. apply M.
        assert (Xs : exists_at t (((q ++ [i]) ++ s) ++ [j])) by (rewrite <- app_assoc, <- Q; apply (prefix_inside t _ _ P Xu)).
        apply inside_antisym.
        + rewrite Ru, <- R. apply range_prefix. eapply exists_prefix; eauto.
        + rewrite <- R' at 1. rewrite Q, app_assoc. now apply range_prefix. }
    rewrite Sh, rev_app_distr. cbn [rev app]. rewrite rev_involutive. destruct (if match kind_at t q with Some k => list_kind k | None => false end then extend_list_item t q i else None); reflexivity. }
  destruct (element_at t p) as [e|] eqn:Ep; [|exfalso; now apply Xp]. destruct e as [k ch|k x].
  - rewrite (Node p Deep); [reflexivity|]. now exists []; rewrite app_nil_r.
  - rewrite (proj2 (same_range_spec _ _) Rp). cbn [negb]. assert (Kc : kind_eqb k COMMENT = false).
    { apply kind_eqb_neq. intros ->. exact (Nc p x Ep Rp). }
    rewrite Kc. destruct (rev p) as [|j rq] eqn:Rv.
    + exfalso. assert (p = []) by (rewrite <- (rev_involutive p), Rv; reflexivity). rewrite H in Deep. destruct Deep as [s D]. destruct q; discriminate.
    + assert (Pq : p = rev rq ++ [j]) by (rewrite <- (rev_involutive p), Rv; reflexivity). destruct (prefix_snoc (q ++ [i]) (rev rq) j ltac:(now rewrite <- Pq)) as [Eq|Q].
      * exfalso. rewrite Eq, <- Pq in X0. congruence.
      * rewrite (Node (rev rq) Q); [reflexivity|]. rewrite Pq. now exists [j].
Qed.

(** An element of a list together with the comma behind it on the same line, and the space after that. *)
Theorem list_item_with_comma : forall wc t q k ch i c k0 ch0 x, solid t -> element_at t q = Some (TNode k ch) -> list_kind k = true ->
  nth_error ch i = Some (TNode k0 ch0) -> i < c -> nth_error ch c = Some (TTok COMMA x) -> (forall j, i < j < c -> exists f, nth_error ch j = Some f /\ plain_space f) ->
  r_start (range_at t (q ++ [i])) < r_end (range_at t (q ++ [i])) -> (forall p y, element_at t p = Some (TTok COMMENT y) -> range_at t p <> range_at t (q ++ [i])) ->
  exists last, extend_selection wc t (range_at t (q ++ [i])) = Ok (mkRange (r_start (range_at t (q ++ [i]))) (r_end (range_at t (q ++ [last])))) /\
    ((last = S c /\ exists f, nth_error ch last = Some f /\ plain_space f) \/ (last = c /\ forall f, nth_error ch (S c) = Some f -> ~ plain_space f)).
Proof.
  intros wc t q k ch i c k0 ch0 x W Eq K Ei L Ec Sp O Nc. assert (Ch : children_of t q = ch) by (unfold children_of; now rewrite Eq).
  assert (Xi : element_at t (q ++ [i]) = Some (TNode k0 ch0)) by (apply child_at; now rewrite Ch). assert (Xi' : exists_at t (q ++ [i])) by (unfold exists_at; congruence).
  assert (Xc : exists_at t (q ++ [c])) by (eapply child_exists; rewrite Ch; exact Ec).
  assert (Nq : range_at t q <> range_at t (q ++ [i])).
  { pose proof (range_prefix t q [c] Xc) as I. pose proof (token_wide t q c COMMA x W ltac:(now rewrite Ch)). pose proof (siblings_range t q i c L Xi' Xc). intros H'. rewrite H' in I. unfold inside in I. lia. }
  rewrite (from_element wc t q i _ k0 ch0 W O Xi eq_refl Nq Nc). unfold kind_at. rewrite Eq. cbn [option_map tree_kind]. rewrite K. unfold extend_list_item. rewrite Ch.
  rewrite (nearby_comma_skip (skipn (S i) ch) 1 (c - S i) (TTok COMMA x)).
  - cbn [is_comma]. replace (i + (1 + (c - S i))) with c by lia. destruct (nth_error ch (S c)) as [f|] eqn:F.
    + destruct (single_line_ws f) eqn:Sf.
      * exists (S c). split; [reflexivity|]. left. split; [reflexivity|]. exists f. split; [exact F|]. now apply plain_space_ws.
      * exists c. split; [reflexivity|]. right. split; [reflexivity|]. intros g H'. inversion H'; subst g. intros P. apply plain_space_ws in P. congruence.
    + exists c. split; [reflexivity|]. right. split; [reflexivity|]. discriminate.
  - intros j J. rewrite nth_skipn. apply Sp. lia.
  - rewrite nth_skipn. replace (S i + (c - S i)) with c by lia. exact Ec.
  - intros (y & H' & _). discriminate.
Qed.
(** The last element of a list together with the comma before it on the same line. *)
Theorem last_item_with_comma : forall wc t q k ch i c k0 ch0 x, solid t -> element_at t q = Some (TNode k ch) -> list_kind k = true ->
  nth_error ch i = Some (TNode k0 ch0) -> c < i -> nth_error ch c = Some (TTok COMMA x) -> (forall j, c < j < i -> exists f, nth_error ch j = Some f /\ plain_space f) ->
  (forall j y, i < j -> nth_error ch j = Some (TTok COMMA y) -> exists m f, i < m < j /\ nth_error ch m = Some f /\ ~ plain_space f) ->
  r_start (range_at t (q ++ [i])) < r_end (range_at t (q ++ [i])) -> (forall p y, element_at t p = Some (TTok COMMENT y) -> range_at t p <> range_at t (q ++ [i])) ->
  extend_selection wc t (range_at t (q ++ [i])) = Ok (mkRange (r_start (range_at t (q ++ [c]))) (r_end (range_at t (q ++ [i])))).
Proof.
  intros wc t q k ch i c k0 ch0 x W Eq K Ei L Ec Sp Last O Nc. assert (Ch : children_of t q = ch) by (unfold children_of; now rewrite Eq).
  assert (Xi : element_at t (q ++ [i]) = Some (TNode k0 ch0)) by (apply child_at; now rewrite Ch). assert (Xi' : exists_at t (q ++ [i])) by (unfold exists_at; congruence).
  assert (Xc : exists_at t (q ++ [c])) by (eapply child_exists; rewrite Ch; exact Ec).
  assert (Nq : range_at t q <> range_at t (q ++ [i])).
  { pose proof (range_prefix t q [c] Xc) as I. pose proof (token_wide t q c COMMA x W ltac:(now rewrite Ch)). pose proof (siblings_range t q c i L Xc Xi'). intros H'. rewrite H' in I. unfold inside in I. lia. }
  rewrite (from_element wc t q i _ k0 ch0 W O Xi eq_refl Nq Nc). unfold kind_at. rewrite Eq. cbn [option_map tree_kind]. rewrite K. unfold extend_list_item. rewrite Ch.
  assert (Li : i < length ch) by (apply nth_error_Some; congruence).
  destruct (nearby_comma 1 (skipn (S i) ch)) as [d|] eqn:D.
  - exfalso. assert (Z : forall l n d, nearby_comma d l = Some n -> d <= n /\ (exists y, nth_error l (n - d) = Some (TTok COMMA y)) /\ forall j, j < n - d -> exists f, nth_error l j = Some f /\ plain_space f).
    { clear. induction l as [|e l IH]; intros n d; cbn; [discriminate|]. destruct (single_line_ws e) eqn:S.
      - intros H. apply IH in H as (A & (y & B) & C). split; [lia|]. replace (n - d) with (Datatypes.S (n - Datatypes.S d)) by lia. split; [now exists y|]. intros [|j] J; [exists e; split; [reflexivity|now apply plain_space_ws] | apply C; lia].
      - destruct e as [? ?|k x]; cbn; [discriminate|]. destruct k; try discriminate. intros H. inversion H; subst. rewrite Nat.sub_diag. split; [lia|]. split; [now exists x|]. lia. }
    apply Z in D as (D & (y & Y) & Run). rewrite nth_skipn in Y. destruct (Last (S i + (d - 1)) y ltac:(lia) Y) as (m & f & M & Em & Nf). destruct (Run (m - S i) ltac:(lia)) as (g & G & P).
    rewrite nth_skipn in G. replace (S i + (m - S i)) with m in G by lia. assert (f = g) by congruence. subst. contradiction.
  - assert (Rev : forall j e, j < i -> nth_error ch j = Some e -> nth_error (rev (firstn i ch)) (i - 1 - j) = Some e).
    { intros j e J E. destruct (nth_error (rev (firstn i ch)) (i - 1 - j)) as [f|] eqn:F.
      - apply nth_rev_firstn in F; [|lia]. replace (i - 1 - (i - 1 - j)) with j in F by lia. destruct F. congruence.
      - apply nth_error_None in F. rewrite rev_length, firstn_length in F. lia. }
    rewrite (nearby_comma_skip (rev (firstn i ch)) 1 (i - 1 - c) (TTok COMMA x)).
    + cbn [is_comma]. replace (i - (1 + (i - 1 - c))) with c by lia. reflexivity.
    + intros j J. destruct (Sp (i - 1 - j) ltac:(lia)) as (f & F & P). exists f. split; [|exact P]. replace j with (i - 1 - (i - 1 - j)) by lia. apply Rev; [lia|exact F].
    + apply Rev; assumption.
    + intros (y & H' & _). discriminate.
Qed.

(** ** Comments: a run of comments without a blank line in between is selected as a whole *)
Fixpoint blank_line (x : text) : Prop := match x with a :: ((b :: _) as r) => (a = 10%N /\ b = 10%N) \/ blank_line r | _ => False end.
Definition joins (e : tree) : Prop := exists k x, e = TTok k x /\ (k = COMMENT \/ (k = WHITESPACE /\ ~ blank_line x)).
Lemma blank_line_spec x : has_blank_line x = true <-> blank_line x.
Proof.
  induction x as [|a x IH]; [split; [discriminate|intros []]|]. cbn [has_blank_line blank_line]. destruct x as [|b x]; [split; [discriminate|intros []]|].
  rewrite orb_true_iff, andb_true_iff, !N.eqb_eq. tauto.
Qed.
Lemma adj_step d best e l : joins e -> adj_comments d best (e :: l) = adj_comments (S d) (match e with TTok COMMENT _ => d | _ => best end) l.
Proof.
  intros (k & x & -> & [-> |[-> B]]); [reflexivity|]. cbn. destruct (has_blank_line x) eqn:H; [apply blank_line_spec in H; contradiction|reflexivity].
Qed.
Lemma adj_mono l : forall d best, best < d -> best <= adj_comments d best l.
Proof.
  induction l as [|e l IH]; intros d best L; cbn; [lia|]. destruct e as [? ?|k x]; [lia|]. destruct k; try lia.
  - destruct (has_blank_line x); [lia|]. apply IH. lia.
  - pose proof (IH (S d) d ltac:(lia)). lia.
Qed.
Lemma adj_reaches l : forall d best n y, best < d -> nth_error l n = Some (TTok COMMENT y) -> (forall j, j < n -> exists f, nth_error l j = Some f /\ joins f) -> d + n <= adj_comments d best l.
Proof.
  induction l as [|e l IH]; intros d best n y L C J; [destruct n; discriminate|]. destruct n as [|n].
  - cbn in C. inversion C; subst e. cbn. pose proof (adj_mono l (S d) d ltac:(lia)). lia.
  - destruct (J 0 ltac:(lia)) as (f & F & Jf). cbn in F. inversion F; subst f. rewrite adj_step by exact Jf. rewrite Nat.add_succ_r, <- Nat.add_succ_l. apply (IH (S d) _ n y); [|exact C|].
    + destruct e as [|[] ?]; lia.
    + intros j Hj. exact (J (S j) ltac:(lia)).
Qed.
Lemma adj_joined l : forall d best, best < d -> forall j, d + j < adj_comments d best l -> exists f, nth_error l j = Some f /\ joins f.
Proof.
  induction l as [|e l IH]; intros d best L j H; [cbn in H; lia|].
  assert (Je : joins e /\ adj_comments d best (e :: l) = adj_comments (S d) (match e with TTok COMMENT _ => d | _ => best end) l).
  { destruct e as [? ?|k x]; [cbn in H; lia|]. destruct k; try (cbn in H; lia).
    - cbn in H. destruct (has_blank_line x) eqn:B; [lia|]. assert (joins (TTok WHITESPACE x)). { exists WHITESPACE, x. split; [reflexivity|]. right. split; [reflexivity|]. intros Z. apply blank_line_spec in Z. congruence. }
      split; [assumption|now apply adj_step].
    - split; [exists COMMENT, x; auto|reflexivity]. }
  destruct Je as [Je Eq]. destruct j as [|j]; [exists e; auto|]. rewrite Eq in H. cbn. apply (IH (S d) (match e with TTok COMMENT _ => d | _ => best end)); [destruct e as [|[] ?]; lia|lia].
Qed.
(** [i] and [j] belong together: both are comments, with only comments and whitespace without a blank line between *)
Definition together (ch : list tree) (i j : nat) : Prop :=
  (exists x, nth_error ch i = Some (TTok COMMENT x)) /\ (exists x, nth_error ch j = Some (TTok COMMENT x)) /\
  forall m, (i < m < j \/ j < m < i) -> exists f, nth_error ch m = Some f /\ joins f.
Theorem comment_run_selected : forall wc t q k ch i x j, solid t -> element_at t q = Some (TNode k ch) -> nth_error ch i = Some (TTok COMMENT x) -> together ch i j -> i <> j ->
  exists a b, extend_selection wc t (range_at t (q ++ [i])) = Ok (mkRange (r_start (range_at t (q ++ [a]))) (r_end (range_at t (q ++ [b])))) /\
    a <= i <= b /\ (forall m, a = m \/ b = m -> together ch i m) /\ forall m, together ch i m -> a <= m <= b.
Proof.
  intros wc t q k ch i x j W Eq Ei Tj Ne. assert (Ch : children_of t q = ch) by (unfold children_of; now rewrite Eq). assert (Li : i < length ch) by (apply nth_error_Some; congruence).
  assert (Xi : element_at t (q ++ [i]) = Some (TTok COMMENT x)) by (apply child_at; now rewrite Ch). assert (Xi' : exists_at t (q ++ [i])) by (unfold exists_at; congruence).
  pose proof (token_wide t q i COMMENT x W ltac:(now rewrite Ch)) as O. pose proof (range_file t _ Xi') as F.
  set (r := range_at t (q ++ [i])) in *.
  assert (Cov : covering 0 t r = q ++ [i]).
  { destruct (covering_range t r ltac:(lia) F) as [Xp In]. pose proof (covering_deepest t r (q ++ [i]) O F Xi' (inside_refl _)) as [s D]. destruct s as [|z s]; [now rewrite app_nil_r in D|].
    exfalso. unfold exists_at in Xp. rewrite D, element_at_app, Xi in Xp. cbn in Xp. congruence. }
  unfold extend_selection, try_extend. replace (length (elem_text t) <? r_end r) with false by (symmetry; apply Nat.ltb_ge; apply F).
  unfold r_is_empty. replace (r_start r =? r_end r) with false by (symmetry; apply Nat.eqb_neq; lia). rewrite Cov, Xi. fold r. rewrite (proj2 (same_range_spec r r) eq_refl). cbn [negb].
  rewrite rev_app_distr. cbn [rev app]. rewrite rev_involutive. rewrite kind_eqb_refl. unfold extend_comments. rewrite Ch.
  set (nx := adj_comments 1 0 (skipn (S i) ch)). set (pv := adj_comments 1 0 (rev (firstn i ch))).
  assert (Rev : forall m e, m < i -> nth_error ch m = Some e -> nth_error (rev (firstn i ch)) (i - 1 - m) = Some e).
  { intros m e M E. destruct (nth_error (rev (firstn i ch)) (i - 1 - m)) as [f|] eqn:Fm.
    - apply nth_rev_firstn in Fm; [|lia]. replace (i - 1 - (i - 1 - m)) with m in Fm by lia. destruct Fm. congruence.
    - apply nth_error_None in Fm. rewrite rev_length, firstn_length in Fm. lia. }
  assert (Fwd : forall m, i < m -> together ch i m -> m <= i + nx).
  { intros m M (_ & (y & Y) & J). pose proof (adj_reaches (skipn (S i) ch) 1 0 (m - S i) y ltac:(lia)) as R. rewrite nth_skipn in R. replace (S i + (m - S i)) with m in R by lia.
    specialize (R Y). fold nx in R. enough (1 + (m - S i) <= nx) by lia. apply R. intros u U. rewrite nth_skipn. apply J. lia. }
  assert (Bwd : forall m, m < i -> together ch i m -> i - pv <= m).
  { intros m M (_ & (y & Y) & J). pose proof (adj_reaches (rev (firstn i ch)) 1 0 (i - 1 - m) y ltac:(lia) (Rev m _ M Y)) as R. fold pv in R. enough (1 + (i - 1 - m) <= pv) by lia. apply R.
    intros u U. destruct (J (i - 1 - u) ltac:(lia)) as (f & Ff & Jf). exists f. split; [|exact Jf]. replace u with (i - 1 - (i - 1 - u)) by lia. apply Rev; [lia|exact Ff]. }
  assert (Here : together ch i i) by (split; [eauto|]; split; [eauto|]; intros m M; lia).
  assert (Bn : together ch i (i + nx)).
  { destruct (adj_comments_at _ _ _ _ (eq_refl nx)) as [N|(Nn & y & C)]; [rewrite N, Nat.add_0_r; exact Here|]. split; [eauto|]. rewrite nth_skipn in C. replace (S i + (nx - 1)) with (i + nx) in C by lia. split; [eauto|].
    intros m M. destruct (adj_joined (skipn (S i) ch) 1 0 ltac:(lia) (m - S i)) as (f & Ff & Jf); [fold nx; lia|]. rewrite nth_skipn in Ff. replace (S i + (m - S i)) with m in Ff by lia. eauto. }
  assert (Bp : together ch i (i - pv) /\ pv <= i).
  { destruct (adj_comments_at _ _ _ _ (eq_refl pv)) as [N|(Nn & y & C)]; [rewrite N, Nat.sub_0_r; split; [exact Here|lia]|]. apply nth_rev_firstn in C; [|lia]. destruct C as [Lt C]. replace (i - 1 - (pv - 1)) with (i - pv) in C by lia.
    split; [|lia]. split; [eauto|]. split; [eauto|]. intros m M. destruct (adj_joined (rev (firstn i ch)) 1 0 ltac:(lia) (i - 1 - m)) as (f & Ff & Jf); [fold pv; lia|].
    apply nth_rev_firstn in Ff; [|lia]. replace (i - 1 - (i - 1 - m)) with m in Ff by lia. destruct Ff. eauto. }
  destruct Bp as [Bp Lp]. replace ((pv =? 0) && (nx =? 0)) with false.
  2:{ symmetry. apply andb_false_iff. rewrite !Nat.eqb_neq. destruct (Nat.lt_ge_cases i j) as [Lj|Lj]; [right | left]; intros Z.
      - pose proof (Fwd j Lj Tj). lia.
      - pose proof (Bwd j ltac:(lia) Tj). lia. }
  cbn [bind]. exists (i - pv), (i + nx). split; [reflexivity|]. split; [lia|]. split; [intros m [<-|<-]; assumption|].
  intros m M. destruct (Nat.lt_trichotomy m i) as [L|[->|L]]; [pose proof (Bwd m L M) | | pose proof (Fwd m L M)]; lia.
Qed.

(** ** Words in comments and byte strings *)
Definition character (c : text) : Prop := exists b r, c = b :: r /\ is_cont b = false /\ Forall (fun x => is_cont x = true) r.
Lemma chars_tail r : forall rest, Forall (fun x => is_cont x = true) r -> (forall c cs, rest = c :: cs -> is_cont c = false) -> forall b, chars (b :: r ++ rest) = (b :: r) :: chars rest.
Proof.
  induction r as [|x r IH]; intros rest F H b.
  - cbn [app]. destruct rest as [|c cs]; [reflexivity|]. cbn. now rewrite (H c cs eq_refl).
  - inversion F; subst. cbn [app]. assert (E : chars (b :: x :: r ++ rest) = match chars (x :: r ++ rest) with y :: ys => (b :: y) :: ys | [] => [[b]] end) by (cbn; now rewrite H2).
    rewrite E, IH by assumption. reflexivity.
Qed.
Lemma chars_of cs : Forall character cs -> chars (concat cs) = cs.
Proof.
  induction 1 as [|c cs (b & r & -> & Hb & Hr) F IH]; [reflexivity|]. cbn [concat app]. rewrite chars_tail; [now rewrite IH|exact Hr|].
  intros d ds E. destruct F as [|c2 cs2 (b2 & r2 & -> & Hb2 & _) _]; cbn in E; [discriminate|]. inversion E; subst. exact Hb2.
Qed.
Lemma gap_app wc a : forall pos b, after_last_gap wc pos (a ++ b) = match after_last_gap wc (pos + length (concat a)) b with Some k => Some k | None => after_last_gap wc pos a end.
Proof.
  induction a as [|c a IH]; intros pos b; cbn; [rewrite Nat.add_0_r; destruct (after_last_gap wc pos b); reflexivity|]. rewrite IH, app_length, Nat.add_assoc.
  destruct (after_last_gap wc (pos + length c + length (concat a)) b); reflexivity.
Qed.
Lemma gap_word wc b : forall pos, Forall (fun c => wc c = true) b -> after_last_gap wc pos b = None.
Proof. induction b as [|c b IH]; intros pos F; [reflexivity|]. inversion F; subst. cbn. rewrite IH, H1 by assumption. reflexivity. Qed.
Lemma first_gap_word wc b rest : forall pos, Forall (fun c => wc c = true) b -> (forall c r, rest = c :: r -> wc c = false) -> first_gap wc pos (b ++ rest) = pos + length (concat b).
Proof.
  induction b as [|c b IH]; intros pos F H; cbn.
  - destruct rest as [|c r]; cbn; [lia|]. rewrite (H c r eq_refl). lia.
  - inversion F; subst. rewrite H2, IH, app_length by assumption. lia.
Qed.
(** The cursor is in (or at an end of) a word of a comment or byte string: that word is selected. *)
Theorem word_selected : forall wc t p k before gap left_ right_ after,
  element_at t p = Some (TTok k (concat (before ++ [gap] ++ left_ ++ right_ ++ after))) -> k = COMMENT \/ k = BYTE_STRING ->
  Forall character (before ++ [gap] ++ left_ ++ right_ ++ after) ->
  wc gap = false -> Forall (fun c => wc c = true) left_ -> Forall (fun c => wc c = true) right_ -> (forall c r, after = c :: r -> wc c = false) ->
  left_ ++ right_ <> [] ->
  let from := offset_at t p + length (concat (before ++ [gap])) in
  (* no other token touches the cursor *)
  (forall q, touching t (from + length (concat left_)) q -> q = p) ->
  extend_selection wc t (point (from + length (concat left_))) = Ok (mkRange from (from + length (concat (left_ ++ right_)))).
Proof.
  intros wc t p k before gap l r after E K Ch G Fl Fr Fa Ne from One. set (o := from + length (concat l)) in *.
  set (x := concat (before ++ [gap] ++ l ++ r ++ after)) in *. assert (Tx : text_at t p = x) by (unfold text_at; now rewrite E).
  assert (Spl : x = concat (before ++ [gap] ++ l) ++ concat (r ++ after)). { unfold x. rewrite <- concat_app. f_equal. rewrite <- !app_assoc. reflexivity. }
  set (A := concat (before ++ [gap] ++ l)) in *. set (B := concat (r ++ after)) in *.
  assert (La : o - offset_at t p = length A). { unfold o, from, A. rewrite !concat_app, !app_length. lia. }
  assert (Lo : o = offset_at t p + length A) by (unfold o, from in *; lia).
  assert (Gc : character gap). { rewrite !Forall_app in Ch. destruct Ch as (_ & Cg & _). now inversion Cg. }
  assert (Ga : 0 < length A). { unfold A. rewrite !concat_app, !app_length. cbn [concat]. rewrite app_length. destruct Gc as (b & rr & -> & _). cbn. lia. }
  assert (Nx : x <> []) by (rewrite Spl; destruct A; [cbn in Ga; lia|discriminate]).
  assert (Tp : touching t o p). { split; [eauto|]. unfold range_at. rewrite Tx, Spl, app_length. cbn [r_start r_end]. lia. }
  assert (Lv : token_at_offset t o = [p]).
  { assert (N : NoDup (token_at_offset t o)) by (apply NoDup_filter, tokens_nodup). pose proof (proj2 (token_at_touching t o p) Tp) as I.
    assert (U : forall q, In q (token_at_offset t o) -> q = p) by (intros q Q; now apply One, token_at_touching). destruct (token_at_offset t o) as [|a [|b m]]; [destruct I| |].
    - now rewrite (U a (or_introl eq_refl)).
    - exfalso. inversion N; subst. apply H1. left. rewrite (U b), (U a); cbn; auto. }
  destruct (touching_wide t o p Tp) as (Xp & _ & Ip & Fp).
  unfold extend_selection, try_extend, point. cbn [r_start r_end]. replace (length (elem_text t) <? o) with false.
  2:{ symmetry. apply Nat.ltb_ge. pose proof (inside_trans _ _ _ Ip Fp) as [_ Z]. exact Z. }
  unfold r_is_empty. cbn [r_start r_end]. rewrite Nat.eqb_refl, Lv. unfold is_kind_at, kind_at. cbn [forallb]. rewrite E. cbn [option_map tree_kind].
  replace (kind_eqb k WHITESPACE && true) with false by (destruct K as [-> | ->]; reflexivity). replace (string_kind (Some k)) with true by (destruct K as [-> | ->]; reflexivity).
  unfold extend_word. rewrite Tx, La. assert (Bd : is_char_boundary x (length A) = true).
  { unfold is_char_boundary. destruct (length A =? 0); [reflexivity|]. destruct (length A =? length x) eqn:Z; [reflexivity|]. apply Nat.eqb_neq in Z.
    rewrite Spl, app_length in Z. rewrite Spl, nth_error_app2, Nat.sub_diag by lia. assert (Cb : Forall character (r ++ after)) by (rewrite !Forall_app in *; tauto).
    unfold B in *. destruct Cb as [|c cs (b & rr & -> & Hb & _) _]; [cbn in Z; lia|]. cbn. now rewrite Hb. }
  rewrite Bd. cbn [negb]. rewrite Spl, firstn_app, Nat.sub_diag, firstn_all, skipn_app, skipn_all, Nat.sub_diag. cbn [firstn skipn app]. rewrite app_nil_r.
  assert (Ca : Forall character (before ++ [gap] ++ l)) by (rewrite !Forall_app in *; tauto). assert (Cb : Forall character (r ++ after)) by (rewrite !Forall_app in *; tauto).
  unfold A at 1. unfold B. rewrite (chars_of _ Ca), (chars_of _ Cb). rewrite (gap_app wc before 0), (gap_app wc [gap]), (gap_word wc l) by exact Fl. cbn [after_last_gap]. rewrite G.
  replace (first_gap wc 0 (r ++ after)) with (0 + length (concat r)) by (symmetry; now apply first_gap_word). cbn [bind].
  assert (Lf : 0 + length (concat before) + length gap = length (concat (before ++ [gap]))) by (rewrite concat_app, app_length; cbn; rewrite app_nil_r; lia). rewrite Lf.
  assert (LA : length A = length (concat (before ++ [gap])) + length (concat l)) by (unfold A; rewrite !concat_app, !app_length; lia).
  assert (Lw : 0 < length (concat l) + length (concat r)).
  { rewrite <- app_length, <- concat_app. assert (Cw : Forall character (l ++ r)) by (rewrite !Forall_app in *; tauto). destruct (l ++ r) as [|c cs]; [congruence|]. inversion Cw as [|? ? (b & rr & -> & _) _]; subst. cbn. lia. }
  replace (length (concat (before ++ [gap])) =? length A + (0 + length (concat r))) with false by (symmetry; apply Nat.eqb_neq; lia).
  cbn [bind]. f_equal. apply (f_equal2 mkRange); [reflexivity|]. rewrite (concat_app l r), app_length. unfold from. lia.
Qed.

(** * Examples *)
Definition parsed (s : text) : option tree := match GrammarProps.parse_text LexerProps.one false s with GrammarProps.PTree t _ => Some t | _ => None end.

Definition ex_sel : text := str ("module 0x1::m {" ++ String (Ascii.ascii_of_nat 10) "  // one two" ++ String (Ascii.ascii_of_nat 10) "  // three" ++ String (Ascii.ascii_of_nat 10) "  fun f(ab: u8, c: u8) {}" ++ String (Ascii.ascii_of_nat 10) "}" ++ String (Ascii.ascii_of_nat 10) "")%string.
Definition letters (c : text) : bool := match c with [b] => ((97 <=? b) && (b <=? 122) || (48 <=? b) && (b <=? 57))%N | _ => false end.
Definition ex_tree : tree := match parsed ex_sel with Some t => t | None => TTok COMMENT [] end.
Fixpoint solid_b (t : tree) : bool := match t with TTok _ x => negb (match x with [] => true | _ => false end) | TNode _ ch => forallb solid_b ch end.
Lemma solid_b_sound t : solid_b t = true -> solid t.
Proof.
  intros H p. revert t H. induction p as [|i p IH]; intros t H k x E; cbn in E.
  - inversion E; subst t. cbn in H. destruct x; [discriminate|congruence].
  - destruct t as [k' ch|]; [|discriminate]. destruct (nth_error ch i) as [c|] eqn:C; [|discriminate]. cbn in H. rewrite forallb_forall in H. apply (IH c (H c (nth_error_In _ _ C)) k x E).
Qed.
Lemma ex_parsed : parsed ex_sel = Some ex_tree.
Proof. assert (H : match parsed ex_sel with Some _ => true | None => false end = true) by (vm_compute; reflexivity). unfold ex_tree. destruct (parsed ex_sel); [reflexivity|discriminate]. Qed.
Lemma ex_solid : solid ex_tree. Proof. apply solid_b_sound. vm_compute. reflexivity. Qed.
(** the tokens `ab` and the first `u8`, and the list around them *)
Definition ex_list : place_path := [0; 8; 7].
Example expand_selection_grows_example : exists r, r_start r < r_end r /\ inside r (file_range ex_tree) /\ r <> file_range ex_tree /\
  map (fun r => extend_selection letters ex_tree r) [r; mkRange 48 54; mkRange 48 56] = [Ok (mkRange 48 54); Ok (mkRange 48 56); Ok (mkRange 47 62)] /\
  exists_at ex_tree (ex_list ++ [1]) /\ range_at ex_tree (ex_list ++ [1]) = mkRange 48 54.
Proof.
  exists (mkRange 49 51). split; [cbn; lia|]. assert (F : file_range ex_tree = mkRange 0 68) by (vm_compute; reflexivity). rewrite F. split; [unfold inside; cbn; lia|]. split; [clear; discriminate|].
  split; [vm_compute; reflexivity|]. split; [vm_compute; discriminate|vm_compute; reflexivity].
Qed.
Example expand_cursor_example : elem_text ex_tree <> [] /\ is_char_boundary (elem_text ex_tree) 48 = true /\ ~ stuck ex_tree 48 /\ extend_selection letters ex_tree (point 48) = Ok (mkRange 48 50) /\
  touching ex_tree 48 (ex_list ++ [0]) /\ touching ex_tree 48 (ex_list ++ [1; 0; 0; 0]) /\ kind_at ex_tree (ex_list ++ [1; 0; 0; 0]) = Some IDENT.
Proof.
  split; [vm_compute; discriminate|]. split; [vm_compute; reflexivity|]. split.
  - intros (q & i & _ & _ & _ & _ & H). specialize (H (ex_list ++ [0]) L_PAREN [40%N] ltac:(vm_compute; reflexivity) ltac:(discriminate)).
    assert (R : range_at ex_tree (ex_list ++ [0]) = mkRange 47 48) by (vm_compute; reflexivity). rewrite R in H. cbn in H. specialize (H ltac:(lia)). discriminate H.
  - split; [vm_compute; reflexivity|]. split; [|split; [|vm_compute; reflexivity]].
    + split; [exists L_PAREN, [40%N]; split; [vm_compute; reflexivity|discriminate]|]. assert (R : range_at ex_tree (ex_list ++ [0]) = mkRange 47 48) by (vm_compute; reflexivity). rewrite R. cbn. lia.
    + split; [exists IDENT, [97%N; 98%N]; split; [vm_compute; reflexivity|discriminate]|]. assert (R : range_at ex_tree (ex_list ++ [1; 0; 0; 0]) = mkRange 48 50) by (vm_compute; reflexivity). rewrite R. cbn. lia.
Qed.
Example selection_ranges_example : selection_ranges letters (length (elem_text ex_tree) + 2) ex_tree (point 57) =
  Ok (Some [point 57; mkRange 56 57; mkRange 56 61; mkRange 54 61; mkRange 47 62; mkRange 18 65; mkRange 0 67; mkRange 0 68]).
Proof. vm_compute. reflexivity. Qed.
Lemma comment_in t p y : element_at t p = Some (TTok COMMENT y) -> In p (filter (fun p => is_kind_at t p COMMENT) (tokens_from [] t)).
Proof. intros E. apply filter_In. split; [apply tokens_in; exists p, COMMENT, y; auto|]. unfold is_kind_at, kind_at. rewrite E. reflexivity. Qed.
(** `ab: u8` is followed by a comma and a space, `c: u8` has a comma before it *)
Example list_item_example : exists ch k0 ch0 k1 ch1, element_at ex_tree ex_list = Some (TNode PARAM_LIST ch) /\ list_kind PARAM_LIST = true /\
  nth_error ch 1 = Some (TNode k0 ch0) /\ nth_error ch 2 = Some (TTok COMMA [44%N]) /\ nth_error ch 3 = Some (TTok WHITESPACE [32%N]) /\ nth_error ch 4 = Some (TNode k1 ch1) /\
  nth_error ch 5 = Some (TTok R_PAREN [41%N]) /\ nth_error ch 6 = None /\
  (forall p y, element_at ex_tree p = Some (TTok COMMENT y) -> range_at ex_tree p <> range_at ex_tree (ex_list ++ [1]) /\ range_at ex_tree p <> range_at ex_tree (ex_list ++ [4])) /\
  extend_selection letters ex_tree (range_at ex_tree (ex_list ++ [1])) = Ok (mkRange 48 56) /\ extend_selection letters ex_tree (range_at ex_tree (ex_list ++ [4])) = Ok (mkRange 54 61).
Proof.
  do 5 eexists. split; [vm_compute; reflexivity|]. split; [reflexivity|]. do 6 (split; [cbv; reflexivity|]).
  assert (R1 : range_at ex_tree (ex_list ++ [1]) = mkRange 48 54) by (vm_compute; reflexivity). assert (R4 : range_at ex_tree (ex_list ++ [4]) = mkRange 56 61) by (vm_compute; reflexivity).
  rewrite R1, R4. split; [|split; vm_compute; reflexivity]. intros p y E.
  pose proof (comment_in ex_tree p y E) as I.
  assert (L : filter (fun p => is_kind_at ex_tree p COMMENT) (tokens_from [] ex_tree) = [[0; 8; 0]; [0; 8; 2]]) by (vm_compute; reflexivity). rewrite L in I.
  destruct I as [<-|[<-|[]]]; split; vm_compute; discriminate.
Qed.
Example comment_run_example : exists ch, element_at ex_tree [0; 8] = Some (TNode FUN ch) /\ together ch 0 2 /\ extend_selection letters ex_tree (range_at ex_tree [0; 8; 0]) = Ok (mkRange 18 39) /\
  extend_selection letters ex_tree (mkRange 18 39) = Ok (mkRange 18 65).
Proof.
  eexists. split; [vm_compute; reflexivity|]. split; [|split; vm_compute; reflexivity]. split; [eexists; reflexivity|]. split; [eexists; reflexivity|].
  intros m [M|M]; [|lia]. assert (m = 1) by lia. subst m. eexists. split; [reflexivity|]. eexists _, _. split; [reflexivity|]. right. split; [reflexivity|]. cbn. intros [[_ H]|[[H _]|[]]]; discriminate.
Qed.
(** the cursor is between the letters of "three" in the second comment *)
Example word_example : let at_ := [0; 8; 2] in let before := [[47%N]; [47%N]] in let left_ := [[116%N]; [104%N]] in let right_ := [[114%N]; [101%N]; [101%N]] in
  element_at ex_tree at_ = Some (TTok COMMENT (concat (before ++ [[32%N]] ++ left_ ++ right_ ++ []))) /\ Forall character (before ++ [[32%N]] ++ left_ ++ right_ ++ []) /\
  letters [32%N] = false /\ Forall (fun c => letters c = true) left_ /\ Forall (fun c => letters c = true) right_ /\
  (forall q, touching ex_tree 36 q -> q = at_) /\ extend_selection letters ex_tree (point 36) = Ok (mkRange 34 39).
Proof.
  cbv zeta. split; [vm_compute; reflexivity|]. split; [repeat constructor; eexists _, _; repeat split; constructor|]. split; [reflexivity|]. split; [repeat constructor|]. split; [repeat constructor|].
  split; [|vm_compute; reflexivity]. intros q H. apply token_at_touching in H. assert (L : token_at_offset ex_tree 36 = [[0; 8; 2]]) by (vm_compute; reflexivity). rewrite L in H. destruct H as [<-|[]]. reflexivity.
Qed.

(** * Not so: with the cursor at the end of `address` + newline -- the parser leaves an empty error behind the
    line break -- there is nothing to expand to, and the client is sent the cursor alone. *)
Theorem expand_cursor_refuted : exists s t, parsed s = Some t /\ solid t /\ elem_text t = s /\ s <> [] /\ stuck t (length s) /\
  forall wc, extend_selection wc t (point (length s)) = Ok (point (length s)) /\ selection_ranges wc (length s + 2) t (point (length s)) = Ok (Some [point (length s)]).
Proof.
  set (s := str ("address" ++ String (Ascii.ascii_of_nat 10) "")%string). exists s.
  exists (TNode SOURCE_FILE [TNode ADDRESS_DEF [TTok ADDRESS_KW (str "address"); TTok WHITESPACE [10%N]; TNode ERROR []]]).
  split; [vm_compute; reflexivity|]. split; [apply solid_b_sound; reflexivity|]. split; [reflexivity|]. split; [discriminate|]. split.
  - exists [0], 1. repeat (split; [reflexivity|]). split; [discriminate|]. split; [reflexivity|]. intros p k x E N R.
    destruct p as [|[|i] [|j [|? p]]]; cbn in E; try discriminate.
    + destruct j as [|[|[|j]]]; cbn in E; try discriminate.
      * inversion E; subst. cbn in R. lia.
      * now inversion E.
      * destruct j; discriminate.
    + destruct j as [|[|[|j]]]; cbn in E; try discriminate. destruct n; discriminate. destruct j; discriminate.
    + destruct i; discriminate.
    + destruct i; discriminate.
    + destruct i; discriminate.
  - intros wc. split; reflexivity.
Qed.

Print Assumptions expand_selection_grows.
Print Assumptions expand_cursor_partial.
Print Assumptions selection_ranges_nested_partial.
Print Assumptions list_item_with_comma.
Print Assumptions last_item_with_comma.
Print Assumptions comment_run_selected.
Print Assumptions word_selected.
Print Assumptions expand_cursor_refuted.
