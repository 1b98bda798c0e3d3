(** Proofs about "expand selection". *)
From Verif Require Import Base SyntaxKind TextEditModel TreeSinkModel TreeSinkSpec TreeDiffModel TreeDiffSpec TreeDiffProofs EditorModel EditorSpec EditorProofs EditorOrder SelectionModel.
Close Scope N_scope.
Open Scope nat_scope.

Definition inside (a b : range) : Prop := r_start b <= r_start a /\ r_end a <= r_end b.
Definition file_range (t : tree) : range := mkRange 0 (length (elem_text t)).
Definition exists_at (t : tree) (p : place_path) : Prop := element_at t p <> None.

Lemma same_range_spec a b : same_range a b = true <-> a = b.
Proof. destruct a, b; unfold same_range; cbn. rewrite andb_true_iff, !Nat.eqb_eq. split; [intros [-> ->]; reflexivity | intros H; inversion H; auto]. Qed.
Lemma inside_refl a : inside a a. Proof. unfold inside; lia. Qed.
Lemma inside_trans a b c : inside a b -> inside b c -> inside a c. Proof. unfold inside; lia. Qed.
Lemma exists_prefix t p q : exists_at t (p ++ q) -> exists_at t p.
Proof. unfold exists_at. rewrite element_at_app. destruct (element_at t p); congruence. Qed.
Lemma range_prefix t p q : exists_at t (p ++ q) -> inside (range_at t (p ++ q)) (range_at t p).
Proof.
  unfold exists_at, inside, range_at, text_at. rewrite element_at_app. destruct (element_at t p) as [e|] eqn:E; [|congruence]. intros H.
  rewrite (offset_at_app p q t e E). destruct (element_at e q) as [f|] eqn:F; [|congruence]. pose proof (text_len_le q e f F). cbn. lia.
Qed.
Lemma range_root t : range_at t [] = file_range t. Proof. reflexivity. Qed.
Lemma range_file t p : exists_at t p -> inside (range_at t p) (file_range t).
Proof. intros H. change p with ([] ++ p) in *. rewrite <- range_root. now apply range_prefix. Qed.
Lemma range_order t p : r_start (range_at t p) <= r_end (range_at t p). Proof. unfold range_at; cbn; lia. Qed.
Lemma siblings_range t q i j : i < j -> exists_at t (q ++ [i]) -> exists_at t (q ++ [j]) -> r_end (range_at t (q ++ [i])) <= r_start (range_at t (q ++ [j])).
Proof.
  unfold exists_at, range_at, text_at. rewrite !element_at_app. destruct (element_at t q) as [u|] eqn:U; [|congruence]. intros L A B. rewrite !(offset_at_app q _ t u U).
  destruct (element_at u [i]) as [e|] eqn:Ei; [|congruence]. destruct (element_at u [j]) as [f|] eqn:Ej; [|congruence].
  pose proof (siblings_ordered u i j [] [] e f L Ei Ej). cbn [r_end r_start]. lia.
Qed.
Lemma siblings_next t q i : exists_at t (q ++ [S i]) -> r_end (range_at t (q ++ [i])) = r_start (range_at t (q ++ [S i])).
Proof.
  unfold exists_at, range_at, text_at. rewrite !element_at_app. destruct (element_at t q) as [u|] eqn:U; [|congruence]. intros A. rewrite !(offset_at_app q _ t u U). cbn [r_start r_end].
  cbn [element_at] in *. destruct u as [k ch|]; [|congruence]. destruct (nth_error ch (S i)) as [f|] eqn:F; [|congruence].
  cbn [offset_at]. rewrite F. apply nth_error_split in F as (a & b & E & L). subst ch.
  destruct (nth_error (a ++ f :: b) i) as [e|] eqn:G; [|apply nth_error_None in G; rewrite app_length in G; cbn in G; lia].
  rewrite nth_error_app1 in G by lia. apply nth_error_split in G as (a1 & a2 & -> & L1). rewrite app_length in L. cbn in L.
  replace (firstn (S i) ((a1 ++ e :: a2) ++ f :: b)) with (a1 ++ [e]).
  - replace (firstn i ((a1 ++ e :: a2) ++ f :: b)) with a1.
    + rewrite flat_map_app, app_length. cbn. rewrite app_nil_r. lia.
    + rewrite <- app_assoc, firstn_app, L1, Nat.sub_diag, <- L1, firstn_all. cbn. now rewrite app_nil_r.
  - rewrite <- app_assoc, firstn_app, <- L1. rewrite firstn_all2 by lia. replace (S (length a1) - length a1) with 1 by lia. reflexivity.
Qed.
Lemma children_exist t q i : i < length (children_of t q) -> exists_at t (q ++ [i]).
Proof.
  unfold children_of, exists_at. rewrite element_at_app. destruct (element_at t q) as [[k ch|]|]; cbn; try lia. intros H. destruct (nth_error ch i) eqn:E; [discriminate|]. apply nth_error_None in E. lia.
Qed.
Lemma exist_children t q i : exists_at t (q ++ [i]) -> exists e, nth_error (children_of t q) i = Some e /\ element_at t (q ++ [i]) = Some e.
Proof.
  unfold children_of, exists_at. rewrite element_at_app. destruct (element_at t q) as [[k ch|]|]; cbn; try congruence. destruct (nth_error ch i) as [e|]; [|congruence]. exists e. auto.
Qed.
Lemma child_at t q i e : nth_error (children_of t q) i = Some e -> element_at t (q ++ [i]) = Some e.
Proof. unfold children_of. rewrite element_at_app. destruct (element_at t q) as [[k ch|]|]; cbn; try (destruct i; discriminate). now intros ->. Qed.

(** ** the covering element *)
Definition go_covering (r : range) := fix go (i off : nat) (ch : list tree) : place_path :=
         match ch with
         | [] => []
         | c :: rest => if (off <=? r_start r) && (r_end r <=? off + length (elem_text c)) then i :: covering off c r
                        else go (S i) (off + length (elem_text c)) rest
         end.
Lemma covering_node off k ch r : covering off (TNode k ch) r = go_covering r 0 off ch. Proof. reflexivity. Qed.
Lemma go_covering_some r ch : forall i off j p, go_covering r i off ch = j :: p -> exists a c b, ch = a ++ c :: b /\ j = i + length a /\
  p = covering (off + length (flat_map elem_text a)) c r /\ off + length (flat_map elem_text a) <= r_start r /\ r_end r <= off + length (flat_map elem_text a) + length (elem_text c).
Proof.
  induction ch as [|c ch IH]; intros i off j p; cbn; [discriminate|]. destruct ((off <=? r_start r) && (r_end r <=? off + length (elem_text c))) eqn:E.
  - intros H. inversion H; subst. apply andb_true_iff in E as [A B]. apply Nat.leb_le in A, B. exists [], c, ch. cbn. rewrite !Nat.add_0_r. auto.
  - intros H. apply IH in H as (a & c' & b & -> & -> & -> & X & Y). exists (c :: a), c', b. cbn. rewrite app_length, !Nat.add_assoc in *. repeat split; try lia.
Qed.
Lemma go_covering_none r ch : forall i off, go_covering r i off ch = [] -> forall a c b, ch = a ++ c :: b ->
  ~ (off + length (flat_map elem_text a) <= r_start r /\ r_end r <= off + length (flat_map elem_text a) + length (elem_text c)).
Proof.
  induction ch as [|c ch IH]; intros i off; cbn; [intros _ [|] ? ? H; discriminate|]. destruct ((off <=? r_start r) && (r_end r <=? off + length (elem_text c))) eqn:E; [discriminate|].
  intros H a c' b Q. apply andb_false_iff in E. rewrite !Nat.leb_gt in E. destruct a as [|a0 a]; cbn in Q; inversion Q; subst.
  - cbn. lia.
  - cbn. rewrite app_length. pose proof (IH _ _ H a c' b eq_refl). rewrite !Nat.add_assoc. lia.
Qed.
Lemma child_offset k a c b p : offset_at (TNode k (a ++ c :: b)) (length a :: p) = length (flat_map elem_text a) + offset_at c p.
Proof. cbn. rewrite firstn_app, Nat.sub_diag, firstn_all, nth_error_app2, Nat.sub_diag by lia. cbn. now rewrite app_nil_r. Qed.
Lemma covering_holds t : forall off r, off <= r_start r -> r_end r <= off + length (elem_text t) ->
  exists e, element_at t (covering off t r) = Some e /\ off + offset_at t (covering off t r) <= r_start r /\
    r_end r <= off + offset_at t (covering off t r) + length (elem_text e) /\
    match e with
    | TTok _ _ => True
    | TNode _ ch => forall a c b, ch = a ++ c :: b ->
        ~ (off + offset_at t (covering off t r) + length (flat_map elem_text a) <= r_start r /\
           r_end r <= off + offset_at t (covering off t r) + length (flat_map elem_text a) + length (elem_text c))
    end.
Proof.
  induction t as [k ch IH|k x] using tree_ind2; intros off r A B.
  - rewrite covering_node. destruct (go_covering r 0 off ch) as [|j p] eqn:G.
    + exists (TNode k ch). cbn [element_at offset_at]. rewrite Nat.add_0_r. repeat split; auto. intros a c b E. eapply go_covering_none; eauto.
    + apply go_covering_some in G as (a & c & b & -> & -> & -> & X & Y). rewrite Nat.add_0_l.
      rewrite Forall_forall in IH. destruct (IH c (in_elt c a b) (off + length (flat_map elem_text a)) r X Y) as (e & E & P & Q & M).
      exists e. rewrite child_offset, !Nat.add_assoc in *. split; [|auto].
      cbn. rewrite nth_error_app2, Nat.sub_diag by lia. exact E.
  - exists (TTok k x). cbn in *. repeat split; auto; lia.
Qed.
Lemma covering_range t r : r_start r <= r_end r -> inside r (file_range t) -> exists_at t (covering 0 t r) /\ inside r (range_at t (covering 0 t r)).
Proof.
  intros O [A B]. cbn in A, B. destruct (covering_holds t 0 r A B) as (e & E & P & Q & _). unfold exists_at, inside, range_at, text_at. rewrite E. cbn. split; [discriminate|lia].
Qed.
(** every element that contains a non-empty range is an ancestor of the covering element, or it *)
Lemma covering_deepest t r q : r_start r < r_end r -> inside r (file_range t) -> exists_at t q -> inside r (range_at t q) -> prefix q (covering 0 t r).
Proof.
  intros O F X I. destruct (covering_range t r ltac:(lia) F) as [Y J]. set (p := covering 0 t r) in *.
  assert (D : prefix q p \/ prefix p q \/ (~ prefix p q /\ ~ prefix q p)).
  { assert (forall a b : place_path, prefix a b \/ ~ prefix a b) as Dec.
    { induction a as [|x a IH]; intros b; [left; exists b; reflexivity|]. destruct b as [|y b]; [right; intros [s H]; discriminate|].
      destruct (Nat.eq_dec x y) as [->|N]; [|right; intros [s H]; inversion H; congruence]. destruct (IH b) as [[s ->]|N]; [left; exists s; reflexivity|right]. intros [s H]. inversion H. apply N. exists s. auto. }
    destruct (Dec q p); auto. destruct (Dec p q); auto. }
  destruct D as [D|[[s D]|[D1 D2]]]; [exact D| |].
  - destruct s as [|i s]; [rewrite app_nil_r in D; subst q; exists []; now rewrite app_nil_r|].
    exfalso. subst q. replace (p ++ i :: s) with ((p ++ [i]) ++ s) in * by (now rewrite <- app_assoc).
    pose proof (exists_prefix _ _ _ X) as Xi. pose proof (inside_trans _ _ _ I (range_prefix _ _ _ X)) as Ii.
    destruct F as [A B]. cbn in A, B. destruct (covering_holds t 0 r A B) as (e & E & _ & _ & M). fold p in E, M. rewrite !Nat.add_0_l in M.
    destruct (exist_children t p i Xi) as (c & C & C'). unfold children_of in C. rewrite E in C. destruct e as [k ch|]; [|destruct i; discriminate].
    apply nth_error_split in C as (a & b & -> & L). apply (M a c b eq_refl). revert Ii. unfold inside, range_at, text_at. rewrite C'. cbn [r_start r_end].
    rewrite (offset_at_app p [i] t _ E). rewrite <- L, child_offset. cbn. lia.
  - destruct (disjoint_ranges t p q D1 D2 Y X) as [H|H]; unfold inside in *; lia.
Qed.

(** ** tokens at an offset *)
Definition go_tokens (p : place_path) := fix go (i : nat) (ch : list tree) : list place_path := match ch with [] => [] | c :: r => tokens_from (p ++ [i]) c ++ go (S i) r end.
Lemma tokens_node p k ch : tokens_from p (TNode k ch) = go_tokens p 0 ch. Proof. reflexivity. Qed.
Lemma go_tokens_in p ch : forall i q, In q (go_tokens p i ch) <-> exists j c, nth_error ch j = Some c /\ In q (tokens_from (p ++ [i + j]) c).
Proof.
  induction ch as [|c ch IH]; intros i q; cbn.
  - split; [easy|]. intros (j & c & H & _). destruct j; discriminate.
  - rewrite in_app_iff, IH. split.
    + intros [H|(j & c' & H & I)]; [exists 0, c; rewrite Nat.add_0_r; auto | exists (S j), c'; rewrite <- Nat.add_succ_comm; auto].
    + intros ([|j] & c' & H & I); cbn in H; [left; inversion H; subst; now rewrite Nat.add_0_r in I | right; exists j, c'; rewrite Nat.add_succ_comm; auto].
Qed.
Lemma tokens_in t : forall p q, In q (tokens_from p t) <-> exists s k x, q = p ++ s /\ element_at t s = Some (TTok k x).
Proof.
  induction t as [k ch IH|k x] using tree_ind2; intros p q.
  - rewrite tokens_node, go_tokens_in. rewrite Forall_forall in IH. split.
    + intros (j & c & N & I). apply (IH c (nth_error_In _ _ N)) in I as (s & k' & x & -> & E). exists (j :: s), k', x. rewrite Nat.add_0_l, <- app_assoc. cbn. rewrite N. auto.
    + intros ([|j s] & k' & x & -> & E); [discriminate|]. cbn in E. destruct (nth_error ch j) as [c|] eqn:N; [|discriminate]. exists j, c. split; [exact N|].
      apply (IH c (nth_error_In _ _ N)). exists s, k', x. rewrite Nat.add_0_l, <- app_assoc. auto.
  - cbn. split.
    + intros [<-|[]]. exists [], k, x. now rewrite app_nil_r.
    + intros ([|j s] & k' & x' & -> & E); [rewrite app_nil_r; now left|discriminate].
Qed.
Lemma token_at_in t o q : In q (token_at_offset t o) <-> (exists k x, element_at t q = Some (TTok k x)) /\ r_start (range_at t q) < r_end (range_at t q) /\ r_start (range_at t q) <= o <= r_end (range_at t q).
Proof.
  unfold token_at_offset. rewrite filter_In, tokens_in. unfold touches. rewrite !andb_true_iff, Nat.ltb_lt, !Nat.leb_le. split.
  - intros [(s & k & x & -> & E) ?]. cbn. split; [eauto|tauto].
  - intros [(k & x & E) ?]. split; [exists q, k, x; auto|tauto].
Qed.
(** some token touches every offset of a file that is not empty *)
Lemma some_token t : forall o, elem_text t <> [] -> o <= length (elem_text t) ->
  exists s k x, element_at t s = Some (TTok k x) /\ x <> [] /\ offset_at t s <= o <= offset_at t s + length x.
Proof.
  induction t as [k ch IH|k x] using tree_ind2; intros o N L.
  - cbn [elem_text] in *.
    assert (exists a c b, ch = a ++ c :: b /\ elem_text c <> [] /\ length (flat_map elem_text a) <= o <= length (flat_map elem_text a) + length (elem_text c)) as (a & c & b & -> & Nc & Lc).
    { clear IH k. revert o L. induction ch as [|c ch IH]; intros o L; [cbn in N; congruence|]. cbn in N, L. rewrite app_length in L.
      destruct (elem_text c) as [|y ys] eqn:E.
      - destruct (IH N o L) as (a & c' & b & -> & Nc & Lc). exists (c :: a), c', b. cbn. rewrite E. auto.
      - destruct (Nat.le_gt_cases o (length (y :: ys))) as [Lo|Lo].
        + exists [], c, ch. cbn [flat_map length]. rewrite E. repeat split; [discriminate|lia|lia].
        + destruct (flat_map elem_text ch) as [|z zs] eqn:F; [cbn in L; cbn in Lo; lia|].
          destruct (IH ltac:(discriminate) (o - length (y :: ys)) ltac:(lia)) as (a & c' & b & -> & Nc & Lc). exists (c :: a), c', b. cbn [flat_map]. rewrite E, app_length. repeat split; [exact Nc|lia|lia]. }
    rewrite Forall_forall in IH. destruct (IH c (in_elt c a b) (o - length (flat_map elem_text a)) Nc ltac:(lia)) as (s & k' & x & E & X & O).
    exists (length a :: s), k', x. rewrite child_offset. repeat split; auto; [|lia|lia]. cbn. rewrite nth_error_app2, Nat.sub_diag by lia. exact E.
  - exists [], k, x. cbn in *. repeat split; auto; lia.
Qed.
Lemma token_at_some t o : elem_text t <> [] -> o <= length (elem_text t) -> token_at_offset t o <> [].
Proof.
  intros N L E. destruct (some_token t o N L) as (s & k & x & A & X & O). assert (In s (token_at_offset t o)); [|rewrite E in H; destruct H].
  apply token_at_in. unfold range_at, text_at. rewrite A. cbn. destruct x; [congruence|]. cbn in *. split; [eauto|lia].
Qed.

(** ** climbing *)
Lemma climb_spec t r rp : exists_at t (rev rp) -> range_at t (rev rp) = r ->
  prefix (climb t r rp) (rev rp) /\ range_at t (climb t r rp) = r /\
  match rev (climb t r rp) with [] => True | _ :: rq => range_at t (rev rq) <> r end.
Proof.
  induction rp as [|i rp IH]; intros X R; cbn [climb]; cbn [rev] in *.
  - split; [exists []; reflexivity|]. split; [exact R|exact I].
  - destruct (same_range (range_at t (rev rp)) r) eqn:E.
    + apply same_range_spec in E. destruct (IH (exists_prefix _ _ _ X) E) as (P & Q & M). split; [|auto]. destruct P as [s P]. rewrite P. exists (s ++ [i]). now rewrite app_assoc.
    + split; [exists []; now rewrite app_nil_r|]. split; [exact R|]. rewrite rev_app_distr, rev_involutive. cbn. intros H. rewrite H in E. assert (same_range r r = true) by now apply same_range_spec. congruence.
Qed.
