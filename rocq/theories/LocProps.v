(** A stored location finds the node it was made from, and `contains` is being an ancestor. *)
From Coq Require Import String.
Close Scope string_scope.
From Verif Require Import Base SyntaxKind TextEditModel TreeSinkModel TreeDiffModel EditorModel EditorSpec EditorProofs EditorOrder AddressModel SelectionModel SelectionProofs SelectionProps SignatureProps LocModel.
Close Scope N_scope.
Open Scope nat_scope.
Open Scope list_scope.

(** * The specification *)
Definition node (t : tree) (p : place_path) (k : kind) : Prop := exists ch, element_at t p = Some (TNode k ch).
(** a node of the same kind around the node has more text *)
Definition no_echo (t : tree) (p : place_path) : Prop := forall q k, prefix q p -> q <> p -> node t p k -> node t q k -> range_at t q <> range_at t p.

(** * Children *)
Lemma skip_spec r : forall ch l o prev, let (i, oi) := skip_before r o (length l) prev ch in
  (exists c rest a, ch = a ++ c :: rest /\ (i, oi) = (length (l ++ a), o + length (flat_map elem_text a)) /\ ordering (mkRange oi (oi + length (elem_text c))) r <> Gt) \/ (i, oi) = prev.
Proof.
  induction ch as [|c rest IH]; intros l o prev; cbn [skip_before]; [destruct prev; now right|]. cbn zeta. destruct (ordering _ r) eqn:O.
  - left. exists c, rest, []. rewrite app_nil_r. cbn. rewrite Nat.add_0_r, O. repeat split; discriminate.
  - specialize (IH (l ++ [c]) (o + length (elem_text c)) (length l, o)). rewrite app_length in IH. cbn [length] in IH. rewrite Nat.add_1_r in IH. cbn [r_end]. destruct (skip_before r (o + length (elem_text c)) (S (length l)) (length l, o) rest) as [i oi]. destruct IH as [(d & rs & a & -> & E & N)|E].
    + left. exists d, rs, (c :: a). split; [reflexivity|]. split; [|exact N]. rewrite E. cbn [flat_map]. rewrite !app_length. cbn [length]. f_equal; lia.
    + left. exists c, rest, []. split; [reflexivity|]. rewrite app_nil_r. cbn. rewrite Nat.add_0_r. split; [exact E|]. injection E as -> ->. rewrite O. discriminate.
  - destruct prev; now right.
Qed.
(** what is found is a child, at its offset, that contains the range *)
Lemma child_sound r o ch i oi : child_at_range r o ch = Some (i, oi) -> exists a c b, ch = a ++ c :: b /\ i = length a /\ oi = o + length (flat_map elem_text a) /\ oi <= r_start r /\ r_end r <= oi + length (elem_text c).
Proof.
  unfold child_at_range. pose proof (skip_spec r ch [] o (0, o)) as S. cbn [length app] in S. destruct (skip_before r o 0 (0, o) ch) as [j oj]. destruct (nth_error ch j) as [c|] eqn:C; [|discriminate]. destruct (contains_range _ r) eqn:Q; [|discriminate]. intros H. injection H as <- <-.
  apply andb_true_iff in Q as [Q1 Q2]. cbn [r_start r_end] in Q1, Q2. apply Nat.leb_le in Q1, Q2. destruct S as [(d & rest & a & -> & E & _)|E].
  - injection E as -> ->. rewrite nth_error_app2, Nat.sub_diag in C by lia. cbn in C. injection C as ->. exists a, c, rest. auto.
  - injection E as -> ->. destruct ch as [|d rest]; [discriminate|]. injection C as ->. exists [], c, rest. cbn. rewrite Nat.add_0_r. auto.
Qed.
(** a child that contains a range that is not empty is found *)
Lemma skip_found r c b : r_start r < r_end r -> forall a o i prev, o + length (flat_map elem_text a) <= r_start r -> r_end r <= o + length (flat_map elem_text a) + length (elem_text c) ->
  skip_before r o i prev (a ++ c :: b) = (i + length a, o + length (flat_map elem_text a)).
Proof.
  intros L. induction a as [|x a IH]; intros o i prev A B; cbn [app skip_before flat_map length] in *.
  - rewrite Nat.add_0_r in *. unfold ordering. cbn [r_start r_end]. rewrite (proj2 (Nat.leb_gt _ _)), (proj2 (Nat.leb_gt _ _)) by lia. now rewrite Nat.add_0_r.
  - rewrite app_length in A, B. unfold ordering at 1. cbn [r_start r_end]. rewrite (proj2 (Nat.leb_le _ _)) by lia. rewrite IH by lia. rewrite app_length. f_equal; lia.
Qed.
Lemma child_found r a c b o : r_start r < r_end r -> o + length (flat_map elem_text a) <= r_start r -> r_end r <= o + length (flat_map elem_text a) + length (elem_text c) ->
  child_at_range r o (a ++ c :: b) = Some (length a, o + length (flat_map elem_text a)).
Proof.
  intros L A B. unfold child_at_range. rewrite (skip_found r c b L a o 0 (0, o) A B). cbn [Nat.add]. rewrite nth_error_app2, Nat.sub_diag by lia. cbn [nth_error]. unfold contains_range. cbn [r_start r_end]. now rewrite (proj2 (Nat.leb_le _ _) A), (proj2 (Nat.leb_le _ _) B).
Qed.
Lemma range_eqb_spec a b : range_eqb a b = true <-> a = b.
Proof. destruct a, b. unfold range_eqb. cbn. rewrite andb_true_iff, !Nat.eqb_eq. split; [intros [-> ->]; reflexivity|intros H; injection H; auto]. Qed.
Definition shift (o : nat) (r : range) : range := mkRange (o + r_start r) (o + r_end r).
Lemma range_child k a c b p : range_at (TNode k (a ++ c :: b)) (length a :: p) = shift (length (flat_map elem_text a)) (range_at c p).
Proof.
  unfold range_at, shift, text_at. cbn. rewrite nth_error_app2, Nat.sub_diag by lia. cbn. rewrite firstn_app, Nat.sub_diag, firstn_all. cbn. rewrite app_nil_r. f_equal. lia.
Qed.
Lemma map_nth {A B} (f : A -> B) a c b : nth_error (map f (a ++ c :: b)) (length a) = Some (f c).
Proof. rewrite map_app. cbn. rewrite nth_error_app2; rewrite map_length; [|lia]. now rewrite Nat.sub_diag. Qed.
Lemma element_mid k a c b p : element_at (TNode k (a ++ c :: b)) (length a :: p) = element_at c p.
Proof. cbn. rewrite nth_error_app2, Nat.sub_diag by lia. reflexivity. Qed.

(** * Finding *)
Lemma find_sound k r : forall p t o, find_ptr k r t o = Some p -> node t p k /\ r = shift o (range_at t p).
Proof.
  induction p as [|i p IH]; intros [k' ch|k' x] o H; cbn [find_ptr] in H; try discriminate.
  - destruct (range_eqb _ r && kind_eqb k' k) eqn:Q.
    + apply andb_true_iff in Q as [Q1 Q2]. apply range_eqb_spec in Q1. apply kind_eqb_spec in Q2. subst. split; [exists ch; reflexivity|]. unfold shift, range_at, text_at. cbn. f_equal. lia.
    + destruct (child_at_range r o ch) as [[j oj]|]; [|discriminate]. destruct (nth_error _ j) as [f|]; [|discriminate]. destruct (f oj); discriminate.
  - destruct (range_eqb _ r && kind_eqb k' k); [discriminate|]. destruct (child_at_range r o ch) as [[j oj]|] eqn:C; [|discriminate]. apply child_sound in C as (a & c & b & -> & -> & -> & _). rewrite map_nth in H. destruct (find_ptr k r c _) as [q|] eqn:F; [|discriminate]. cbn in H. injection H as <- <-.
    destruct (IH c _ F) as [(ch & E) ->]. split; [exists ch; rewrite element_mid; exact E|]. rewrite range_child. unfold shift. cbn. f_equal; lia.
Qed.
Lemma find_outer k : forall p t o ch, element_at t p = Some (TNode k ch) -> r_start (range_at t p) < r_end (range_at t p) ->
  exists q s, find_ptr k (shift o (range_at t p)) t o = Some q /\ p = q ++ s /\ range_at t q = range_at t p /\ node t q k /\ forall q' s', p = q' ++ s' -> node t q' k -> range_at t q' = range_at t p -> prefix q q'.
Proof.
  induction p as [|i p IH]; intros t o ch E L.
  - cbn in E. injection E as ->. exists [], []. cbn [find_ptr]. assert (Q : range_eqb (mkRange o (o + length (elem_text (TNode k ch)))) (shift o (range_at (TNode k ch) [])) = true). { apply range_eqb_spec. unfold shift, range_at, text_at. cbn. f_equal. lia. }
    rewrite Q, (proj2 (kind_eqb_spec k k) eq_refl). cbn [andb]. split; [reflexivity|]. split; [reflexivity|]. split; [reflexivity|]. split; [exists ch; reflexivity|]. intros q' s' _ _ _. exists q'. reflexivity.
  - destruct t as [k' cs|]; [|discriminate]. cbn in E. destruct (nth_error cs i) as [c|] eqn:C; [|discriminate]. destruct (nth_error_split cs i C) as (a & b & -> & <-). clear C. rewrite range_child in L. cbn [r_start r_end shift] in L.
    cbn [find_ptr]. set (r := shift o (range_at (TNode k' (a ++ c :: b)) (length a :: p))). destruct (range_eqb _ r && kind_eqb k' k) eqn:Q.
    + apply andb_true_iff in Q as [Q1 Q2]. apply range_eqb_spec in Q1. apply kind_eqb_spec in Q2. subst k'. exists [], (length a :: p). split; [reflexivity|]. split; [reflexivity|]. split; [|split; [eexists; reflexivity|intros q' s' _ _ _; exists q'; reflexivity]].
      unfold r, shift in Q1. pose proof (f_equal r_start Q1) as A. pose proof (f_equal r_end Q1) as B. cbn [r_start r_end] in A, B. assert (Z : range_at (TNode k (a ++ c :: b)) [] = mkRange 0 (length (elem_text (TNode k (a ++ c :: b))))) by reflexivity. rewrite Z. destruct (range_at (TNode k (a ++ c :: b)) (length a :: p)) as [x y]. cbn [r_start r_end] in *. f_equal; lia.
    + assert (X : exists_at c (@nil nat ++ p)) by (unfold exists_at; cbn [app]; rewrite E; discriminate). pose proof (range_prefix c [] p X) as I. unfold inside in I. cbn [app] in I. assert (Z : range_at c [] = mkRange 0 (length (elem_text c))) by reflexivity. rewrite Z in I. cbn [r_start r_end] in I.
      assert (Rr : r = shift (o + length (flat_map elem_text a)) (range_at c p)). { unfold r. rewrite range_child. unfold shift. cbn [r_start r_end]. f_equal; lia. }
      rewrite (child_found r a c b o) by (rewrite Rr; cbn [shift r_start r_end]; lia). rewrite map_nth, Rr. destruct (IH c (o + length (flat_map elem_text a)) ch E ltac:(lia)) as (q & s & F & -> & Rq & (chq & Nq) & M). rewrite F. cbn [option_map]. exists (length a :: q), s. split; [reflexivity|]. split; [reflexivity|].
      split; [rewrite !range_child; now rewrite Rq|]. split; [exists chq; rewrite element_mid; exact Nq|]. intros q' s' Ep (chq' & Nq') Rq'. destruct q' as [|j q'].
      * exfalso. cbn in Nq'. injection Nq' as -> _. apply andb_false_iff in Q as [Q|Q]; [|rewrite (proj2 (kind_eqb_spec k k) eq_refl) in Q; discriminate]. assert (W : range_eqb (mkRange o (o + length (elem_text (TNode k (a ++ c :: b))))) r = true); [|congruence].
        apply range_eqb_spec. unfold r. rewrite <- Rq'. unfold shift, range_at, text_at. cbn. f_equal. lia.
      * cbn in Ep. injection Ep as <- Ep. rewrite element_mid in Nq'. rewrite !range_child in Rq'. destruct (M q' s' Ep) as (u & ->); [exists chq'; exact Nq'| |exists u; reflexivity].
        destruct (range_at c q') as [x1 y1], (range_at c (q ++ s)) as [x2 y2]. unfold shift in Rq'. cbn in Rq'. injection Rq' as A B. f_equal; lia.
Qed.
Lemma shift_0 r : shift 0 r = r. Proof. destruct r. reflexivity. Qed.
Lemma in_file t p : exists_at t p -> r_end (range_at t p) <= length (elem_text t).
Proof. intros X. change (exists_at t ([] ++ p)) in X. destruct (range_prefix t [] p X) as [_ H]. exact H. Qed.

Lemma loc_of_spec t p l : loc_of t p = Some l <-> node t p (l_kind l) /\ range_at t p = l_range l.
Proof.
  unfold loc_of, node. destruct l as [k r]. cbn [l_kind l_range]. destruct (element_at t p) as [[k' ch|]|]; (split; [intros H|intros [(c & H) R]]); try discriminate; try (now injection H).
  - pose proof (f_equal (fun o => match o with Some l => l_kind l | None => k end) H) as A. pose proof (f_equal (fun o => match o with Some l => l_range l | None => r end) H) as B. cbn [l_kind l_range] in A, B. subst k'. split; [now exists ch|exact B].
  - injection H as -> _. now rewrite R.
Qed.
Lemma has_text t p : text_at t p <> [] <-> r_start (range_at t p) < r_end (range_at t p).
Proof. unfold range_at. cbn [r_start r_end]. destruct (text_at t p); cbn [length]; [split; [congruence|lia]|split; [lia|discriminate]]. Qed.
Lemma node_exists t p k : node t p k -> exists_at t p. Proof. intros (ch & E). unfold exists_at. rewrite E. discriminate. Qed.

(** * The theorems *)
(** What is found has the kind and the range of the location, whichever tree it comes from. *)
Theorem loc_found_sound : forall t l p, to_node t l = Some p -> node t p (l_kind l) /\ range_at t p = l_range l /\ loc_of t p = Some l.
Proof.
  intros t l p H. unfold to_node in H. destruct (_ <=? _); [|discriminate]. apply find_sound in H as [N R]. rewrite shift_0 in R. split; [exact N|]. split; [congruence|]. apply loc_of_spec. auto.
Qed.
(** The location of a node with text finds the outermost node around it of its kind and range, so nothing else. *)
Theorem loc_outermost : forall t p l, loc_of t p = Some l -> text_at t p <> [] -> exists q, to_node t l = Some q /\ prefix q p /\ loc_of t q = Some l /\ forall q', prefix q' p -> loc_of t q' = Some l -> prefix q q'.
Proof.
  intros t p l H N. apply loc_of_spec in H as [Np R]. apply has_text in N. pose proof (node_exists _ _ _ Np) as X. destruct Np as (ch & E). destruct (find_outer (l_kind l) p t 0 ch E N) as (q & s & F & -> & Rq & Nq & M). rewrite shift_0, R in F. exists q. unfold to_node. rewrite <- R, (proj2 (Nat.leb_le _ _) (in_file t _ X)), R. split; [exact F|]. split; [exists s; reflexivity|].
  split; [apply loc_of_spec; split; [exact Nq|congruence]|]. intros q' (s' & Es) H. apply loc_of_spec in H as [N' R']. apply (M q' s' Es N'). congruence.
Qed.
(** So a node with text is found again, unless a node of its kind has the same text around it. *)
Theorem loc_roundtrip : forall t p l, loc_of t p = Some l -> text_at t p <> [] -> no_echo t p -> to_node t l = Some p.
Proof.
  intros t p l H N Ec. destruct (loc_outermost t p l H N) as (q & F & P & Lq & _). rewrite F. destruct (list_eq_dec Nat.eq_dec q p) as [->|D]; [reflexivity|]. exfalso. apply loc_of_spec in H as [Np R]. apply loc_of_spec in Lq as [Nq Rq]. apply (Ec q (l_kind l) P D Np Nq). congruence.
Qed.
(** Two nodes with the same location: one is around the other. *)
Theorem loc_unique : forall t p q l, loc_of t p = Some l -> loc_of t q = Some l -> text_at t p <> [] -> prefix p q \/ prefix q p.
Proof.
  intros t p q l P Q N. destruct (prefix_dec p q) as [H|H]; [now left|]. destruct (prefix_dec q p) as [H'|H']; [now right|]. exfalso. apply loc_of_spec in P as [Np Rp]. apply loc_of_spec in Q as [Nq Rq]. apply has_text in N.
  destruct (disjoint_ranges t p q H H' (node_exists _ _ _ Np) (node_exists _ _ _ Nq)) as [D|D]; rewrite Rp in *; rewrite Rq in *; lia.
Qed.
(** [contains] is being an ancestor (or having its text) *)
Theorem loc_contains_exact : forall t p q a b, loc_of t p = Some a -> loc_of t q = Some b -> text_at t q <> [] -> (loc_contains a b = true <-> prefix p q \/ (prefix q p /\ range_at t p = range_at t q)).
Proof.
  intros t p q a b P Q N. apply loc_of_spec in P as [Np Rp]. apply loc_of_spec in Q as [Nq Rq]. apply has_text in N. unfold loc_contains, contains_range. rewrite <- Rp, <- Rq, andb_true_iff, !Nat.leb_le. pose proof (node_exists _ _ _ Np) as Xp. pose proof (node_exists _ _ _ Nq) as Xq. split.
  - intros [A B]. destruct (prefix_dec p q) as [H|H]; [now left|]. right. destruct (prefix_dec q p) as [H'|H'].
    + split; [exact H'|]. destruct H' as (s & ->). pose proof (range_prefix t q s Xp) as [C D]. destruct (range_at t q) as [x y], (range_at t (q ++ s)) as [x' y']. cbn [r_start r_end] in *. f_equal; lia.
    + exfalso. destruct (disjoint_ranges t p q H H' Xp Xq) as [D|D]; lia.
  - intros [(s & ->)|[_ R]]; [|rewrite R; lia]. destruct (range_prefix t p s Xq) as [A B]. lia.
Qed.

(** * Examples *)
(** all nodes with their locations *)
Fixpoint nodes_from (p : place_path) (t : tree) : list place_path :=
  match t with TTok _ _ => [] | TNode _ ch => p :: (fix go (i : nat) (l : list tree) : list place_path := match l with [] => [] | c :: r => nodes_from (p ++ [i]) c ++ go (S i) r end) 0 ch end.
Definition ex_lc : text := str "module 0x1::m { fun f(a: u8) { let S { x } = a; g(f, 1) } }".
Definition ex_lc_tree : tree := match parsed ex_lc with Some t => t | None => TTok COMMENT [] end.
Lemma ex_lc_parsed : parsed ex_lc = Some ex_lc_tree.
Proof. assert (H : match parsed ex_lc with Some _ => true | None => false end = true) by (vm_compute; reflexivity). unfold ex_lc_tree. destruct (parsed ex_lc); [reflexivity|discriminate]. Qed.
Definition path_eqb (a b : place_path) : bool := if list_eq_dec Nat.eq_dec a b then true else false.
(** every node of the file is found again; the path, its segment and its name have the same range *)
Example loc_roundtrip_example : List.length (nodes_from [] ex_lc_tree) = 41 /\
  forallb (fun p => match loc_of ex_lc_tree p with Some l => match to_node ex_lc_tree l with Some q => path_eqb p q | None => false end | None => false end) (nodes_from [] ex_lc_tree) = true.
Proof. vm_compute. auto. Qed.
Definition ex_lc_arg : place_path := [0; 8; 5; 4; 1; 1; 0; 0; 0; 0].
Example loc_hypotheses_example : loc_of ex_lc_tree ex_lc_arg = Some (mkLoc NAME_REF (mkRange 50 51)) /\ text_at ex_lc_tree ex_lc_arg <> [] /\ no_echo ex_lc_tree ex_lc_arg /\ loc_contains (mkLoc CALL_EXPR (mkRange 48 55)) (mkLoc NAME_REF (mkRange 50 51)) = true.
Proof.
  split; [vm_compute; reflexivity|]. split; [vm_compute; discriminate|]. split; [|reflexivity]. intros q k (s & E) D (ch & N) (ch' & N') _.
  assert (Z : element_at ex_lc_tree ex_lc_arg = Some (TNode NAME_REF [TTok IDENT (str "f")])) by (vm_compute; reflexivity). rewrite Z in N. injection N as <- _. clear Z.
  assert (All : forallb (fun n => negb (match kind_at ex_lc_tree (firstn n ex_lc_arg) with Some NAME_REF => true | _ => false end)) (seq 0 10) = true) by (vm_compute; reflexivity). rewrite forallb_forall in All.
  assert (Lq : List.length q < 10). { pose proof (f_equal (@List.length nat) E) as H. rewrite app_length in H. change (List.length ex_lc_arg) with 10 in H. destruct s as [|x s]; [rewrite app_nil_r in E; congruence|cbn in H; lia]. }
  specialize (All (List.length q) ltac:(apply in_seq; lia)). assert (Q : firstn (List.length q) ex_lc_arg = q) by (rewrite E, firstn_app, Nat.sub_diag, firstn_all; cbn; apply app_nil_r). rewrite Q in All. unfold kind_at in All. rewrite N' in All. discriminate All.
Qed.

(** * What is not found *)
(** A node without text: in `if }` the condition and the body are both empty, and the location of the condition is
    looked for in the body. *)
Theorem loc_empty_refuted : exists src t p l, parsed src = Some t /\ loc_of t p = Some l /\ no_echo t p /\ l_kind l = CONDITION /\ to_node t l = None.
Proof.
  exists (str "module 0x1::m { fun f() { if } }"), (match parsed (str "module 0x1::m { fun f() { if } }") with Some t => t | None => TTok COMMENT [] end), [0; 8; 5; 2; 2], (mkLoc CONDITION (mkRange 29 29)).
  split; [vm_compute; reflexivity|]. split; [vm_compute; reflexivity|]. split; [|split; [reflexivity|vm_compute; reflexivity]]. set (t := match parsed _ with Some t => t | None => _ end).
  intros q k (s & E) D (ch & N) (ch' & N') _. assert (Z : element_at t [0; 8; 5; 2; 2] = Some (TNode CONDITION [])) by (vm_compute; reflexivity). rewrite Z in N. injection N as <- _. clear Z.
  assert (All : forallb (fun n => negb (match kind_at t (firstn n [0; 8; 5; 2; 2]) with Some CONDITION => true | _ => false end)) (seq 0 5) = true) by (vm_compute; reflexivity). rewrite forallb_forall in All.
  assert (Lq : List.length q < 5). { pose proof (f_equal (@List.length nat) E) as H. rewrite app_length in H. cbn [List.length] in H. destruct s as [|x s]; [rewrite app_nil_r in E; congruence|cbn in H; lia]. }
  specialize (All (List.length q) ltac:(apply in_seq; lia)). rewrite E, firstn_app, Nat.sub_diag, firstn_all in All. cbn [firstn] in All. rewrite app_nil_r in All. unfold kind_at in All. rewrite N' in All. discriminate All.
Qed.
(** An error in an error: the location of the inner one is that of the outer one. *)
Theorem loc_echo_refuted : exists src t p q l, parsed src = Some t /\ p <> q /\ loc_of t p = Some l /\ loc_of t q = Some l /\ text_at t p <> [] /\ l_kind l = ERROR /\ to_node t l = Some q.
Proof.
  exists (str "module 0x1::m { fun f() { let a: |(u8, |u8|){|; } }"), (match parsed (str "module 0x1::m { fun f() { let a: |(u8, |u8|){|; } }") with Some t => t | None => TTok COMMENT [] end), [0; 8; 5; 2; 5; 2; 0], [0; 8; 5; 2; 5; 2], (mkLoc ERROR (mkRange 44 45)).
  split; [vm_compute; reflexivity|]. split; [discriminate|]. split; [vm_compute; reflexivity|]. split; [vm_compute; reflexivity|]. split; [vm_compute; discriminate|]. split; [reflexivity|vm_compute; reflexivity].
Qed.

Print Assumptions loc_found_sound.
Print Assumptions loc_outermost.
Print Assumptions loc_roundtrip.
Print Assumptions loc_unique.
Print Assumptions loc_contains_exact.
Print Assumptions loc_empty_refuted.
Print Assumptions loc_echo_refuted.
