(** Proofs about deleting items of a use group. *)
From Coq Require Import String Permutation Sorted.
From Verif Require Import Base SyntaxKind TextEditModel ParserModel TreeSinkModel TreeSinkSpec TreeDiffModel TreeDiffSpec TreeDiffProofs AddressModel EditorModel EditorSpec EditorProofs EditorOrder EditorApply EditorProps UseGroupSpec.
Close Scope string_scope.
Close Scope N_scope.
Open Scope nat_scope.
Open Scope list_scope.

(** * Deleting children of one node *)
Fixpoint kept (D : list nat) (i : nat) (ch : list tree) : list tree :=
  match ch with [] => [] | c :: r => (if in_dec Nat.eq_dec i D then [] else [c]) ++ kept D (S i) r end.
Lemma erase_labelled : forall t p, erase (labelled p t) = t.
Proof.
  intros t. induction t as [k ch IH|k x] using tree_ind2; intros p; [|reflexivity]. rewrite labelled_node. cbn. f_equal. generalize 0. induction IH as [|c r H _ IHr]; intros i; [reflexivity|]. cbn. now rewrite H, IHr.
Qed.
Lemma carried_idle : forall pl t p, agree_below p pl idle -> carried_out pl p t = [t].
Proof. intros pl t p A. rewrite <- erase_medit, (medit_ext t p pl idle A), medit_idle. cbn. now rewrite erase_labelled. Qed.
Section Deletions.
Variable G : place_path.
Variable D : list nat.
Let pl := requested (map (delete_at G) D).
Lemma del_first : forall p, first_of pl p = [].
Proof. intros p. cbn. apply flat_map_none. rewrite Forall_forall. intros c I. apply in_map_iff in I as (i & <- & _). reflexivity. Qed.
Lemma del_after : forall p, after_of pl p = [].
Proof. intros p. cbn. apply flat_map_none. rewrite Forall_forall. intros c I. apply in_map_iff in I as (i & <- & _). reflexivity. Qed.
Lemma del_none : forall p, (forall i, In i D -> p <> G ++ [i]) -> instead_of pl p = None.
Proof. intros p H. apply instead_none. rewrite Forall_forall. intros c I. apply in_map_iff in I as (i & <- & J). cbn. intros [= E]. exact (H i J (eq_sym E)). Qed.
Lemma del_some : forall i, In i D -> instead_of pl (G ++ [i]) = Some [].
Proof.
  intros i. unfold pl. cbn. induction D as [|j D' IH]; intros I; [destruct I|]. cbn. destruct (list_eq_dec Nat.eq_dec (G ++ [i]) (G ++ [j])) as [E|N]; [reflexivity|]. apply IH. destruct I as [->|I]; [now contradiction N|auto].
Qed.
Lemma idle_below : forall p, (forall i, ~ prefix p (G ++ [i])) -> agree_below p pl idle.
Proof. intros p H q [r ->]. rewrite del_first, del_after. repeat split. cbn [idle instead_of]. apply del_none. intros i _ E. apply (H i). now exists r. Qed.
Lemma kids_idle : forall ch q i, (forall j x, i <= j < i + length ch -> ~ prefix (q ++ [j]) (G ++ [x])) -> okids pl q i ch = ch.
Proof.
  intros ch. induction ch as [|c ch IH]; intros q i H; [reflexivity|]. cbn. rewrite carried_idle; [|apply idle_below; intros x; apply H; cbn; lia]. rewrite IH; [reflexivity|]. intros j x L. apply H. cbn. lia.
Qed.
Lemma carried_del : forall r q t k ch, G = q ++ r -> element_at t r = Some (TNode k ch) -> carried_out pl q t = [put_at t r (TNode k (kept D 0 ch))].
Proof.
  induction r as [|j r IH]; intros q t k ch EG HE.
  - cbn in HE. injection HE as ->. rewrite app_nil_r in EG. subst q. rewrite carried_node, del_first, del_after, app_nil_r.
    rewrite del_none by (intros i _; apply app_ne_self). cbn. do 2 f_equal. generalize 0. induction ch as [|c ch IHc]; intros i; [reflexivity|]. cbn. rewrite IHc. f_equal. destruct (in_dec Nat.eq_dec i D) as [I|N].
    + destruct c as [k' ch'|k' x]; [rewrite carried_node|cbn [carried_out]]; rewrite (del_some i I), del_after; reflexivity.
    + assert (NN : instead_of pl (G ++ [i]) = None) by (apply del_none; intros x X E; apply app_inv_head in E; injection E as ->; contradiction).
      destruct c as [k' ch'|k' x]; [rewrite carried_node|cbn [carried_out]]; rewrite NN, del_after; [|reflexivity]. rewrite del_first. cbn. rewrite kids_idle; [reflexivity|]. intros m x _ [y E]. rewrite <- !app_assoc in E. apply app_inv_head in E. discriminate.
  - cbn in HE. destruct t as [k0 ch0|]; [|discriminate]. destruct (nth_error ch0 j) as [c|] eqn:Nth; [|discriminate]. rewrite carried_node, del_first, del_after, app_nil_r.
    rewrite del_none by (intros i _; rewrite EG, <- app_assoc; apply app_ne_self). cbn [app put_at]. rewrite Nth. do 2 f_equal. apply nth_error_split in Nth as (a & b & -> & L).
    assert (OA : forall a b i, okids pl q i (a ++ b) = okids pl q i a ++ okids pl q (i + length a) b).
    { clear. intros a. induction a as [|c a IH]; intros b i; cbn; [now rewrite Nat.add_0_r|]. rewrite IH, app_assoc. do 2 f_equal. lia. }
    rewrite OA. cbn [okids Nat.add]. rewrite L. rewrite (kids_idle a).
    2:{ intros m x Lm [y E]. rewrite EG, <- !app_assoc in E. apply app_inv_head in E. injection E as E _. lia. }
    rewrite (kids_idle b).
    2:{ intros m x Lm [y E]. rewrite EG, <- !app_assoc in E. apply app_inv_head in E. injection E as E _. lia. }
    rewrite (IH (q ++ [j]) c k ch); [|now rewrite EG, <- app_assoc|auto].
    rewrite firstn_app, firstn_all2, L, Nat.sub_diag by lia. cbn [firstn]. rewrite app_nil_r. f_equal. cbn [app]. f_equal.
    replace (S j) with (length (a ++ [c])) by (rewrite app_length; cbn; lia). replace (a ++ c :: b) with ((a ++ [c]) ++ b) by now rewrite <- app_assoc. rewrite skipn_app, skipn_all, Nat.sub_diag. reflexivity.
Qed.
End Deletions.
Lemma text_child : forall t g k ch i c, element_at t g = Some (TNode k ch) -> nth_error ch i = Some c -> text_at t (g ++ [i]) = elem_text c.
Proof. intros t g k ch i c H N. unfold text_at. rewrite element_at_app, H. cbn. now rewrite N. Qed.
Lemma deletions_apart : forall t g D, NoDup D -> ForallOrdPairs (apart t) (map (delete_at g) D).
Proof.
  intros t g D H. induction H as [|i D N H IH]; cbn; constructor; auto. rewrite Forall_forall. intros c I. apply in_map_iff in I as (j & <- & J). cbn.
  assert (X : i <> j) by (intros ->; contradiction). split; intros [r E]; rewrite <- app_assoc in E; apply app_inv_head in E; cbn in E; injection E as E _; congruence.
Qed.
Lemma deletions_applied : forall k0 ch0 g k ch D, let t := TNode k0 ch0 in element_at t g = Some (TNode k ch) -> no_twins t -> NoDup D ->
  (forall i, In i D -> exists c, nth_error ch i = Some c /\ elem_text c <> []) ->
  finish t (map (delete_at g) D) = Edited (put_at t g (TNode k (kept D 0 ch))).
Proof.
  intros k0 ch0 g k ch D t HE NT ND HD. destruct (edits_applied k0 ch0 (map (delete_at g) D)) as (t' & E & C); auto.
  - now apply deletions_apart.
  - rewrite Forall_forall. intros c I. apply in_map_iff in I as (i & <- & J). cbn. destruct (HD i J) as (c & N & T). fold t. rewrite (text_child t g k ch i c HE N). split; auto. intros X. destruct g; discriminate.
  - fold t in E, C. rewrite E. f_equal. rewrite (carried_del g D g [] t k ch eq_refl HE) in C. now injection C as ->.
Qed.
(** deleting something twice *)
Lemma disjoint_nodup : forall t l, Forall (fun c => exists p, c = Replace p None /\ text_at t p <> []) l -> (forall c d, In c l -> In d l -> target_parent c = target_parent d) ->
  disjoint_replaces t l = true -> StronglySorted (fun a b => r_start (target_range t a) < r_start (target_range t b)) l.
Proof.
  intros t l F S H. induction l as [|a l IH]; [constructor|]. inversion F as [|? ? Fa Fl]; subst. destruct Fa as (p & -> & Tp). destruct l as [|b l]; [repeat constructor|].
  change (disjoint_replaces t (Replace p None :: b :: l)) with ((negb (replaces (Replace p None) && replaces b) || negb (depth (target_parent (Replace p None)) =? depth (target_parent b)) || (r_end (target_range t (Replace p None)) <=? r_start (target_range t b))) && disjoint_replaces t (b :: l)) in H.
  apply andb_true_iff in H as [H1 H2]. inversion Fl as [|? ? Fb Fl']; subst. destruct Fb as (q & -> & Tq). rewrite (S (Replace p None) (Replace q None)), Nat.eqb_refl in H1 by (cbn; auto). cbn [replaces change_rank Nat.eqb negb andb orb] in H1. apply Nat.leb_le in H1.
  assert (O : StronglySorted (fun a b => r_start (target_range t a) < r_start (target_range t b)) (Replace q None :: l)) by (apply IH; auto; intros; apply S; now right).
  constructor; auto. inversion O as [|? ? O1 O2]; subst. apply text_at_len in Tp. cbn [target_range r_start r_end range_at] in *. constructor; [cbn; lia|]. eapply Forall_impl; [|exact O2]. cbn. intros x X. lia.
Qed.
Lemma deleted_twice : forall k0 ch0 g k ch D, let t := TNode k0 ch0 in element_at t g = Some (TNode k ch) -> ~ NoDup D ->
  (forall i, In i D -> exists c, nth_error ch i = Some c /\ elem_text c <> []) ->
  finish t (map (delete_at g) D) = Conflict.
Proof.
  intros k0 ch0 g k ch D t HE ND HD. unfold finish.
  replace ((1 <? length (map (delete_at g) D)) && existsb (target_panics t) (map (delete_at g) D)) with false.
  2:{ symmetry. apply andb_false_iff. right. destruct (existsb _ _) eqn:E; auto. apply existsb_exists in E as (c & I & E). apply in_map_iff in I as (i & <- & _). discriminate. }
  pose proof (sorted_perm t (map (delete_at g) D)) as Pm.
  destruct (disjoint_replaces t (sorted_changes t (map (delete_at g) D))) eqn:E; [|reflexivity]. exfalso. apply ND.
  apply disjoint_nodup in E.
  - assert (N : NoDup (sorted_changes t (map (delete_at g) D))).
    { clear Pm. induction E as [|a l O IH F]; constructor; auto. intros I. rewrite Forall_forall in F. apply F in I. lia. }
    rewrite Pm in N. eapply NoDup_map_inv, N.
  - rewrite Pm. rewrite Forall_forall. intros c I. apply in_map_iff in I as (i & <- & J). exists (g ++ [i]). split; auto. destruct (HD i J) as (c & Nc & T). now rewrite (text_child t g k ch i c HE Nc).
  - intros c d. rewrite Pm. intros I J. apply in_map_iff in I as (i & <- & _), J as (j & <- & _). cbn. unfold parent. now rewrite !removelast_last.
Qed.

(** * The children of a group *)
Lemma commas_len : forall xs, xs <> [] -> length (commas xs) = 3 * length xs - 2.
Proof. intros xs. induction xs as [|x [|y r] IH]; intros H; [contradiction|reflexivity|]. change (length (commas (x :: y :: r))) with (S (S (S (length (commas (y :: r)))))). rewrite IH by discriminate. cbn [length]. lia. Qed.
Lemma commas_item : forall xs i, nth_error (commas xs ++ [TTok R_CURLY (str "}")]) (3 * i) = match nth_error xs i with Some x => Some x | None => nth_error (commas xs ++ [TTok R_CURLY (str "}")]) (3 * i) end.
Proof.
  intros xs. induction xs as [|x [|y r] IH]; intros i; [now rewrite (proj2 (nth_error_None [] i)) by (cbn; lia)| |].
  - destruct i as [|i]; [reflexivity|]. cbn [nth_error]. now rewrite (proj2 (nth_error_None [] i)) by (cbn; lia).
  - destruct i as [|i]; [reflexivity|]. replace (3 * S i) with (S (S (S (3 * i)))) by lia. apply (IH i).
Qed.
Lemma kid_item : forall xs i x, nth_error xs i = Some x -> nth_error (group_kids xs) (item_index i) = Some x.
Proof. intros xs i x H. unfold group_kids, item_index. change (1 + 3 * i) with (S (3 * i)). cbn [nth_error]. now rewrite commas_item, H. Qed.
Lemma kid_comma : forall xs i, S i < length xs -> nth_error (group_kids xs) (2 + 3 * i) = Some (TTok COMMA (str ",")).
Proof.
  intros xs i. change (nth_error (group_kids xs) (2 + 3 * i)) with (nth_error (commas xs ++ [TTok R_CURLY (str "}")]) (1 + 3 * i)). revert i. induction xs as [|x [|y r] IH]; intros i L; cbn [length] in L; try lia.
  destruct i as [|i]; [reflexivity|]. replace (1 + 3 * S i) with (S (S (S (1 + 3 * i)))) by lia. apply (IH i). cbn [length]. lia.
Qed.
Lemma kid_ws : forall xs i, S i < length xs -> nth_error (group_kids xs) (3 + 3 * i) = Some (TTok WHITESPACE (str " ")).
Proof.
  intros xs i. change (nth_error (group_kids xs) (3 + 3 * i)) with (nth_error (commas xs ++ [TTok R_CURLY (str "}")]) (2 + 3 * i)). revert i. induction xs as [|x [|y r] IH]; intros i L; cbn [length] in L; try lia.
  destruct i as [|i]; [reflexivity|]. replace (2 + 3 * S i) with (S (S (S (2 + 3 * i)))) by lia. apply (IH i). cbn [length]. lia.
Qed.
Lemma kid_end : forall xs i, S i = length xs -> nth_error (group_kids xs) (2 + 3 * i) = Some (TTok R_CURLY (str "}")).
Proof.
  intros xs i. change (nth_error (group_kids xs) (2 + 3 * i)) with (nth_error (commas xs ++ [TTok R_CURLY (str "}")]) (1 + 3 * i)). revert i. induction xs as [|x [|y r] IH]; intros i L; cbn [length] in L; try lia.
  - injection L as ->. reflexivity.
  - destruct i as [|i]; [lia|]. replace (1 + 3 * S i) with (S (S (S (1 + 3 * i)))) by lia. apply (IH i). cbn [length]. lia.
Qed.
Lemma kids_len : forall xs, xs <> [] -> length (group_kids xs) = 3 * length xs.
Proof. intros xs H. unfold group_kids. cbn [length]. rewrite app_length, commas_len by auto. cbn. destruct xs; [contradiction|cbn; lia]. Qed.

(** * What is deleted with an item *)
Definition with_item (n i : nat) : list nat :=
  if i =? 0 then [3; 2; 1] else if S i =? n then [3 * i; 3 * i - 1; 1 + 3 * i] else [3 * i; 2 + 3 * i; 1 + 3 * i].
Lemma kind_at_nth : forall ch i c, nth_error ch i = Some c -> kind_at_index ch i = Some (tree_kind c).
Proof. intros ch i c H. unfold kind_at_index. now rewrite H. Qed.
Section Group.
Variable xs : list tree.
Hypothesis Items : Forall use_item xs.
Let n := length xs.
Let ch := group_kids xs.
Lemma item_kind : forall i, i < n -> kind_at_index ch (item_index i) = Some USE_SPECK.
Proof.
  intros i L. destruct (nth_error xs i) as [x|] eqn:E; [|apply nth_error_None in E; unfold n in L; lia]. rewrite (kind_at_nth ch _ x) by now apply kid_item. rewrite Forall_forall in Items. apply nth_error_In in E. destruct (Items x E) as [(c & ->) _]. reflexivity.
Qed.
Lemma after_item : forall i, i < n -> kind_at_index ch (S (item_index i)) = Some (if S i =? n then R_CURLY else COMMA).
Proof.
  intros i L. change (S (item_index i)) with (2 + 3 * i). destruct (S i =? n) eqn:E; [apply Nat.eqb_eq in E; now rewrite (kind_at_nth ch _ _ (kid_end xs i E))|]. apply Nat.eqb_neq in E. rewrite (kind_at_nth ch _ (TTok COMMA (str ","))); [reflexivity|]. apply kid_comma. unfold n in *. lia.
Qed.
Lemma no_trivia_after : forall i f, i < n -> trivia_after ch f (item_index i) = [].
Proof. intros i [|f] L; [reflexivity|]. cbn [trivia_after]. rewrite after_item by auto. destruct (S i =? n); reflexivity. Qed.
Lemma trivia_before_item : forall i, i < n -> trivia_before ch (item_index i) = if i =? 0 then [] else [3 * i].
Proof.
  intros [|i] L; [reflexivity|]. unfold item_index. change (1 + 3 * S i) with (S (3 * S i)). cbn [trivia_before Nat.eqb]. replace (3 * S i) with (3 + 3 * i) by lia. rewrite (kind_at_nth ch _ _ (kid_ws xs i L)). cbn [tree_kind]. change (is_trivia WHITESPACE) with true. cbn iota. f_equal.
  change (3 + 3 * i) with (S (2 + 3 * i)). cbn [trivia_before]. now rewrite (kind_at_nth ch _ _ (kid_comma xs i L)).
Qed.
Lemma following_comma_item : forall i, i < n -> following_comma ch (item_index i) = if S i =? n then None else Some (2 + 3 * i).
Proof.
  intros i L. unfold following_comma, next_index. rewrite no_trivia_after by auto. cbn [length]. rewrite Nat.add_0_r, after_item by auto. destruct (S i =? n); reflexivity.
Qed.
Lemma preceding_comma_item : forall i, i < n -> 0 < i -> preceding_comma ch (item_index i) = Some (3 * i - 1).
Proof.
  intros [|i] L H; [lia|]. unfold preceding_comma, prev_index. rewrite trivia_before_item by auto. cbn [Nat.eqb length]. unfold item_index. replace (1 + 3 * S i - 1) with (S (2 + 3 * i)) by lia. rewrite (kind_at_nth ch _ _ (kid_comma xs i L)). cbn [tree_kind]. f_equal. lia.
Qed.
Lemma speck_kids : speck_indices ch = map item_index (seq 0 n).
Proof.
  unfold speck_indices, ch, n, group_kids. cbn [length seq filter nth_error]. clear ch n.
  assert (H : forall xs pre, Forall use_item xs -> filter (fun i => match nth_error (pre ++ commas xs ++ [TTok R_CURLY (str "}")]) i with Some (TNode USE_SPECK _) => true | _ => false end) (seq (length pre) (length (commas xs ++ [TTok R_CURLY (str "}")])))
     = map (fun i => length pre + 3 * i) (seq 0 (length xs))).
  { clear. intros xs. induction xs as [|x r IH]; intros pre F.
    - cbn. rewrite nth_error_app2, Nat.sub_diag by lia. reflexivity.
    - inversion F as [|? ? Fx Fr]; subst. destruct Fx as [(c & ->) _]. destruct r as [|y r].
      + cbn [commas app length seq filter map]. rewrite nth_error_app2, Nat.sub_diag by lia. rewrite (nth_error_app2 pre) by lia. replace (S (length pre) - length pre) with 1 by lia. cbn [nth_error]. f_equal. lia.
      + specialize (IH (pre ++ [TNode USE_SPECK c; TTok COMMA (str ","); TTok WHITESPACE (str " ")]) Fr).
        change (commas (TNode USE_SPECK c :: y :: r)) with ([TNode USE_SPECK c; TTok COMMA (str ","); TTok WHITESPACE (str " ")] ++ commas (y :: r)). rewrite <- app_assoc. rewrite <- app_assoc in IH. rewrite app_length in IH.
        change (length ([TNode USE_SPECK c; TTok COMMA (str ","); TTok WHITESPACE (str " ")] ++ commas (y :: r) ++ [TTok R_CURLY (str "}")])) with (S (S (S (length (commas (y :: r) ++ [TTok R_CURLY (str "}")]))))).
        cbn [seq filter]. rewrite nth_error_app2, Nat.sub_diag by lia. rewrite (nth_error_app2 pre) by lia. rewrite (nth_error_app2 pre) by lia. replace (S (length pre) - length pre) with 1 by lia. replace (S (S (length pre)) - length pre) with 2 by lia. cbn [app nth_error].
        replace (S (S (S (length pre)))) with (length pre + length [TNode USE_SPECK c; TTok COMMA (str ","); TTok WHITESPACE (str " ")]) by (cbn [length]; lia).
        cbn [app] in IH. rewrite IH. change (length (TNode USE_SPECK c :: y :: r)) with (S (length (y :: r))). cbn [seq map]. f_equal; [lia|]. rewrite <- seq_shift, map_map. apply map_ext. intros a. cbn [length]. lia. }
  specialize (H xs [TTok L_CURLY (str "{")] Items). cbn [length app] in H. rewrite H. reflexivity.
Qed.
Lemma deletions_of_item : forall i, 1 < n -> i < n -> use_speck_deletions ch (item_index i) = with_item n i.
Proof.
  intros i N L. unfold use_speck_deletions. rewrite speck_kids. destruct n as [|m] eqn:En; [lia|]. cbn [seq map]. rewrite <- En in *.
  unfold comma_sep_deletions. rewrite no_trivia_after, trivia_before_item, following_comma_item by lia. unfold with_item. destruct i as [|i].
  - replace (1 =? n) with false by (symmetry; apply Nat.eqb_neq; lia). unfold following_ws. change (S (2 + 3 * 0)) with (3 + 3 * 0). rewrite (kind_at_nth ch _ _ (kid_ws xs 0 N)). reflexivity.
  - replace (item_index 0 =? item_index (S i)) with false by (symmetry; apply Nat.eqb_neq; unfold item_index; lia). replace (S i =? 0) with false by reflexivity. cbn [app]. destruct (S (S i) =? n); [rewrite preceding_comma_item by lia|]; reflexivity.
Qed.
End Group.

(** * What is left *)
Section Left.
Variable n : nat.
Variable unused : list nat.
Hypothesis Small : forall i, In i unused -> i < n.
Hypothesis Big : 1 < n.
Let D := flat_map (with_item n) unused.
Lemma in_deleted : forall k, In k D <-> exists i, In i unused /\ In k (with_item n i).
Proof. intros k. unfold D. apply in_flat_map. Qed.
Lemma with_item_in : forall i k, In k (with_item n i) <-> k = 1 + 3 * i \/ (i = 0 /\ (k = 2 \/ k = 3)) \/ (0 < i /\ k = 3 * i) \/ (0 < i /\ S i = n /\ k = 3 * i - 1) \/ (0 < i /\ S i <> n /\ k = 2 + 3 * i).
Proof using n. clear -n.
  intros i k. unfold with_item. destruct (i =? 0) eqn:E0; [apply Nat.eqb_eq in E0; subst; cbn; lia|]. apply Nat.eqb_neq in E0. destruct (S i =? n) eqn:E1; [apply Nat.eqb_eq in E1|apply Nat.eqb_neq in E1]; cbn [In]; lia.
Qed.
Lemma del_item : forall i, In (1 + 3 * i) D <-> In i unused.
Proof.
  intros i. rewrite in_deleted. split.
  - intros (j & J & K). apply with_item_in in K. assert (j = i) by lia. now subst.
  - intros I. exists i. split; auto. apply with_item_in. now left.
Qed.
Lemma del_comma : forall i, S i < n -> (In (2 + 3 * i) D <-> In i unused \/ (S (S i) = n /\ In (S i) unused)).
Proof.
  intros i L. rewrite in_deleted. split.
  - intros (j & J & K). apply with_item_in in K. assert (j = i \/ (j = S i /\ S (S i) = n)) as [->|[-> E]] by lia; auto.
  - intros [I|[E I]]; [exists i|exists (S i)]; split; auto; apply with_item_in; lia.
Qed.
Lemma del_ws : forall i, S i < n -> (In (3 + 3 * i) D <-> In (S i) unused \/ (i = 0 /\ In 0 unused)).
Proof.
  intros i L. rewrite in_deleted. split.
  - intros (j & J & K). apply with_item_in in K. assert (j = S i \/ (i = 0 /\ j = 0)) as [->|[-> ->]] by lia; auto.
  - intros [I|[-> I]]; [exists (S i)|exists 0]; split; auto; apply with_item_in; lia.
Qed.
Lemma del_brackets : ~ In 0 D /\ ~ In (3 * n - 1) D.
Proof.
  split; rewrite in_deleted; intros (j & J & K); apply with_item_in in K; apply Small in J; lia.
Qed.
Hypothesis NoEnd : ~ end_pair n unused.
Let del (i : nat) : Prop := In i unused.
(** from the whitespace before the [j]-th item on *)
Definition rest (xs : list tree) : list tree := TTok WHITESPACE (str " ") :: commas xs ++ [TTok R_CURLY (str "}")].
Lemma kept_in : forall i c r, In i D -> kept D i (c :: r) = kept D (S i) r.
Proof. intros. cbn. now destruct (in_dec Nat.eq_dec i D). Qed.
Lemma kept_out : forall i c r, ~ In i D -> kept D i (c :: r) = c :: kept D (S i) r.
Proof. intros. cbn. now destruct (in_dec Nat.eq_dec i D). Qed.
Lemma used_in : forall i x r, In i unused -> used unused i (x :: r) = used unused (S i) r.
Proof. intros. cbn. now destruct (in_dec Nat.eq_dec i unused). Qed.
Lemma used_out : forall i x r, ~ In i unused -> used unused i (x :: r) = x :: used unused (S i) r.
Proof. intros. cbn. now destruct (in_dec Nat.eq_dec i unused). Qed.
Lemma used_none : forall xs i, used unused i xs = [] -> forall j, i <= j < i + length xs -> In j unused.
Proof.
  intros xs. induction xs as [|x r IH]; intros i U j L; cbn [length] in L; [lia|]. cbn in U. destruct (in_dec Nat.eq_dec i unused) as [I|N]; [|discriminate]. cbn in U. destruct (Nat.eq_dec i j) as [->|Nij]; auto. apply (IH (S i)); auto. lia.
Qed.
Definition ending (us : list tree) : list tree := match us with [] => [TTok R_CURLY (str "}")] | _ => rest us end.
Lemma kept_rest : forall xs j, 0 < j -> xs <> [] -> j + length xs = n -> (j = 1 -> ~ In 0 unused) -> kept D (3 * j) (rest xs) = ending (used unused j xs).
Proof.
  intros xs. induction xs as [|x r IH]; intros j P N L Z; [contradiction|]. cbn [length] in L. destruct j as [|i]; [lia|]. destruct del_brackets as [_ DB].
  assert (W : In (3 * S i) D <-> In (S i) unused).
  { replace (3 * S i) with (3 + 3 * i) by lia. rewrite del_ws by lia. split; [|auto]. intros [H|[-> H]]; auto. exfalso. apply Z; auto. }
  destruct r as [|y r].
  - unfold rest. cbn [commas app]. destruct (in_dec Nat.eq_dec (S i) unused) as [I|NI].
    + rewrite kept_in by tauto. rewrite kept_in by (change (S (3 * S i)) with (1 + 3 * S i); now apply del_item). cbn [length] in L. rewrite kept_out by (replace (S (S (3 * S i))) with (3 * n - 1) by lia; auto). rewrite used_in by auto. reflexivity.
    + rewrite kept_out by tauto. rewrite kept_out by (change (S (3 * S i)) with (1 + 3 * S i); now rewrite del_item). cbn [length] in L. rewrite kept_out by (replace (S (S (3 * S i))) with (3 * n - 1) by lia; auto). rewrite used_out by auto. reflexivity.
  - change (rest (x :: y :: r)) with (TTok WHITESPACE (str " ") :: x :: TTok COMMA (str ",") :: rest (y :: r)). cbn [length] in L, IH.
    assert (IHr : kept D (S (S (S (3 * S i)))) (rest (y :: r)) = ending (used unused (S (S i)) (y :: r))) by (replace (S (S (S (3 * S i)))) with (3 * S (S i)) by lia; apply IH; try lia; discriminate).
    assert (C : In (S (S (3 * S i))) D <-> In (S i) unused \/ (S (S (S i)) = n /\ In (S (S i)) unused)) by (change (S (S (3 * S i))) with (2 + 3 * S i); apply del_comma; lia).
    assert (X : In (S (3 * S i)) D <-> In (S i) unused) by (change (S (3 * S i)) with (1 + 3 * S i); apply del_item).
    destruct (in_dec Nat.eq_dec (S i) unused) as [I|NI].
    + rewrite kept_in by tauto. rewrite kept_in by tauto. rewrite kept_in by tauto. rewrite IHr, (used_in (S i)) by auto. reflexivity.
    + rewrite kept_out by tauto. rewrite kept_out by tauto. rewrite used_out by auto. cbn [ending].
      destruct (used unused (S (S i)) (y :: r)) as [|u us] eqn:U.
      * pose proof (used_none (y :: r) (S (S i)) U) as UN. cbn [length] in UN.
        assert (EN : S (S (S i)) = n). { destruct (Nat.eq_dec (S (S (S i))) n) as [E|NE]; auto. exfalso. apply NoEnd. right. split; apply UN; lia. }
        rewrite kept_in; [rewrite IHr; reflexivity|]. apply C. right. split; auto. apply UN. lia.
      * rewrite kept_out; [rewrite IHr; reflexivity|]. rewrite C. intros [H|[E H]]; auto. assert (r = []) by (destruct r; auto; cbn [length] in L; lia). subst r. rewrite used_in in U by auto. discriminate.
Qed.
Lemma kept_group : forall xs, length xs = n -> 1 < length (used unused 0 xs) -> kept D 0 (group_kids xs) = group_kids (used unused 0 xs).
Proof.
  intros xs L U. destruct xs as [|x [|y r]]; cbn [length] in L; try lia. destruct del_brackets as [D0 _].
  change (group_kids (x :: y :: r)) with (TTok L_CURLY (str "{") :: x :: TTok COMMA (str ",") :: rest (y :: r)). rewrite kept_out by auto. unfold group_kids. f_equal.
  assert (X : In 1 D <-> In 0 unused) by (apply (del_item 0)). assert (C : In 2 D <-> In 0 unused \/ (2 = n /\ In 1 unused)) by (apply (del_comma 0); lia). assert (W : In 3 D <-> In 1 unused \/ (0 = 0 /\ In 0 unused)) by (apply (del_ws 0); lia).
  destruct (in_dec Nat.eq_dec 0 unused) as [I|NI].
  - rewrite kept_in by tauto. rewrite kept_in by tauto. rewrite used_in in * by auto. unfold rest. rewrite kept_in by tauto. assert (N1 : ~ In 1 unused) by (intros I1; apply NoEnd; left; auto). rewrite used_out in * by auto.
    destruct r as [|z r]; [cbn in U; lia|]. change (commas (y :: z :: r) ++ [TTok R_CURLY (str "}")]) with (y :: TTok COMMA (str ",") :: rest (z :: r)).
    assert (X1 : In 4 D <-> In 1 unused) by (apply (del_item 1)). assert (C1 : In 5 D <-> In 1 unused \/ (3 = n /\ In 2 unused)) by (apply (del_comma 1); cbn [length] in L; lia).
    rewrite kept_out by tauto. assert (IHr : kept D 6 (rest (z :: r)) = ending (used unused 2 (z :: r))) by (apply (kept_rest (z :: r) 2); try lia; try discriminate; cbn [length] in *; lia).
    destruct (used unused 2 (z :: r)) as [|u us] eqn:U2; [cbn [length] in U; lia|]. rewrite kept_out; [rewrite IHr; reflexivity|]. rewrite C1. intros [H|[E H]]; auto. assert (r = []) by (destruct r; auto; cbn [length] in L; lia). subst r. rewrite used_in in U2 by auto. discriminate.
  - rewrite kept_out by tauto. rewrite used_out in * by auto.
    assert (IHr : kept D 3 (rest (y :: r)) = ending (used unused 1 (y :: r))) by (apply (kept_rest (y :: r) 1); auto; discriminate).
    destruct (used unused 1 (y :: r)) as [|u us] eqn:U1; [cbn [length] in U; lia|]. rewrite kept_out; [rewrite IHr; reflexivity|]. rewrite C. intros [H|[E H]]; auto. assert (r = []) by (destruct r; auto; cbn [length] in L; lia). subst r. rewrite used_in in U1 by auto. discriminate.
Qed.
Lemma nodup_deleted : NoDup unused -> NoDup D.
Proof.
  intros ND. unfold D. assert (H : forall l, NoDup l -> (forall i, In i l -> In i unused) -> NoDup (flat_map (with_item n) l)).
  { intros l Nl. induction Nl as [|i l NI Nl IH]; intros Sub; cbn; [constructor|].
    assert (I1 : NoDup (with_item n i)).
    { unfold with_item. destruct (i =? 0) eqn:E0; [repeat constructor; cbn; lia|]. apply Nat.eqb_neq in E0. destruct (S i =? n); repeat constructor; cbn [In]; lia. }
    assert (I2 : forall k, In k (with_item n i) -> ~ In k (flat_map (with_item n) l)).
    { intros k K J. apply in_flat_map in J as (j & J1 & J2). assert (Ui : In i unused) by (apply Sub; now left). assert (Uj : In j unused) by (apply Sub; now right). assert (Nij : i <> j) by (intros ->; contradiction).
      apply with_item_in in K, J2. pose proof (Small i Ui) as Si. pose proof (Small j Uj) as Sj. assert (E : (i = 0 /\ j = 1) \/ (i = 1 /\ j = 0) \/ (i = n - 2 /\ j = n - 1) \/ (i = n - 1 /\ j = n - 2)) by lia.
      apply NoEnd. unfold end_pair. destruct E as [[-> ->]|[[-> ->]|[[-> ->]|[-> ->]]]]; auto. }
    specialize (IH (fun j J => Sub j (or_intror J))). revert IH I1 I2. generalize (with_item n i) (flat_map (with_item n) l). clear. intros a b Nb Na H. induction Na as [|x a NI Na IH]; [exact Nb|]. cbn. constructor.
    - intros X. apply in_app_or in X as [X|X]; [contradiction|]. apply (H x (or_introl eq_refl) X).
    - apply IH. intros k K. apply H. now right. }
  apply H; auto.
Qed.
End Left.
Lemma dup_deleted : forall n unused, 1 < n -> (forall i, In i unused -> i < n) -> end_pair n unused -> ~ NoDup (flat_map (with_item n) unused).
Proof.
  intros n unused Big Small E ND.
  assert (H : forall i j k, i <> j -> In i unused -> In j unused -> In k (with_item n i) -> In k (with_item n j) -> False).
  { intros i j k Nij I J Ki Kj. apply in_split in I as (a & b & ->). rewrite flat_map_app in ND. cbn in ND. assert (J' : In j (a ++ b)) by (apply in_app_or in J as [J|[J|J]]; [apply in_or_app; auto|contradiction|apply in_or_app; auto]).
    apply in_split in Ki as (u & v & Eu). rewrite Eu in ND. rewrite <- app_assoc in ND. cbn in ND. rewrite app_assoc in ND. apply NoDup_remove_2 in ND. apply ND. rewrite <- app_assoc. apply in_app_or in J' as [J'|J']; apply in_or_app; [left|right; apply in_or_app; right; apply in_or_app; right]; apply in_flat_map; eauto. }
  destruct E as [[I0 I1]|[Ia Ib]].
  - destruct (Nat.eq_dec n 2) as [->|N2]; apply (H 0 1 3); auto; apply with_item_in; lia.
  - destruct (Nat.eq_dec n 2) as [->|N2]; [apply (H 0 1 3); auto; apply with_item_in; lia|]. apply (H (n - 2) (n - 1) (3 * (n - 1) - 1)); auto; [lia| |]; apply with_item_in; lia.
Qed.
