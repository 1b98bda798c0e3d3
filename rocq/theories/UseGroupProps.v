(** Theorems about removing unused items from a use group. *)
From Coq Require Import String Permutation Sorted.
From Verif Require Import Base SyntaxKind TextEditModel ParserModel TreeSinkModel TreeSinkSpec TreeDiffModel TreeDiffSpec TreeDiffProofs AddressModel EditorModel EditorSpec EditorProofs EditorOrder EditorApply EditorProps UseGroupSpec UseGroupProofs.
Close Scope string_scope.
Close Scope N_scope.
Open Scope nat_scope.
Open Scope list_scope.

Lemma group_children : forall t g xs, element_at t g = Some (use_group xs) -> children_at t g = group_kids xs.
Proof. intros t g xs H. unfold children_at. now rewrite H. Qed.
Lemma left_count : forall unused xs s, length (filter (fun i => negb (existsb (Nat.eqb i) (map item_index unused))) (map item_index (seq s (length xs)))) = length (used unused s xs).
Proof.
  intros unused xs. induction xs as [|x r IH]; intros s; [reflexivity|]. cbn [length seq map filter used]. rewrite app_length, <- IH.
  assert (E : existsb (Nat.eqb (item_index s)) (map item_index unused) = true <-> In s unused).
  { rewrite existsb_exists. split.
    - intros (y & I & E). apply Nat.eqb_eq in E. subst y. apply in_map_iff in I as (j & E & I). unfold item_index in E. replace s with j by lia. exact I.
    - intros I. exists (item_index s). split; [now apply in_map|apply Nat.eqb_refl]. }
  destruct (in_dec Nat.eq_dec s unused) as [I|N].
  - rewrite (proj2 E I). reflexivity.
  - destruct (existsb (Nat.eqb (item_index s)) (map item_index unused)); [exfalso; apply N, E; reflexivity|]. reflexivity.
Qed.
Section Deletion.
Variable k : kind.
Variable ch : list tree.
Variable g : place_path.
Variable xs : list tree.
Variable unused : list nat.
Variable rebuilt : nat -> tree.
Let t := TNode k ch.
Hypothesis Group : element_at t g = Some (use_group xs).
Hypothesis Items : Forall use_item xs.
Hypothesis Small : forall i, In i unused -> i < length xs.
Hypothesis Left : 1 < length (used unused 0 xs).
Lemma many : 1 < length xs.
Proof using Left.
  assert (H : forall xs s, length (used unused s xs) <= length xs). { clear. intros xs. induction xs as [|x r IH]; intros s; cbn; [lia|]. rewrite app_length. specialize (IH (S s)). destruct (in_dec Nat.eq_dec s unused); cbn; lia. }
  specialize (H xs 0). lia.
Qed.
Lemma the_changes : delete_group_use_specks t g (map item_index unused) rebuilt = map (delete_at g) (flat_map (with_item (length xs)) unused).
Proof.
  unfold delete_group_use_specks. rewrite (group_children t g xs Group), speck_kids by auto. pose proof (left_count unused xs 0) as L.
  destruct (filter _ (map item_index (seq 0 (length xs)))) as [|a [|b r]]; cbn [length] in L; try lia. f_equal. rewrite flat_map_concat_map, map_map, flat_map_concat_map. f_equal. apply map_ext_in. intros i I. apply deletions_of_item; auto. apply many.
Qed.
Lemma kid_text : forall i, In i (flat_map (with_item (length xs)) unused) -> exists c, nth_error (group_kids xs) i = Some c /\ elem_text c <> [].
Proof.
  intros i I. pose proof many as M. apply in_flat_map in I as (j & J & K). apply with_item_in in K. pose proof (Small j J) as L.
  assert (C : (exists m, m < length xs /\ i = item_index m) \/ (exists m, S m < length xs /\ i = 2 + 3 * m) \/ (exists m, S m < length xs /\ i = 3 + 3 * m)).
  { unfold item_index. destruct K as [->|[[-> [->| ->]]|[[P ->]|[[P [E ->]]|[P [E ->]]]]]].
    - left. exists j. lia.
    - right. left. exists 0. lia.
    - right. right. exists 0. lia.
    - right. right. exists (j - 1). lia.
    - right. left. exists (j - 1). lia.
    - right. left. exists j. lia. }
  destruct C as [(m & Lm & ->)|[(m & Lm & ->)|(m & Lm & ->)]].
  - destruct (nth_error xs m) as [x|] eqn:E; [|apply nth_error_None in E; lia]. exists x. split; [now apply kid_item|]. rewrite Forall_forall in Items. apply nth_error_In in E. apply (Items x E).
  - eexists. split; [now apply kid_comma|]. discriminate.
  - eexists. split; [now apply kid_ws|]. discriminate.
Qed.
End Deletion.

(** C50: when at least two items of a group stay, and the unused ones do not include both of the first two or both
    of the last two, the group is left with exactly the used items, in their order and separated as before, and
    nothing else in the file is different *)
Theorem unused_items_removed : forall k ch g xs unused rebuilt, let t := TNode k ch in
  element_at t g = Some (use_group xs) -> Forall use_item xs -> no_twins t ->
  NoDup unused -> (forall i, In i unused -> i < length xs) -> 1 < length (used unused 0 xs) -> ~ end_pair (length xs) unused ->
  finish t (delete_group_use_specks t g (map item_index unused) rebuilt) = Edited (put_at t g (use_group (used unused 0 xs))).
Proof.
  intros k ch g xs unused rebuilt t G It NT ND Small Left NE. pose proof (many xs unused Left) as M. unfold t. rewrite (the_changes k ch g xs) by auto.
  rewrite (deletions_applied k ch g USE_GROUP (group_kids xs)); auto.
  - unfold use_group at 1. rewrite (kept_group (length xs) unused) by auto. reflexivity.
  - apply nodup_deleted; auto.
  - apply (kid_text xs unused); auto.
Qed.
(** The two excluded cases are where it fails, whatever the group: the separator between the two is deleted
    twice, the editor sees a conflict and the file stays as it is *)
Theorem unused_end_pair_refuted : forall k ch g xs unused rebuilt, let t := TNode k ch in
  element_at t g = Some (use_group xs) -> Forall use_item xs ->
  (forall i, In i unused -> i < length xs) -> 1 < length (used unused 0 xs) -> end_pair (length xs) unused ->
  finish t (delete_group_use_specks t g (map item_index unused) rebuilt) = Conflict /\
  new_root t (finish t (delete_group_use_specks t g (map item_index unused) rebuilt)) = Some t.
Proof.
  intros k ch g xs unused rebuilt t G It Small Left NE. pose proof (many xs unused Left) as M.
  assert (E : finish t (delete_group_use_specks t g (map item_index unused) rebuilt) = Conflict).
  { unfold t. rewrite (the_changes k ch g xs) by auto. apply (deleted_twice k ch g USE_GROUP (group_kids xs)); auto.
    - apply dup_deleted; auto.
    - apply (kid_text xs unused); auto. }
  rewrite E. auto.
Qed.
(** When one item stays, the use item above the group is replaced as a whole *)
Theorem last_item_rebuilt : forall t g xs unused rebuilt x, element_at t g = Some (use_group xs) -> Forall use_item xs -> used unused 0 xs = [x] ->
  exists i, nth_error xs i = Some x /\ ~ In i unused /\ delete_group_use_specks t g (map item_index unused) rebuilt = [Replace (parent g) (Some (rebuilt (item_index i)))].
Proof.
  intros t g xs unused rebuilt x G It U. unfold delete_group_use_specks. rewrite (group_children t g xs G), speck_kids by auto.
  assert (H : forall xs s x, used unused s xs = [x] -> exists i, nth_error xs i = Some x /\ ~ In (s + i) unused /\ filter (fun i => negb (existsb (Nat.eqb i) (map item_index unused))) (map item_index (seq s (length xs))) = [item_index (s + i)]).
  { clear. intros xs. induction xs as [|y r IH]; intros s x U; [discriminate|]. cbn [used] in U. cbn [length seq map filter].
    assert (E : existsb (Nat.eqb (item_index s)) (map item_index unused) = true <-> In s unused).
    { rewrite existsb_exists. split.
      - intros (z & I & E). apply Nat.eqb_eq in E. subst z. apply in_map_iff in I as (j & E & I). unfold item_index in E. replace s with j by lia. exact I.
      - intros I. exists (item_index s). split; [now apply in_map|apply Nat.eqb_refl]. }
    destruct (in_dec Nat.eq_dec s unused) as [I|N].
    - rewrite (proj2 E I). cbn. destruct (IH (S s) x U) as (i & Ei & Ni & Fi). exists (S i). rewrite <- Nat.add_succ_comm. auto.
    - cbn in U. injection U as -> U. exists 0. rewrite Nat.add_0_r. split; auto. split; auto. destruct (existsb (Nat.eqb (item_index s)) (map item_index unused)) eqn:X; [exfalso; apply N, E; reflexivity|]. cbn. f_equal.
      pose proof (left_count unused r (S s)) as L. rewrite U in L. now destruct (filter _ _). }
  destruct (H xs 0 x U) as (i & Ei & Ni & Fi). exists i. split; auto. split; auto. rewrite Fi. reflexivity.
Qed.

(** * Examples *)
Definition item (c : N) : tree := TNode USE_SPECK [TNode PATH [TNode PATH_SEGMENT [TNode NAME_REF [TTok IDENT [c]]]]].
(** use m::{a, b, c, d}; *)
Definition use_m (xs : list tree) : tree := TNode SOURCE_FILE [TNode USE_STMT [TTok USE_KW (str "use"); TTok WHITESPACE (str " "); TNode USE_SPECK [TNode PATH [TNode PATH_SEGMENT [TNode NAME_REF [TTok IDENT (str "m")]]]; TTok COLON_COLON (str "::"); use_group xs]; TTok SEMICOLON (str ";")]].
Definition group_m : place_path := [0; 2; 2].
Definition abcd : list tree := [item 97%N; item 98%N; item 99%N; item 100%N].
Lemma abcd_items : Forall use_item abcd.
Proof. repeat constructor; try (eexists; reflexivity); discriminate. Qed.
Example unused_items_removed_example :
  element_at (use_m abcd) group_m = Some (use_group abcd) /\ Forall use_item abcd /\ no_twins (use_m abcd) /\ NoDup [3; 1] /\ 1 < length (used [3; 1] 0 abcd) /\ ~ end_pair 4 [3; 1] /\
  option_map elem_text (new_root (use_m abcd) (finish (use_m abcd) (delete_group_use_specks (use_m abcd) group_m (map item_index [3; 1]) (fun _ => item 0%N)))) = Some (str "use m::{a, c};").
Proof.
  split; [reflexivity|]. split; [exact abcd_items|]. split; [apply twinless_ok; vm_compute; reflexivity|]. split; [repeat constructor; cbn; intuition congruence|]. split; [cbn; lia|]. split; [unfold end_pair; cbn; intuition congruence|]. vm_compute. reflexivity.
Qed.
Example unused_end_pair_example : end_pair 4 [0; 1] /\ 1 < length (used [0; 1] 0 abcd) /\
  option_map elem_text (new_root (use_m abcd) (finish (use_m abcd) (delete_group_use_specks (use_m abcd) group_m (map item_index [0; 1]) (fun _ => item 0%N)))) = Some (str "use m::{a, b, c, d};").
Proof. split; [left; cbn; auto|]. split; [cbn; lia|]. vm_compute. reflexivity. Qed.
Example last_item_rebuilt_example : used [0; 1; 3] 0 abcd = [item 99%N] /\ delete_group_use_specks (use_m abcd) group_m (map item_index [0; 1; 3]) (fun _ => item 99%N) = [Replace [0; 2] (Some (item 99%N))].
Proof. split; vm_compute; reflexivity. Qed.
Print Assumptions unused_items_removed.
Print Assumptions unused_end_pair_refuted.
Print Assumptions last_item_rebuilt.
