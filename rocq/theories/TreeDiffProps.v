(** C13: applying the edit computed from two trees turns the text of the old one into the text of the new one. *)
From Coq Require Import Permutation Sorted.
From Verif Require Import Base SyntaxKind TextEditModel TextEditSpec TextEditProofs TextEditProps TreeSinkModel TreeSinkSpec TreeDiffModel TreeDiffSpec TreeDiffProofs.

(** The old tree may be a node inside a file [pre ++ .. ++ post]; [rs] is the map of replacements in any order. *)
Theorem tree_diff_exact : forall pre post old new rs,
  is_node old -> is_node new -> solid old -> utf8_tokens old -> utf8_tokens new -> starts_at_char post ->
  let d := diff_trees (length pre) old new in
  Permutation rs (d_replacements d) ->
  exists edit, diff_edit rs d = Ok edit /\
    edit_apply edit (pre ++ tree_text old ++ post) = Ok (pre ++ tree_text new ++ post).
Proof.
  intros pre post old new rs No Nn So Uo Un Hp d HR.
  assert (O : outcome (here [] 0) no_diff d pre (elem_text old) (elem_text new) post).
  { subst d. unfold diff_trees. destruct (element_eq old new) eqn:E.
    - rewrite <- (element_eq_text _ _ E). apply outcome_same.
    - apply go_all_ok; auto. }
  destruct O as (I & R & D & s & HI & HRp & HD & _ & HE & HF & HN & HT & HW). cbn in HI, HRp, HD.
  set (cs := into_changes rs d).
  assert (Hcs : cs = I ++ (rep_changes rs ++ del_changes D)).
  { unfold cs, into_changes. rewrite HI, HD. reflexivity. }
  assert (HN' : Permutation (rep_changes rs ++ del_changes D) (filter not_ins s)).
  { eapply perm_trans; [|exact HN]. apply Permutation_app_tail. unfold rep_changes. apply Permutation_map. rewrite <- HRp. exact HR. }
  pose proof (edited_ordered _ _ _ _ HE) as HO.
  assert (HB : Forall (fun c => c_start c <= c_end c) s) by (eapply Forall_impl; [|exact HW]; intros c [H _]; exact H).
  assert (DO : document_order cs s) by (rewrite Hcs; apply order_of_parts; auto).
  assert (P : Permutation cs s) by apply DO.
  assert (TR : forall Q : change -> Prop, Forall Q s -> Forall Q cs).
  { intros Q HQ. rewrite Forall_forall in *. intros x Hx. apply HQ. eapply Permutation_in; eauto. }
  destruct (builder_preserves_effect cs (pre ++ elem_text old ++ post)) as (edit & s' & out & HB1 & _ & DO' & HE' & HA); auto.
  { eapply ordered_disjoint; eauto. }
  apply document_order_sort in DO, DO'. rewrite DO', <- DO in HE'.
  assert (HE2 : edited 0 (pre ++ elem_text old ++ post) s (pre ++ elem_text new ++ post)).
  { pose proof (edited_app 0 pre [] pre (edited_nil 0 pre) _ _ _ (edited_app _ _ _ _ HE post [] post (edited_nil _ _))) as X.
    cbn [app] in X. rewrite app_nil_r in X. exact X. }
  exists edit. split; [exact HB1|]. rewrite <- !elem_text_tree_text. rewrite HA. f_equal. eapply edited_functional; eauto.
Qed.

(** Equal texts give an empty edit; the whole file is the case [pre = post = []]. *)
Theorem tree_diff_same_empty : forall start t, is_node t -> diff_trees start t t = no_diff.
Proof.
  intros start t (k & ch & ->). unfold diff_trees, element_eq. rewrite (proj2 (text_eqb_eq _ _) eq_refl), Nat.eqb_refl.
  unfold tree_kind. destruct (kind_eqb k k) eqn:E; [reflexivity|].
  exfalso. revert E. unfold kind_eqb. destruct k; vm_compute; discriminate.
Qed.

(** What counts as unchanged, so that no edit is made for it: both nodes or both tokens, of the same kind
    and with the same text. *)
Theorem unchanged_exact : forall l r, element_eq l r = true <->
  tree_kind l = tree_kind r /\ tree_text l = tree_text r /\ (is_node l <-> is_node r).
Proof.
  pose proof kind_eqb_spec as KE.
  intros l r. unfold element_eq. rewrite !andb_true_iff, KE, Nat.eqb_eq, <- !elem_text_tree_text. split.
  - intros [[E1 E2] E3]. split; [exact E1|]. destruct l, r; try discriminate E3; apply text_eqb_eq in E3; (split; [exact E3|]);
      unfold is_node; split; intros (? & ? & E); try discriminate E; eexists; eexists; reflexivity.
  - intros (E1 & E2 & E3). rewrite E2. split; [auto|]. destruct l, r; [now apply text_eqb_eq|exfalso..|now apply text_eqb_eq].
    + destruct (proj1 E3) as (? & ? & E); [eexists; eexists; reflexivity|discriminate E].
    + destruct (proj2 E3) as (? & ? & E); [eexists; eexists; reflexivity|discriminate E].
Qed.
Example unchanged_example : element_eq (TNode BLOCK_EXPR [TTok IDENT [97]])%N (TNode BLOCK_EXPR [TTok IDENT [97]])%N = true /\
  element_eq (TNode BLOCK_EXPR [TTok IDENT [97]])%N (TNode PATH_EXPR [TTok IDENT [97]])%N = false /\
  element_eq (TNode ERROR [TTok IDENT [97]])%N (TTok ERROR [97])%N = false.
Proof. repeat split. Qed.

(** * Examples *)
Definition tk (c : N) : tree := TTok IDENT [c].
Definition ex_old : tree := TNode SOURCE_FILE [TNode MODULE [tk 97; tk 98; TNode BLOCK_EXPR [tk 99; tk 100]]; tk 101; tk 102]%N.
Definition ex_new : tree := TNode SOURCE_FILE [TNode MODULE [tk 120; tk 97; tk 121; TNode BLOCK_EXPR [tk 99; tk 122; TTok WHITESPACE []]]; tk 119; tk 101]%N.
Fixpoint solidb (t : tree) : bool :=
  match t with TNode _ ch => forallb (fun c => negb (length (elem_text c) =? 0) && solidb c) ch | TTok _ _ => true end.
Lemma solidb_solid : forall t, solidb t = true -> solid t.
Proof.
  intros t. induction t as [k ch IH|k x] using tree_ind2; cbn; intros H c B; [|inversion B].
  rewrite forallb_forall in H. rewrite Forall_forall in IH.
  inversion B as [? ? ? Hin|? ? c' ? Hin Hb]; subst; specialize (H _ Hin); apply andb_true_iff in H as [H1 H2].
  - rewrite <- elem_text_tree_text. apply negb_true_iff, Nat.eqb_neq in H1. intros E. rewrite E in H1. auto.
  - exact (IH _ Hin H2 _ Hb).
Qed.
Example ex_diff_hyps : is_node ex_old /\ is_node ex_new /\ solid ex_old /\ utf8_tokens ex_old /\ utf8_tokens ex_new.
Proof.
  split; [eexists; eexists; reflexivity|]. split; [eexists; eexists; reflexivity|]. split; [apply solidb_solid; reflexivity|].
  split; unfold utf8_tokens; cbn; repeat constructor.
Qed.
Example ex_diff_edit : let d := diff_trees 0 ex_old ex_new in
  d_replacements d <> [] /\ d_deletions d <> [] /\ length (d_insertions d) = 3 /\
  exists e, diff_edit (rev (d_replacements d)) d = Ok e /\ edit_apply e (tree_text ex_old) = Ok (tree_text ex_new).
Proof. vm_compute. repeat split; try discriminate. eexists. split; reflexivity. Qed.

(** An empty element in the old tree: the text inserted before it and the text replacing it are both
    insertions at its offset, and insertions are put before replacements. *)
Theorem tree_diff_empty_element_refuted : exists old new,
  is_node old /\ is_node new /\ utf8_tokens old /\ utf8_tokens new /\
  exists edit out, let d := diff_trees 0 old new in
    diff_edit (d_replacements d) d = Ok edit /\ edit_apply edit (tree_text old) = Ok out /\ out <> tree_text new.
Proof.
  exists (TNode SOURCE_FILE [TTok WHITESPACE []; tk 116]%N), (TNode SOURCE_FILE [tk 97; tk 98; tk 116]%N).
  split; [eexists; eexists; reflexivity|]. split; [eexists; eexists; reflexivity|].
  split; [unfold utf8_tokens; cbn; repeat constructor|]. split; [unfold utf8_tokens; cbn; repeat constructor|].
  eexists. eexists. cbn zeta. split; [vm_compute; reflexivity|]. split; [vm_compute; reflexivity|]. vm_compute. discriminate.
Qed.

Print Assumptions tree_diff_exact.
Print Assumptions tree_diff_same_empty.
Print Assumptions tree_diff_empty_element_refuted.
Print Assumptions unchanged_exact.
