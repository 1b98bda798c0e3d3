(** Claim about completion edits (property C09). *)
From Coq Require Import Permutation Sorted RelationClasses.
From Verif Require Import Base CompletionEditsModel.
Local Open Scope N_scope.

(** * Specification *)
Definition before (p q : position) : Prop := fst p < fst q \/ (fst p = fst q /\ snd p <= snd q).
Definition wf_range (r : lsp_range) : Prop := before (r_start r) (r_end r).
Definition apart (a b : lsp_range) : Prop := before (r_end a) (r_start b) \/ before (r_end b) (r_start a).
(** every two different entries are apart *)
Definition pairwise_apart (l : list lsp_range) : Prop :=
  forall i j a b, i <> j -> nth_error l i = Some a -> nth_error l j = Some b -> apart a b.
Definition prefix_of (insert replace : lsp_range) : Prop :=
  r_start insert = r_start replace /\ wf_range insert /\ before (r_end insert) (r_end replace).
Definition main_ranges (e : option item_edit) : list lsp_range :=
  match e with None => [] | Some (PlainEdit r) => [r] | Some (InsertReplace _ r) => [r] end.
Definition main_ok (e : option item_edit) : Prop :=
  match e with Some (InsertReplace i r) => prefix_of i r | _ => True end.
Definition extra (o : option (list lsp_range)) : list lsp_range := match o with Some l => l | None => [] end.

(** * Proof *)
Lemma pos_leb_spec : forall p q, pos_leb p q = true <-> before p q.
Proof.
  intros [a b] [c d]. unfold pos_leb, before. cbn [fst snd].
  rewrite orb_true_iff, andb_true_iff, N.ltb_lt, N.eqb_eq, N.leb_le. tauto.
Qed.
Lemma pos_eqb_spec : forall p q, pos_eqb p q = true <-> p = q.
Proof.
  intros [a b] [c d]. unfold pos_eqb. cbn [fst snd]. rewrite andb_true_iff, !N.eqb_eq.
  split; [intros [-> ->]; auto|intros H; injection H; auto].
Qed.
Lemma before_trans : forall p q r, before p q -> before q r -> before p r.
Proof. intros [a b] [c d] [e f]. unfold before. cbn [fst snd]. lia. Qed.
Lemma before_antisym : forall p q, before p q -> before q p -> p = q.
Proof. intros [a b] [c d]. unfold before. cbn [fst snd]. intros. f_equal; lia. Qed.
Lemma before_refl : forall p, before p p.
Proof. intros [a b]. unfold before. cbn. lia. Qed.
Lemma before_total : forall p q, before p q \/ before q p.
Proof. intros [a b] [c d]. unfold before. cbn [fst snd]. lia. Qed.

Definition key_le (a b : lsp_range) : Prop :=
  before (r_start a) (r_start b) /\ (r_start a = r_start b -> before (r_end a) (r_end b)).

Lemma key_leb_spec : forall a b, key_leb a b = true <-> key_le a b.
Proof.
  intros a b. unfold key_leb, key_le. rewrite orb_true_iff, !andb_true_iff, negb_true_iff, !pos_leb_spec.
  split.
  - intros [[H1 H2]|[H1 H2]].
    + split; auto. intros E. rewrite E in H2. assert (pos_eqb (r_start b) (r_start b) = true) by (now apply pos_eqb_spec). congruence.
    + apply pos_eqb_spec in H1. rewrite H1. split; [apply before_refl|auto].
  - intros [H1 H2]. destruct (pos_eqb (r_start a) (r_start b)) eqn:E.
    + right. split; auto. apply H2. now apply pos_eqb_spec.
    + left. auto.
Qed.

Lemma key_le_total : forall a b, key_leb a b = false -> key_le b a.
Proof.
  intros a b H. assert (Hn : ~ key_le a b) by (intros K; apply key_leb_spec in K; congruence).
  unfold key_le in *. destruct (before_total (r_start a) (r_start b)) as [H1|H1].
  - destruct (before_total (r_start b) (r_start a)) as [H2|H2].
    + split; auto. intros E. destruct (before_total (r_end b) (r_end a)); auto.
      exfalso. apply Hn. split; auto.
    + destruct (before_total (r_end b) (r_end a)) as [H3|H3].
      * destruct (pos_eqb (r_start a) (r_start b)) eqn:E.
        -- apply pos_eqb_spec in E. rewrite E in *. split; auto.
        -- exfalso. apply Hn. split; auto. intros E'. apply pos_eqb_spec in E'. congruence.
      * exfalso. apply Hn. split; auto.
  - split; auto. intros E. destruct (before_total (r_end b) (r_end a)) as [H3|H3]; auto.
    exfalso. apply Hn. split; [rewrite E; apply before_refl|auto].
Qed.

Lemma key_le_trans : forall a b c, key_le a b -> key_le b c -> key_le a c.
Proof.
  intros a b c [H1 H2] [H3 H4]. split; [eapply before_trans; eauto|].
  intros E. assert (r_start a = r_start b) by (apply before_antisym; [auto|rewrite E; auto]).
  assert (r_start b = r_start c) by congruence. eapply before_trans; eauto.
Qed.

Lemma insert_perm : forall x l, Permutation (insert_range x l) (x :: l).
Proof.
  induction l as [|y l IH]; cbn [insert_range]; [reflexivity|]. destruct (key_leb x y); [reflexivity|].
  rewrite IH. apply perm_swap.
Qed.
Lemma sort_perm : forall l, Permutation (sort_ranges l) l.
Proof. induction l as [|x l IH]; [reflexivity|]. cbn. rewrite insert_perm. now constructor. Qed.

Lemma insert_sorted : forall x l, StronglySorted key_le l -> StronglySorted key_le (insert_range x l).
Proof.
  induction l as [|y l IH]; intros H; cbn [insert_range].
  - constructor; constructor.
  - inversion H as [|? ? Hs Hf]; subst. destruct (key_leb x y) eqn:E.
    + apply key_leb_spec in E. constructor; auto. constructor; auto.
      eapply Forall_impl; [|exact Hf]. intros z Hz. eapply key_le_trans; eauto.
    + apply key_le_total in E. constructor; auto.
      eapply Permutation_Forall; [symmetry; apply insert_perm|]. constructor; auto.
Qed.
Lemma sort_sorted : forall l, StronglySorted key_le (sort_ranges l).
Proof. induction l as [|x l IH]; [constructor|]. cbn. now apply insert_sorted. Qed.

Lemma pairwise_FOP : forall l, pairwise_apart l <-> ForallOrdPairs apart l.
Proof.
  assert (Hsym : forall a b, apart a b -> apart b a) by (unfold apart; tauto).
  induction l as [|x l IH].
  - split; [constructor|]. intros _ [|i] j a b _ H; discriminate.
  - split.
    + intros H. constructor.
      * apply Forall_forall. intros y Hy. apply In_nth_error in Hy. destruct Hy as (n & Hn).
        apply (H 0%nat (S n) x y); auto.
      * apply IH. intros i j a b Hij Ha Hb. apply (H (S i) (S j)); auto.
    + intros H. inversion H as [|? ? Hf Hp]; subst. rewrite Forall_forall in Hf.
      intros [|i] [|j] a b Hij Ha Hb; cbn in Ha, Hb.
      * congruence.
      * injection Ha as <-. apply Hf. eapply nth_error_In; eauto.
      * injection Hb as <-. apply Hsym, Hf. eapply nth_error_In; eauto.
      * apply (proj2 IH Hp i j); auto.
Qed.

Lemma FOP_perm : forall l l', Permutation l l' -> ForallOrdPairs apart l -> ForallOrdPairs apart l'.
Proof.
  assert (Hsym : forall a b, apart a b -> apart b a) by (unfold apart; tauto).
  intros l l' HP. induction HP as [|x l l' HP IH|x y l|l1 l2 l3 H1 IH1 H2 IH2]; intros H; auto.
  - inversion H as [|? ? Hf Hp]; subst. constructor; auto. eapply Permutation_Forall; eauto.
  - inversion H as [|? ? Hf Hp]; subst. inversion Hp as [|? ? Hf' Hp']; subst. inversion Hf as [|? ? Hyx Hf'']; subst.
    constructor; [constructor; auto|]. constructor; auto.
Qed.

Lemma adjacent_FOP : forall l, StronglySorted key_le l -> Forall wf_range l ->
  (adjacent_ok l = true <-> ForallOrdPairs apart l).
Proof.
  induction l as [|a l IH]; intros Hs Hw; [split; constructor|].
  inversion Hs as [|? ? Hs' Hf]; subst. inversion Hw as [|? ? Hwa Hw']; subst.
  specialize (IH Hs' Hw'). destruct l as [|b l].
  - split; [repeat constructor|reflexivity].
  - change (adjacent_ok (a :: b :: l)) with (pos_leb (r_end a) (r_start b) && adjacent_ok (b :: l)).
    rewrite andb_true_iff, pos_leb_spec, IH. split.
    + intros [H1 H2]. constructor; auto.
      inversion Hs' as [|? ? _ Hfb]; subst. inversion Hw' as [|? ? Hwb _]; subst.
      constructor; [left; auto|].
      rewrite Forall_forall in Hfb |- *. intros c Hc. left. specialize (Hfb c Hc). destruct Hfb as [Hbc _].
      eapply before_trans; eauto.
    + intros H. inversion H as [|? ? Hfa Hp]; subst. split; auto.
      inversion Hfa as [|? ? Hab _]; subst. destruct Hab as [Hab|Hab]; [exact Hab|].
      inversion Hf as [|? ? [K1 K2] _]; subst. inversion Hw' as [|? ? Hwb _]; subst.
      unfold wf_range in *.
      assert (E1 : r_start a = r_start b).
      { apply before_antisym; auto. eapply before_trans; eauto. }
      assert (E2 : r_start b = r_end b).
      { apply before_antisym; auto. rewrite <- E1. auto. }
      rewrite E2. auto.
Qed.

(** * C09 *)
Theorem completion_edits_disjoint_iff : forall e item_extra extras,
  Forall wf_range (main_ranges e ++ extra item_extra ++ extras) ->
  (all_edits_are_disjoint e item_extra extras = true <->
   main_ok e /\ pairwise_apart (main_ranges e ++ extra item_extra ++ extras)).
Proof.
  intros e o extras Hw.
  assert (G : forall l, Forall wf_range l -> (adjacent_ok (sort_ranges l) = true <-> pairwise_apart l)).
  { intros l Hl. rewrite pairwise_FOP. rewrite adjacent_FOP.
    - split; apply FOP_perm; [|symmetry]; apply sort_perm.
    - apply sort_sorted.
    - eapply Permutation_Forall; [symmetry; apply sort_perm|auto]. }
  unfold all_edits_are_disjoint. fold (extra o). destruct e as [[r|i r]|]; cbn [main_ranges app main_ok] in *.
  - rewrite G by auto. tauto.
  - destruct (negb (pos_eqb (r_start r) (r_start i)) || negb (pos_leb (r_start i) (r_end i)) || negb (pos_leb (r_end i) (r_end r))) eqn:E.
    + split; [discriminate|]. intros [(H1 & H2 & H3) _]. exfalso.
      rewrite !orb_true_iff, !negb_true_iff in E. destruct E as [[E|E]|E].
      * assert (pos_eqb (r_start r) (r_start i) = true) by (now apply pos_eqb_spec). congruence.
      * apply pos_leb_spec in H2. congruence.
      * apply pos_leb_spec in H3. congruence.
    + rewrite !orb_false_iff, !negb_false_iff in E. destruct E as [[E1 E2] E3].
      apply pos_eqb_spec in E1. apply pos_leb_spec in E2. apply pos_leb_spec in E3.
      rewrite G by auto. unfold prefix_of, wf_range. split; [|tauto]. intros H. repeat split; auto.
  - rewrite G by auto. tauto.
Qed.

(** Soundness needs no assumption on the ranges: even with backwards ranges from a client, an accepted
    list has no two overlapping entries. *)
Theorem completion_edits_accept_sound : forall e item_extra extras,
  all_edits_are_disjoint e item_extra extras = true ->
  main_ok e /\ pairwise_apart (main_ranges e ++ extra item_extra ++ extras).
Proof.
  assert (A : forall l, StronglySorted key_le l -> adjacent_ok l = true -> ForallOrdPairs apart l).
  { induction l as [|a l IH]; intros Hs H; [constructor|].
    inversion Hs as [|? ? Hs' Hf]; subst. destruct l as [|b l]; [repeat constructor|].
    change (adjacent_ok (a :: b :: l)) with (pos_leb (r_end a) (r_start b) && adjacent_ok (b :: l)) in H.
    rewrite andb_true_iff, pos_leb_spec in H. destruct H as [H1 H2]. constructor; auto.
    inversion Hs' as [|? ? _ Hfb]; subst. constructor; [left; auto|].
    rewrite Forall_forall in Hfb |- *. intros c Hc. left. destruct (Hfb c Hc) as [Hbc _].
    eapply before_trans; eauto. }
  assert (G : forall l, adjacent_ok (sort_ranges l) = true -> pairwise_apart l).
  { intros l H. apply pairwise_FOP. eapply FOP_perm; [apply sort_perm|]. apply A; auto. apply sort_sorted. }
  intros e o extras H. unfold all_edits_are_disjoint in H. fold (extra o) in H.
  destruct e as [[r|i r]|]; cbn [main_ranges app main_ok] in *; auto.
  destruct (negb (pos_eqb (r_start r) (r_start i)) || negb (pos_leb (r_start i) (r_end i)) || negb (pos_leb (r_end i) (r_end r))) eqn:E; [discriminate|].
  rewrite !orb_false_iff, !negb_false_iff in E. destruct E as [[E1 E2] E3].
  apply pos_eqb_spec in E1. apply pos_leb_spec in E2. apply pos_leb_spec in E3.
  split; [|auto]. repeat split; auto.
Qed.

Example completion_edits_case :
  let e := Some (InsertReplace (mkLspRange (1, 4) (1, 6)) (mkLspRange (1, 4) (1, 9))) in
  let l := [mkLspRange (0, 0) (0, 0); mkLspRange (1, 9) (2, 0); mkLspRange (0, 0) (0, 0)] in
  Forall wf_range (main_ranges e ++ l) /\ all_edits_are_disjoint e None l = true /\
  all_edits_are_disjoint e None (mkLspRange (1, 8) (1, 8) :: l) = false.
Proof.
  cbn zeta. split; [|split; reflexivity].
  repeat constructor; unfold wf_range, before; cbn; lia.
Qed.

Print Assumptions completion_edits_disjoint_iff.
Print Assumptions completion_edits_accept_sound.
