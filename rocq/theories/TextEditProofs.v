From Coq Require Import Permutation Sorted.
From Verif Require Import Base TextEditModel TextEditSpec.

(** * Boundaries *)
Lemma boundary_at_app : forall pre x,
  is_char_boundary (pre ++ x) (length pre) = true <-> pre = [] \/ starts_at_char x.
Proof.
  intros pre x. unfold is_char_boundary. rewrite app_length.
  destruct pre as [|p pre]; [cbn; tauto|].
  destruct (length (p :: pre) =? 0) eqn:E0; [discriminate|].
  destruct x as [|b x].
  - cbn [length starts_at_char]. rewrite Nat.add_0_r, Nat.eqb_refl. tauto.
  - replace (length (p :: pre) =? length (p :: pre) + length (b :: x)) with false
      by (symmetry; apply Nat.eqb_neq; cbn; lia).
    rewrite nth_error_app2 by lia. rewrite Nat.sub_diag.
    cbn [nth_error starts_at_char]. rewrite negb_true_iff.
    split; [intros; right; auto|intros [|]; [discriminate|auto]].
Qed.

Lemma boundary_lt : forall pre x y i,
  i < length pre -> is_char_boundary (pre ++ x) i = is_char_boundary (pre ++ y) i.
Proof.
  intros pre x y i H. unfold is_char_boundary. rewrite !app_length.
  replace (i =? length pre + length x) with false by (symmetry; apply Nat.eqb_neq; lia).
  replace (i =? length pre + length y) with false by (symmetry; apply Nat.eqb_neq; lia).
  now rewrite !nth_error_app1 by lia.
Qed.

Lemma apply_in_order_app : forall a b t,
  apply_in_order (a ++ b) t = bind (apply_in_order a t) (apply_in_order b).
Proof.
  induction a as [|c a IH]; intros b t; cbn; [reflexivity|].
  destruct (change_apply c t); cbn; auto.
Qed.

Lemma in_order_tail : forall a l, in_order (a :: l) -> in_order l.
Proof. intros a l H. inversion H; subst; auto using io_nil. Qed.

Lemma in_order_head : forall a l, in_order (a :: l) ->
  match l with [] => True | b :: _ => c_end a <= c_start b end.
Proof. intros a l H. inversion H; subst; auto. Qed.

Lemma split_at : forall (l : text) n, n <= length l -> exists a b, l = a ++ b /\ length a = n.
Proof.
  intros l n H. exists (firstn n l), (skipn n l).
  split; [symmetry; apply firstn_skipn | now apply firstn_length_le].
Qed.

Lemma firstn_len_app : forall (a b : text), firstn (length a) (a ++ b) = a.
Proof. intros. rewrite firstn_app, Nat.sub_diag, firstn_all; cbn. apply app_nil_r. Qed.
Lemma skipn_len_app : forall (a b : text), skipn (length a) (a ++ b) = b.
Proof. intros. rewrite skipn_app, Nat.sub_diag, skipn_all; reflexivity. Qed.

Lemma apply_rev_spec : forall cs pre rest,
  in_order cs -> Forall wf_change cs -> Forall (fits (pre ++ rest)) cs ->
  match cs with [] => True | c :: _ => length pre <= c_start c end ->
  exists out,
    apply_in_order (rev cs) (pre ++ rest) = Ok (pre ++ out) /\
    edited (length pre) rest cs out /\
    (forall i, i <= length pre -> is_char_boundary (pre ++ rest) i = true ->
               is_char_boundary (pre ++ out) i = true).
Proof.
  induction cs as [|c cs IH]; intros pre rest Hord Hwf Hfit Hpos.
  - exists rest. repeat split; auto. constructor.
  - inversion Hwf as [|? ? [Hse Hnew] Hwf']; subst.
    inversion Hfit as [|? ? (Hend & Hb1 & Hb2) Hfit']; subst.
    destruct c as [[s e] new]; cbn in *. unfold c_start, c_end in *; cbn in *.
    rewrite app_length in Hend.
    destruct (split_at rest (s - length pre)) as (keep & r1 & -> & Hk); [lia|].
    rewrite app_length in Hend.
    destruct (split_at r1 (e - s)) as (old & rest' & -> & Ho); [lia|].
    set (pre' := pre ++ keep ++ old).
    assert (Hlen : length pre' = e) by (unfold pre'; rewrite !app_length; lia).
    assert (Heq : pre ++ keep ++ old ++ rest' = pre' ++ rest')
      by (unfold pre'; now rewrite <- !app_assoc).
    rewrite Heq in *.
    destruct (IH pre' rest') as (out' & Hrun & Hed & Hbp); auto.
    { now apply in_order_tail in Hord. }
    { apply in_order_head in Hord. destruct cs as [|b cs']; auto. rewrite Hlen. exact Hord. }
    exists (keep ++ new ++ out').
    assert (Hs : s <= length pre') by lia.
    pose proof (Hbp s Hs Hb1) as Hs'.
    assert (He : e <= length pre') by lia.
    pose proof (Hbp e He Hb2) as He'.
    assert (Hsplit : pre' ++ out' = (pre ++ keep) ++ old ++ out')
      by (unfold pre'; now rewrite <- !app_assoc).
    repeat split.
    + rewrite apply_in_order_app, Hrun. cbn. unfold change_apply, replace_range, c_start, c_end; cbn.
      rewrite Hs', He'. replace (s <=? e) with true by (symmetry; apply Nat.leb_le; lia). cbn.
      f_equal.
      replace (skipn e (pre' ++ out')) with out'
        by (rewrite <- Hlen; now rewrite skipn_len_app).
      replace (firstn s (pre' ++ out')) with (pre ++ keep).
      { now rewrite <- app_assoc. }
      rewrite Hsplit. replace s with (length (pre ++ keep)) by (rewrite app_length; lia).
      now rewrite firstn_len_app.
    + rewrite Hlen in Hed. apply edited_cons with (e := e); auto; lia.
    + intros i Hi Hbi. destruct (Nat.eq_dec i (length pre)) as [->|Hne].
      * destruct keep as [|k keep].
        -- rewrite app_nil_l. apply boundary_at_app.
           cbn in Hk. assert (s = length pre) by lia. subst s.
           destruct pre as [|p pre]; [left; reflexivity|right].
           destruct new as [|n new]; [|exact Hnew].
           cbn. rewrite <- Hlen in He'. apply boundary_at_app in He'.
           destruct He' as [Hnil|]; auto. unfold pre' in Hnil. discriminate.
        -- apply boundary_at_app. rewrite <- Heq in Hbi. apply boundary_at_app in Hbi.
           destruct Hbi as [|Hbi]; [left; auto|right; exact Hbi].
      * rewrite <- Heq in Hbi.
        rewrite (boundary_lt pre _ (keep ++ old ++ rest')) by lia. exact Hbi.
Qed.

Lemma edited_total_len : forall pos rest cs out,
  edited pos rest cs out ->
  forall extra, total_len (extra + length rest) cs = Ok (extra + length out).
Proof.
  induction 1 as [|pos keep old rest new cs out s e Hs He Hed IH]; intros extra; cbn; [reflexivity|].
  unfold r_len; cbn.
  replace (e - s) with (length old) by lia.
  rewrite !app_length.
  replace (length old <=? extra + (length keep + (length old + length rest)) + length new)
    with true by (symmetry; apply Nat.leb_le; lia).
  replace (extra + (length keep + (length old + length rest)) + length new - length old)
    with ((extra + length keep + length new) + length rest) by lia.
  rewrite IH. f_equal. lia.
Qed.

Lemma edit_apply_edited : forall cs t,
  in_order cs -> Forall wf_change cs -> Forall (fits t) cs ->
  exists out, edit_apply cs t = Ok out /\ edited 0 t cs out.
Proof.
  intros cs t Hord Hwf Hfit.
  destruct (apply_rev_spec cs [] t Hord Hwf Hfit) as (out & Hrun & Hed & _).
  { destruct cs; cbn; auto; lia. }
  cbn in Hrun, Hed. exists out. split; [|exact Hed].
  destruct cs as [|c [|c2 cs]].
  - cbn in *. congruence.
  - cbn in *. destruct (change_apply c t); cbn in *; congruence.
  - pose proof (edited_total_len _ _ _ _ Hed 0) as Htl. cbn [Nat.add] in Htl.
    unfold edit_apply. rewrite Htl. cbn [bind]. rewrite Hrun. cbn [bind].
    now rewrite Nat.eqb_refl.
Qed.

Lemma app_split_eq : forall (A : Type) (a b c d : list A),
  length a = length c -> a ++ b = c ++ d -> a = c /\ b = d.
Proof.
  induction a as [|x a IH]; destruct c as [|y c]; cbn; intros d H E; try discriminate; auto.
  injection E as -> E. injection H as H. destruct (IH _ _ _ H E) as [-> ->]. auto.
Qed.

Lemma edited_functional : forall pos t cs out1 out2,
  edited pos t cs out1 -> edited pos t cs out2 -> out1 = out2.
Proof.
  intros pos t cs out1 out2 H. revert out2.
  induction H as [|pos keep old rest new cs out s e Hs He Hed IH]; intros out2 H2.
  - inversion H2; auto.
  - inversion H2 as [|? keep2 old2 rest2 ? ? out2' ? ? Hs2 He2 Hed2]; subst.
    match goal with E : _ ++ _ = _ ++ _ |- _ => rename E into E1 end.
    apply app_split_eq in E1; [|lia]. destruct E1 as [E1 E2].
    apply app_split_eq in E2; [|lia]. destruct E2 as [E2 E3]. subst.
    f_equal. f_equal. apply IH. assumption.
Qed.

(** * Sorting *)
Lemma key_leb_true : forall a b, key_leb a b = true <-> before_or_same a b.
Proof.
  intros a b. unfold key_leb, before_or_same.
  rewrite orb_true_iff, andb_true_iff, Nat.ltb_lt, Nat.eqb_eq, Nat.leb_le. tauto.
Qed.
Lemma key_leb_false : forall a b, key_leb a b = false -> before_or_same b a /\ ~ before_or_same a b.
Proof.
  intros a b H. assert (Hn : ~ before_or_same a b).
  { intros Hb. apply key_leb_true in Hb. congruence. }
  split; auto. unfold before_or_same in *. lia.
Qed.

Lemma before_trans : forall a b c, before_or_same a b -> before_or_same b c -> before_or_same a c.
Proof. unfold before_or_same. intros. lia. Qed.

Lemma insert_sorted_perm : forall c l, Permutation (c :: l) (insert_sorted c l).
Proof.
  induction l as [|d l IH]; cbn; [auto|].
  destruct (key_leb c d); [auto|].
  rewrite perm_swap. constructor. auto.
Qed.
Lemma sort_perm : forall l, Permutation l (sort_changes l).
Proof.
  induction l as [|c l IH]; cbn; [auto|].
  rewrite <- insert_sorted_perm. now constructor.
Qed.

Lemma insert_sorted_sorted : forall c l,
  StronglySorted before_or_same l -> StronglySorted before_or_same (insert_sorted c l).
Proof.
  induction l as [|d l IH]; intros H; cbn.
  - repeat constructor.
  - inversion H as [|? ? Hs Hall]; subst. destruct (key_leb c d) eqn:E.
    + apply key_leb_true in E. constructor; auto. constructor; auto.
      eapply Forall_impl; [|exact Hall]. intros x Hx. eapply before_trans; eauto.
    + apply key_leb_false in E. destruct E as [E _]. constructor; auto.
      rewrite Forall_forall in *. intros x Hx.
      apply (Permutation_in x (Permutation_sym (insert_sorted_perm c l))) in Hx.
      destruct Hx as [->|Hx]; auto.
Qed.
Lemma sort_sorted : forall l, StronglySorted before_or_same (sort_changes l).
Proof. induction l; cbn; [constructor|]. now apply insert_sorted_sorted. Qed.

Lemma same_place_spec : forall a b, same_place a b = true <-> c_start a = c_start b /\ c_end a = c_end b.
Proof. intros. unfold same_place. now rewrite andb_true_iff, !Nat.eqb_eq. Qed.

Lemma insert_sorted_stable : forall k c l,
  filter (same_place k) (c :: l) = filter (same_place k) (insert_sorted c l).
Proof.
  induction l as [|d l IH]; cbn [insert_sorted]; [reflexivity|].
  destruct (key_leb c d) eqn:E; [reflexivity|].
  apply key_leb_false in E. destruct E as [_ E].
  cbn [filter] in *.
  destruct (same_place k c) eqn:Ec, (same_place k d) eqn:Ed.
  - exfalso. apply same_place_spec in Ec. apply same_place_spec in Ed.
    apply E. unfold before_or_same. lia.
  - exact IH.
  - now rewrite <- IH.
  - exact IH.
Qed.
Lemma sort_stable : forall k l, filter (same_place k) l = filter (same_place k) (sort_changes l).
Proof.
  induction l as [|c l IH]; [reflexivity|]. cbn [sort_changes].
  rewrite <- insert_sorted_stable. cbn [filter]. now rewrite IH.
Qed.

Lemma sort_document_order : forall l, document_order l (sort_changes l).
Proof. intros l. split; [apply sort_perm|]. split; [apply sort_sorted|]. intros. apply sort_stable. Qed.

(** Document order determines the list. *)
Lemma filter_head_in : forall k l (c : change) r, filter (same_place k) l = c :: r -> In c l.
Proof. intros k l c r H. assert (In c (filter (same_place k) l)) by (rewrite H; now left).
  apply filter_In in H0. tauto. Qed.

Lemma same_place_refl : forall c, same_place c c = true.
Proof. intros. apply same_place_spec. auto. Qed.

Lemma sorted_stable_unique : forall s1 s2,
  StronglySorted before_or_same s1 -> StronglySorted before_or_same s2 ->
  (forall k, filter (same_place k) s1 = filter (same_place k) s2) -> s1 = s2.
Proof.
  induction s1 as [|a s1 IH]; intros s2 H1 H2 Hf.
  - destruct s2 as [|b s2]; auto. specialize (Hf b). cbn in Hf.
    rewrite same_place_refl in Hf. discriminate.
  - destruct s2 as [|b s2].
    { specialize (Hf a). cbn in Hf. rewrite same_place_refl in Hf. discriminate. }
    inversion H1 as [|? ? H1s H1a]; inversion H2 as [|? ? H2s H2a]; subst.
    rewrite Forall_forall in H1a, H2a.
    assert (Hsp : same_place a b = true).
    { assert (Hba : before_or_same b a).
      { pose proof (Hf a) as Fa. cbn in Fa. rewrite same_place_refl in Fa.
        destruct (same_place a b) eqn:E.
        - apply same_place_spec in E. unfold before_or_same; lia.
        - symmetry in Fa. apply filter_head_in in Fa. auto. }
      assert (Hab : before_or_same a b).
      { pose proof (Hf b) as Fb. cbn in Fb. rewrite (same_place_refl b) in Fb.
        destruct (same_place b a) eqn:E.
        - apply same_place_spec in E. unfold before_or_same; lia.
        - apply filter_head_in in Fb. auto. }
      apply same_place_spec. unfold before_or_same in *; lia. }
    assert (a = b).
    { pose proof (Hf a) as Fa. cbn in Fa. rewrite same_place_refl, Hsp in Fa. congruence. }
    subst b. f_equal. apply IH; auto. intros k. specialize (Hf k). cbn in Hf.
    destruct (same_place k a); congruence.
Qed.

Lemma document_order_sort : forall l s, document_order l s -> s = sort_changes l.
Proof.
  intros l s (Hp & Hs & Hf). apply sorted_stable_unique; auto using sort_sorted.
  intros k. rewrite <- Hf. apply sort_stable.
Qed.

Lemma sort_idem_app : forall b c, sort_changes (sort_changes b ++ [c]) = sort_changes (b ++ [c]).
Proof.
  intros b c. apply sorted_stable_unique; auto using sort_sorted.
  intros k. rewrite <- !sort_stable, !filter_app, <- sort_stable. reflexivity.
Qed.
Lemma sort_idem : forall b, sort_changes (sort_changes b) = sort_changes b.
Proof.
  intros b. apply sorted_stable_unique; auto using sort_sorted.
  intros k. now rewrite <- !sort_stable.
Qed.

(** * Disjointness after sorting *)
Lemma text_eqb_eq : forall a b, text_eqb a b = true <-> a = b.
Proof.
  induction a as [|x a IH]; destruct b as [|y b]; cbn; split; intros H; try discriminate; auto.
  - apply andb_true_iff in H. destruct H as [H1 H2]. apply N.eqb_eq in H1. apply IH in H2. congruence.
  - injection H as -> ->. rewrite N.eqb_refl. now apply IH.
Qed.
Lemma change_eqb_eq : forall a b, change_eqb a b = true <-> a = b.
Proof.
  intros [[s e] t] [[s' e'] t']. unfold change_eqb, range_eqb; cbn.
  rewrite !andb_true_iff, !Nat.eqb_eq, text_eqb_eq. split.
  - intros [[-> ->] ->]; auto.
  - intros H; injection H; auto.
Qed.

Lemma FOP_perm : forall l l', Permutation l l' -> pairwise_disjoint l -> pairwise_disjoint l'.
Proof.
  unfold pairwise_disjoint.
  assert (Hsym : forall a b, disjoint a b -> disjoint b a) by (unfold disjoint; tauto).
  induction 1; intros HF; auto.
  - inversion HF as [|? ? Hall HF']; subst. constructor; auto.
    rewrite Forall_forall in *. intros z Hz. apply Hall.
    eapply Permutation_in; [apply Permutation_sym|]; eauto.
  - inversion HF as [|? ? Hall HF']; subst. inversion HF' as [|? ? Hall' HF'']; subst.
    inversion Hall; subst. constructor; [constructor; auto|]. constructor; auto.
Qed.

Lemma pd_app_l : forall a b, pairwise_disjoint (a ++ b) -> pairwise_disjoint a.
Proof.
  induction a as [|x a IH]; intros b H; [constructor|].
  inversion H as [|? ? Hall HF]; subst. constructor.
  - rewrite Forall_forall in *. intros z Hz. apply Hall. apply in_or_app; auto.
  - eapply IH; eauto.
Qed.

Lemma sorted_disjoint_in_order : forall s,
  Forall (fun c => c_start c <= c_end c) s ->
  StronglySorted before_or_same s -> pairwise_disjoint s -> in_order s.
Proof.
  induction s as [|a s IH]; intros Hwf Hs Hd; [constructor|].
  inversion Hs as [|? ? Hs' Hall]; inversion Hd as [|? ? Hdall Hd'];
    inversion Hwf as [|? ? Ha Hwf']; subst.
  destruct s as [|b s]; [constructor|].
  constructor; [|auto].
  inversion Hall as [|? ? Hab ?]; inversion Hdall as [|? ? Hdab ?];
    inversion Hwf' as [|? ? Hb ?]; subst.
  unfold before_or_same, disjoint in *. lia.
Qed.

Lemma in_order_check : forall s, in_order s -> check_disjoint s = true.
Proof.
  induction 1; cbn; auto. rewrite andb_true_iff, orb_true_iff. split; auto.
  left. now apply Nat.leb_le.
Qed.

Lemma sort_check : forall l,
  Forall (fun c => c_start c <= c_end c) l -> pairwise_disjoint l ->
  in_order (sort_changes l) /\ check_disjoint (sort_changes l) = true.
Proof.
  intros l Hwf Hd.
  assert (in_order (sort_changes l)).
  { apply sorted_disjoint_in_order; auto using sort_sorted.
    - rewrite Forall_forall in *. intros c Hc. apply Hwf.
      eapply Permutation_in; [apply Permutation_sym, sort_perm|]; auto.
    - eapply FOP_perm; [apply sort_perm|auto]. }
  split; auto using in_order_check.
Qed.

(** After any number of additions the builder's vector sorts to the same list. *)
Lemma add_changes_ok : forall cs done b,
  Forall (fun c => c_start c <= c_end c) (done ++ cs) -> pairwise_disjoint (done ++ cs) ->
  sort_changes b = sort_changes done -> length b = length done ->
  exists b', add_changes b cs = Ok b' /\ sort_changes b' = sort_changes (done ++ cs).
Proof.
  induction cs as [|c cs IH]; intros done b Hwf Hd Hsort Hlen.
  - exists b. rewrite app_nil_r. auto.
  - cbn [add_changes]. unfold add_change.
    assert (Hs1 : sort_changes (b ++ [c]) = sort_changes (done ++ [c])).
    { rewrite <- (sort_idem_app b), Hsort. apply sort_idem_app. }
    assert (Hwf1 : Forall (fun c => c_start c <= c_end c) (done ++ [c])).
    { rewrite Forall_forall in *. intros z Hz. apply Hwf. apply in_app_or in Hz.
      apply in_or_app. destruct Hz as [|[->|[]]]; [auto|right; now left]. }
    assert (Hd1 : pairwise_disjoint (done ++ [c])).
    { replace (done ++ c :: cs) with ((done ++ [c]) ++ cs) in Hd by (now rewrite <- app_assoc).
      eapply pd_app_l; eauto. }
    destruct (sort_check _ Hwf1 Hd1) as [_ Hchk].
    replace (done ++ c :: cs) with ((done ++ [c]) ++ cs) in * by (now rewrite <- app_assoc).
    destruct (length (b ++ [c]) <=? 16).
    + rewrite Hs1, Hchk. cbn [bind].
      apply IH; auto.
      * apply sort_idem.
      * rewrite <- (Permutation_length (sort_perm (done ++ [c]))). reflexivity.
    + cbn [bind]. apply IH; auto. rewrite !app_length. cbn. lia.
Qed.

(** * Coalescing *)
Lemma edited_shift_head : forall pos keep t cs out,
  edited (pos + length keep) t cs out ->
  match cs with [] => True | c :: _ => pos + length keep <= c_start c end ->
  edited pos (keep ++ t) cs (keep ++ out).
Proof.
  intros pos keep t cs out H Hc. inversion H as [|? keep2 old rest new cs' out' s e Hs He Hed]; subst.
  - constructor.
  - rewrite !(app_assoc keep keep2). apply edited_cons with (e := pos + length keep + length keep2 + length old);
      rewrite ?app_length; auto; lia.
Qed.

Lemma coalesce_from_edited : forall l cur pos t out,
  in_order (cur :: l) -> Forall (fun c => c_start c <= c_end c) (cur :: l) ->
  edited pos t (cur :: l) out <-> edited pos t (coalesce_from cur l) out.
Proof.
  induction l as [|b l IH]; intros cur pos t out Hord Hwf; [reflexivity|].
  cbn [coalesce_from].
  inversion Hord as [| |? ? ? Hab Hord']; subst.
  inversion Hwf as [|? ? Hcur Hwf']; subst. inversion Hwf' as [|? ? Hb Hwf'']; subst.
  destruct (c_end cur =? c_start b) eqn:E.
  - apply Nat.eqb_eq in E. rewrite <- IH.
    + destruct cur as [[s e] new], b as [[s2 e2] new2]. unfold c_start, c_end in *; cbn in *. subst s2.
      split; intros H.
      * inversion H as [|? keep old rest ? ? out' ? ? Hs He Hed]; subst.
        inversion Hed as [|? keep2 old2 rest2 ? ? out2 ? ? Hs2 He2 Hed2]; subst.
        assert (keep2 = []) by (destruct keep2; cbn in *; auto; lia). subst keep2. cbn [app].
        replace (keep ++ old ++ old2 ++ rest2) with (keep ++ (old ++ old2) ++ rest2)
          by (now rewrite <- app_assoc).
        replace (keep ++ new ++ new2 ++ out2) with (keep ++ (new ++ new2) ++ out2)
          by (now rewrite <- app_assoc).
        econstructor; [reflexivity| |eassumption]. rewrite app_length. lia.
      * inversion H as [|? keep old rest ? ? out' ? ? Hs He Hed]; subst.
        destruct (split_at old (e - (pos + length keep))) as (o1 & o2 & -> & Ho1); [lia|].
        rewrite app_length in *.
        replace (keep ++ (o1 ++ o2) ++ rest) with (keep ++ o1 ++ ([] ++ o2 ++ rest))
          by (cbn; now rewrite <- !app_assoc).
        replace (keep ++ (new ++ new2) ++ out') with (keep ++ new ++ ([] ++ new2 ++ out'))
          by (cbn; now rewrite <- !app_assoc).
        apply edited_cons; [lia|lia|].
        apply edited_cons with (e := pos + length keep + (length o1 + length o2)); auto; cbn; lia.
    + inversion Hord' as [|? Hx|? ? ? Hbc Hrest]; subst.
      * constructor.
      * constructor; auto.
    + constructor; auto. unfold c_start, c_end in *; cbn in *. lia.
  - destruct cur as [[s e] new]. unfold c_start, c_end in *; cbn in *.
    split; intros H; inversion H as [|? keep old rest ? ? out' ? ? Hs He Hed]; subst;
      econstructor; eauto; apply IH; auto.
Qed.

(** Strict separation after coalescing. *)
Inductive separated : list change -> Prop :=
| sep_nil : separated []
| sep_one : forall c, separated [c]
| sep_cons : forall a b l, c_end a < c_start b -> separated (b :: l) -> separated (a :: b :: l).

Lemma coalesce_from_separated : forall l cur,
  in_order (cur :: l) ->
  separated (coalesce_from cur l) /\
  exists c' l', coalesce_from cur l = c' :: l' /\ c_start c' = c_start cur.
Proof.
  induction l as [|b l IH]; intros cur Hord; cbn [coalesce_from].
  - split; [constructor|eauto].
  - inversion Hord as [| |? ? ? Hab Hord']; subst.
    destruct (c_end cur =? c_start b) eqn:E.
    + apply Nat.eqb_eq in E.
      destruct (IH (mkChange (mkRange (c_start cur) (c_end b)) (c_text cur ++ c_text b)))
        as [Hsep (c' & l' & Heq & Hst)].
      { inversion Hord'; subst; constructor; auto. }
      split; auto. exists c', l'. rewrite Heq, Hst. auto.
    + apply Nat.eqb_neq in E. destruct (IH b Hord') as [Hsep (c' & l' & Heq & Hst)].
      split; [|eauto]. rewrite Heq in *. constructor; auto. lia.
Qed.

Lemma separated_in_order : forall l, separated l -> in_order l.
Proof. induction 1; constructor; auto; lia. Qed.

Lemma coalesce_from_wf : forall l cur,
  in_order (cur :: l) -> Forall wf_change (cur :: l) -> Forall wf_change (coalesce_from cur l).
Proof.
  induction l as [|b l IH]; intros cur Hord Hwf; cbn [coalesce_from]; [auto|].
  inversion Hord as [| |? ? ? Hab Hord']; subst.
  inversion Hwf as [|? ? [Hc Hct] Hwf']; subst. inversion Hwf' as [|? ? [Hb Hbt] Hwf'']; subst.
  destruct (c_end cur =? c_start b) eqn:E.
  - apply Nat.eqb_eq in E. apply IH.
    + inversion Hord'; subst; constructor; auto.
    + constructor; auto. split.
      * unfold c_start, c_end in *; cbn in *; lia.
      * cbn. destruct (c_text cur) as [|x tx]; auto.
  - constructor; [split; auto|]. apply IH; auto.
Qed.

Lemma coalesce_from_fits : forall t l cur,
  Forall (fits t) (cur :: l) -> Forall (fits t) (coalesce_from cur l).
Proof.
  induction l as [|b l IH]; intros cur Hf; cbn [coalesce_from]; [auto|].
  inversion Hf as [|? ? (H1 & H2 & H3) Hf']; subst. inversion Hf' as [|? ? (H4 & H5 & H6) Hf'']; subst.
  destruct (c_end cur =? c_start b).
  - apply IH. constructor; auto. repeat split; cbn; auto.
  - constructor; [repeat split; auto|]. apply IH; auto.
Qed.
