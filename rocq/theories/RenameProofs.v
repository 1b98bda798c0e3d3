(** Auxiliary facts for renaming: merging one more change into an edit; places in a tree. *)
From Coq Require Import String Permutation Sorted.
Close Scope string_scope.
From Verif Require Import Base SyntaxKind TextEditModel TextEditSpec TextEditProofs TextEditProofs2 TextEditProps.
Close Scope N_scope.
Open Scope nat_scope.
Open Scope list_scope.

(** * One more change *)
Lemma coalesce_app_edited : forall l rest cur pos t out,
  in_order (cur :: l) -> Forall (fun c => c_start c <= c_end c) (cur :: l) ->
  edited pos t (cur :: l ++ rest) out <-> edited pos t (coalesce_from cur l ++ rest) out.
Proof.
  induction l as [|b l IH]; intros rest cur pos t out Hord Hwf; [reflexivity|].
  cbn [coalesce_from].
  inversion Hord as [| |? ? ? Hab Hord']; subst.
  inversion Hwf as [|? ? Hcur Hwf']; subst. inversion Hwf' as [|? ? Hb Hwf'']; subst.
  destruct (c_end cur =? c_start b) eqn:E.
  - apply Nat.eqb_eq in E. rewrite <- IH.
    + cbn [app]. destruct cur as [[s e] new], b as [[s2 e2] new2]. unfold c_start, c_end in *; cbn in *. subst s2.
      split; intros H.
      * inversion H as [|? keep old rest' ? ? out' ? ? Hs He Hed]; subst.
        inversion Hed as [|? keep2 old2 rest2 ? ? out2 ? ? Hs2 He2 Hed2]; subst.
        assert (keep2 = []) by (destruct keep2; cbn in *; auto; lia). subst keep2. cbn [app].
        replace (keep ++ old ++ old2 ++ rest2) with (keep ++ (old ++ old2) ++ rest2) by (now rewrite <- app_assoc).
        replace (keep ++ new ++ new2 ++ out2) with (keep ++ (new ++ new2) ++ out2) by (now rewrite <- app_assoc).
        econstructor; [reflexivity| |eassumption]. rewrite app_length. lia.
      * inversion H as [|? keep old rest' ? ? out' ? ? Hs He Hed]; subst.
        destruct (split_at old (e - (pos + length keep))) as (o1 & o2 & -> & Ho1); [lia|].
        rewrite app_length in *.
        replace (keep ++ (o1 ++ o2) ++ rest') with (keep ++ o1 ++ ([] ++ o2 ++ rest')) by (cbn; now rewrite <- !app_assoc).
        replace (keep ++ (new ++ new2) ++ out') with (keep ++ new ++ ([] ++ new2 ++ out')) by (cbn; now rewrite <- !app_assoc).
        apply edited_cons; [lia|lia|].
        apply edited_cons with (e := pos + length keep + (length o1 + length o2)); auto; cbn; lia.
    + inversion Hord' as [|? Hx|? ? ? Hbc Hrest]; subst; constructor; auto.
    + constructor; auto. unfold c_start, c_end in *; cbn in *. lia.
  - destruct cur as [[s e] new]. unfold c_start, c_end in *; cbn in *.
    split; intros H; inversion H as [|? keep old rest' ? ? out' ? ? Hs He Hed]; subst;
      econstructor; eauto; apply (IH rest b); auto.
Qed.
Lemma coalesce_split m c2 s2 : m < c_start c2 -> forall l cur, Forall (fun c => c_end c <= m) (cur :: l) ->
  coalesce_from cur (l ++ c2 :: s2) = coalesce_from cur l ++ coalesce_from c2 s2.
Proof.
  intros L. induction l as [|b l IH]; intros cur H; inversion H as [|? ? H1 H2]; subst; cbn [app coalesce_from].
  - destruct (c_end cur =? c_start c2) eqn:E; [apply Nat.eqb_eq in E; lia|reflexivity].
  - inversion H2 as [|? ? H3 H4]; subst. destruct (c_end cur =? c_start b); [rewrite IH; [reflexivity|constructor; [cbn; exact H3|exact H4]]|]. rewrite IH; [reflexivity|constructor; auto].
Qed.
Lemma coalesce_ends m : forall l cur, Forall (fun c => c_end c <= m) (cur :: l) -> Forall (fun c => c_end c <= m) (coalesce_from cur l).
Proof.
  induction l as [|b l IH]; intros cur H; cbn [coalesce_from]; [exact H|]. inversion H as [|? ? H1 H2]; subst. inversion H2 as [|? ? H3 H4]; subst.
  destruct (c_end cur =? c_start b); [apply IH; constructor; [cbn; exact H3|exact H4]|]. constructor; [exact H1|now apply IH].
Qed.
Lemma coalesce_starts m : forall l cur, Forall (fun c => m <= c_start c) (cur :: l) -> Forall (fun c => m <= c_start c) (coalesce_from cur l).
Proof.
  induction l as [|b l IH]; intros cur H; cbn [coalesce_from]; [exact H|]. inversion H as [|? ? H1 H2]; subst. inversion H2 as [|? ? H3 H4]; subst.
  destruct (c_end cur =? c_start b); [apply IH; constructor; [cbn; exact H1|exact H4]|]. constructor; [exact H1|now apply IH].
Qed.
Lemma in_order_starts : forall l c, in_order (c :: l) -> Forall range_ok (c :: l) -> Forall (fun x => c_end c <= c_start x) l.
Proof.
  induction l as [|b l IH]; intros c H R; [constructor|]. inversion H as [| |? ? ? A B]; subst. inversion R as [|? ? Rc Rl]; subst. inversion Rl as [|? ? Rb Rr]; subst. constructor; [exact A|].
  eapply Forall_impl; [|exact (IH b B Rl)]. cbn. unfold range_ok in *. intros x Hx. lia.
Qed.
Lemma in_order_tail c l : in_order (c :: l) -> in_order l.
Proof. intros H. inversion H; subst; [constructor|assumption]. Qed.
(** the changes before and behind a change of at least one character *)
Lemma split_around d : c_start d < c_end d -> forall s, in_order s -> Forall range_ok s -> Forall (fun c => disjoint c d) s ->
  exists s1 s2, s = s1 ++ s2 /\ Forall (fun c => c_end c <= c_start d) s1 /\ Forall (fun c => c_end d <= c_start c) s2.
Proof.
  intros L. induction s as [|c s IH]; intros O R D; [exists [], []; auto|]. inversion R as [|? ? Rc Rs]; subst. inversion D as [|? ? Dc Ds]; subst. destruct Dc as [Dc|Dc].
  - destruct (IH (in_order_tail _ _ O) Rs Ds) as (s1 & s2 & -> & A & B). exists (c :: s1), s2. auto.
  - exists [], (c :: s). split; [reflexivity|]. split; [constructor|]. constructor; [exact Dc|]. eapply Forall_impl; [|exact (in_order_starts _ _ O R)]. cbn. unfold range_ok in Rc. intros x Hx. lia.
Qed.
Lemma merge_one d : forall a b, Forall (fun c => c_end c <= c_start d) a -> Forall range_ok a -> Forall (fun c => c_start d < c_start c) b -> merge_by_start (a ++ b) [d] = a ++ d :: b.
Proof.
  induction a as [|x a IH]; intros b A R B.
  - destruct b as [|y b]; [reflexivity|]. inversion B as [|? ? B1 _]; subst. cbn. destruct (c_start y <=? c_start d) eqn:E; [apply Nat.leb_le in E; lia|]. destruct b; reflexivity.
  - inversion A as [|? ? A1 A2]; subst. inversion R as [|? ? R1 R2]; subst. cbn [app]. assert (E : (c_start x <=? c_start d) = true) by (apply Nat.leb_le; unfold range_ok in R1; lia). cbn [merge_by_start]. rewrite E. f_equal. now apply IH.
Qed.
Lemma dedup_from_id : forall l cur, in_order (cur :: l) -> Forall range_ok (cur :: l) -> dedup_from cur l = cur :: l.
Proof.
  induction l as [|b l IH]; intros cur O R; [reflexivity|]. cbn [dedup_from]. inversion O as [| |? ? ? A B]; subst. inversion R as [|? ? R1 R2]; subst. rewrite (IH b B R2).
  destruct (change_eqb cur b && negb (r_is_empty (c_range cur))) eqn:E; [|reflexivity]. exfalso. apply andb_true_iff in E as [E1 E2]. apply change_eqb_eq in E1. subst b.
  unfold range_ok, c_start, c_end in *. apply negb_true_iff in E2. unfold r_is_empty in E2. apply Nat.eqb_neq in E2. lia.
Qed.
Lemma in_order_app a d b : in_order a -> Forall (fun c => c_end c <= c_start d) a -> in_order b -> Forall (fun c => c_end d <= c_start c) b -> in_order (a ++ d :: b).
Proof.
  intros Oa A Ob B. assert (Od : in_order (d :: b)) by (destruct b as [|y b]; [constructor|inversion B; subst; now constructor]). induction a as [|x a IH]; [exact Od|].
  inversion A as [|? ? A1 A2]; subst. specialize (IH (in_order_tail _ _ Oa) A2). cbn [app] in *. destruct a as [|y a]; cbn [app] in *; [now constructor|]. constructor; [|exact IH]. now inversion Oa.
Qed.
Lemma in_order_app_l a b : in_order (a ++ b) -> in_order a.
Proof. induction a as [|x a IH]; [constructor|]. intros H. destruct a as [|y a]; [constructor|]. cbn [app] in *. inversion H; subst. constructor; auto. Qed.
Lemma in_order_app_r a b : in_order (a ++ b) -> in_order b.
Proof. induction a as [|x a IH]; [auto|]. intros H. apply IH. eapply in_order_tail. exact H. Qed.
Lemma in_order_sorted s : in_order s -> Forall range_ok s -> StronglySorted before_or_same s.
Proof.
  induction s as [|c s IH]; intros O R; [constructor|]. constructor; [apply IH; [eapply in_order_tail; eauto|now inversion R]|]. pose proof (in_order_starts _ _ O R) as H. inversion R as [|? ? Rc Rs]; subst. rewrite Forall_forall in *. intros x X. specialize (H x X). specialize (Rs x X). unfold before_or_same, range_ok in *. lia.
Qed.

Lemma add_one : forall cs d t, Forall wf_change (cs ++ [d]) -> Forall (fits t) (cs ++ [d]) -> pairwise_disjoint cs -> Forall (fun c => disjoint c d) cs -> c_start d < c_end d ->
  exists e r s out, build_edit cs = Ok e /\ union e [d] = (r, true) /\ document_order (cs ++ [d]) s /\ edited 0 t s out /\ edit_apply r t = Ok out.
Proof.
  intros cs d t W F P D L. apply Forall_app in W as [W Wd]. apply Forall_app in F as [F Fd]. inversion Wd as [|? ? Wd' _]; subst. inversion Fd as [|? ? Fd' _]; subst. clear Wd Fd.
  assert (R : Forall range_ok cs) by (eapply Forall_impl; [|exact W]; intros c [H _]; exact H). assert (Rd : range_ok d) by (unfold range_ok; lia).
  assert (Tr : forall Q : change -> Prop, Forall Q cs -> Forall Q (sort_changes cs)). { intros Q HQ. rewrite Forall_forall in *. intros x X. apply HQ. eapply Permutation_in; [apply Permutation_sym, sort_perm|]; auto. }
  destruct (sort_check cs R P) as [O _]. destruct (split_around d L _ O (Tr _ R) (Tr _ D)) as (s1 & s2 & E & A & B).
  pose proof (Tr _ R) as Rs. pose proof (Tr _ W) as Ws. pose proof (Tr _ F) as Fs. rewrite E in O, Rs, Ws, Fs. pose proof (in_order_app_l _ _ O) as O1. pose proof (in_order_app_r _ _ O) as O2. apply Forall_app in Rs as [R1 R2]. apply Forall_app in Ws as [W1 W2]. apply Forall_app in Fs as [F1 F2].
  set (a := coalesce s1). set (b := coalesce s2).
  assert (Eab : coalesce (s1 ++ s2) = a ++ b).
  { unfold a, b. destruct s1 as [|c1 s1]; [reflexivity|]. destruct s2 as [|c2 s2]; [cbn [coalesce]; now rewrite !app_nil_r|]. cbn [app coalesce]. apply (coalesce_split (c_start d)); [inversion B; subst; lia|exact A]. }
  assert (Aa : Forall (fun c => c_end c <= c_start d) a) by (unfold a; destruct s1; [constructor|now apply coalesce_ends]).
  assert (Bb : Forall (fun c => c_end d <= c_start c) b) by (unfold b; destruct s2; [constructor|now apply coalesce_starts]).
  assert (Wa : Forall wf_change a) by (unfold a; destruct s1; [constructor|now apply coalesce_from_wf]). assert (Wb : Forall wf_change b) by (unfold b; destruct s2; [constructor|now apply coalesce_from_wf]).
  assert (Fa : Forall (fits t) a) by (unfold a; destruct s1; [constructor|now apply coalesce_from_fits]). assert (Fb : Forall (fits t) b) by (unfold b; destruct s2; [constructor|now apply coalesce_from_fits]).
  assert (Oa : in_order a) by (unfold a; destruct s1; [constructor|apply separated_in_order; now apply coalesce_from_separated]). assert (Ob : in_order b) by (unfold b; destruct s2; [constructor|apply separated_in_order; now apply coalesce_from_separated]).
  assert (RR : forall l, Forall wf_change l -> Forall range_ok l) by (intros l H; eapply Forall_impl; [|exact H]; intros c [H' _]; exact H').
  assert (Or : in_order (a ++ d :: b)) by now apply in_order_app. assert (Os : in_order (s1 ++ d :: s2)) by now apply in_order_app.
  destruct (edit_apply_edited (s1 ++ d :: s2) t Os) as (out & _ & Ed); [apply Forall_app; auto|apply Forall_app; auto|].
  destruct (edit_apply_edited (a ++ d :: b) t Or) as (out' & Ap & Ed'); [apply Forall_app; auto|apply Forall_app; auto|].
  exists (a ++ b), (a ++ d :: b), (s1 ++ d :: s2), out. split; [|split; [|split; [|split]]].
  - rewrite <- Eab, <- E. now apply build_edit_ok.
  - unfold union. rewrite (merge_one d a b Aa (RR _ Wa)); [|eapply Forall_impl; [|exact Bb]; cbn; intros; lia]. rewrite (in_order_check _ Or). f_equal. unfold dedup. destruct (a ++ d :: b) as [|x l] eqn:Z; [reflexivity|]. apply dedup_from_id; [exact Or|]. rewrite <- Z. apply Forall_app. auto.
  - replace (s1 ++ d :: s2) with (sort_changes (cs ++ [d])); [apply sort_document_order|]. symmetry. apply document_order_sort. split; [|split].
    + transitivity (s1 ++ s2 ++ [d]); [rewrite app_assoc, <- E; apply Permutation_app_tail, sort_perm|]. apply Permutation_app_head. symmetry. apply Permutation_cons_append.
    + apply in_order_sorted; [exact Os|]. apply Forall_app. auto.
    + intros c. rewrite filter_app. rewrite (sort_stable c cs), E, !filter_app, <- app_assoc. f_equal. cbn [filter]. destruct (same_place c d) eqn:SP; [|now rewrite app_nil_r].
      assert (N : filter (same_place c) s2 = []); [|now rewrite N]. rewrite Forall_forall in B. clear - B SP L. induction s2 as [|x s2 IH]; [reflexivity|]. cbn. rewrite IH by (intros; apply B; now right). destruct (same_place c x) eqn:Q; [|reflexivity]. exfalso. specialize (B x (or_introl eq_refl)).
      unfold same_place in *. apply andb_true_iff in SP as [S1 _]. apply andb_true_iff in Q as [Q1 _]. apply Nat.eqb_eq in S1, Q1. lia.
  - exact Ed.
  - rewrite Ap. f_equal. apply (edited_functional _ _ _ _ _ Ed'). assert (Mid : edited 0 t (a ++ d :: s2) out). { unfold a. destruct s1 as [|c1 s1]; [exact Ed|]. cbn [coalesce]. apply coalesce_app_edited; auto. }
    clear - Mid O2 R2. revert Mid. generalize 0 t out. assert (G : forall pos t out, edited pos t (d :: s2) out -> edited pos t (d :: b) out).
    { intros pos t0 out0 H. unfold b. destruct s2 as [|c2 s2]; [exact H|]. inversion H as [|? keep old rest new cs' o' s e Hs He Hed]; subst. econstructor; eauto. cbn [coalesce]. now apply coalesce_from_edited. }
    induction a as [|x l IH]; intros pos t0 out0 H; cbn [app] in *; [now apply G|]. inversion H as [|? keep old rest new cs' o' s e Hs He Hed]; subst. econstructor; eauto.
Qed.
