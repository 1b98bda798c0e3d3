From Coq Require Import Permutation Sorted.
From Verif Require Import Base TextEditModel TextEditSpec TextEditProofs.

Definition range_ok (c : change) : Prop := c_start c <= c_end c.

(** * Builder *)
Lemma build_edit_ok : forall cs,
  Forall range_ok cs -> pairwise_disjoint cs ->
  build_edit cs = Ok (coalesce (sort_changes cs)).
Proof.
  intros cs Hwf Hd. unfold build_edit.
  destruct (add_changes_ok cs [] [] Hwf Hd eq_refl eq_refl) as (b & Hb & Hs).
  rewrite Hb. cbn [bind app] in *. unfold finish. rewrite Hs.
  destruct (sort_check cs Hwf Hd) as [_ ->]. reflexivity.
Qed.

(** * Union *)
Lemma merge_perm : forall l r, Permutation (merge_by_start l r) (l ++ r).
Proof.
  induction l as [|a l IH]; intros r.
  - destruct r; cbn; auto.
  - induction r as [|b r IHr].
    + cbn. rewrite app_nil_r. auto.
    + cbn. destruct (c_start a <=? c_start b).
      * constructor. apply IH.
      * transitivity (b :: (a :: l) ++ r); [constructor; exact IHr|].
        apply (Permutation_middle (a :: l) r b).
Qed.

Definition ends_before (a b : change) : Prop := c_end a <= c_start b.
Definition apart_or_equal (a b : change) : Prop := c_end a <= c_start b \/ a = b.

Lemma in_order_FOP : forall l, Forall range_ok l -> in_order l -> ForallOrdPairs ends_before l.
Proof.
  induction l as [|a l IH]; intros Hr H; [constructor|].
  inversion Hr as [|? ? Ha Hr']; subst.
  pose proof (IH Hr' (in_order_tail _ _ H)) as HF.
  constructor; auto. apply in_order_head in H. destruct l as [|b l]; [constructor|].
  constructor; [exact H|].
  inversion HF as [|? ? Hall _]; subst. inversion Hr' as [|? ? Hb _]; subst.
  rewrite Forall_forall in *. intros x Hx. specialize (Hall x Hx).
  unfold ends_before, range_ok in *. lia.
Qed.

Lemma FOP_in_order : forall l, ForallOrdPairs ends_before l -> in_order l.
Proof.
  induction 1 as [|a l Hall HF IH]; [constructor|].
  destruct l as [|b l]; constructor; auto. now inversion Hall.
Qed.

Lemma check_disjoint_FOP : forall m, Forall range_ok m -> check_disjoint m = true ->
  ForallOrdPairs apart_or_equal m.
Proof.
  induction m as [|a m IH]; intros Hr H; [constructor|].
  inversion Hr as [|? ? Ha Hr']; subst.
  destruct m as [|b m]; [constructor; constructor|].
  cbn [check_disjoint] in H. apply andb_true_iff in H. destruct H as [H1 H2].
  pose proof (IH Hr' H2) as HF. constructor; auto.
  assert (Hab : apart_or_equal a b).
  { apply orb_true_iff in H1. destruct H1 as [H1|H1].
    - left. now apply Nat.leb_le.
    - right. now apply change_eqb_eq. }
  constructor; auto.
  inversion HF as [|? ? Hall _]; subst. inversion Hr' as [|? ? Hb Hr'']; subst.
  rewrite Forall_forall in *. intros x Hx. specialize (Hall x Hx).
  specialize (Hr'' x Hx).
  destruct Hab as [Hab|Hab].
  - left. destruct Hall as [Hall|Hall]; [|subst; auto].
    unfold range_ok in *. lia.
  - subst b. exact Hall.
Qed.

Lemma FOP_check_disjoint : forall m, ForallOrdPairs apart_or_equal m -> check_disjoint m = true.
Proof.
  induction 1 as [|a m Hall HF IH]; [reflexivity|].
  destruct m as [|b m]; [reflexivity|].
  change (check_disjoint (a :: b :: m))
    with (((c_end a <=? c_start b) || change_eqb a b) && check_disjoint (b :: m)).
  rewrite IH, andb_true_r.
  inversion Hall as [|? ? Hab _]; subst. apply orb_true_iff.
  destruct Hab as [Hab|Hab].
  - left. now apply Nat.leb_le.
  - right. now apply change_eqb_eq.
Qed.

(** When a change of the receiver and a change of the argument can live in one edit. *)
Definition mergeable (c d : change) : Prop :=
  c = d \/ c_end c <= c_start d \/ (c_end d <= c_start c /\ c_start d < c_start c).

Lemma FOP_starts : forall a l, Forall range_ok (a :: l) -> ForallOrdPairs ends_before (a :: l) ->
  forall x, In x (a :: l) -> c_start a <= c_start x.
Proof.
  intros a l Hr HF x [->|Hx]; [auto|].
  inversion HF as [|? ? Hall _]; inversion Hr as [|? ? Ha _]; subst.
  rewrite Forall_forall in Hall. specialize (Hall x Hx). unfold ends_before, range_ok in *. lia.
Qed.

Lemma merge_FOP : forall l r,
  Forall range_ok l -> Forall range_ok r ->
  ForallOrdPairs ends_before l -> ForallOrdPairs ends_before r ->
  ((forall c d, In c l -> In d r -> mergeable c d) <->
   ForallOrdPairs apart_or_equal (merge_by_start l r)).
Proof.
  assert (Himpl : forall x, ForallOrdPairs ends_before x -> ForallOrdPairs apart_or_equal x).
  { induction 1; constructor; auto. eapply Forall_impl; [|eassumption]. intros; now left. }
  induction l as [|a l IH]; intros r Hrl Hrr Hl Hr.
  - replace (merge_by_start [] r) with r by (now destruct r).
    split; [intros _; auto|]. intros _ c d [].
  - induction r as [|b r IHr].
    + cbn. split; [intros _; auto|intros _ c d _ []].
    + assert (Hl' : ForallOrdPairs ends_before l) by (inversion Hl; auto).
      assert (Hrl' : Forall range_ok l) by (inversion Hrl; auto).
      assert (Hr' : ForallOrdPairs ends_before r) by (inversion Hr; auto).
      assert (Hrr' : Forall range_ok r) by (inversion Hrr; auto).
      pose proof (FOP_starts a l Hrl Hl) as Sa.
      pose proof (FOP_starts b r Hrr Hr) as Sb.
      assert (Ra : range_ok a) by (inversion Hrl; auto).
      assert (Rb : range_ok b) by (inversion Hrr; auto).
      cbn [merge_by_start].
      destruct (c_start a <=? c_start b) eqn:E.
      * apply Nat.leb_le in E.
        specialize (IH (b :: r) Hrl' Hrr Hl' Hr).
        split.
        -- intros Hc. constructor.
           ++ rewrite Forall_forall. intros x Hx.
              apply (Permutation_in x (merge_perm l (b :: r))) in Hx.
              apply in_app_or in Hx. destruct Hx as [Hx|Hx].
              ** inversion Hl as [|? ? Hall _]; subst. rewrite Forall_forall in Hall.
                 left. now apply Hall.
              ** specialize (Hc a x (or_introl eq_refl) Hx). specialize (Sb x Hx).
                 destruct Hc as [Hc|[Hc|[Hc1 Hc2]]]; [now right|now left|lia].
           ++ apply IH. intros c d Hcin Hdin. apply Hc; auto. now right.
        -- intros HF. inversion HF as [|? ? Hall HF']; subst.
           rewrite Forall_forall in Hall.
           intros c d [<-|Hcin] Hdin.
           ++ assert (Hd : apart_or_equal a d).
              { apply Hall. apply (Permutation_in d (Permutation_sym (merge_perm l (b :: r)))).
                apply in_or_app. now right. }
              unfold mergeable. destruct Hd; tauto.
           ++ apply IH; auto.
      * apply Nat.leb_gt in E.
        specialize (IHr Hrr' Hr').
        change ((fix aux (r0 : list change) : list change :=
           match r0 with
           | [] => a :: l
           | b0 :: r' => if c_start a <=? c_start b0 then a :: merge_by_start l r0 else b0 :: aux r'
           end) r) with (merge_by_start (a :: l) r).
        split.
        -- intros Hc. constructor.
           ++ rewrite Forall_forall. intros x Hx.
              apply (Permutation_in x (merge_perm (a :: l) r)) in Hx.
              apply in_app_or in Hx. destruct Hx as [Hx|Hx].
              ** specialize (Hc x b Hx (or_introl eq_refl)). specialize (Sa x Hx).
                 rewrite Forall_forall in Hrl. specialize (Hrl x Hx).
                 destruct Hc as [Hc|[Hc|[Hc1 Hc2]]]; [now right|unfold range_ok in *; lia|now left].
              ** inversion Hr as [|? ? Hall _]; subst. rewrite Forall_forall in Hall.
                 left. now apply Hall.
           ++ apply IHr. intros c d Hcin Hdin. apply Hc; auto. now right.
        -- intros HF. inversion HF as [|? ? Hall HF']; subst.
           rewrite Forall_forall in Hall.
           intros c d Hcin [<-|Hdin].
           ++ assert (Hd : apart_or_equal b c).
              { apply Hall. apply (Permutation_in c (Permutation_sym (merge_perm (a :: l) r))).
                apply in_or_app. now left. }
              specialize (Sa c Hcin). unfold mergeable.
              destruct Hd as [Hd|Hd]; [right; right; lia|now left].
           ++ apply IHr; auto.
Qed.

Lemma change_eq_dec : forall a b : change, {a = b} + {a <> b}.
Proof.
  intros a b. destruct (change_eqb a b) eqn:E.
  - left. now apply change_eqb_eq.
  - right. intros H. apply change_eqb_eq in H. congruence.
Qed.

Notation cnt := (count_occ change_eq_dec).

Lemma dedup_from_count : forall l cur x,
  Forall range_ok (cur :: l) -> ForallOrdPairs apart_or_equal (cur :: l) ->
  cnt (dedup_from cur l) x =
  if r_is_empty (c_range x) then cnt (cur :: l) x else Nat.min 1 (cnt (cur :: l) x).
Proof.
  induction l as [|b l IH]; intros cur x Hr HF.
  - cbn. destruct (change_eq_dec cur x); destruct (r_is_empty _); reflexivity.
  - inversion HF as [|? ? Hall HF']; subst.
    inversion Hr as [|? ? Hcur Hr']; subst.
    cbn [dedup_from].
    destruct (change_eqb cur b) eqn:E; cbn [andb].
    + apply change_eqb_eq in E. subst b.
      destruct (r_is_empty (c_range cur)) eqn:Ee; cbn [negb].
      * (* both kept *)
        cbn [count_occ] in *.
        rewrite (IH cur x Hr' HF'). cbn [count_occ].
        destruct (change_eq_dec cur x) as [->|Hne].
        -- rewrite Ee. reflexivity.
        -- reflexivity.
      * rewrite (IH cur x Hr' HF'). cbn [count_occ].
        destruct (change_eq_dec cur x) as [->|Hne]; [|reflexivity].
        rewrite Ee. cbn. lia.
    + cbn [count_occ]. rewrite (IH b x Hr' HF').
      destruct (change_eq_dec cur x) as [->|Hne]; [|reflexivity].
      destruct (r_is_empty (c_range x)) eqn:Ee; [reflexivity|].
      (* a non-empty change not equal to its successor never recurs *)
      assert (Hnot : ~ In x (b :: l)).
      { rewrite Forall_forall in Hall.
        assert (Hxb : c_end x <= c_start b).
        { destruct (Hall b (or_introl eq_refl)) as [H|H]; auto.
          subst. rewrite (proj2 (change_eqb_eq b b) eq_refl) in E. discriminate. }
        intros Hin. unfold r_is_empty in Ee. apply Nat.eqb_neq in Ee.
        inversion HF' as [|? ? Hall' _]; subst. rewrite Forall_forall in Hall'.
        assert (Hbx : c_start b <= c_start x).
        { destruct Hin as [->|Hin]; [lia|].
          inversion Hr' as [|? ? Hb _]; subst.
          destruct (Hall' x Hin) as [H|H]; [unfold range_ok in *; lia|subst; lia]. }
        unfold range_ok, c_start, c_end in *. lia. }
      apply (count_occ_not_In change_eq_dec) in Hnot. rewrite Hnot. reflexivity.
Qed.

Lemma dedup_from_FOP : forall l cur,
  Forall range_ok (cur :: l) -> ForallOrdPairs apart_or_equal (cur :: l) ->
  ForallOrdPairs ends_before (dedup_from cur l) /\ incl (dedup_from cur l) (cur :: l).
Proof.
  induction l as [|b l IH]; intros cur Hr HF.
  - cbn. split; [constructor; constructor|apply incl_refl].
  - inversion HF as [|? ? Hall HF']; subst.
    inversion Hr as [|? ? Hcur Hr']; subst.
    cbn [dedup_from]. destruct (change_eqb cur b) eqn:E; cbn [andb].
    + apply change_eqb_eq in E. subst b.
      destruct (IH cur Hr' HF') as [H1 H2].
      destruct (r_is_empty (c_range cur)) eqn:Ee; cbn [negb].
      * split.
        -- constructor; auto. rewrite Forall_forall. rewrite Forall_forall in Hall. intros x Hx.
           apply H2 in Hx. destruct (Hall x Hx) as [H|H]; [exact H|].
           subst x. unfold ends_before. unfold r_is_empty in Ee. apply Nat.eqb_eq in Ee.
           unfold c_end, c_start. lia.
        -- intros x [->|Hx]; [now left|]. right. auto.
      * split; auto. intros x Hx. right. auto.
    + destruct (IH b Hr' HF') as [H1 H2]. split.
      * constructor; auto. rewrite Forall_forall. rewrite Forall_forall in Hall. intros x Hx.
        assert (Hb : c_end cur <= c_start b).
        { destruct (Hall b (or_introl eq_refl)) as [H|H]; auto. subst.
          rewrite (proj2 (change_eqb_eq b b) eq_refl) in E. discriminate. }
        apply H2 in Hx. destruct (Hall x Hx) as [H|H]; [exact H|]. subst x.
        destruct Hx as [Hx|Hx].
        -- subst b. rewrite (proj2 (change_eqb_eq cur cur) eq_refl) in E. discriminate.
        -- inversion HF' as [|? ? Hall' _]; subst. rewrite Forall_forall in Hall'.
           inversion Hr' as [|? ? Hbr _]; subst.
           unfold ends_before. destruct (Hall' cur Hx) as [H'|H'];
             [unfold range_ok in *; lia|subst; unfold range_ok in *; lia].
      * intros x [->|Hx]; [now left|]. right. auto.
Qed.

Lemma in_order_count : forall l x, Forall range_ok l -> ForallOrdPairs ends_before l ->
  r_is_empty (c_range x) = false -> cnt l x <= 1.
Proof.
  induction l as [|a l IH]; intros x Hr HF He; cbn; [lia|].
  inversion HF as [|? ? Hall HF']; inversion Hr as [|? ? Ha Hr']; subst.
  destruct (change_eq_dec a x) as [->|]; [|auto].
  assert (~ In x l).
  { intros Hin. rewrite Forall_forall in Hall. specialize (Hall x Hin).
    unfold r_is_empty in He. apply Nat.eqb_neq in He.
    unfold ends_before, range_ok, c_start, c_end in *. lia. }
  apply (count_occ_not_In change_eq_dec) in H. lia.
Qed.

(** The changes of [other] that [self] does not already perform. *)
Definition is_insertion (c : change) : bool := r_is_empty (c_range c).
Definition fresh (self : list change) (d : change) : bool :=
  is_insertion d || negb (existsb (change_eqb d) self).

Lemma count_filter : forall f l x, cnt (filter f l) x = if f x then cnt l x else 0.
Proof.
  induction l as [|a l IH]; intros x; cbn; [now destruct (f x)|].
  destruct (f a) eqn:Ea; cbn; rewrite IH; destruct (change_eq_dec a x) as [->|]; rewrite ?Ea; auto.
Qed.

Lemma existsb_count : forall l x, existsb (change_eqb x) l = negb (cnt l x =? 0).
Proof.
  induction l as [|a l IH]; intros x; cbn; [auto|].
  rewrite IH. destruct (change_eq_dec a x) as [->|Hne].
  - rewrite (proj2 (change_eqb_eq x x) eq_refl). reflexivity.
  - destruct (change_eqb x a) eqn:E; auto. apply change_eqb_eq in E. congruence.
Qed.

Lemma union_perm : forall self other,
  Forall range_ok self -> Forall range_ok other -> in_order self -> in_order other ->
  check_disjoint (merge_by_start self other) = true ->
  in_order (dedup (merge_by_start self other)) /\
  Permutation (dedup (merge_by_start self other)) (self ++ filter (fresh self) other).
Proof.
  intros self other Hr1 Hr2 Ho1 Ho2 Hchk.
  set (m := merge_by_start self other) in *.
  assert (Hrm : Forall range_ok m).
  { rewrite Forall_forall in *. intros x Hx.
    apply (Permutation_in x (merge_perm self other)) in Hx. apply in_app_or in Hx.
    destruct Hx; auto. }
  pose proof (check_disjoint_FOP m Hrm Hchk) as HF.
  pose proof (in_order_FOP _ Hr1 Ho1) as HF1. pose proof (in_order_FOP _ Hr2 Ho2) as HF2.
  split.
  - destruct m as [|c m]; [constructor|]. apply FOP_in_order. now apply dedup_from_FOP.
  - apply (Permutation_count_occ change_eq_dec). intros x.
    assert (Hcm : cnt m x = cnt self x + cnt other x).
    { rewrite <- count_occ_app. revert x.
      apply (Permutation_count_occ change_eq_dec). apply merge_perm. }
    assert (Hd : cnt (dedup m) x =
                 if r_is_empty (c_range x) then cnt m x else Nat.min 1 (cnt m x)).
    { destruct m as [|c m]; [cbn; now destruct (r_is_empty _)|].
      cbn [dedup]. now apply dedup_from_count. }
    rewrite Hd, Hcm, count_occ_app, count_filter.
    unfold fresh, is_insertion. rewrite existsb_count.
    destruct (r_is_empty (c_range x)) eqn:Ee; cbn [orb]; [reflexivity|].
    pose proof (in_order_count self x Hr1 HF1 Ee).
    pose proof (in_order_count other x Hr2 HF2 Ee).
    destruct (cnt self x =? 0) eqn:E0; cbn [negb].
    + apply Nat.eqb_eq in E0. lia.
    + apply Nat.eqb_neq in E0. lia.
Qed.

Lemma merge_filter : forall k l r,
  Forall range_ok l -> ForallOrdPairs ends_before l ->
  filter (same_place k) (merge_by_start l r) = filter (same_place k) l ++ filter (same_place k) r.
Proof.
  intros k. induction l as [|a l IH]; intros r Hrl Hl.
  - now destruct r.
  - induction r as [|b r IHr].
    + cbn [merge_by_start]. now rewrite app_nil_r.
    + cbn [merge_by_start]. destruct (c_start a <=? c_start b) eqn:E.
      * cbn [filter]. rewrite IH by (inversion Hrl; inversion Hl; auto).
        now destruct (same_place k a).
      * apply Nat.leb_gt in E.
        change ((fix aux (r0 : list change) : list change :=
           match r0 with
           | [] => a :: l
           | b0 :: r' => if c_start a <=? c_start b0 then a :: merge_by_start l r0 else b0 :: aux r'
           end) r) with (merge_by_start (a :: l) r).
        change (filter (same_place k) (b :: merge_by_start (a :: l) r))
          with (if same_place k b then b :: filter (same_place k) (merge_by_start (a :: l) r)
                else filter (same_place k) (merge_by_start (a :: l) r)).
        change (filter (same_place k) (b :: r))
          with (if same_place k b then b :: filter (same_place k) r else filter (same_place k) r).
        rewrite IHr. destruct (same_place k b) eqn:Eb; [|reflexivity].
        assert (Hnil : filter (same_place k) (a :: l) = []).
        { destruct (filter (same_place k) (a :: l)) as [|z zs] eqn:Ez; auto.
          assert (Hz : In z (filter (same_place k) (a :: l))) by (rewrite Ez; now left).
          apply filter_In in Hz. destruct Hz as [Hz1 Hz2].
          pose proof (FOP_starts a l Hrl Hl z Hz1).
          apply same_place_spec in Eb. apply same_place_spec in Hz2. lia. }
        rewrite Hnil. reflexivity.
Qed.

Lemma dedup_filter_insertions : forall k m, is_insertion k = true ->
  filter (same_place k) (dedup m) = filter (same_place k) m.
Proof.
  intros k m Hk.
  assert (H : forall l cur, filter (same_place k) (dedup_from cur l) = filter (same_place k) (cur :: l)).
  { induction l as [|b l IH]; intros cur; [reflexivity|].
    cbn [dedup_from]. destruct (change_eqb cur b) eqn:E; cbn [andb].
    - apply change_eqb_eq in E. subst b.
      destruct (r_is_empty (c_range cur)) eqn:Ee; cbn [negb].
      + cbn [filter] in *. now rewrite IH.
      + rewrite IH. cbn [filter].
        replace (same_place k cur) with false; auto.
        symmetry. apply not_true_is_false. intros Hs. apply same_place_spec in Hs.
        unfold is_insertion, r_is_empty in *. apply Nat.eqb_eq in Hk. apply Nat.eqb_neq in Ee.
        unfold c_start, c_end in *. lia.
    - cbn [filter] in *. now rewrite IH. }
  destruct m; [reflexivity|]. apply H.
Qed.

(** * Offsets *)
Lemma offset_cut : forall pos t cs out,
  edited pos t cs out -> Forall range_ok cs ->
  forall o k, pos <= o <= pos + length t ->
  match apply_to_offset_from cs o (k + (o - pos)) with
  | Panic => False
  | Ok None => exists c, In c cs /\ c_start c < o < c_end c
  | Ok (Some o') =>
      exists t1 t2 out1 out2 cs1 cs2,
        t = t1 ++ t2 /\ out = out1 ++ out2 /\ cs = cs1 ++ cs2 /\
        pos + length t1 = o /\ k + length out1 = o' /\
        edited pos t1 cs1 out1 /\ edited o t2 cs2 out2 /\
        Forall (fun c => c_start c < o /\ c_end c <= o) cs1 /\
        Forall (fun c => o <= c_start c) cs2
  end.
Proof.
  induction 1 as [pos t|pos keep old rest new cs out s e Hs He Hed IH]; intros Hr o k Ho.
  - cbn. destruct (split_at t (o - pos)) as (t1 & t2 & -> & Hl); [lia|].
    exists t1, t2, t1, t2, [], []. repeat split; auto; try constructor; lia.
  - inversion Hr as [|? ? Hc Hr']; subst. rewrite !app_length in Ho.
    cbn [apply_to_offset_from]. unfold c_start, c_end; cbn [c_range r_start r_end c_text].
    destruct (o <=? pos + length keep) eqn:E1.
    + apply Nat.leb_le in E1.
      destruct (split_at keep (o - pos)) as (k1 & k2 & -> & Hl); [lia|].
      exists k1, (k2 ++ old ++ rest), k1, (k2 ++ new ++ out), [],
        (mkChange (mkRange (pos + length (k1 ++ k2)) (pos + length (k1 ++ k2) + length old)) new :: cs).
      rewrite app_length in *.
      split; [now rewrite <- app_assoc|]. split; [now rewrite <- app_assoc|].
      split; [reflexivity|]. split; [lia|]. split; [lia|]. split; [constructor|].
      split; [apply edited_cons; auto; lia|].
      split; [constructor|].
      constructor; [cbn; lia|].
      (* later changes start later *)
      clear - Hed Hl E1.
      assert (G : forall p t cs out, edited p t cs out -> Forall (fun c => p <= c_start c) cs).
      { induction 1 as [|p kp ol rs nw cs0 out0 s0 e0 H1 H2 H3 IH3]; [constructor|].
        constructor; [cbn; unfold c_start; cbn; lia|].
        eapply Forall_impl; [|exact IH3]. cbn. intros; lia. }
      apply G in Hed. eapply Forall_impl; [|exact Hed]. cbn. intros c ?. rewrite ?app_length in *. unfold c_start in *. lia.
    + apply Nat.leb_gt in E1.
      destruct (o <? pos + length keep + length old) eqn:E2.
      * apply Nat.ltb_lt in E2. eexists. split; [now left|]. unfold c_start, c_end; cbn. lia.
      * apply Nat.ltb_ge in E2. unfold r_len; cbn [r_start r_end].
        replace (pos + length keep + length old - (pos + length keep)) with (length old) by lia.
        replace (length old <=? k + (o - pos) + length new) with true
          by (symmetry; apply Nat.leb_le; lia).
        replace (k + (o - pos) + length new - length old)
          with ((k + length keep + length new) + (o - (pos + length keep + length old))) by lia.
        specialize (IH Hr' o (k + length keep + length new)).
        destruct (apply_to_offset_from _ _ _) as [[o'|]|].
        -- destruct IH as (t1 & t2 & out1 & out2 & cs1 & cs2 & -> & -> & -> & H1 & H2 & H3 & H4 & H5 & H6);
             [lia|].
           exists (keep ++ old ++ t1), t2, (keep ++ new ++ out1), out2,
             (mkChange (mkRange (pos + length keep) (pos + length keep + length old)) new :: cs1), cs2.
           split; [now rewrite <- !app_assoc|]. split; [now rewrite <- !app_assoc|].
           split; [reflexivity|]. rewrite !app_length.
           split; [lia|]. split; [lia|].
           split; [econstructor; eauto|]. split; [assumption|].
           split; [|assumption]. constructor; [cbn; unfold c_start, c_end; cbn; lia|assumption].
        -- destruct IH as (c & Hin & Hc2); [lia|]. exists c. split; [now right|auto].
        -- apply IH. lia.
Qed.
