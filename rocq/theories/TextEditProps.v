(** Claims about crates/ide-db/src/text_edit.rs (properties C01-C04). *)
From Coq Require Import Permutation Sorted.
From Verif Require Import Base TextEditModel TextEditSpec TextEditProofs TextEditProofs2.

(** * C01 *)
Theorem text_edit_apply_exact : forall cs t,
  in_order cs -> Forall wf_change cs -> Forall (fits t) cs ->
  exists out, edit_apply cs t = Ok out /\ edited 0 t cs out /\
              forall out', edited 0 t cs out' -> out' = out.
Proof.
  intros cs t H1 H2 H3. destruct (edit_apply_edited cs t H1 H2 H3) as (out & Ha & He).
  exists out. split; [exact Ha|]. split; [exact He|].
  intros out' H'. eapply edited_functional; eauto.
Qed.

(** "abcdef": delete "b", insert "XY" after "d", replace "f" by "Z" -> "acdXYeZ" *)
Definition ex_text : text := [97; 98; 99; 100; 101; 102]%N.
Definition ex_changes : list change :=
  [delete_change (mkRange 1 2); insert_change 4 [88; 89]%N; replace_change (mkRange 5 6) [90]%N].
Example text_edit_apply_exact_case :
  in_order ex_changes /\ Forall wf_change ex_changes /\ Forall (fits ex_text) ex_changes /\
  edit_apply ex_changes ex_text = Ok [97; 99; 100; 88; 89; 101; 90]%N.
Proof.
  split; [repeat constructor|].
  split; [repeat constructor; cbn; try lia; auto|].
  split; [repeat constructor; cbn; try lia; auto|].
  vm_compute. reflexivity.
Qed.

(** * C02 *)
Theorem builder_preserves_effect : forall cs t,
  Forall wf_change cs -> Forall (fits t) cs -> pairwise_disjoint cs ->
  exists edit s out,
    build_edit cs = Ok edit /\ separated edit /\
    document_order cs s /\ edited 0 t s out /\ edit_apply edit t = Ok out.
Proof.
  intros cs t Hwf Hfit Hd.
  assert (Hr : Forall range_ok cs).
  { eapply Forall_impl; [|exact Hwf]. intros c [H _]; exact H. }
  assert (Htr : forall P : change -> Prop, Forall P cs -> Forall P (sort_changes cs)).
  { intros P HP. rewrite Forall_forall in *. intros x Hx. apply HP.
    eapply Permutation_in; [apply Permutation_sym, sort_perm|]; auto. }
  destruct (sort_check cs Hr Hd) as [Hord _].
  destruct (edit_apply_edited (sort_changes cs) t Hord (Htr _ Hwf) (Htr _ Hfit)) as (out & _ & Hed).
  exists (coalesce (sort_changes cs)), (sort_changes cs), out.
  pose proof (Htr _ Hwf) as Hwfs. pose proof (Htr _ Hfit) as Hfits. pose proof (Htr _ Hr) as Hrs.
  split; [now apply build_edit_ok|].
  assert (Hsep : separated (coalesce (sort_changes cs))).
  { unfold coalesce. destruct (sort_changes cs) as [|c l]; [constructor|].
    now apply coalesce_from_separated. }
  split; [exact Hsep|]. split; [apply sort_document_order|]. split; [exact Hed|].
  destruct (edit_apply_edited (coalesce (sort_changes cs)) t) as (out' & Ha & He').
  - now apply separated_in_order.
  - unfold coalesce. destruct (sort_changes cs); [constructor|]. now apply coalesce_from_wf.
  - unfold coalesce. destruct (sort_changes cs); [constructor|]. now apply coalesce_from_fits.
  - assert (He : edited 0 t (coalesce (sort_changes cs)) out).
    { unfold coalesce. destruct (sort_changes cs) as [|c l]; [exact Hed|].
      now apply coalesce_from_edited. }
    rewrite Ha. f_equal. eapply edited_functional; eauto.
Qed.

Example builder_preserves_effect_case :
  let cs := [insert_change 4 [88]%N; delete_change (mkRange 2 4); insert_change 4 [89]%N;
             replace_change (mkRange 0 1) [90]%N] in
  Forall wf_change cs /\ Forall (fits ex_text) cs /\ pairwise_disjoint cs /\
  build_edit cs = Ok [replace_change (mkRange 0 1) [90]%N; mkChange (mkRange 2 4) [88; 89]%N].
Proof.
  cbn zeta. split; [repeat constructor; cbn; try lia; auto|].
  split; [repeat constructor; cbn; try lia; auto|].
  split; [|vm_compute; reflexivity].
  unfold pairwise_disjoint, disjoint; repeat (constructor; cbn; try lia).
Qed.

(** The order of the additions is irrelevant when no two changes are at the same place. *)
Theorem builder_order_irrelevant : forall cs1 cs2,
  Permutation cs1 cs2 ->
  Forall (fun c => c_start c <= c_end c) cs1 -> pairwise_disjoint cs1 ->
  NoDup (map (fun c => (c_start c, c_end c)) cs1) ->
  build_edit cs1 = build_edit cs2.
Proof.
  intros cs1 cs2 Hp Hr Hd Hnd.
  rewrite build_edit_ok by auto.
  rewrite build_edit_ok.
  2:{ rewrite Forall_forall in *. intros x Hx. apply Hr. eapply Permutation_in; [apply Permutation_sym|]; eauto. }
  2:{ eapply FOP_perm; eauto. }
  do 2 f_equal. apply sorted_stable_unique; auto using sort_sorted.
  intros k. rewrite <- !sort_stable. clear Hr Hd.
  assert (Hlen : forall l, NoDup (map (fun c => (c_start c, c_end c)) l) ->
                 length (filter (same_place k) l) <= 1).
  { induction l as [|a l IH]; cbn; intros H; [lia|]. inversion H as [|? ? Hni H']; subst.
    destruct (same_place k a) eqn:E; [|auto]. cbn.
    destruct (filter (same_place k) l) as [|z zs] eqn:Ez; [cbn; lia|]. exfalso. apply Hni.
    assert (Hz : In z (filter (same_place k) l)) by (rewrite Ez; now left).
    apply filter_In in Hz. destruct Hz as [Hz1 Hz2].
    apply same_place_spec in E. apply same_place_spec in Hz2.
    apply in_map_iff. exists z. split; auto. f_equal; lia. }
  assert (HP : Permutation (filter (same_place k) cs1) (filter (same_place k) cs2)).
  { clear - Hp. induction Hp; cbn.
    - constructor.
    - destruct (same_place k x); auto.
    - destruct (same_place k y), (same_place k x); auto. constructor.
    - etransitivity; eauto. }
  specialize (Hlen cs1 Hnd).
  destruct (filter (same_place k) cs1) as [|a [|b l]] eqn:E1; cbn in Hlen; [| |lia].
  - apply Permutation_nil in HP. congruence.
  - apply Permutation_length_1_inv in HP. congruence.
Qed.

Example builder_order_irrelevant_case :
  build_edit [delete_change (mkRange 2 4); insert_change 0 [88]%N] =
  build_edit [insert_change 0 [88]%N; delete_change (mkRange 2 4)].
Proof.
  apply builder_order_irrelevant.
  - constructor.
  - repeat constructor; cbn; lia.
  - unfold pairwise_disjoint, disjoint; repeat (constructor; cbn; try lia).
  - repeat constructor; cbn; intuition discriminate.
Qed.

(** Refuted part of C02: adding one deletion twice is accepted and deletes twice as much. *)
Theorem builder_duplicate_deletion_refuted :
  exists t r edit1 edit2 out1 out2,
    build_edit [delete_change r] = Ok edit1 /\ edit_apply edit1 t = Ok out1 /\
    build_edit [delete_change r; delete_change r] = Ok edit2 /\ edit_apply edit2 t = Ok out2 /\
    out1 <> out2 /\ ~ in_order edit2.
Proof.
  exists ex_text, (mkRange 1 2), [delete_change (mkRange 1 2)],
    [delete_change (mkRange 1 2); delete_change (mkRange 1 2)],
    [97; 99; 100; 101; 102]%N, [97; 100; 101; 102]%N.
  repeat split; try (vm_compute; reflexivity); try discriminate.
  intros H. inversion H; subst. unfold c_end, c_start in *; cbn in *. lia.
Qed.

(** * C03 *)
(** The merged edit performs all changes of the receiver and the changes of the argument that the
    receiver does not already perform; insertions at one place come receiver first. *)
Theorem union_success : forall self other r,
  Forall range_ok self -> Forall range_ok other -> in_order self -> in_order other ->
  union self other = (r, true) ->
  in_order r /\
  Permutation r (self ++ filter (fresh self) other) /\
  (forall k, is_insertion k = true ->
     filter (same_place k) r = filter (same_place k) self ++ filter (same_place k) other).
Proof.
  intros self other r Hr1 Hr2 Ho1 Ho2. unfold union.
  destruct (check_disjoint (merge_by_start self other)) eqn:E; [|discriminate].
  intros H; injection H as <-.
  destruct (union_perm self other Hr1 Hr2 Ho1 Ho2 E) as [H1 H2].
  split; [exact H1|]. split; [exact H2|]. intros k Hk.
  rewrite dedup_filter_insertions by auto.
  apply merge_filter; auto using in_order_FOP.
Qed.

Theorem union_applies_both : forall self other r t,
  Forall wf_change self -> Forall wf_change other -> in_order self -> in_order other ->
  Forall (fits t) self -> Forall (fits t) other ->
  union self other = (r, true) ->
  exists out, edit_apply r t = Ok out /\ edited 0 t r out.
Proof.
  intros self other r t Hw1 Hw2 Ho1 Ho2 Hf1 Hf2 Hu.
  assert (Hr1 : Forall range_ok self) by (eapply Forall_impl; [|exact Hw1]; intros c [H _]; exact H).
  assert (Hr2 : Forall range_ok other) by (eapply Forall_impl; [|exact Hw2]; intros c [H _]; exact H).
  destruct (union_success self other r Hr1 Hr2 Ho1 Ho2 Hu) as (Hord & Hperm & _).
  assert (Htr : forall P : change -> Prop, Forall P self -> Forall P other -> Forall P r).
  { intros P HP1 HP2. rewrite Forall_forall in *. intros x Hx.
    apply (Permutation_in x Hperm) in Hx. apply in_app_or in Hx. destruct Hx as [Hx|Hx]; auto.
    apply filter_In in Hx. apply HP2. tauto. }
  apply edit_apply_edited; auto.
Qed.

(** Failure changes nothing; success and failure are characterised exactly. *)
Theorem union_success_iff : forall self other,
  Forall range_ok self -> Forall range_ok other -> in_order self -> in_order other ->
  (snd (union self other) = true <->
   forall c d, In c self -> In d other -> mergeable c d) /\
  (snd (union self other) = false -> fst (union self other) = self).
Proof.
  intros self other Hr1 Hr2 Ho1 Ho2. unfold union. split.
  - rewrite (merge_FOP self other) by auto using in_order_FOP.
    destruct (check_disjoint (merge_by_start self other)) eqn:E; cbn.
    + split; auto. intros _. apply check_disjoint_FOP; auto.
      rewrite Forall_forall in *. intros x Hx.
      apply (Permutation_in x (merge_perm self other)) in Hx. apply in_app_or in Hx.
      destruct Hx; auto.
    + split; [discriminate|]. intros HF. apply FOP_check_disjoint in HF. congruence.
  - destruct (check_disjoint _); cbn; auto; discriminate.
Qed.

Example union_case :
  let a := [delete_change (mkRange 1 2); replace_change (mkRange 4 5) [90]%N] in
  let b := [insert_change 3 [88]%N; replace_change (mkRange 4 5) [90]%N] in
  union a b =
  ([delete_change (mkRange 1 2); insert_change 3 [88]%N; replace_change (mkRange 4 5) [90]%N], true).
Proof. vm_compute. reflexivity. Qed.

(** Refuted part of C03: mergeability depends on which edit is the receiver. *)
Theorem union_symmetric_refuted :
  exists a b, in_order a /\ in_order b /\ Forall range_ok a /\ Forall range_ok b /\
    snd (union a b) = false /\ snd (union b a) = true.
Proof.
  exists [replace_change (mkRange 5 8) [90]%N], [insert_change 5 [88]%N].
  repeat split; try (repeat constructor); cbn; try lia.
Qed.

(** * C04 *)
(** Mapping an offset cuts the edit in two: everything before the offset becomes everything before
    the new offset; nothing is returned only inside a replaced range; no underflow. *)
Theorem apply_to_offset_cut : forall t cs out o,
  edited 0 t cs out -> Forall range_ok cs -> o <= length t ->
  match apply_to_offset cs o with
  | Panic => False
  | Ok None => exists c, In c cs /\ c_start c < o < c_end c
  | Ok (Some o') =>
      exists t1 t2 out1 out2 cs1 cs2,
        t = t1 ++ t2 /\ out = out1 ++ out2 /\ cs = cs1 ++ cs2 /\
        length t1 = o /\ length out1 = o' /\
        edited 0 t1 cs1 out1 /\ edited o t2 cs2 out2 /\
        Forall (fun c => c_start c < o /\ c_end c <= o) cs1 /\
        Forall (fun c => o <= c_start c) cs2
  end.
Proof.
  intros t cs out o Hed Hr Ho. unfold apply_to_offset.
  pose proof (offset_cut 0 t cs out Hed Hr o 0) as H.
  rewrite Nat.sub_0_r in H. cbn [Nat.add] in H. apply H. lia.
Qed.

Theorem apply_to_offset_none_iff : forall t cs out o,
  edited 0 t cs out -> Forall range_ok cs -> o <= length t ->
  (apply_to_offset cs o = Ok None <-> exists c, In c cs /\ c_start c < o < c_end c).
Proof.
  intros t cs out o Hed Hr Ho.
  pose proof (apply_to_offset_cut t cs out o Hed Hr Ho) as H.
  destruct (apply_to_offset cs o) as [[o'|]|]; [|tauto|tauto].
  split; [discriminate|]. intros (c & Hin & Hc).
  destruct H as (t1 & t2 & out1 & out2 & cs1 & cs2 & -> & -> & -> & H1 & H2 & H3 & H4 & H5 & H6).
  rewrite Forall_forall in H5, H6. apply in_app_or in Hin. destruct Hin as [Hin|Hin].
  - specialize (H5 c Hin). lia.
  - specialize (H6 c Hin). lia.
Qed.

(** A character before which nothing is inserted or replaced is found again at the mapped offset. *)
Theorem apply_to_offset_same_char : forall t cs out o o',
  edited 0 t cs out -> Forall range_ok cs -> o < length t ->
  apply_to_offset cs o = Ok (Some o') -> (forall c, In c cs -> c_start c <> o) ->
  nth_error out o' = nth_error t o.
Proof.
  intros t cs out o o' Hed Hr Ho Hm Hno.
  pose proof (apply_to_offset_cut t cs out o Hed Hr (Nat.lt_le_incl _ _ Ho)) as H.
  rewrite Hm in H.
  destruct H as (t1 & t2 & out1 & out2 & cs1 & cs2 & -> & -> & -> & H1 & H2 & H3 & H4 & H5 & H6).
  rewrite nth_error_app2 by lia. rewrite nth_error_app2 by lia.
  replace (o' - length out1) with 0 by lia. replace (o - length t1) with 0 by lia.
  inversion H4 as [|? keep old rest new cs' out' s e Hs He Hed']; subst; [reflexivity|].
  assert (Hne : length t1 + length keep <> length t1).
  { intros E. eapply Hno with (c := mkChange (mkRange (length t1 + length keep)
      (length t1 + length keep + length old)) new).
    - apply in_or_app. right. now left.
    - unfold c_start; cbn. lia. }
  destruct keep; [cbn in Hne; lia|reflexivity].
Qed.

Theorem apply_to_offset_monotone : forall t cs out o1 o2 o1' o2',
  edited 0 t cs out -> Forall range_ok cs -> o1 <= o2 -> o2 <= length t ->
  apply_to_offset cs o1 = Ok (Some o1') -> apply_to_offset cs o2 = Ok (Some o2') -> o1' <= o2'.
Proof.
  intros t cs out o1 o2 o1' o2' Hed Hr Hle Ho. unfold apply_to_offset.
  assert (G : forall pos t cs out, edited pos t cs out -> Forall range_ok cs ->
    forall o1 o2 k o1' o2', pos <= o1 <= o2 -> o2 <= pos + length t ->
    apply_to_offset_from cs o1 (k + (o1 - pos)) = Ok (Some o1') ->
    apply_to_offset_from cs o2 (k + (o2 - pos)) = Ok (Some o2') -> o1' <= o2').
  { clear. induction 1 as [pos t|pos keep old rest new cs out s e Hs He Hed IH];
      intros Hr o1 o2 k o1' o2' Ho1 Ho2 H1 H2.
    - cbn in *. injection H1 as <-. injection H2 as <-. lia.
    - inversion Hr; subst. rewrite !app_length in *.
      unfold apply_to_offset_from in H1, H2; fold apply_to_offset_from in H1, H2.
      unfold c_start, c_end, r_len in *; cbn [c_range c_text r_start r_end] in *.
      destruct (o1 <=? pos + length keep) eqn:E1.
      + apply Nat.leb_le in E1. injection H1 as <-.
        destruct (o2 <=? pos + length keep) eqn:E2.
        * injection H2 as <-. lia.
        * apply Nat.leb_gt in E2. destruct (o2 <? pos + length keep + length old) eqn:E3; [discriminate|].
          apply Nat.ltb_ge in E3.
          destruct (_ <=? _) eqn:E4 in H2; [|discriminate].
          replace (k + (o2 - pos) + length new - (pos + length keep + length old - (pos + length keep)))
            with ((k + length keep + length new) + (o2 - (pos + length keep + length old))) in H2 by lia.
          pose proof (offset_cut _ _ _ _ Hed H4 o2 (k + length keep + length new)) as Hc.
          rewrite H2 in Hc.
          destruct Hc as (t1 & t2 & out1 & out2 & cs1 & cs2 & _ & _ & _ & _ & Hlen & _); [lia|]. lia.
      + apply Nat.leb_gt in E1.
        destruct (o1 <? pos + length keep + length old) eqn:E1'; [discriminate|].
        apply Nat.ltb_ge in E1'.
        replace (o2 <=? pos + length keep) with false in H2 by (symmetry; apply Nat.leb_gt; lia).
        replace (o2 <? pos + length keep + length old) with false in H2 by (symmetry; apply Nat.ltb_ge; lia).
        destruct (_ <=? _) eqn:E4 in H1; [|discriminate].
        destruct (_ <=? _) eqn:E5 in H2; [|discriminate].
        replace (k + (o1 - pos) + length new - (pos + length keep + length old - (pos + length keep)))
            with ((k + length keep + length new) + (o1 - (pos + length keep + length old))) in H1 by lia.
        replace (k + (o2 - pos) + length new - (pos + length keep + length old - (pos + length keep)))
            with ((k + length keep + length new) + (o2 - (pos + length keep + length old))) in H2 by lia.
        eapply IH; [assumption| | |exact H1|exact H2]; lia. }
  intros H1 H2. eapply (G 0 t cs out Hed Hr o1 o2 0); rewrite ?Nat.sub_0_r; eauto; lia.
Qed.

Example apply_to_offset_case :
  apply_to_offset ex_changes 3 = Ok (Some 2) /\ apply_to_offset ex_changes 4 = Ok (Some 3) /\
  apply_to_offset [delete_change (mkRange 1 4)] 2 = Ok None /\
  edited 0 ex_text ex_changes [97; 99; 100; 88; 89; 101; 90]%N.
Proof.
  repeat split; try (vm_compute; reflexivity).
  apply (edited_cons 0 [97]%N [98]%N [99; 100; 101; 102]%N [] _ [99; 100; 88; 89; 101; 90]%N 1 2); auto.
  apply (edited_cons 2 [99; 100]%N [] [101; 102]%N [88; 89]%N _ [101; 90]%N 4 4); auto.
  apply (edited_cons 4 [101]%N [102]%N [] [90]%N _ [] 5 6); auto. constructor.
Qed.

Print Assumptions text_edit_apply_exact.
Print Assumptions builder_preserves_effect.
Print Assumptions builder_order_irrelevant.
Print Assumptions builder_duplicate_deletion_refuted.
Print Assumptions union_success.
Print Assumptions union_applies_both.
Print Assumptions union_success_iff.
Print Assumptions union_symmetric_refuted.
Print Assumptions apply_to_offset_cut.
Print Assumptions apply_to_offset_none_iff.
Print Assumptions apply_to_offset_same_char.
Print Assumptions apply_to_offset_monotone.
