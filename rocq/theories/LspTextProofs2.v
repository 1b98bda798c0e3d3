From Verif Require Import Base LspTextModel LspTextSpec LspTextProofs.
Local Open Scope N_scope.

Lemma to_utf8_past : forall e x pos d r,
  to_utf8_loop e (wchars pos x) (pos + units (Wide e) x + d) = Some r -> r = pos + blen x + d.
Proof.
  induction x as [|c x IH]; intros pos d r H.
  - cbn [wchars to_utf8_loop units] in H. rewrite blen_nil. injection H as <-. lia.
  - cbn [wchars units] in H. rewrite blen_cons.
    pose proof (units_le e c) as [Hu Hu1]. pose proof (units_le_blen e x).
    destruct (1 <? len8 c) eqn:E.
    + cbn [to_utf8_loop wc_start] in H. apply N.ltb_lt in E.
      replace (pos <? pos + (units_char (Wide e) c + units (Wide e) x) + d) with true in H
        by (symmetry; apply N.ltb_lt; lia).
      rewrite wide_len_units in H by auto. unfold wc_len in H. cbn [wc_start wc_end] in H.
      replace (pos + len8 c - pos) with (len8 c) in H by lia.
      replace (pos + (units_char (Wide e) c + units (Wide e) x) + d + (len8 c - units_char (Wide e) c))
        with ((pos + len8 c) + units (Wide e) x + d) in H by lia.
      destruct (_ <=? u32_max); [|discriminate].
      apply IH in H. lia.
    + apply N.ltb_nlt in E. rewrite units_narrow in H by auto.
      assert (len8 c = 1) by (pose proof (len8_pos c); lia).
      replace (pos + (1 + units (Wide e) x) + d) with ((pos + len8 c) + units (Wide e) x + d) in H by lia.
      apply IH in H. lia.
Qed.

Lemma to_utf8_some : forall e x y pos r,
  to_utf8_loop e (wchars pos (x ++ y)) (pos + units (Wide e) x) = Some r -> r = pos + blen x.
Proof.
  induction x as [|c x IH]; intros y pos r H; cbn [app] in H.
  - cbn [units] in H. rewrite to_utf8_stop in H by lia. injection H as <-. rewrite blen_nil. lia.
  - cbn [wchars units] in H. rewrite blen_cons.
    pose proof (units_le e c) as [Hu Hu1]. pose proof (units_le_blen e x).
    destruct (1 <? len8 c) eqn:E.
    + cbn [to_utf8_loop wc_start] in H. apply N.ltb_lt in E.
      replace (pos <? pos + (units_char (Wide e) c + units (Wide e) x)) with true in H
        by (symmetry; apply N.ltb_lt; lia).
      rewrite wide_len_units in H by auto. unfold wc_len in H. cbn [wc_start wc_end] in H.
      replace (pos + len8 c - pos) with (len8 c) in H by lia.
      replace (pos + (units_char (Wide e) c + units (Wide e) x) + (len8 c - units_char (Wide e) c))
        with ((pos + len8 c) + units (Wide e) x) in H by lia.
      destruct (_ <=? u32_max); [|discriminate].
      apply IH in H. lia.
    + apply N.ltb_nlt in E. rewrite units_narrow in H by auto.
      assert (len8 c = 1) by (pose proof (len8_pos c); lia).
      replace (pos + (1 + units (Wide e) x)) with ((pos + len8 c) + units (Wide e) x) in H by lia.
      apply IH in H. lia.
Qed.

(** Where a column falls in a line. *)
Lemma column_cases : forall enc x c,
  (exists p q, x = p ++ q /\ c = units enc p) \/
  (exists d, c = units enc x + d /\ 0 < d) \/
  (exists p ch q, x = p ++ ch :: q /\ units enc p < c < units enc p + units_char enc ch).
Proof.
  intros enc x. induction x as [|ch x IH]; intros c.
  - destruct (N.eq_dec c 0) as [->|H].
    + left. exists [], []. auto.
    + right. left. exists c. cbn. lia.
  - destruct (N.eq_dec c 0) as [->|H0].
    + left. exists [], (ch :: x). auto.
    + destruct (N.lt_ge_cases c (units_char enc ch)).
      * right. right. exists [], ch, x. cbn [units]. split; [reflexivity|lia].
      * destruct (IH (c - units_char enc ch)) as [(p & q & -> & Hc)|[(d & Hc & Hd)|(p & ch' & q & -> & Hc)]].
        -- left. exists (ch :: p), q. cbn [units]. split; [reflexivity|lia].
        -- right. left. exists d. cbn [units]. lia.
        -- right. right. exists (ch :: p), ch', q. cbn [units]. split; [reflexivity|lia].
Qed.

(** The line decomposition used by the specification. *)
Lemma is_line_nth : forall t k x, nth_error (lines t) k = Some x ->
  exists a b, is_line t (N.of_nat k) a x b /\ blen a = pre_len (firstn k (lines t)) /\
              (last_line t k = true <-> b = []).
Proof.
  intros t k x H. destruct (lines_join t) as (ls & y & H1 & H2).
  pose proof (lines_no_nl t) as Hno. unfold last_line.
  assert (Hk : (k < length (lines t))%nat) by (apply nth_error_Some; congruence).
  rewrite H1 in *. apply Forall_app in Hno. destruct Hno as [Hls Hy]. inversion Hy; subst.
  rewrite app_length in *. cbn [length] in *.
  destruct (Nat.eq_dec k (length ls)) as [->|Hne].
  - rewrite nth_error_app2, Nat.sub_diag in H by lia. cbn in H. injection H as <-.
    exists (unl ls), []. repeat split; auto.
    + now rewrite app_nil_r.
    + pose proof (cursor_intro Utf8 ls [] Hls ltac:(intros [])) as Hc. rewrite app_nil_r in Hc. exact Hc.
    + rewrite blen_unl, firstn_app, firstn_all, Nat.sub_diag. cbn. now rewrite app_nil_r.
    + intros _. apply Nat.eqb_eq. lia.
  - rewrite nth_error_app1 in H by lia. apply nth_error_split in H.
    destruct H as (l1 & l2 & -> & <-).
    exists (unl l1), (NL :: unl l2 ++ y).
    apply Forall_app in Hls. destruct Hls as [Hl1 Hl2]. inversion Hl2; subst.
    repeat split; auto.
    + unfold unl. rewrite map_app, concat_app. cbn. rewrite <- !app_assoc. reflexivity.
    + pose proof (cursor_intro Utf8 l1 [] Hl1 ltac:(intros [])) as Hc. rewrite app_nil_r in Hc. exact Hc.
    + right. eauto.
    + rewrite blen_unl, <- app_assoc, firstn_app, firstn_all, Nat.sub_diag. cbn. now rewrite app_nil_r.
    + rewrite app_length. cbn [length]. intros E. apply Nat.eqb_eq in E. lia.
    + discriminate.
Qed.

Lemma offset_on_line : forall enc t l c o, offset enc (new_index t) (l, c) = Some o ->
  exists a x b, is_line t l a x b /\
    blen a <= o <= blen a + blen x + (match b with [] => 0 | _ => 1 end).
Proof.
  intros enc t l c o H. destruct (offset_bounds _ _ _ _ _ H) as (x & Hn & Hb & _).
  destruct (is_line_nth _ _ _ Hn) as (a & b & Hl & Ha & Hlast). rewrite N2Nat.id in Hl.
  exists a, x, b. split; [exact Hl|]. rewrite Ha. destruct b as [|b0 b].
  - rewrite (proj2 Hlast eq_refl) in Hb. exact Hb.
  - destruct (last_line t (N.to_nat l)).
    + destruct Hlast as [Hlast _]. specialize (Hlast eq_refl). discriminate.
    + exact Hb.
Qed.

Lemma offset_boundary : forall enc t l c o, offset enc (new_index t) (l, c) = Some o ->
  ~ inside_char enc t l c ->
  exists a b, t = a ++ b /\ blen a = o.
Proof.
  intros enc t l c o H Hin. destruct (offset_bounds _ _ _ _ _ H) as (x & Hn & _ & _).
  destruct (is_line_nth _ _ _ Hn) as (a & b & Hl & Ha & Hlast).
  pose proof (line_eq _ _ _ Hn) as HL. pose proof (line_wide_eq _ _ _ Hn) as HW.
  rewrite N2Nat.id in *. unfold offset in H. rewrite HL, HW in H. rewrite <- Ha in H.
  destruct Hl as (Ht & Hc & Hno & Hb).
  destruct (column_cases enc x c) as [(p & q & Hx & Hcol)|[(d & Hcol & Hd)|(p & ch & q & Hx & Hcol)]].
  - (* a real position of the line *)
    assert (Hr : forall r, match enc with Utf8 => Some c | Wide e => to_utf8_loop e (wchars 0 x) c end = Some r -> r = blen p).
    { intros r Hr. destruct enc as [|e].
      - injection Hr as <-. rewrite Hcol. apply units_utf8.
      - rewrite Hx, Hcol in Hr. replace (units (Wide e) p) with (0 + units (Wide e) p) in Hr by lia.
        apply to_utf8_some in Hr. lia. }
    destruct (match enc with Utf8 => Some c | Wide e => to_utf8_loop e (wchars 0 x) c end) as [r|]; [|discriminate].
    rewrite (Hr r eq_refl) in H. injection H as <-.
    exists (a ++ p), (q ++ b). split.
    + rewrite Ht, Hx, <- !app_assoc. reflexivity.
    + rewrite blen_app, Hx, blen_app. destruct (last_line _ _); lia.
  - (* past the end of the line *)
    assert (Hr : forall r, match enc with Utf8 => Some c | Wide e => to_utf8_loop e (wchars 0 x) c end = Some r -> r = blen x + d).
    { intros r Hr. destruct enc as [|e].
      - injection Hr as <-. rewrite Hcol. now rewrite units_utf8.
      - rewrite Hcol in Hr. replace (units (Wide e) x + d) with (0 + units (Wide e) x + d) in Hr by lia.
        apply to_utf8_past in Hr. lia. }
    destruct (match enc with Utf8 => Some c | Wide e => to_utf8_loop e (wchars 0 x) c end) as [r|]; [|discriminate].
    rewrite (Hr r eq_refl) in H. injection H as <-.
    destruct (last_line t (N.to_nat l)) eqn:El.
    + exists (a ++ x), b. split; [now rewrite Ht, <- app_assoc|]. rewrite blen_app. lia.
    + destruct Hb as [->|(b' & ->)]; [destruct Hlast as [_ Hlast]; specialize (Hlast eq_refl); discriminate|].
      exists (a ++ x ++ [NL]), b'. split; [rewrite Ht, <- !app_assoc; reflexivity|].
      rewrite !blen_app. change (blen [NL]) with 1. lia.
  - exfalso. apply Hin. exists a, x, b, p, ch, q. repeat split; auto; lia.
Qed.

Lemma replace_range_total : forall t s e new a b a' b',
  t = a ++ b -> blen a = s -> t = a' ++ b' -> blen a' = e -> s <= e ->
  exists t', replace_range t s e new = Ok t'.
Proof.
  intros t s e new a b a' b' H1 H2 H3 H4 Hle.
  destruct (prefix_by_blen a b a' b') as (z & Hz); [congruence|lia|].
  subst a'. assert (b = z ++ b') by (rewrite H1, <- app_assoc in H3; eapply app_inv_head; eauto).
  subst b. exists (a ++ new ++ b'). rewrite H1, <- H2, <- H4. apply replace_range_app.
Qed.

Lemma not_inside_utf32 : forall t l c, ~ inside_char (Wide Utf32) t l c.
Proof. intros t l c (a & x & b & p & ch & q & _ & _ & H). cbn [units_char] in H. lia. Qed.

Lemma sequential_utf32_total : forall cs t, exists t', sequential (Wide Utf32) t cs = Ok t'.
Proof.
  induction cs as [|[r new|w] cs IH]; intros t; cbn [sequential].
  - eauto.
  - destruct (text_range (Wide Utf32) (new_index t) r) as [[s e]|] eqn:E; [|auto].
    destruct r as [[l1 c1] [l2 c2]]. unfold text_range in E. cbn [fst snd] in E.
    destruct (offset (Wide Utf32) (new_index t) (l1, c1)) as [s'|] eqn:E1; [|discriminate].
    destruct (offset (Wide Utf32) (new_index t) (l2, c2)) as [e'|] eqn:E2; [|discriminate].
    destruct (e' <? s') eqn:E3; [discriminate|]. injection E as -> ->. apply N.ltb_ge in E3.
    destruct (offset_boundary _ _ _ _ _ E1 (not_inside_utf32 _ _ _)) as (a & b & Ha & Hs).
    destruct (offset_boundary _ _ _ _ _ E2 (not_inside_utf32 _ _ _)) as (a' & b' & Ha' & Hs').
    destruct (replace_range_total t s e new a b a' b') as (t' & ->); auto.
  - auto.
Qed.

Lemma cursor_lines_le : forall enc a m l1 c1 l2 c2,
  cursor enc a l1 c1 -> cursor enc (a ++ m) l2 c2 -> l1 <= l2.
Proof.
  intros enc a m. induction m as [|x m IH] using rev_ind; intros l1 c1 l2 c2 H1 H2.
  - rewrite app_nil_r in H2. destruct (cursor_det _ _ _ _ _ _ H1 H2). lia.
  - destruct (cursor_exists enc (a ++ m)) as (l & c & Hc).
    pose proof (IH _ _ _ _ H1 Hc). rewrite app_assoc in H2.
    destruct (N.eq_dec x NL) as [->|Hx].
    + pose proof (cursor_newline _ _ _ _ Hc) as H'. destruct (cursor_det _ _ _ _ _ _ H2 H'). lia.
    + pose proof (cursor_char _ _ _ _ x Hx Hc) as H'. destruct (cursor_det _ _ _ _ _ _ H2 H'). lia.
Qed.

Lemma applied_sequential : forall enc cs t t'', applied_all enc t cs t'' ->
  sequential enc t cs = Ok t''.
Proof.
  intros enc cs t t'' H. induction H as [t|t c t' cs t'' Hlen Ha Hall IH]; [reflexivity|].
  destruct Ha as [t new|a m b new l1 c1 l2 c2 H1 H2]; cbn [sequential]; [exact IH|].
  unfold text_range. cbn [fst snd].
  rewrite (offset_cursor enc a (m ++ b) l1 c1) by (auto; lia).
  assert (E : a ++ m ++ b = (a ++ m) ++ b) by (now rewrite <- app_assoc).
  assert (E2 : offset enc (new_index (a ++ m ++ b)) (l2, c2) = Some (blen (a ++ m))).
  { rewrite E. apply offset_cursor; [rewrite <- E; lia|auto]. }
  rewrite E2.
  replace (blen (a ++ m) <? blen a) with false by (symmetry; apply N.ltb_ge; rewrite blen_app; lia).
  rewrite replace_range_app. exact IH.
Qed.

Lemma applied_ordered : forall enc t c t', applied enc t c t' -> lines_ordered c.
Proof.
  intros enc t c t' H. destruct H as [|a m b new l1 c1 l2 c2 H1 H2]; cbn; auto.
  eapply cursor_lines_le; eauto.
Qed.

Lemma applied_all_app : forall enc pre cs t t'', applied_all enc t (pre ++ cs) t'' ->
  exists t', applied_all enc t' cs t''.
Proof.
  induction pre as [|c pre IH]; intros cs t t'' H; [eauto|].
  cbn in H. inversion H; subst. eauto.
Qed.

Lemma map_ordered : forall ps, Forall lines_ordered (map to_change ps) -> Forall ordered_lines ps.
Proof.
  induction ps as [|[[[l1 c1] [l2 c2]] new] ps IH]; intros H; constructor.
  - inversion H; subst. exact H2.
  - apply IH. now inversion H.
Qed.

Lemma map_to_change_rev : forall ps cs, rev cs = map to_change ps -> cs = map to_change (rev ps).
Proof. intros ps cs H. rewrite map_rev, <- H. now rewrite rev_involutive. Qed.

Lemma apply_no_whole : forall enc t ps, Forall ordered_lines ps ->
  apply_document_changes enc t (map to_change ps) = sequential enc t (map to_change ps).
Proof.
  intros enc t ps H. unfold apply_document_changes.
  destruct (scan_back_spec (rev (map to_change ps)) []) as [(qs & E & Hs)|(qs & w & rest & E & Hs)].
  - rewrite Hs. cbn [app]. apply map_to_change_rev in E.
    assert (ps = rev qs).
    { clear -E. assert (Hinj : forall xs ys, map to_change xs = map to_change ys -> xs = ys).
      { induction xs as [|[xr xn] xs IH]; destruct ys as [|[yr yn] ys]; intros HH; try discriminate; auto.
        cbn in HH. injection HH as -> -> HH. f_equal. auto. }
      apply Hinj. exact E. }
    subst ps. rewrite <- (apply_partials enc t (rev qs)) by auto. rewrite rev_involutive. reflexivity.
  - exfalso. assert (HI : In (Whole w) (map to_change ps)).
    { apply in_rev. rewrite E. apply in_or_app. right. now left. }
    apply in_map_iff in HI. destruct HI as (p & Hp & _). discriminate.
Qed.

Lemma apply_whole : forall enc t pre w ps, Forall ordered_lines ps ->
  apply_document_changes enc t (pre ++ Whole w :: map to_change ps) = sequential enc w (map to_change ps).
Proof.
  intros enc t pre w ps H. rewrite <- (apply_no_whole enc w ps H). unfold apply_document_changes.
  rewrite rev_app_distr. cbn [rev]. rewrite <- app_assoc. cbn [app].
  assert (G : forall qs acc rest, scan_back (map to_change qs ++ Whole w :: rest) acc = (Some w, acc ++ qs)).
  { induction qs as [|[r n] qs IH]; intros acc rest; cbn [map to_change app scan_back fst snd].
    - now rewrite app_nil_r.
    - rewrite IH, <- app_assoc. reflexivity. }
  assert (G2 : forall qs acc, scan_back (map to_change qs) acc = (None, acc ++ qs)).
  { induction qs as [|[r n] qs IH]; intros acc; cbn [map to_change scan_back fst snd].
    - now rewrite app_nil_r.
    - rewrite IH, <- app_assoc. reflexivity. }
  rewrite <- map_rev, G, G2. reflexivity.
Qed.

Lemma split_last_whole : forall cs,
  (exists ps, cs = map to_change ps) \/ (exists pre w ps, cs = pre ++ Whole w :: map to_change ps).
Proof.
  induction cs as [|c cs IH].
  - left. exists []. reflexivity.
  - destruct IH as [(ps & ->)|(pre & w & ps & ->)].
    + destruct c as [r n|w].
      * left. exists ((r, n) :: ps). reflexivity.
      * right. exists [], w, ps. reflexivity.
    + right. exists (c :: pre), w, ps. reflexivity.
Qed.
