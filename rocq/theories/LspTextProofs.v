From Verif Require Import Base LspTextModel LspTextSpec.
Local Open Scope N_scope.

Lemma len8_pos : forall c, 1 <= len8 c.
Proof. intros c. unfold len8. repeat destruct (_ <? _); lia. Qed.

Lemma blen_app : forall a b, blen (a ++ b) = blen a + blen b.
Proof. induction a as [|c a IH]; intros b; cbn [app blen fold_right]; [reflexivity|]. fold (blen (a ++ b)). rewrite IH. fold (blen a). lia. Qed.
Lemma blen_cons : forall c a, blen (c :: a) = len8 c + blen a.
Proof. reflexivity. Qed.
Lemma blen_nil : blen [] = 0.
Proof. reflexivity. Qed.

(** Lines of a text, without their newlines. *)
Fixpoint split_nl (t : ctext) : ctext * list ctext :=
  match t with
  | [] => ([], [])
  | c :: t' => let '(l, ls) := split_nl t' in if c =? NL then ([], l :: ls) else (c :: l, ls)
  end.
Definition lines (t : ctext) : list ctext := fst (split_nl t) :: snd (split_nl t).

Fixpoint newlines_of (pos : N) (first : ctext) (rest : list ctext) : list N :=
  match rest with
  | [] => []
  | r :: rs => pos + blen first + 1 :: newlines_of (pos + blen first + 1) r rs
  end.

Fixpoint wchars (pos : N) (l : ctext) : list wide_char :=
  match l with
  | [] => []
  | c :: l' => if 1 <? len8 c then mkWide pos (pos + len8 c) :: wchars (pos + len8 c) l'
               else wchars (pos + len8 c) l'
  end.

Lemma newlines_of_cons : forall pos c first rest,
  newlines_of pos (c :: first) rest = newlines_of (pos + len8 c) first rest.
Proof.
  intros pos c first [|r rs]; [reflexivity|]. cbn [newlines_of].
  rewrite blen_cons. replace (pos + (len8 c + blen first) + 1) with (pos + len8 c + blen first + 1) by lia.
  reflexivity.
Qed.

Lemma analyze_eq : forall t pos ls, ls <= pos ->
  analyze t pos ls = (newlines_of pos (fst (split_nl t)) (snd (split_nl t)),
                      wchars (pos - ls) (fst (split_nl t)),
                      map (wchars 0) (snd (split_nl t))).
Proof.
  induction t as [|c t IH]; intros pos ls H; [reflexivity|].
  cbn [analyze split_nl]. destruct (split_nl t) as [l rs] eqn:Es. cbn [fst snd] in IH.
  destruct (c =? NL) eqn:Ec.
  - rewrite IH by lia. cbn [fst snd map newlines_of wchars]. rewrite N.sub_diag.
    change (blen []) with 0. rewrite N.add_0_r. reflexivity.
  - pose proof (len8_pos c). rewrite IH by lia. cbn [fst snd wchars].
    rewrite newlines_of_cons. replace (pos + len8 c - ls) with (pos - ls + len8 c) by lia.
    destruct (1 <? len8 c); reflexivity.
Qed.

Lemma new_index_eq : forall t,
  new_index t = mkIndex (newlines_of 0 (fst (split_nl t)) (snd (split_nl t)))
                        (map (wchars 0) (lines t)) (blen t).
Proof. intros t. unfold new_index. rewrite analyze_eq by lia. reflexivity. Qed.

(** Total length of the first lines including their newlines. *)
Definition pre_len (ls : list ctext) : N := fold_right (fun l n => blen l + 1 + n) 0 ls.
Definition unl (ls : list ctext) : ctext := concat (map (fun l => l ++ [NL]) ls).
Definition no_nl (l : ctext) : Prop := ~ In NL l.

Lemma blen_unl : forall ls, blen (unl ls) = pre_len ls.
Proof.
  induction ls as [|l ls IH]; [reflexivity|]. unfold unl in *. cbn [map concat pre_len fold_right].
  rewrite !blen_app, IH. fold (pre_len ls). cbn. change (len8 NL) with 1. lia.
Qed.

Lemma pre_len_app : forall a b, pre_len (a ++ b) = pre_len a + pre_len b.
Proof. induction a as [|l a IH]; intros b; cbn [app pre_len fold_right]; [reflexivity|]. fold (pre_len (a ++ b)) (pre_len a). rewrite IH. lia. Qed.

Lemma split_nl_line : forall x b, no_nl x ->
  split_nl (x ++ b) = (x ++ fst (split_nl b), snd (split_nl b)).
Proof.
  induction x as [|c x IH]; intros b H; cbn [app].
  - now destruct (split_nl b).
  - cbn [split_nl]. rewrite IH by (intros HI; apply H; now right).
    destruct (c =? NL) eqn:E; [|reflexivity].
    apply N.eqb_eq in E. exfalso. apply H. left. auto.
Qed.

Lemma lines_cut : forall ls x b, Forall no_nl ls -> no_nl x ->
  lines (unl ls ++ x ++ b) = ls ++ (x ++ fst (split_nl b)) :: snd (split_nl b).
Proof.
  intros ls x b Hls Hx. induction Hls as [|l ls Hl Hls IH].
  - unfold lines. cbn [unl concat map app]. rewrite split_nl_line by auto. reflexivity.
  - unfold lines, unl in *. cbn [map concat]. rewrite <- !app_assoc. rewrite split_nl_line by auto.
    cbn [app]. cbn [split_nl fst snd]. set (q := concat (map (fun l => l ++ [NL]) ls) ++ x ++ b) in *.
    destruct (split_nl q) as [f r]. cbn [fst snd] in *. rewrite N.eqb_refl. cbn [fst snd].
    rewrite app_nil_r. rewrite <- IH. reflexivity.
Qed.

Lemma split_nl_no_nl : forall t, no_nl (fst (split_nl t)) /\ Forall no_nl (snd (split_nl t)).
Proof.
  induction t as [|c t [IH1 IH2]]; cbn [split_nl].
  - split; [intros []|constructor].
  - destruct (split_nl t) as [l rs]. cbn in *. destruct (c =? NL) eqn:E; cbn.
    + split; [intros []|constructor; auto].
    + split; auto. intros [H|H]; [|auto]. subst. rewrite N.eqb_refl in E. discriminate.
Qed.

(** Any text is its lines joined by newlines. *)
Lemma lines_join : forall t, exists ls x, lines t = ls ++ [x] /\ t = unl ls ++ x.
Proof.
  induction t as [|c t (ls & x & H1 & H2)].
  - exists [], []. split; reflexivity.
  - unfold lines in *. cbn [split_nl]. destruct (split_nl t) as [l rs]. cbn [fst snd] in *.
    destruct (c =? NL) eqn:E; cbn [fst snd].
    + exists ([] :: ls), x. split; [now rewrite H1|]. apply N.eqb_eq in E. subst c.
      unfold unl in *. cbn. now rewrite H2.
    + destruct ls as [|l0 ls]; cbn [app] in H1; injection H1 as H1 H1'; subst.
      * exists [], (c :: x). split; reflexivity.
      * exists ((c :: l0) :: ls), x. split; [reflexivity|]. unfold unl. cbn. reflexivity.
Qed.

Lemma lines_no_nl : forall t, Forall no_nl (lines t).
Proof. intros t. unfold lines. destruct (split_nl_no_nl t). constructor; auto. Qed.

(** * Reading the index *)
Lemma nth_newlines : forall rest pos first k,
  nth_error (newlines_of pos first rest) k =
  if (k <? length rest)%nat then Some (pos + pre_len (firstn (S k) (first :: rest))) else None.
Proof.
  induction rest as [|r rs IH]; intros pos first k.
  - destruct k; reflexivity.
  - destruct k as [|k].
    + cbn [newlines_of nth_error length firstn pre_len fold_right]. cbn. f_equal. lia.
    + cbn [newlines_of nth_error]. rewrite IH. cbn [length].
      change (S k <? S (length rs))%nat with (k <? length rs)%nat.
      destruct (k <? length rs)%nat; [|reflexivity]. f_equal.
      cbn [firstn pre_len fold_right]. fold (pre_len (firstn k rs)). lia.
Qed.

Lemma start_offset_eq : forall t l,
  start_offset (new_index t) l =
  if (N.to_nat l <? length (lines t))%nat then Some (pre_len (firstn (N.to_nat l) (lines t))) else None.
Proof.
  intros t l. rewrite new_index_eq. unfold start_offset. cbn [newlines].
  destruct (l =? 0) eqn:E.
  - apply N.eqb_eq in E. subst. reflexivity.
  - apply N.eqb_neq in E. rewrite nth_newlines. unfold lines.
    replace (N.to_nat l) with (S (N.to_nat (l - 1))) by lia.
    set (k := N.to_nat (l - 1)). cbn [length].
    change (S k <? S (length (snd (split_nl t))))%nat with (k <? length (snd (split_nl t)))%nat.
    destruct (k <? length (snd (split_nl t)))%nat; [|reflexivity]. f_equal.
Qed.

Lemma blen_lines : forall t, blen t + 1 = pre_len (lines t).
Proof.
  intros t. destruct (lines_join t) as (ls & x & H1 & H2). rewrite H1.
  rewrite H2 at 1. rewrite blen_app, blen_unl, pre_len_app. cbn. lia.
Qed.

Definition last_line (t : ctext) (k : nat) : bool := (S k =? length (lines t))%nat.

Lemma line_eq : forall t k l, nth_error (lines t) k = Some l ->
  line (new_index t) (N.of_nat k) =
  Some (pre_len (firstn k (lines t)),
        pre_len (firstn k (lines t)) + blen l + (if last_line t k then 0 else 1)).
Proof.
  intros t k l H. unfold line. rewrite start_offset_eq. rewrite Nat2N.id.
  assert (Hk : (k < length (lines t))%nat) by (apply nth_error_Some; congruence).
  replace (k <? length (lines t))%nat with true by (symmetry; apply Nat.ltb_lt; auto).
  f_equal. f_equal. rewrite new_index_eq. cbn [newlines li_len]. rewrite nth_newlines.
  change (fst (split_nl t) :: snd (split_nl t)) with (lines t).
  assert (Hs : firstn (S k) (lines t) = firstn k (lines t) ++ [l]).
  { clear -H. revert k H. induction (lines t) as [|a L IH]; intros [|k] H; try discriminate.
    - cbn in H. injection H as <-. reflexivity.
    - cbn in H |- *. f_equal. apply IH. exact H. }
  unfold last_line. assert (HL : length (lines t) = S (length (snd (split_nl t)))) by reflexivity.
  rewrite HL in *.
  destruct (Nat.ltb_spec k (length (snd (split_nl t)))).
  - replace (S k =? S (length (snd (split_nl t))))%nat with false by (symmetry; apply Nat.eqb_neq; lia).
    rewrite Hs, pre_len_app. cbn [pre_len fold_right]. lia.
  - replace (S k =? S (length (snd (split_nl t))))%nat with true by (symmetry; apply Nat.eqb_eq; lia).
    pose proof (blen_lines t) as Hb.
    rewrite <- (firstn_skipn (S k) (lines t)) in Hb. rewrite Hs in Hb.
    rewrite skipn_all2 in Hb by lia. rewrite !pre_len_app in Hb. cbn [pre_len fold_right] in Hb. lia.
Qed.

Lemma line_none : forall t k, (length (lines t) <= k)%nat -> line (new_index t) (N.of_nat k) = None.
Proof.
  intros t k H. unfold line. rewrite start_offset_eq, Nat2N.id.
  replace (k <? length (lines t))%nat with false by (symmetry; apply Nat.ltb_ge; auto). reflexivity.
Qed.

Lemma line_wide_eq : forall t k l, nth_error (lines t) k = Some l ->
  line_wide (new_index t) (N.of_nat k) = wchars 0 l.
Proof.
  intros t k l H. unfold line_wide. rewrite new_index_eq. cbn [wide]. rewrite Nat2N.id.
  now rewrite (map_nth_error (wchars 0) k (lines t) H).
Qed.

(** * Cursors *)
Lemma units_app : forall enc a b, units enc (a ++ b) = units enc a + units enc b.
Proof. induction a as [|c a IH]; intros b; cbn [app units]; [reflexivity|]. rewrite IH. lia. Qed.

Lemma cursor_inv : forall enc a l c, cursor enc a l c ->
  exists ls x, a = unl ls ++ x /\ Forall no_nl ls /\ no_nl x /\ N.of_nat (length ls) = l /\ c = units enc x.
Proof.
  intros enc a l c H. induction H as [|a l c H IH|a l c x Hx H IH].
  - exists [], []. repeat split; auto. intros [].
  - destruct IH as (ls & x & -> & Hls & Hx & Hl & Hc).
    exists (ls ++ [x]), []. repeat split.
    + unfold unl. rewrite map_app, concat_app. cbn. rewrite !app_nil_r. now rewrite app_assoc.
    + apply Forall_app. auto.
    + intros [].
    + rewrite app_length. cbn. lia.
  - destruct IH as (ls & y & -> & Hls & Hy & Hl & Hc).
    exists ls, (y ++ [x]). repeat split; auto.
    + now rewrite app_assoc.
    + intros HI. apply in_app_or in HI. destruct HI as [HI|[HI|[]]]; auto.
    + rewrite units_app. cbn. lia.
Qed.

Lemma cursor_intro : forall enc ls x, Forall no_nl ls -> no_nl x ->
  cursor enc (unl ls ++ x) (N.of_nat (length ls)) (units enc x).
Proof.
  intros enc.
  assert (G : forall x a l c, no_nl x -> cursor enc a l c -> cursor enc (a ++ x) l (c + units enc x)).
  { induction x as [|y x IH]; intros a l c Hx Hc; cbn [units].
    - now rewrite app_nil_r, N.add_0_r.
    - replace (a ++ y :: x) with ((a ++ [y]) ++ x) by (now rewrite <- app_assoc).
      replace (c + (units_char enc y + units enc x)) with ((c + units_char enc y) + units enc x) by lia.
      apply IH; [intros HI; apply Hx; now right|]. constructor; [|auto]. intros ->. apply Hx. now left. }
  assert (G2 : forall ls, Forall no_nl ls -> cursor enc (unl ls) (N.of_nat (length ls)) 0).
  { induction ls as [|l ls IH] using rev_ind; intros H; [constructor|].
    apply Forall_app in H. destruct H as [H1 H2]. inversion H2; subst.
    unfold unl. rewrite map_app, concat_app. cbn. rewrite app_nil_r, app_length, app_assoc. cbn.
    replace (N.of_nat (length ls + 1)) with (N.of_nat (length ls) + 1) by lia.
    econstructor. apply G; [assumption|]. apply IH; auto. }
  intros ls x Hls Hx. pose proof (G x _ _ _ Hx (G2 ls Hls)) as H. rewrite N.add_0_l in H. exact H.
Qed.

Lemma cursor_exists : forall enc a, exists l c, cursor enc a l c.
Proof.
  intros enc a. induction a as [|x a (l & c & IH)] using rev_ind.
  - exists 0, 0. constructor.
  - destruct (N.eq_dec x NL) as [->|H].
    + exists (l + 1), 0. econstructor. eauto.
    + exists l, (c + units_char enc x). constructor; auto.
Qed.

Lemma cursor_det : forall enc a l c l' c', cursor enc a l c -> cursor enc a l' c' -> l = l' /\ c = c'.
Proof.
  intros enc a l c l' c' H H'. revert l' c' H'. induction H as [|a l c H IH|a l c x Hx H IH]; intros l' c' H'.
  - inversion H' as [E|a0 l0 c0 Hc0 E|a0 l0 c0 y Hy Hc0 E]; subst; auto; destruct a0; discriminate.
  - inversion H' as [E|a0 l0 c0 Hc0 E|a0 l0 c0 y Hy Hc0 E]; subst.
    + destruct a; discriminate.
    + apply app_inj_tail in E. destruct E as [-> _]. destruct (IH _ _ Hc0). subst; auto.
    + apply app_inj_tail in E. destruct E. congruence.
  - inversion H' as [E|a0 l0 c0 Hc0 E|a0 l0 c0 y Hy Hc0 E]; subst.
    + destruct a; discriminate.
    + apply app_inj_tail in E. destruct E. congruence.
    + apply app_inj_tail in E. destruct E as [-> ->]. destruct (IH _ _ Hc0). subst; auto.
Qed.

(** * Column conversion *)
Lemma wide_len_units : forall e c pos, 1 < len8 c ->
  wide_len (mkWide pos (pos + len8 c)) e = units_char (Wide e) c.
Proof.
  intros e c pos H. unfold wide_len, wc_len, units_char. cbn [wc_start wc_end].
  replace (pos + len8 c - pos) with (len8 c) by lia. unfold len8 in *.
  destruct e; [|reflexivity].
  destruct (c <? 128) eqn:E1; [lia|].
  destruct (c <? 2048) eqn:E2.
  - apply N.ltb_lt in E2. replace (c <? 65536) with true by (symmetry; apply N.ltb_lt; lia). reflexivity.
  - destruct (c <? 65536); reflexivity.
Qed.

Lemma units_narrow : forall e c, ~ 1 < len8 c -> units_char (Wide e) c = 1.
Proof.
  intros e c H. unfold len8, units_char in *. destruct e; [|reflexivity].
  destruct (c <? 128) eqn:E1.
  - apply N.ltb_lt in E1. replace (c <? 65536) with true by (symmetry; apply N.ltb_lt; lia). reflexivity.
  - destruct (c <? 2048); [lia|]. destruct (c <? 65536); lia.
Qed.

Lemma units_le : forall e c, units_char (Wide e) c <= len8 c /\ 1 <= units_char (Wide e) c.
Proof.
  intros e c. unfold len8, units_char. destruct e.
  - destruct (c <? 128) eqn:E1; [apply N.ltb_lt in E1; replace (c <? 65536) with true by (symmetry; apply N.ltb_lt; lia); lia|].
    destruct (c <? 2048) eqn:E2; [apply N.ltb_lt in E2; replace (c <? 65536) with true by (symmetry; apply N.ltb_lt; lia); lia|].
    destruct (c <? 65536); lia.
  - pose proof (len8_pos c). unfold len8 in H. lia.
Qed.

Lemma units_le_blen : forall e a, units (Wide e) a <= blen a.
Proof.
  induction a as [|c a IH]; cbn [units]; [rewrite blen_nil; lia|]. rewrite blen_cons.
  pose proof (units_le e c). lia.
Qed.

Lemma to_wide_stop : forall e l pos orig col, orig <= pos -> to_wide_loop e (wchars pos l) orig col = Some col.
Proof.
  induction l as [|c l IH]; intros pos orig col H; cbn [wchars]; [reflexivity|].
  pose proof (len8_pos c).
  destruct (1 <? len8 c) eqn:E.
  - cbn [to_wide_loop wc_end]. replace (pos + len8 c <=? orig) with false by (symmetry; apply N.leb_gt; lia).
    reflexivity.
  - apply IH. lia.
Qed.

Lemma to_wide_ok : forall e x y pos base,
  to_wide_loop e (wchars pos (x ++ y)) (pos + blen x) (base + blen x) = Some (base + units (Wide e) x).
Proof.
  induction x as [|c x IH]; intros y pos base; cbn [app].
  - rewrite blen_nil. rewrite to_wide_stop by lia. reflexivity.
  - cbn [wchars units]. rewrite blen_cons.
    destruct (1 <? len8 c) eqn:E.
    + cbn [to_wide_loop wc_end]. apply N.ltb_lt in E.
      replace (pos + len8 c <=? pos + (len8 c + blen x)) with true by (symmetry; apply N.leb_le; lia).
      rewrite wide_len_units by auto. unfold wc_len. cbn [wc_start wc_end].
      replace (pos + len8 c - pos) with (len8 c) by lia.
      pose proof (units_le e c) as [Hu _].
      replace (len8 c - units_char (Wide e) c <=? base + (len8 c + blen x)) with true
        by (symmetry; apply N.leb_le; lia).
      replace (base + (len8 c + blen x) - (len8 c - units_char (Wide e) c))
        with ((base + units_char (Wide e) c) + blen x) by lia.
      replace (pos + (len8 c + blen x)) with (pos + len8 c + blen x) by lia.
      rewrite IH. f_equal. lia.
    + apply N.ltb_nlt in E. rewrite units_narrow by auto.
      assert (len8 c = 1) by (pose proof (len8_pos c); lia).
      replace (pos + (len8 c + blen x)) with (pos + len8 c + blen x) by lia.
      replace (base + (len8 c + blen x)) with ((base + 1) + blen x) by lia.
      rewrite IH. f_equal. lia.
Qed.

Lemma to_utf8_stop : forall e l pos col, col <= pos -> to_utf8_loop e (wchars pos l) col = Some col.
Proof.
  induction l as [|c l IH]; intros pos col H; cbn [wchars]; [reflexivity|].
  pose proof (len8_pos c).
  destruct (1 <? len8 c) eqn:E.
  - cbn [to_utf8_loop wc_start]. replace (pos <? col) with false by (symmetry; apply N.ltb_ge; lia).
    reflexivity.
  - apply IH. lia.
Qed.

Lemma to_utf8_ok : forall e x y pos, pos + blen x <= u32_max ->
  to_utf8_loop e (wchars pos (x ++ y)) (pos + units (Wide e) x) = Some (pos + blen x).
Proof.
  induction x as [|c x IH]; intros y pos Hmax; cbn [app].
  - rewrite blen_nil. cbn [units]. rewrite to_utf8_stop by lia. reflexivity.
  - cbn [wchars units]. rewrite blen_cons in *.
    pose proof (units_le e c) as [Hu Hu1]. pose proof (units_le_blen e x).
    destruct (1 <? len8 c) eqn:E.
    + cbn [to_utf8_loop wc_start]. apply N.ltb_lt in E.
      replace (pos <? pos + (units_char (Wide e) c + units (Wide e) x)) with true
        by (symmetry; apply N.ltb_lt; lia).
      rewrite wide_len_units by auto. unfold wc_len. cbn [wc_start wc_end].
      replace (pos + len8 c - pos) with (len8 c) by lia.
      replace (pos + (units_char (Wide e) c + units (Wide e) x) + (len8 c - units_char (Wide e) c))
        with ((pos + len8 c) + units (Wide e) x) by lia.
      replace (pos + len8 c + units (Wide e) x <=? u32_max) with true by (symmetry; apply N.leb_le; lia).
      rewrite IH by lia. f_equal. lia.
    + apply N.ltb_nlt in E. rewrite units_narrow by auto.
      assert (len8 c = 1) by (pose proof (len8_pos c); lia).
      replace (pos + (1 + units (Wide e) x)) with ((pos + len8 c) + units (Wide e) x) by lia.
      rewrite IH by lia. f_equal. lia.
Qed.

Lemma units_utf8 : forall x, units Utf8 x = blen x.
Proof. induction x as [|c x IH]; [reflexivity|]. cbn [units]. rewrite IH. reflexivity. Qed.

(** * from_proto::offset *)
Lemma offset_cursor : forall enc a b l c, blen (a ++ b) <= u32_max -> cursor enc a l c ->
  offset enc (new_index (a ++ b)) (l, c) = Some (blen a).
Proof.
  intros enc a b l c Hmax Hc. destruct (cursor_inv _ _ _ _ Hc) as (ls & x & -> & Hls & Hx & Hl & Hcx).
  subst l c. rewrite <- app_assoc in *.
  set (t := unl ls ++ x ++ b) in *.
  assert (HL : lines t = ls ++ (x ++ fst (split_nl b)) :: snd (split_nl b)) by (apply lines_cut; auto).
  assert (Hn : nth_error (lines t) (length ls) = Some (x ++ fst (split_nl b))).
  { rewrite HL, nth_error_app2, Nat.sub_diag by lia. reflexivity. }
  assert (Hp : pre_len (firstn (length ls) (lines t)) = pre_len ls).
  { rewrite HL, firstn_app, firstn_all, Nat.sub_diag. cbn. now rewrite app_nil_r. }
  unfold offset. rewrite (line_eq _ _ _ Hn), (line_wide_eq _ _ _ Hn), Hp.
  assert (Hcol : match enc with
                 | Utf8 => Some (units enc x)
                 | Wide e => to_utf8_loop e (wchars 0 (x ++ fst (split_nl b))) (units enc x)
                 end = Some (blen x)).
  { destruct enc as [|e].
    - now rewrite units_utf8.
    - pose proof (to_utf8_ok e x (fst (split_nl b)) 0) as H. rewrite !N.add_0_l in H. apply H.
      unfold t in Hmax. rewrite !blen_app in Hmax. lia. }
  rewrite Hcol. f_equal. rewrite !blen_app, blen_unl.
  destruct (last_line t (length ls)); lia.
Qed.

(** In-bounds and on the named line. *)
Lemma offset_bounds : forall enc t l c o, offset enc (new_index t) (l, c) = Some o ->
  exists x, nth_error (lines t) (N.to_nat l) = Some x /\
    let start := pre_len (firstn (N.to_nat l) (lines t)) in
    start <= o <= start + blen x + (if last_line t (N.to_nat l) then 0 else 1) /\ o <= blen t.
Proof.
  intros enc t l c o H. unfold offset in H.
  destruct (match enc with Utf8 => Some c | Wide e => _ end) as [col|]; [|discriminate].
  destruct (nth_error (lines t) (N.to_nat l)) as [x|] eqn:En.
  - exists x. split; auto. pose proof (line_eq _ _ _ En) as HL. rewrite N2Nat.id in HL.
    rewrite HL in H. injection H as <-.
    split; [lia|].
    pose proof (blen_lines t) as Hb.
    assert (Hk : (N.to_nat l < length (lines t))%nat) by (apply nth_error_Some; congruence).
    apply nth_error_split in En. destruct En as (l1 & l2 & En & Hlen).
    rewrite En in Hb. rewrite En, <- Hlen, firstn_app, firstn_all, Nat.sub_diag. cbn [firstn].
    rewrite app_nil_r. rewrite pre_len_app in Hb. cbn [pre_len fold_right] in Hb. fold (pre_len l2) in Hb.
    unfold last_line. rewrite En, app_length. cbn [length].
    destruct l2 as [|y l2].
    + cbn [length]. replace (S (length l1) =? length l1 + 1)%nat with true by (symmetry; apply Nat.eqb_eq; lia).
      change (pre_len []) with 0 in Hb. lia.
    + cbn [pre_len fold_right] in Hb. destruct (_ =? _)%nat; lia.
  - apply nth_error_None in En. pose proof (line_none _ _ En) as HL. rewrite N2Nat.id in HL.
    rewrite HL in H. discriminate.
Qed.

(** * to_proto::lsp_position *)
Lemma count_le_newlines : forall rest pos first k o,
  (k < S (length rest))%nat ->
  pos + pre_len (firstn k (first :: rest)) <= o ->
  ((k < length rest)%nat -> o < pos + pre_len (firstn (S k) (first :: rest))) ->
  count_le (newlines_of pos first rest) o = N.of_nat k.
Proof.
  induction rest as [|r rs IH]; intros pos first k o Hk H1 H2.
  - assert (k = 0%nat) by (cbn in Hk; lia). subst. reflexivity.
  - cbn [newlines_of count_le]. destruct k as [|k].
    + specialize (H2 ltac:(cbn; lia)). cbn in H2.
      replace (pos + blen first + 1 <=? o) with false by (symmetry; apply N.leb_gt; lia). reflexivity.
    + cbn [firstn pre_len fold_right] in H1. fold (pre_len (firstn k (r :: rs))) in H1.
      replace (pos + blen first + 1 <=? o) with true by (symmetry; apply N.leb_le; lia).
      rewrite (IH _ _ k).
      * lia.
      * cbn in Hk. lia.
      * lia.
      * intros Hlt. specialize (H2 ltac:(cbn; lia)).
        change (firstn (S (S k)) (first :: r :: rs)) with (first :: firstn (S k) (r :: rs)) in H2.
        cbn [pre_len fold_right] in H2. fold (pre_len (firstn (S k) (r :: rs))) in H2. lia.
Qed.

Lemma lsp_position_cursor : forall enc a b l c, cursor enc a l c ->
  lsp_position enc (new_index (a ++ b)) (blen a) = Ok (l, c).
Proof.
  intros enc a b l c Hc. destruct (cursor_inv _ _ _ _ Hc) as (ls & x & -> & Hls & Hx & Hl & Hcx).
  subst l c. rewrite <- app_assoc in *.
  set (t := unl ls ++ x ++ b) in *.
  assert (HL : lines t = ls ++ (x ++ fst (split_nl b)) :: snd (split_nl b)) by (apply lines_cut; auto).
  assert (Hn : nth_error (lines t) (length ls) = Some (x ++ fst (split_nl b))).
  { rewrite HL, nth_error_app2, Nat.sub_diag by lia. reflexivity. }
  assert (Hp : pre_len (firstn (length ls) (lines t)) = pre_len ls).
  { rewrite HL, firstn_app, firstn_all, Nat.sub_diag. cbn. now rewrite app_nil_r. }
  assert (Hp2 : firstn (S (length ls)) (lines t) = ls ++ [x ++ fst (split_nl b)]).
  { rewrite HL, firstn_app, firstn_all2 by lia.
    replace (S (length ls) - length ls)%nat with 1%nat by lia. reflexivity. }
  assert (Hlc : line_col (new_index t) (blen (unl ls ++ x)) = Ok (N.of_nat (length ls), blen x)).
  { unfold line_col. 
    replace (li_len (new_index t)) with (blen t) by (rewrite new_index_eq; reflexivity).
    replace (blen t <? blen (unl ls ++ x)) with false
      by (symmetry; apply N.ltb_ge; unfold t; rewrite !blen_app; lia).
    assert (Hcount : count_le (newlines (new_index t)) (blen (unl ls ++ x)) = N.of_nat (length ls)).
    { rewrite new_index_eq. cbn [newlines].
      apply count_le_newlines; change (fst (split_nl t) :: snd (split_nl t)) with (lines t).
      - assert (HL' := f_equal (@length _) HL). rewrite app_length in HL'. unfold lines in HL'. cbn [length] in HL'. lia.
      - rewrite Hp, blen_app, blen_unl. lia.
      - intros _. rewrite Hp2, pre_len_app. cbn [pre_len fold_right]. rewrite !blen_app, blen_unl. fold (pre_len ls). lia. }
    rewrite Hcount, start_offset_eq, Nat2N.id, Hp.
    replace (length ls <? length (lines t))%nat with true
      by (symmetry; apply Nat.ltb_lt; rewrite HL, app_length; cbn; lia).
    rewrite blen_app, blen_unl.
    replace (pre_len ls <=? pre_len ls + blen x) with true by (symmetry; apply N.leb_le; lia).
    do 2 f_equal. lia. }
  unfold lsp_position. rewrite Hlc. destruct enc as [|e].
  - now rewrite units_utf8.
  - rewrite (line_wide_eq _ _ _ Hn).
    pose proof (to_wide_ok e x (fst (split_nl b)) 0 0) as H. rewrite !N.add_0_l in H. now rewrite H.
Qed.

(** * replace_range *)
Lemma split_at_app : forall a b, split_at (a ++ b) (blen a) = Some (a, b).
Proof.
  induction a as [|c a IH]; intros b.
  - destruct b; reflexivity.
  - cbn [app split_at]. rewrite blen_cons. pose proof (len8_pos c).
    replace (len8 c + blen a =? 0) with false by (symmetry; apply N.eqb_neq; lia).
    replace (len8 c <=? len8 c + blen a) with true by (symmetry; apply N.leb_le; lia).
    replace (len8 c + blen a - len8 c) with (blen a) by lia. now rewrite IH.
Qed.

Lemma split_at_some : forall t o a b, split_at t o = Some (a, b) -> t = a ++ b /\ blen a = o.
Proof.
  induction t as [|c t IH]; intros o a b H; cbn [split_at] in H.
  - destruct (o =? 0) eqn:E; [|discriminate]. injection H as <- <-. apply N.eqb_eq in E. auto.
  - destruct (o =? 0) eqn:E.
    + injection H as <- <-. apply N.eqb_eq in E. auto.
    + destruct (len8 c <=? o) eqn:E2; [|discriminate]. apply N.leb_le in E2.
      destruct (split_at t (o - len8 c)) as [[a' b']|] eqn:Es; [|discriminate].
      injection H as <- <-. destruct (IH _ _ _ Es) as [-> Hb]. split; [reflexivity|].
      rewrite blen_cons. lia.
Qed.

Lemma replace_range_app : forall a m b new,
  replace_range (a ++ m ++ b) (blen a) (blen (a ++ m)) new = Ok (a ++ new ++ b).
Proof.
  intros a m b new. unfold replace_range. rewrite blen_app.
  replace (blen a + blen m <? blen a) with false by (symmetry; apply N.ltb_ge; lia).
  rewrite split_at_app. replace (blen a + blen m - blen a) with (blen m) by lia.
  now rewrite split_at_app.
Qed.

Lemma replace_range_some : forall t s e new t', replace_range t s e new = Ok t' ->
  exists a m b, t = a ++ m ++ b /\ blen a = s /\ blen (a ++ m) = e /\ t' = a ++ new ++ b.
Proof.
  intros t s e new t' H. unfold replace_range in H.
  destruct (e <? s) eqn:E; [discriminate|]. apply N.ltb_ge in E.
  destruct (split_at t s) as [[a r]|] eqn:E1; [|discriminate].
  destruct (split_at r (e - s)) as [[m b]|] eqn:E2; [|discriminate].
  injection H as <-. apply split_at_some in E1. apply split_at_some in E2.
  destruct E1 as [-> H1]. destruct E2 as [-> H2].
  exists a, m, b. repeat split; auto. rewrite blen_app. lia.
Qed.

(** * Lines before an edit are unaffected *)
Lemma prefix_by_blen : forall p q x y : ctext, p ++ q = x ++ y -> blen p <= blen x -> exists z, x = p ++ z.
Proof.
  induction p as [|c p IH]; intros q x y H Hl.
  - exists x. reflexivity.
  - destruct x as [|d x].
    + rewrite blen_cons, blen_nil in Hl. pose proof (len8_pos c). lia.
    + cbn in H. injection H as -> H. rewrite !blen_cons in Hl.
      destruct (IH _ _ _ H) as (z & ->); [lia|]. exists z. reflexivity.
Qed.

Lemma lines_unl_prefix : forall ls b, Forall no_nl ls -> lines (unl ls ++ b) = ls ++ lines b.
Proof.
  intros ls b H. pose proof (lines_cut ls [] b H) as E. cbn [app] in E. rewrite E; [reflexivity|intros []].
Qed.

Lemma lines_firstn_unl : forall t k, (k < length (lines t))%nat ->
  exists r, t = unl (firstn k (lines t)) ++ r.
Proof.
  intros t k H. destruct (lines_join t) as (ls & x & H1 & H2).
  rewrite H1 in *. rewrite app_length in H. cbn in H.
  rewrite firstn_app. replace (k - length ls)%nat with 0%nat by lia. rewrite firstn_O, app_nil_r.
  exists (unl (skipn k ls) ++ x). rewrite app_assoc.
  replace (unl (firstn k ls) ++ unl (skipn k ls)) with (unl ls); [exact H2|].
  rewrite <- (firstn_skipn k ls) at 1. unfold unl. now rewrite map_app, concat_app.
Qed.

Lemma edit_keeps_lines : forall a m b new k,
  (k < length (lines (a ++ m ++ b)))%nat ->
  pre_len (firstn k (lines (a ++ m ++ b))) <= blen a ->
  firstn k (lines (a ++ new ++ b)) = firstn k (lines (a ++ m ++ b)) /\
  (k < length (lines (a ++ new ++ b)))%nat.
Proof.
  intros a m b new k Hk Hp. destruct (lines_firstn_unl _ _ Hk) as (r & Hr).
  remember (firstn k (lines (a ++ m ++ b))) as ls eqn:Els.
  assert (Hno : Forall no_nl ls).
  { subst ls. pose proof (lines_no_nl (a ++ m ++ b)) as HF.
    rewrite <- (firstn_skipn k (lines (a ++ m ++ b))) in HF. apply Forall_app in HF. apply HF. }
  assert (Hlen : length ls = k) by (subst ls; rewrite firstn_length; lia).
  rewrite <- blen_unl in Hp.
  destruct (prefix_by_blen (unl ls) r a (m ++ b)) as (z & Hz); [congruence|exact Hp|].
  rewrite Hz, <- app_assoc, lines_unl_prefix by auto.
  rewrite firstn_app, Hlen, Nat.sub_diag, firstn_O, app_nil_r, firstn_all2 by lia.
  split; [reflexivity|]. rewrite app_length, Hlen. cbn. lia.
Qed.

(** Two indexes agree below line [s]. *)
Definition agree (s : N) (i j : line_index) : Prop :=
  forall k, k < s -> line i k = line j k /\ line_wide i k = line_wide j k.

Lemma agree_refl : forall s i, agree s i i.
Proof. intros s i k _. auto. Qed.
Lemma agree_le : forall s s' i j, s' <= s -> agree s i j -> agree s' i j.
Proof. intros s s' i j H Ha k Hk. apply Ha. lia. Qed.
Lemma agree_trans : forall s i j k, agree s i j -> agree s j k -> agree s i k.
Proof. intros s i j k H1 H2 n Hn. destruct (H1 n Hn), (H2 n Hn). split; congruence. Qed.

Lemma agree_offset : forall enc s i j p, agree s i j -> fst p < s -> offset enc i p = offset enc j p.
Proof.
  intros enc s i j [l c] H Hl. cbn in Hl. destruct (H l Hl) as [H1 H2]. unfold offset.
  rewrite H1, H2. reflexivity.
Qed.

Lemma agree_lines : forall t t' k, firstn k (lines t) = firstn k (lines t') ->
  (k < length (lines t))%nat -> (k < length (lines t'))%nat ->
  agree (N.of_nat k) (new_index t) (new_index t').
Proof.
  intros t t' k H H1 H2 n Hn. set (m := N.to_nat n).
  assert (Hm : (m < k)%nat) by (unfold m; lia).
  assert (Hnth : nth_error (lines t) m = nth_error (lines t') m).
  { rewrite <- (firstn_skipn k (lines t)), <- (firstn_skipn k (lines t')), H.
    rewrite !nth_error_app1; auto; rewrite firstn_length; lia. }
  assert (Hf : firstn m (lines t) = firstn m (lines t')).
  { rewrite <- (firstn_skipn k (lines t)), <- (firstn_skipn k (lines t')), H.
    rewrite !firstn_app. rewrite !firstn_length.
    replace (m - min k (length (lines t')))%nat with 0%nat by lia.
    rewrite !firstn_O. reflexivity. }
  destruct (nth_error (lines t) m) as [x|] eqn:E; [|apply nth_error_None in E; lia].
  replace n with (N.of_nat m) by (unfold m; lia).
  rewrite (line_eq _ _ _ E), (line_eq t' m x) by auto.
  rewrite (line_wide_eq _ _ _ E), (line_wide_eq t' m x) by auto.
  unfold last_line.
  replace (S m =? length (lines t))%nat with false by (symmetry; apply Nat.eqb_neq; lia).
  replace (S m =? length (lines t'))%nat with false by (symmetry; apply Nat.eqb_neq; lia).
  rewrite Hf. auto.
Qed.

(** After a successful edit the index of the old text is right below the first touched line. *)
Lemma edit_agree : forall enc t r s e new t',
  text_range enc (new_index t) r = Some (s, e) -> replace_range t s e new = Ok t' ->
  agree (fst (fst r)) (new_index t) (new_index t').
Proof.
  intros enc t [[l1 c1] p2] s e new t' Hr Ht. cbn [fst].
  unfold text_range in Hr. cbn [fst snd] in Hr.
  destruct (offset enc (new_index t) (l1, c1)) as [s'|] eqn:Eo; [|discriminate].
  destruct (offset enc (new_index t) p2) as [e'|]; [|discriminate].
  destruct (e' <? s'); [discriminate|]. injection Hr as -> ->.
  destruct (offset_bounds _ _ _ _ _ Eo) as (x & Hn & [Hb1 _] & _).
  apply replace_range_some in Ht. destruct Ht as (a & m & b & -> & Ha & _ & ->).
  assert (Hk : (N.to_nat l1 < length (lines (a ++ m ++ b)))%nat) by (apply nth_error_Some; congruence).
  rewrite <- Ha in Hb1.
  destruct (edit_keeps_lines a m b new _ Hk Hb1) as [H1 H2].
  replace l1 with (N.of_nat (N.to_nat l1)) by lia.
  apply agree_lines; auto.
Qed.

Definition to_change (p : partial_change) : change := Partial (fst p) (snd p).
Definition ordered_lines (p : partial_change) : Prop := fst (fst (fst p)) <= fst (snd (fst p)).

Lemma sync_loop_sequential : forall enc cs t i valid,
  Forall ordered_lines cs ->
  agree valid i (new_index t) ->
  (forall p, In p cs -> fst (snd (fst p)) < valid \/ valid <= fst (snd (fst p))) ->
  sync_loop enc cs t i valid = sequential enc t (map to_change cs).
Proof.
  intros enc. induction cs as [|[r new] cs IH]; intros t i valid Ho Ha Hx; [reflexivity|].
  inversion Ho as [|? ? Hr Ho']; subst.
  cbn [sync_loop map sequential to_change fst snd].
  set (i' := if valid <=? fst (snd r) then new_index t else i).
  assert (Hi' : agree (fst (snd r) + 1) i' (new_index t)).
  { unfold i'. destruct (valid <=? fst (snd r)) eqn:E; [apply agree_refl|].
    apply N.leb_gt in E. eapply agree_le; [|exact Ha]. lia. }
  unfold ordered_lines in Hr. cbn [fst] in Hr.
  assert (Hrange : text_range enc i' r = text_range enc (new_index t) r).
  { unfold text_range. rewrite !(agree_offset enc _ _ _ _ Hi') by lia. reflexivity. }
  rewrite Hrange. destruct (text_range enc (new_index t) r) as [[s e]|] eqn:Er.
  - destruct (replace_range t s e new) as [t'|] eqn:Et; [|reflexivity].
    apply IH; auto.
    + eapply agree_trans; [eapply agree_le; [|exact Hi']; lia|]. eapply edit_agree; eauto.
    + intros p _. lia.
  - apply IH; auto.
    + eapply agree_le; [|exact Hi']. lia.
    + intros p _. lia.
Qed.

Lemma scan_back_spec : forall rcs acc,
  (exists ps, rcs = map to_change ps /\ scan_back rcs acc = (None, acc ++ ps)) \/
  (exists ps w rest, rcs = map to_change ps ++ Whole w :: rest /\ scan_back rcs acc = (Some w, acc ++ ps)).
Proof.
  induction rcs as [|c rcs IH]; intros acc.
  - left. exists []. rewrite app_nil_r. auto.
  - destruct c as [r new|w]; cbn [scan_back].
    + destruct (IH (acc ++ [(r, new)])) as [(ps & -> & H)|(ps & w & rest & -> & H)].
      * left. exists ((r, new) :: ps). rewrite H, <- app_assoc. auto.
      * right. exists ((r, new) :: ps), w, rest. rewrite H, <- app_assoc. auto.
    + right. exists [], w, rcs. rewrite app_nil_r. auto.
Qed.

Lemma apply_partials : forall enc t ps,
  Forall ordered_lines ps ->
  match rev ps with [] => Ok t | _ => sync_loop enc (rev (rev ps)) t (new_index t) u32_max end
  = sequential enc t (map to_change ps).
Proof.
  intros enc t ps H. rewrite rev_involutive. destruct (rev ps) eqn:E.
  - assert (ps = []) by (rewrite <- (rev_involutive ps), E; reflexivity). subst. reflexivity.
  - apply sync_loop_sequential; auto; [apply agree_refl|]. intros; lia.
Qed.
