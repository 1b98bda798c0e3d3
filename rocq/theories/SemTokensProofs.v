From Verif Require Import Base LspTextModel LspTextSpec LspTextProofs LspTextProofs2 SemTokensModel SemTokensSpec.
Local Open Scope N_scope.

(** * Encoding *)
Fixpoint last_pos (p : N * N) (l : list (((N * N) * (N * N)) * N)) : N * N :=
  match l with [] => p | ((s, _), _) :: l' => last_pos s l' end.

Lemma push_all_ok : forall l b p,
  (data b = [] -> p = (0, 0)) -> (data b <> [] -> p = (prev_line b, prev_char b)) ->
  sorted_from p l ->
  exists ks, push_all b l = Ok (mkBuilder (if l then prev_line b else fst (last_pos p l))
                                          (if l then prev_char b else snd (last_pos p l)) (data b ++ ks)) /\
             decode (fst p) (snd p) ks = map absolute l.
Proof.
  induction l as [|[[s e] ty] l IH]; intros b p Hp0 Hp Hs.
  - exists []. rewrite app_nil_r. destruct b; auto.
  - inversion Hs as [|? ? ? ? Hle Hel Hse Hs']; subst.
    cbn [push_all]. destruct s as [sl sc]. destruct e as [el ec]. cbn [fst snd] in *. subst el.
    unfold push.
    set (pl := sl - fst p). set (pc := if pl =? 0 then sc - snd p else sc).
    assert (Hpush : bind (match data b with
        | [] => Ok (sl, sc)
        | _ => bind (sub32 sl (prev_line b)) (fun pl =>
                 if pl =? 0 then bind (sub32 sc (prev_char b)) (fun pc => Ok (pl, pc))
                 else Ok (pl, sc))
        end) (fun '(pl, pc) =>
        bind (sub32 ec sc) (fun len =>
        Ok (mkBuilder sl sc (data b ++ [mkToken pl pc len ty 0]))))
        = Ok (mkBuilder sl sc (data b ++ [mkToken pl pc (ec - sc) ty 0]))).
    { assert (Hfirst : (match data b with
        | [] => Ok (sl, sc)
        | _ => bind (sub32 sl (prev_line b)) (fun pl =>
                 if pl =? 0 then bind (sub32 sc (prev_char b)) (fun pc => Ok (pl, pc))
                 else Ok (pl, sc))
        end) = Ok (pl, pc)).
      { destruct (data b) as [|d ds] eqn:Ed.
        - specialize (Hp0 eq_refl). subst p. unfold pc, pl. cbn [fst snd]. rewrite !N.sub_0_r.
          destruct (sl =? 0); reflexivity.
        - specialize (Hp ltac:(discriminate)). subst p. cbn [fst snd] in *.
          unfold sub32. unfold pos_le in Hle. cbn [fst snd] in Hle.
          replace (prev_line b <=? sl) with true by (symmetry; apply N.leb_le; lia). cbn [bind].
          fold pl. unfold pc. destruct (pl =? 0) eqn:E; [|reflexivity].
          apply N.eqb_eq in E. replace (prev_char b <=? sc) with true by (symmetry; apply N.leb_le; lia).
          reflexivity. }
      rewrite Hfirst. cbn [bind]. unfold sub32.
      replace (sc <=? ec) with true by (symmetry; apply N.leb_le; lia). reflexivity. }
    rewrite Hpush. cbn [bind].
    destruct (IH (mkBuilder sl sc (data b ++ [mkToken pl pc (ec - sc) ty 0])) (sl, sc)) as (ks & Hk & Hd).
    + cbn. intros E. destruct (data b); discriminate.
    + reflexivity.
    + exact Hs'.
    + exists (mkToken pl pc (ec - sc) ty 0 :: ks). split.
      * rewrite Hk. cbn [data prev_line prev_char]. rewrite <- app_assoc. cbn [app last_pos].
        destruct l as [|x l]; reflexivity.
      * cbn [decode delta_line delta_start tok_len tok_type tok_mods map absolute].
        unfold pos_le in Hle. cbn [fst snd] in Hle.
        replace (fst p + pl) with sl by (unfold pl; lia).
        replace (if pl =? 0 then snd p + pc else pc) with sc.
        2:{ unfold pc. destruct (pl =? 0) eqn:E; [|reflexivity]. apply N.eqb_eq in E. unfold pl in E. lia. }
        cbn [fst snd]. f_equal. exact Hd.
Qed.

(** * Newline offsets *)
Fixpoint nl_pos (pos : N) (t : ctext) : list N :=
  match t with
  | [] => []
  | c :: t' => if c =? NL then pos + 1 :: nl_pos (pos + 1) t' else nl_pos (pos + len8 c) t'
  end.

Lemma newlines_nl_pos : forall t, newlines (new_index t) = nl_pos 0 t.
Proof.
  assert (G : forall t pos ls, fst (fst (analyze t pos ls)) = nl_pos pos t).
  { induction t as [|c t IH]; intros pos ls; [reflexivity|]. cbn [analyze nl_pos].
    destruct (c =? NL).
    - rewrite <- (IH (pos + 1) (pos + 1)). destruct (analyze t (pos + 1) (pos + 1)) as [[x y] z]. reflexivity.
    - rewrite <- (IH (pos + len8 c) ls). destruct (analyze t (pos + len8 c) ls) as [[x y] z].
      destruct (1 <? len8 c); reflexivity. }
  intros t. unfold new_index. rewrite <- (G t 0 0). destruct (analyze t 0 0) as [[x y] z]. reflexivity.
Qed.

Lemma nl_pos_app : forall a b pos, nl_pos pos (a ++ b) = nl_pos pos a ++ nl_pos (pos + blen a) b.
Proof.
  induction a as [|c a IH]; intros b pos; cbn [app nl_pos].
  - now rewrite blen_nil, N.add_0_r.
  - rewrite blen_cons. destruct (c =? NL) eqn:E.
    + apply N.eqb_eq in E. subst c. rewrite IH. cbn [app]. change (len8 NL) with 1.
      now rewrite N.add_assoc.
    + rewrite IH. now rewrite N.add_assoc.
Qed.

Lemma nl_pos_range : forall t pos x, In x (nl_pos pos t) -> pos < x <= pos + blen t.
Proof.
  induction t as [|c t IH]; intros pos x H; [destruct H|].
  cbn [nl_pos] in H. rewrite blen_cons. pose proof (len8_pos c). destruct (c =? NL) eqn:E.
  - destruct H as [<-|H]; [lia|]. apply IH in H. apply N.eqb_eq in E. subst. change (len8 NL) with 1. lia.
  - apply IH in H. lia.
Qed.

Lemma count_le_all : forall l1 l2 o, (forall x, In x l1 -> x <= o) -> (forall x, In x l2 -> o < x) ->
  count_le (l1 ++ l2) o = N.of_nat (length l1).
Proof.
  induction l1 as [|y l1 IH]; intros l2 o H1 H2; cbn [app].
  - destruct l2 as [|z l2]; [reflexivity|]. cbn [count_le].
    specialize (H2 z (or_introl eq_refl)). replace (z <=? o) with false by (symmetry; apply N.leb_gt; lia). reflexivity.
  - cbn [count_le length]. replace (y <=? o) with true by (symmetry; apply N.leb_le; apply H1; now left).
    rewrite IH; [lia| |auto]. intros; apply H1; now right.
Qed.

Lemma count_lt_all : forall l1 l2 o, (forall x, In x l1 -> x < o) -> (forall x, In x l2 -> o <= x) ->
  count_lt (l1 ++ l2) o = length l1.
Proof.
  induction l1 as [|y l1 IH]; intros l2 o H1 H2; cbn [app].
  - destruct l2 as [|z l2]; [reflexivity|]. cbn [count_lt].
    specialize (H2 z (or_introl eq_refl)). replace (z <? o) with false by (symmetry; apply N.ltb_ge; lia). reflexivity.
  - cbn [count_lt length]. replace (y <? o) with true by (symmetry; apply N.ltb_lt; apply H1; now left).
    rewrite IH; [reflexivity| |auto]. intros; apply H1; now right.
Qed.

Definition piece_offsets (nonl : bool) (p : ctext * ctext) : N * N :=
  (blen (fst p), blen (fst p) + blen (snd p) + (if nonl then 0 else 1)).

(** Consecutive pairs of line starts are the pieces with their newlines. *)
Fixpoint raw_pieces (a cur m : ctext) : list (N * N) :=
  match m with
  | [] => match cur with [] => [] | _ => [(blen a, blen (a ++ cur))] end
  | c :: m' => if c =? NL then (blen a, blen (a ++ cur ++ [NL])) :: raw_pieces (a ++ cur ++ [NL]) [] m'
               else raw_pieces a (cur ++ [c]) m'
  end.

Lemma pairs_pieces : forall m a cur,
  filter (fun p => negb (fst p =? snd p)) (pairs (blen a) (nl_pos (blen (a ++ cur)) m ++ [blen (a ++ cur ++ m)]))
  = raw_pieces a cur m.
Proof.
  induction m as [|c m IH]; intros a cur.
  - cbn [nl_pos app pairs filter raw_pieces fst snd]. rewrite app_nil_r.
    destruct cur as [|d cur].
    + rewrite app_nil_r, N.eqb_refl. reflexivity.
    + replace (blen a =? blen (a ++ d :: cur)) with false.
      2:{ symmetry. apply N.eqb_neq. rewrite blen_app, blen_cons. pose proof (len8_pos d). lia. }
      reflexivity.
  - cbn [nl_pos raw_pieces]. destruct (c =? NL) eqn:E.
    + apply N.eqb_eq in E. subst c. cbn [app pairs filter fst snd].
      assert (Hb : blen (a ++ cur) + 1 = blen (a ++ cur ++ [NL])).
      { rewrite !blen_app. change (blen [NL]) with 1. lia. }
      rewrite Hb.
      replace (blen a =? blen (a ++ cur ++ [NL])) with false.
      2:{ symmetry. apply N.eqb_neq. rewrite <- Hb, blen_app. lia. }
      cbn [negb]. f_equal. specialize (IH (a ++ cur ++ [NL]) []). rewrite app_nil_r in IH. cbn [app] in IH.
      rewrite <- IH. rewrite <- !app_assoc. reflexivity.
    + specialize (IH a (cur ++ [c])). rewrite <- IH.
      replace (blen (a ++ cur) + len8 c) with (blen (a ++ cur ++ [c])).
      2:{ rewrite !blen_app. rewrite blen_cons, blen_nil. lia. }
      rewrite <- app_assoc. reflexivity.
Qed.

Lemma split_last_nl : forall a, exists pre tail, nl_pos 0 a = pre ++ tail /\
  (forall x, In x pre -> x < blen a) /\ (tail = [] \/ tail = [blen a]).
Proof.
  intros a. induction a as [|c a _] using rev_ind.
  - exists [], []. repeat split; auto. intros x [].
  - rewrite nl_pos_app, N.add_0_l, blen_app, blen_cons, blen_nil. cbn [nl_pos].
    destruct (c =? NL) eqn:E.
    + apply N.eqb_eq in E. subst. change (len8 NL) with 1.
      exists (nl_pos 0 a), [blen a + 1]. repeat split.
      * intros x H. apply nl_pos_range in H. lia.
      * right. f_equal.
    + exists (nl_pos 0 a), []. repeat split; auto. intros x H. apply nl_pos_range in H.
      pose proof (len8_pos c). lia.
Qed.

Lemma lines_of_range_ok : forall a m b,
  lines_of_range (new_index (a ++ m ++ b)) (blen a, blen (a ++ m)) = Ok (raw_pieces a [] m).
Proof.
  intros a m b. unfold lines_of_range. cbn [fst snd]. rewrite newlines_nl_pos, !nl_pos_app, N.add_0_l.
  rewrite <- blen_app.
  destruct (split_last_nl a) as (pre & tail & Hs & Hpre & Htail). rewrite Hs.
  assert (Hlo : count_lt ((pre ++ tail) ++ nl_pos (blen a) m ++ nl_pos (blen (a ++ m)) b) (blen a) = length pre).
  { rewrite <- app_assoc. apply count_lt_all; auto.
    intros x H. apply in_app_or in H. destruct H as [H|H].
    - destruct Htail as [->| ->]; [destruct H|]. destruct H as [<-|[]]. lia.
    - apply in_app_or in H. destruct H as [H|H]; apply nl_pos_range in H; rewrite ?blen_app in H; lia. }
  assert (Hhi : count_le ((pre ++ tail) ++ nl_pos (blen a) m ++ nl_pos (blen (a ++ m)) b) (blen (a ++ m))
                = N.of_nat (length ((pre ++ tail) ++ nl_pos (blen a) m))).
  { rewrite app_assoc. apply count_le_all.
    - intros x H. rewrite <- Hs in H. rewrite blen_app. apply in_app_or in H.
      destruct H as [H|H]; apply nl_pos_range in H; lia.
    - intros x H. apply nl_pos_range in H. lia. }
  rewrite Hlo, Hhi, Nat2N.id. rewrite !app_length.
  replace (length pre <=? length pre + length tail + length (nl_pos (blen a) m))%nat with true
    by (symmetry; apply Nat.leb_le; lia).
  f_equal.
  replace (firstn _ (skipn _ _)) with (tail ++ nl_pos (blen a) m).
  2:{ rewrite <- app_assoc, skipn_app, skipn_all, Nat.sub_diag. cbn [app skipn].
      rewrite app_assoc, firstn_app.
      replace (length pre + length tail + length (nl_pos (blen a) m) - length pre)%nat
        with (length (tail ++ nl_pos (blen a) m)) by (rewrite app_length; lia).
      rewrite Nat.sub_diag, firstn_O, app_nil_r, firstn_all. reflexivity. }
  pose proof (pairs_pieces m a []) as HP. rewrite app_nil_r in HP. cbn [app] in HP.
  rewrite <- HP. rewrite <- app_assoc.
  destruct Htail as [->| ->]; [reflexivity|]. cbn [app pairs filter fst snd]. rewrite N.eqb_refl. reflexivity.
Qed.

(** * The inner loop *)
Lemma slice_app : forall a m b, slice (a ++ m ++ b) (blen a) (blen (a ++ m)) = Ok m.
Proof.
  intros a m b. unfold slice. rewrite blen_app.
  replace (blen a + blen m <? blen a) with false by (symmetry; apply N.ltb_ge; lia).
  rewrite split_at_app. replace (blen a + blen m - blen a) with (blen m) by lia. now rewrite split_at_app.
Qed.

Lemma cursor_same_line : forall enc a x l c, no_nl x -> cursor enc a l c -> cursor enc (a ++ x) l (c + units enc x).
Proof.
  intros enc a x. revert a. induction x as [|y x IH]; intros a l c Hx Hc; cbn [units].
  - now rewrite app_nil_r, N.add_0_r.
  - replace (a ++ y :: x) with ((a ++ [y]) ++ x) by (now rewrite <- app_assoc).
    replace (c + (units_char enc y + units enc x)) with ((c + units_char enc y) + units enc x) by lia.
    apply IH; [intros HI; apply Hx; now right|]. constructor; [|auto]. intros ->. apply Hx. now left.
Qed.

Lemma cursor_pos_le : forall enc a m l c l' c', cursor enc a l c -> cursor enc (a ++ m) l' c' -> pos_le (l, c) (l', c').
Proof.
  intros enc a m. induction m as [|x m IH] using rev_ind; intros l c l' c' H1 H2.
  - rewrite app_nil_r in H2. destruct (cursor_det _ _ _ _ _ _ H1 H2). subst. right. cbn. lia.
  - destruct (cursor_exists enc (a ++ m)) as (l0 & c0 & Hc).
    specialize (IH _ _ _ _ H1 Hc). unfold pos_le in *. cbn [fst snd] in *. rewrite app_assoc in H2.
    destruct (N.eq_dec x NL) as [->|Hx].
    + pose proof (cursor_newline _ _ _ _ Hc) as H'. destruct (cursor_det _ _ _ _ _ _ H2 H'). subst. lia.
    + pose proof (cursor_char _ _ _ _ x Hx Hc) as H'. destruct (cursor_det _ _ _ _ _ _ H2 H'). subst. lia.
Qed.

(** The range pushed for a piece. *)
Definition piece_range (enc : encoding) (ty : N) (p : ctext * ctext) (r : ((N * N) * (N * N)) * N) : Prop :=
  exists l c, cursor enc (fst p) l c /\ no_nl (snd p) /\ r = (((l, c), (l, c + units enc (snd p))), ty).

Lemma push_lines_eq : forall enc t ty m a cur b bd,
  t = a ++ cur ++ m ++ b -> no_nl cur ->
  exists rs, Forall2 (piece_range enc ty) (line_pieces a cur m) rs /\
    push_lines enc t (new_index t) ty (raw_pieces a cur m) bd = push_all bd rs.
Proof.
  intros enc t ty. induction m as [|c m IH]; intros a cur b bd Ht Hno.
  - destruct cur as [|d cur].
    + exists []. split; [constructor|reflexivity].
    + destruct (cursor_exists enc a) as (l & col & Hc).
      exists [(((l, col), (l, col + units enc (d :: cur))), ty)]. split.
      * constructor; [|constructor]. exists l, col. auto.
      * cbn [raw_pieces push_lines push_all].
        assert (Hs : slice t (blen a) (blen (a ++ d :: cur)) = Ok (d :: cur)) by (rewrite Ht; apply slice_app).
        rewrite Hs. cbn [bind].
        assert (He : ends_with_nl (d :: cur) = false).
        { unfold ends_with_nl. destruct (rev (d :: cur)) as [|z zs] eqn:Er; [reflexivity|].
          destruct (z =? NL) eqn:Ez; [|reflexivity]. apply N.eqb_eq in Ez. subst z. exfalso. apply Hno.
          apply in_rev. rewrite Er. now left. }
        rewrite He. unfold lsp_range. cbn [fst snd].
        assert (Hp1 : lsp_position enc (new_index t) (blen a) = Ok (l, col)).
        { rewrite Ht. apply lsp_position_cursor. auto. }
        assert (Hp2 : lsp_position enc (new_index t) (blen (a ++ d :: cur)) = Ok (l, col + units enc (d :: cur))).
        { rewrite Ht, app_assoc. apply lsp_position_cursor. now apply cursor_same_line. }
        rewrite Hp1, Hp2. cbn [bind]. reflexivity.
  - cbn [line_pieces raw_pieces]. destruct (c =? NL) eqn:E.
    + apply N.eqb_eq in E. subst c.
      destruct (cursor_exists enc a) as (l & col & Hc).
      set (r := (((l, col), (l, col + units enc cur)), ty)).
      assert (Hpush : forall k, push_lines enc t (new_index t) ty ((blen a, blen (a ++ cur ++ [NL])) :: k) bd
                = bind (push bd (fst r) ty) (fun b' => push_lines enc t (new_index t) ty k b')).
      { intros k. cbn [push_lines].
        assert (Hs : slice t (blen a) (blen (a ++ cur ++ [NL])) = Ok (cur ++ [NL])).
        { rewrite Ht. replace (a ++ cur ++ (NL :: m) ++ b) with (a ++ (cur ++ [NL]) ++ (m ++ b))
            by (rewrite <- !app_assoc; reflexivity). apply slice_app. }
        rewrite Hs. cbn [bind]. unfold ends_with_nl. rewrite rev_app_distr. cbn [rev app]. rewrite N.eqb_refl.
        replace (blen (a ++ cur ++ [NL]) - 1) with (blen (a ++ cur)).
        2:{ rewrite !blen_app. change (blen [NL]) with 1. lia. }
        unfold lsp_range. cbn [fst snd].
        assert (Hp1 : lsp_position enc (new_index t) (blen a) = Ok (l, col)).
        { rewrite Ht. apply lsp_position_cursor. auto. }
        assert (Hp2 : lsp_position enc (new_index t) (blen (a ++ cur)) = Ok (l, col + units enc cur)).
        { rewrite Ht, app_assoc. apply lsp_position_cursor. now apply cursor_same_line. }
        rewrite Hp1, Hp2. cbn [bind]. reflexivity. }
      rewrite Hpush.
      assert (Ht' : t = (a ++ cur ++ [NL]) ++ [] ++ m ++ b) by (rewrite Ht, <- !app_assoc; reflexivity).
      destruct (push bd (fst r) ty) as [bd'|] eqn:Ep.
      * destruct (IH (a ++ cur ++ [NL]) [] b bd' Ht' ltac:(intros [])) as (rs & Hf & Hrs).
        exists (r :: rs). split.
        -- constructor; auto. exists l, col. auto.
        -- cbn [bind]. rewrite Hrs. unfold r in *. cbn [push_all]. cbn [fst] in Ep. rewrite Ep. reflexivity.
      * destruct (IH (a ++ cur ++ [NL]) [] b bd Ht' ltac:(intros [])) as (rs & Hf & Hrs).
        exists (r :: rs). split.
        -- constructor; auto. exists l, col. auto.
        -- unfold r in *. cbn [push_all]. cbn [fst] in Ep. rewrite Ep. reflexivity.
    + destruct (IH a (cur ++ [c]) b bd) as (rs & Hf & Hrs).
      * rewrite Ht, <- !app_assoc. reflexivity.
      * intros HI. apply in_app_or in HI. destruct HI as [HI|[HI|[]]]; [auto|]. subst. rewrite N.eqb_refl in E. discriminate.
      * exists rs. auto.
Qed.

Lemma push_all_app : forall l1 l2 b, push_all b (l1 ++ l2) = bind (push_all b l1) (fun b' => push_all b' l2).
Proof.
  induction l1 as [|[r ty] l1 IH]; intros l2 b; cbn [app push_all bind]; [reflexivity|].
  destruct (push b r ty); cbn [bind]; auto.
Qed.

(** Pieces start at increasing offsets. *)
Lemma pieces_prefix : forall m a cur p, In p (line_pieces a cur m) ->
  (exists z, fst p = a ++ z) /\ (exists w, a ++ cur ++ m = fst p ++ w).
Proof.
  induction m as [|c m IH]; intros a cur p H; cbn [line_pieces] in H.
  - destruct cur; [destruct H|]. destruct H as [<-|[]]. cbn [fst]. split; [exists []; now rewrite app_nil_r|].
    rewrite app_nil_r. eauto.
  - destruct (c =? NL) eqn:E.
    + apply N.eqb_eq in E. subst. destruct H as [<-|H].
      * cbn [fst]. split; [exists []; now rewrite app_nil_r|]. eauto.
      * apply IH in H. destruct H as [(z & ->) (w & Hw)]. split.
        -- exists (cur ++ [NL] ++ z). rewrite <- !app_assoc. reflexivity.
        -- exists w. rewrite <- Hw. rewrite <- !app_assoc. reflexivity.
    + apply IH in H. destruct H as [(z & Hz) (w & Hw)]. split; [eauto|]. exists w. rewrite <- Hw.
      rewrite <- !app_assoc. reflexivity.
Qed.

Lemma pieces_no_nl : forall m a cur p, no_nl cur -> In p (line_pieces a cur m) -> no_nl (snd p).
Proof.
  induction m as [|c m IH]; intros a cur p Hc H; cbn [line_pieces] in H.
  - destruct cur; [destruct H|]. destruct H as [<-|[]]. exact Hc.
  - destruct (c =? NL) eqn:E.
    + destruct H as [<-|H]; [exact Hc|]. eapply IH; [|exact H]. intros [].
    + eapply IH; [|exact H]. intros HI. apply in_app_or in HI. destruct HI as [HI|[HI|[]]]; [auto|].
      subst. rewrite N.eqb_refl in E. discriminate.
Qed.

Lemma pieces_sorted : forall enc ty m a cur rs p0 rest,
  Forall2 (piece_range enc ty) (line_pieces a cur m) rs ->
  (forall l c, cursor enc a l c -> pos_le p0 (l, c)) ->
  (forall p, (forall l c, cursor enc (a ++ cur ++ m) l c -> pos_le p (l, c)) -> sorted_from p rest) ->
  sorted_from p0 (rs ++ rest).
Proof.
  intros enc ty. induction m as [|c m IH]; intros a cur rs p0 rest HF Hp0 Hrest; cbn [line_pieces] in HF.
  - destruct cur as [|d cur].
    + inversion HF; subst. cbn [app]. apply Hrest. intros l c Hc. cbn [app] in Hc.
      rewrite app_nil_r in Hc. auto.
    + inversion HF as [|p r ps rs' Hpr HF']; subst. inversion HF'; subst. cbn [app].
      destruct Hpr as (l & c & Hc & Hno & ->). cbn [fst snd] in *.
      constructor; auto; cbn [fst snd]; [lia|].
      apply Hrest. intros l' c' Hc'. eapply cursor_pos_le; [exact Hc|exact Hc'].
  - destruct (c =? NL) eqn:E.
    + apply N.eqb_eq in E. subst c. inversion HF as [|p r ps rs' Hpr HF']; subst. cbn [app].
      destruct Hpr as (l & c & Hc & Hno & ->). cbn [fst snd] in *.
      constructor; auto; cbn [fst snd]; [lia|].
      eapply IH; [exact HF'| |].
      * intros l' c' Hc'. eapply cursor_pos_le; [exact Hc|exact Hc'].
      * intros p Hp. apply Hrest. intros l' c' Hc'. apply Hp. rewrite <- !app_assoc. exact Hc'.
    + eapply IH; [exact HF|exact Hp0|]. intros p Hp. apply Hrest. intros l' c' Hc'. apply Hp.
      rewrite <- !app_assoc. exact Hc'.
Qed.

Lemma piece_range_shows : forall enc ty ps rs, Forall2 (piece_range enc ty) ps rs ->
  Forall2 (shows enc ty) ps (map absolute rs).
Proof.
  intros enc ty ps rs H. induction H as [|p r ps rs (l & c & Hc & Hno & ->) H IH]; constructor; auto.
  exists l, c. split; auto. cbn [absolute fst snd]. rewrite N.add_comm, N.add_sub. reflexivity.
Qed.

Lemma shows_det : forall enc ty ps ks ks', Forall2 (shows enc ty) ps ks -> Forall2 (shows enc ty) ps ks' -> ks = ks'.
Proof.
  intros enc ty ps ks ks' H. revert ks'. induction H as [|p k ps ks (l & c & Hc & ->) H IH]; intros ks' H'.
  - inversion H'. reflexivity.
  - inversion H' as [|? k' ? ks'' (l' & c' & Hc' & ->) H'']; subst.
    destruct (cursor_det _ _ _ _ _ _ Hc Hc'). subst. f_equal. auto.
Qed.

(** All ranges pushed by the outer loop. *)
Lemma loop_ranges : forall enc t pos hs ks, expected enc t pos hs ks ->
  forall bd p0, (forall a b l c, t = a ++ b -> pos <= blen a -> cursor enc a l c -> pos_le p0 (l, c)) ->
  exists rs, semantic_tokens_loop enc t (new_index t) hs bd = push_all bd rs /\
             map absolute rs = ks /\ sorted_from p0 rs.
Proof.
  intros enc t pos hs ks H. induction H as [pos|pos r hs ks H IH|pos a m b ty hs ks ks' Ht Hpos HF Hex IH]; intros bd p0 Hp0.
  - exists []. repeat split; constructor.
  - apply IH. exact Hp0.
  - cbn [semantic_tokens_loop].
    assert (Hl : lines_of_range (new_index t) (blen a, blen (a ++ m)) = Ok (raw_pieces a [] m)).
    { rewrite Ht. apply lines_of_range_ok. }
    rewrite Hl. cbn [bind].
    destruct (push_lines_eq enc t ty m a [] b bd Ht ltac:(intros [])) as (rs & Hrs & Hpl).
    rewrite Hpl.
    (* ranges of the remaining highlights *)
    assert (Hrest : forall bd', exists rs', semantic_tokens_loop enc t (new_index t) hs bd' = push_all bd' rs' /\
              map absolute rs' = ks' /\
              (forall l c, cursor enc (a ++ m) l c -> sorted_from (l, c) rs')).
    { intros bd'. destruct (cursor_exists enc (a ++ m)) as (l & c & Hc).
      destruct (IH bd' (l, c)) as (rs' & H1 & H2 & H3).
      - intros a' b' l' c' Ht' Hb' Hc'.
        destruct (prefix_by_blen (a ++ m) b a' b') as (z & ->); [|exact Hb'|].
        + rewrite <- app_assoc, <- Ht, <- Ht'. reflexivity.
        + eapply cursor_pos_le; eauto.
      - exists rs'. repeat split; auto. intros l2 c2 Hc2. destruct (cursor_det _ _ _ _ _ _ Hc Hc2). subst. auto. }
    (* rs' must not depend on the builder: use one run for the shape *)
    assert (Hks : map absolute rs = ks).
    { eapply shows_det; [|exact HF]. apply piece_range_shows. exact Hrs. }
    assert (Hsort : forall rs', (forall l c, cursor enc (a ++ m) l c -> sorted_from (l, c) rs') -> sorted_from p0 (rs ++ rs')).
    { intros rs' H3. eapply pieces_sorted; [exact Hrs| |].
      - intros l c Hc. apply (Hp0 a (m ++ b)); auto.
      - intros p Hp. cbn [app] in Hp. destruct (cursor_exists enc (a ++ m)) as (l & c & Hc).
        specialize (Hp l c Hc). specialize (H3 l c Hc).
        inversion H3; subst; constructor; auto.
        unfold pos_le in *. cbn [fst snd] in *. lia. }
    destruct (push_all bd rs) as [bd'|] eqn:Ep.
    + destruct (Hrest bd') as (rs' & H1 & H2 & H3).
      exists (rs ++ rs'). cbn [bind]. rewrite push_all_app, Ep. cbn [bind]. split; [exact H1|].
      split; [rewrite map_app; congruence|]. auto.
    + destruct (Hrest bd) as (rs' & H1 & H2 & H3).
      exists (rs ++ rs'). cbn [bind]. rewrite push_all_app, Ep. split; [reflexivity|].
      split; [rewrite map_app; congruence|]. auto.
Qed.

(** * Deltas *)
Lemma token_eqb_eq : forall a b, token_eqb a b = true <-> a = b.
Proof.
  intros [a1 a2 a3 a4 a5] [b1 b2 b3 b4 b5]. unfold token_eqb. cbn.
  rewrite !andb_true_iff, !N.eqb_eq. split.
  - intros [[[[-> ->] ->] ->] ->]. reflexivity.
  - intros H. injection H as -> -> -> -> ->. auto.
Qed.

Lemma common_prefix_spec : forall a b, exists p a' b', a = p ++ a' /\ b = p ++ b' /\ length p = common_prefix a b.
Proof.
  induction a as [|x a IH]; intros b.
  - exists [], [], b. auto.
  - destruct b as [|y b].
    + exists [], (x :: a), []. auto.
    + cbn [common_prefix]. destruct (token_eqb x y) eqn:E.
      * apply token_eqb_eq in E. subst. destruct (IH b) as (p & a' & b' & -> & -> & <-).
        exists (y :: p), a', b'. auto.
      * exists [], (x :: a), (y :: b). auto.
Qed.

Lemma common_prefix_refl : forall a, common_prefix a a = length a.
Proof.
  induction a as [|x a IH]; [reflexivity|]. cbn [common_prefix].
  replace (token_eqb x x) with true by (symmetry; now apply token_eqb_eq). cbn. now rewrite IH.
Qed.

Lemma diff_shape : forall old new, exists p s o n,
  old = p ++ o ++ s /\ new = p ++ n ++ s /\
  diff_tokens old new = match o, n with [], [] => [] | _, _ => [mkEdit (5 * N.of_nat (length p)) (5 * N.of_nat (length o)) n] end.
Proof.
  intros old new. unfold diff_tokens.
  destruct (common_prefix_spec new old) as (p & n1 & o1 & Hn & Ho & Hp). rewrite <- Hp.
  rewrite Hn, Ho. rewrite !skipn_app, !skipn_all, !Nat.sub_diag. cbn [app skipn].
  destruct (common_prefix_spec (rev n1) (rev o1)) as (s & n2 & o2 & Hn1 & Ho1 & Hs). rewrite <- Hs.
  assert (En : n1 = rev n2 ++ rev s) by (rewrite <- rev_app_distr, <- Hn1, rev_involutive; reflexivity).
  assert (Eo : o1 = rev o2 ++ rev s) by (rewrite <- rev_app_distr, <- Ho1, rev_involutive; reflexivity).
  rewrite En, Eo, !app_length, !rev_length.
  replace (length n2 + length s - length s)%nat with (length (rev n2)) by (rewrite rev_length; lia).
  replace (length o2 + length s - length s)%nat with (length (rev o2)) by (rewrite rev_length; lia).
  rewrite !firstn_app, !firstn_all, !Nat.sub_diag, !firstn_O, !app_nil_r.
  exists p, (rev s), (rev o2), (rev n2). split; [reflexivity|]. split; [reflexivity|reflexivity].
Qed.

Lemma flat_app : forall a b, flat (a ++ b) = flat a ++ flat b.
Proof. intros. apply flat_map_app. Qed.
Lemma flat_length : forall a, length (flat a) = (5 * length a)%nat.
Proof. induction a as [|x a IH]; [reflexivity|]. cbn [flat flat_map length app]. fold (flat a). lia. Qed.
