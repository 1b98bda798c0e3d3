From Verif Require Import Base LineEndingsModel LineEndingsSpec.

Lemma find_cons : forall b c t, find_crlf (b :: c :: t) =
  if (N.eqb b CR && N.eqb c LF)%bool then Some 0 else option_map S (find_crlf (c :: t)).
Proof. reflexivity. Qed.

Lemma drop_cons : forall b t, drop_cr_before_lf (b :: t) =
  match t with
  | c :: _ => if (N.eqb b CR && N.eqb c LF)%bool then drop_cr_before_lf t else b :: drop_cr_before_lf t
  | [] => [b]
  end.
Proof. intros b [|c t]; reflexivity. Qed.

Lemma find_crlf_some : forall t i, find_crlf t = Some i ->
  exists pre post, t = pre ++ CR :: LF :: post /\ length pre = i /\
                   drop_cr_before_lf t = pre ++ drop_cr_before_lf (LF :: post).
Proof.
  induction t as [|b t IH]; intros i H; [discriminate|].
  destruct t as [|c t]; [discriminate|].
  rewrite find_cons in H.
  destruct (N.eqb b CR && N.eqb c LF)%bool eqn:E.
  - injection H as H; subst i. apply andb_true_iff in E. destruct E as [E1 E2].
    apply N.eqb_eq in E1. apply N.eqb_eq in E2. subst.
    exists [], t. repeat split.
  - destruct (find_crlf (c :: t)) as [j|] eqn:Ej; [|discriminate]. cbn in H. injection H as <-.
    destruct (IH j eq_refl) as (pre & post & Heq & Hl & Hd).
    exists (b :: pre), post. split; [now rewrite Heq|]. split; [cbn; auto|].
    rewrite drop_cons, E, Hd. reflexivity.
Qed.

Lemma find_crlf_none : forall t, find_crlf t = None -> drop_cr_before_lf t = t /\ ~ has_crlf t.
Proof.
  induction t as [|b t IH]; intros H.
  - split; auto. intros (pre & post & E). destruct pre; discriminate.
  - destruct t as [|c t].
    + split; auto. intros (pre & post & E). destruct pre as [|? [|? ?]]; discriminate.
    + rewrite find_cons in H. destruct (N.eqb b CR && N.eqb c LF)%bool eqn:E; [discriminate|].
      destruct (find_crlf (c :: t)) eqn:Ej; [discriminate|].
      destruct (IH eq_refl) as [H1 H2]. split.
      * rewrite drop_cons, E, H1. reflexivity.
      * intros (pre & post & Heq). destruct pre as [|p pre]; cbn in Heq.
        -- injection Heq as -> -> ->. discriminate.
        -- injection Heq as -> Heq. apply H2. exists pre, post. exact Heq.
Qed.

(** Loop invariant: with [tail = junk ++ live], |junk| = gap, the final buffer minus gap bytes is
    done ++ drop_cr_before_lf live. *)
Lemma loop_ok : forall fuel done junk live seen,
  length live < fuel ->
  (seen = true -> length live > 0 \/ length junk = 0) ->
  match normalize_loop fuel done (junk ++ live) (length junk) seen with
  | ReturnUnix => seen = false /\ find_crlf live = None
  | Break buf gap =>
      gap <= length buf /\ firstn (length buf - gap) buf = done ++ drop_cr_before_lf live /\
      (seen = true \/ find_crlf live <> None)
  | LoopPanic => False
  | OutOfFuel => False
  end.
Proof.
  induction fuel as [|fuel IH]; intros done junk live seen Hf Hne; [lia|].
  cbn [normalize_loop].
  unfold slice_from at 1. rewrite app_length.
  replace (length junk <=? length junk + length live) with true by (symmetry; apply Nat.leb_le; lia).
  rewrite skipn_app, skipn_all, Nat.sub_diag. cbn [skipn app].
  destruct (find_crlf live) as [i|] eqn:Ef.
  - destruct (find_crlf_some _ _ Ef) as (pre & post & Heq & Hl & Hd).
    unfold copy_within_front. rewrite app_length.
    replace ((length junk <=? i + length junk) && (i + length junk <=? length junk + length live))%bool
      with true.
    2:{ symmetry. rewrite andb_true_iff, !Nat.leb_le. rewrite Heq, app_length. cbn. lia. }
    replace (i + length junk - length junk) with (length pre) by lia.
    rewrite skipn_app, skipn_all, Nat.sub_diag. cbn [skipn app].
    replace (firstn (length pre) live) with pre.
    2:{ rewrite Heq, firstn_app, firstn_all, Nat.sub_diag. cbn. now rewrite app_nil_r. }
    set (tail2 := skipn (length pre) (junk ++ live)).
    assert (Ht2 : exists junk', tail2 = junk' ++ CR :: LF :: post /\ length junk' = length junk).
    { unfold tail2. rewrite Heq.
      exists (skipn (length pre) (junk ++ pre)).
      split.
      - replace (junk ++ pre ++ CR :: LF :: post) with ((junk ++ pre) ++ CR :: LF :: post)
          by (now rewrite <- app_assoc).
        rewrite skipn_app. f_equal. rewrite app_length.
        replace (length pre - (length junk + length pre)) with 0 by lia. reflexivity.
      - rewrite skipn_length, app_length. lia. }
    destruct Ht2 as (junk' & Ht2 & Hj').
    unfold slice_from. rewrite app_length.
    replace (length pre <=? length pre + length tail2) with true by (symmetry; apply Nat.leb_le; lia).
    rewrite skipn_app, skipn_all, Nat.sub_diag. cbn [skipn app].
    rewrite firstn_app, firstn_all, Nat.sub_diag, firstn_O, app_nil_r.
    rewrite Ht2, app_length.
    replace (length junk' + length (CR :: LF :: post) =? length junk) with false
      by (symmetry; apply Nat.eqb_neq; cbn; lia).
    replace (junk' ++ CR :: LF :: post) with ((junk' ++ [CR]) ++ LF :: post)
      by (now rewrite <- app_assoc).
    replace (S (length junk)) with (length (junk' ++ [CR])) by (rewrite app_length; cbn; lia).
    specialize (IH (done ++ pre) (junk' ++ [CR]) (LF :: post) true).
    assert (Hlt : length (LF :: post) < fuel).
    { rewrite Heq, app_length in Hf. cbn in *. lia. }
    assert (Hne' : true = true -> length (LF :: post) > 0 \/ length (junk' ++ [CR]) = 0)
      by (intros _; left; cbn; lia).
    specialize (IH Hlt Hne').
    destruct (normalize_loop fuel _ _ _ _).
    + destruct IH; discriminate.
    + destruct IH as (H1 & H2 & _). rewrite <- app_assoc in H2.
      split; [exact H1|]. split; [rewrite H2, Hd; reflexivity|]. right. discriminate.
    + exact IH.
    + exact IH.
  - destruct seen; [|auto].
    destruct (find_crlf_none _ Ef) as [Hd _].
    unfold copy_within_front. rewrite app_length.
    replace ((length junk <=? length junk + length live) && (length junk + length live <=? length junk + length live))%bool
      with true by (symmetry; rewrite andb_true_iff, !Nat.leb_le; lia).
    replace (length junk + length live - length junk) with (length live) by lia.
    rewrite skipn_app, skipn_all, Nat.sub_diag. cbn [skipn app].
    rewrite firstn_all.
    set (tail2 := skipn (length live) (junk ++ live)).
    assert (Hl2 : length tail2 = length junk).
    { unfold tail2. rewrite skipn_length, app_length. lia. }
    unfold slice_from. rewrite app_length.
    replace (length live <=? length live + length tail2) with true by (symmetry; apply Nat.leb_le; lia).
    rewrite skipn_app, skipn_all, Nat.sub_diag. cbn [skipn app].
    rewrite firstn_app, firstn_all, Nat.sub_diag, firstn_O, app_nil_r.
    rewrite Hl2, Nat.eqb_refl.
    rewrite !app_length.
    split; [lia|]. split; [|now left].
    replace (length done + length live + length tail2 - length junk) with (length (done ++ live))
      by (rewrite app_length; lia).
    rewrite firstn_app, firstn_all, Nat.sub_diag, firstn_O, app_nil_r. now rewrite Hd.
Qed.

Lemma find_crlf_iff : forall t, find_crlf t <> None <-> has_crlf t.
Proof.
  intros t. split.
  - destruct (find_crlf t) as [i|] eqn:E; [|congruence]. intros _.
    destruct (find_crlf_some _ _ E) as (pre & post & H & _). exists pre, post. exact H.
  - intros H E. apply find_crlf_none in E. tauto.
Qed.

Lemma normalize_correct : forall fuel src, length src < fuel ->
  (has_crlf src /\ normalize fuel src = Some (Ok (drop_cr_before_lf src, Dos))) \/
  (~ has_crlf src /\ drop_cr_before_lf src = src /\ normalize fuel src = Some (Ok (src, Unix))).
Proof.
  intros fuel src Hf. unfold normalize.
  pose proof (loop_ok fuel [] [] src false Hf) as H. cbn [app length] in H.
  assert (Hd : false = true -> length src > 0 \/ 0 = 0) by discriminate.
  specialize (H Hd). destruct (normalize_loop fuel [] src 0 false) as [|buf gap| |]; try tauto.
  - destruct H as [_ H]. right. destruct (find_crlf_none _ H) as [H1 H2]. auto.
  - destruct H as (H1 & H2 & H3). left. split.
    + apply find_crlf_iff. destruct H3; [discriminate|auto].
    + replace (gap <=? length buf) with true by (symmetry; apply Nat.leb_le; auto).
      now rewrite H2.
Qed.

(** Mapping back after dropping: restores the text iff there is no bare LF. *)
Definition starts_lf (t : text) : bool := match t with b :: _ => N.eqb b LF | [] => false end.

Lemma dos_round_trip : forall t,
  (forall pre post, t = pre ++ LF :: post -> exists p, pre = p ++ [CR]) ->
  map_endings Dos (drop_cr_before_lf t) = t.
Proof.
  (* generalise: a text that may start with an LF whose CR was already consumed *)
  assert (G : forall t,
    (forall pre post, t = pre ++ LF :: post -> pre = [] \/ exists p, pre = p ++ [CR]) ->
    map_endings Dos (drop_cr_before_lf t) = (if starts_lf t then CR :: t else t)).
  { induction t as [|b t IH]; intros H; [reflexivity|].
    rewrite drop_cons. destruct t as [|c t].
    - cbn. destruct (N.eqb b LF) eqn:E; [apply N.eqb_eq in E; subst|]; reflexivity.
    - assert (IH' : starts_lf (c :: t) = true -> b = CR).
      { cbn. intros E. apply N.eqb_eq in E. subst c.
        destruct (H [b] t eq_refl) as [|(p & Hp)]; [discriminate|].
        destruct p as [|? [|? ?]]; cbn in Hp; congruence. }
      assert (Hsub : forall pre post, c :: t = pre ++ LF :: post ->
                pre = [] \/ exists p, pre = p ++ [CR]).
      { intros pre post Heq. destruct pre as [|p0 pre]; [now left|right].
        destruct (H (b :: p0 :: pre) post) as [|(p & Hp)]; [cbn; cbn in Heq; congruence|discriminate|].
        destruct p as [|q p]; cbn in Hp; [discriminate|]. injection Hp as -> Hp. eauto. }
      specialize (IH Hsub).
      destruct (N.eqb b CR && N.eqb c LF)%bool eqn:E.
      + apply andb_true_iff in E. destruct E as [E1 E2].
        apply N.eqb_eq in E1. apply N.eqb_eq in E2. subst. rewrite IH. reflexivity.
      + assert (Hs : starts_lf (c :: t) = false).
        { destruct (starts_lf (c :: t)) eqn:Es; auto. rewrite (IH' eq_refl) in E.
          cbn in Es. rewrite Es in E. cbn in E. discriminate. }
        rewrite Hs in IH. unfold map_endings in *. cbn [flat_map]. rewrite IH.
        cbn [starts_lf]. destruct (N.eqb b LF) eqn:Eb; [apply N.eqb_eq in Eb; subst|]; reflexivity. }
  intros t H. rewrite G.
  - destruct t as [|b t]; [reflexivity|]. cbn. destruct (N.eqb b LF) eqn:E; [|reflexivity].
    apply N.eqb_eq in E. subst. destruct (H [] t eq_refl) as (p & Hp). destruct p; discriminate.
  - intros pre post Heq. right. eauto.
Qed.

Lemma map_dos_no_bare : forall t, ~ has_bare_lf (map_endings Dos t).
Proof.
  assert (G : forall t pre post, map_endings Dos t = pre ++ LF :: post -> exists p, pre = p ++ [CR]).
  { induction t as [|b t IH]; intros pre post H; cbn in H.
    - destruct pre; discriminate.
    - destruct (N.eqb b LF) eqn:E; cbn in H.
      + destruct pre as [|x [|y pre]]; cbn in H.
        * discriminate.
        * injection H as <-. exists []. reflexivity.
        * injection H as <- <- H. destruct (IH _ _ H) as (p & ->). exists (CR :: LF :: p). reflexivity.
      + destruct pre as [|x pre]; cbn in H.
        * injection H as -> H. rewrite N.eqb_refl in E. discriminate.
        * injection H as -> H. destruct (IH _ _ H) as (p & ->). exists (x :: p). reflexivity. }
  intros t (pre & post & H & Hb). destruct (G _ _ _ H) as (p & ->).
  destruct Hb as [Hb|(q & b & Hb & Hne)].
  - destruct p; discriminate.
  - apply app_inj_tail in Hb. destruct Hb. congruence.
Qed.

Lemma no_bare_lf_iff : forall t, ~ has_bare_lf t ->
  forall pre post, t = pre ++ LF :: post -> exists p, pre = p ++ [CR].
Proof.
  intros t H pre post Heq. destruct pre as [|a pre] using rev_ind.
  - exfalso. apply H. exists [], post. auto.
  - clear IHpre. destruct (N.eq_dec a CR) as [->|Hne]; [eauto|].
    exfalso. apply H. exists (pre ++ [a]), post. split; auto. right. eauto.
Qed.
