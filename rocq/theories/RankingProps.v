(** C40: completion ranking. *)
From Verif Require Import Base RankingModel.
Open Scope N_scope.

(** Specification: the criteria, each on an ordered scale. *)
Definition tm_rank (t : option type_match) : N := match t with None => 0 | Some CouldUnify => 1 | Some Exact => 2 end.
Definition b2n (b : bool) : N := if b then 1 else 0.
(** [at_least_as_good a b]: a is at least as good as b by every criterion. *)
Definition at_least_as_good (a b : relevance) : Prop :=
  b2n (exact_name_match b) <= b2n (exact_name_match a) /\
  tm_rank (type_match_ b) <= tm_rank (type_match_ a) /\
  b2n (is_local b) <= b2n (is_local a) /\
  b2n (is_out_of_scope a) <= b2n (is_out_of_scope b).

(** Lexicographic order of strings, as used by clients to sort by [sortText]. *)
Inductive lex_lt : list N -> list N -> Prop :=
| lex_nil a l : lex_lt [] (a :: l)
| lex_head a b l l' : a < b -> lex_lt (a :: l) (b :: l')
| lex_tail a l l' : lex_lt l l' -> lex_lt (a :: l) (a :: l').

Theorem score_total : forall r, exists s, score r = Ok s /\ BASE_SCORE <= s <= BASE_SCORE + 139.
Proof. intros [[|] [[|]|] [|] [|]]; eexists; (split; [reflexivity|vm_compute; split; discriminate]). Qed.
Print Assumptions score_total.

Theorem in_scope_above_out_of_scope : forall a b sa sb,
  is_out_of_scope a = false -> is_out_of_scope b = true -> score a = Ok sa -> score b = Ok sb -> sb < sa.
Proof.
  intros [na ta la oa] [nb tb lb ob] sa sb Ha Hb Ea Eb. cbn in Ha, Hb. subst.
  destruct na, ta as [[|]|], la, nb, tb as [[|]|], lb; vm_compute in Ea, Eb; injection Ea as <-; injection Eb as <-; reflexivity.
Qed.
Print Assumptions in_scope_above_out_of_scope.

Theorem score_monotone : forall a b sa sb, at_least_as_good a b -> score a = Ok sa -> score b = Ok sb ->
  sb <= sa /\ (sa = sb -> a = b).
Proof.
  intros [na ta la oa] [nb tb lb ob] sa sb (H1 & H2 & H3 & H4) Ea Eb. cbn [exact_name_match type_match_ is_local is_out_of_scope] in *.
  assert (D : forall x y : N, x <= y -> (x ?= y) = Gt -> False) by (intros x y H E; apply H; exact E).
  destruct na, nb; try (exfalso; exact (D _ _ H1 eq_refl));
    destruct la, lb; try (exfalso; exact (D _ _ H3 eq_refl));
    destruct oa, ob; try (exfalso; exact (D _ _ H4 eq_refl));
    destruct ta as [[|]|], tb as [[|]|]; try (exfalso; exact (D _ _ H2 eq_refl));
    vm_compute in Ea, Eb; apply (f_equal (fun r => match r with Ok x => x | Panic => 0 end)) in Ea, Eb; cbv beta iota in Ea, Eb; rewrite <- Ea, <- Eb;
    (split; [vm_compute; discriminate|intros E; try reflexivity; exfalso; vm_compute in E; discriminate]).
Qed.
Print Assumptions score_monotone.

Lemma hex_digit_lt : forall a b, a < 16 -> b < 16 -> (hex_digit a < hex_digit b <-> a < b).
Proof. intros a b Ha Hb. unfold hex_digit. destruct (N.ltb_spec a 10), (N.ltb_spec b 10); lia. Qed.
Lemma hex_digits_length : forall w n, length (hex_digits w n) = w.
Proof. induction w as [|w IH]; intros n; cbn; [reflexivity|]. rewrite app_length, IH. cbn. lia. Qed.
Lemma lex_app_same : forall p a b, lex_lt a b -> lex_lt (p ++ a) (p ++ b).
Proof. induction p; intros; cbn; auto. apply lex_tail. auto. Qed.
Lemma lex_app_len : forall a b x y, length a = length b -> lex_lt a b -> lex_lt (a ++ x) (b ++ y).
Proof.
  intros a b x y Hl H. revert Hl. induction H; intros Hl; cbn in *; [discriminate|now constructor|].
  apply lex_tail. apply IHlex_lt. lia.
Qed.
Lemma hex_digits_lex : forall w n m, n < 16 ^ N.of_nat w -> m < 16 ^ N.of_nat w -> n < m -> lex_lt (hex_digits w n) (hex_digits w m).
Proof.
  induction w as [|w IH]; intros n m Hn Hm Hlt.
  - cbn in Hn, Hm. lia.
  - cbn [hex_digits]. replace (N.of_nat (S w)) with (N.succ (N.of_nat w)) in * by lia. rewrite N.pow_succ_r' in *.
    pose proof (N.div_mod' n 16). pose proof (N.div_mod' m 16).
    assert (n mod 16 < 16) by (apply N.mod_upper_bound; discriminate).
    assert (m mod 16 < 16) by (apply N.mod_upper_bound; discriminate).
    assert (n / 16 < 16 ^ N.of_nat w) by (apply N.div_lt_upper_bound; lia).
    assert (m / 16 < 16 ^ N.of_nat w) by (apply N.div_lt_upper_bound; lia).
    destruct (N.lt_trichotomy (n / 16) (m / 16)) as [H5|[H5|H5]].
    + apply lex_app_len; [now rewrite !hex_digits_length|]. apply IH; auto.
    + rewrite H5. apply lex_app_same. apply lex_head. apply hex_digit_lt; lia.
    + exfalso. clear -Hlt H H0 H1 H2 H5. revert H H0 H1 H2 H5. generalize (n / 16) (m / 16) (n mod 16) (m mod 16). intros; lia.
Qed.
Lemma xor_max : forall s, s <= u32_max -> N.lxor s u32_max = u32_max - s.
Proof.
  intros s H. change u32_max with (N.ones 32) in *. destruct (N.eq_dec s 0) as [->|Hs].
  - now rewrite N.lxor_0_l, N.sub_0_r.
  - change (N.lxor s (N.ones 32)) with (N.lnot s 32). apply N.lnot_sub_low.
    apply N.log2_lt_pow2; [lia|]. change (N.ones 32) with (2 ^ 32 - 1) in H. lia.
Qed.

(** What the editor sees: sorting by [sortText] ascending sorts by score descending, the text always has
    eight characters, and exactly the items with the best score are preselected, provided it is above the base. *)
Theorem sort_text_orders : forall m a b sa sb pa pb ta tb,
  score a = Ok sa -> score b = Ok sb -> set_score m a = Ok (pa, ta) -> set_score m b = Ok (pb, tb) ->
  length ta = 8%nat /\ (lex_lt ta tb <-> sb < sa) /\ (ta = tb <-> sa = sb).
Proof.
  intros m a b sa sb pa pb ta tb Ea Eb Sa Sb. unfold set_score, is_relevant in *.
  rewrite Ea in Sa. rewrite Eb in Sb. cbn [bind] in Sa, Sb.
  assert (Ta : ta = hex_digits 8 (N.lxor sa u32_max)) by congruence. assert (Tb : tb = hex_digits 8 (N.lxor sb u32_max)) by congruence.
  clear Sa Sb. subst ta tb.
  destruct (score_total a) as (x & Ex & Hx). rewrite Ea in Ex. injection Ex as <-.
  destruct (score_total b) as (y & Ey & Hy). rewrite Eb in Ey. injection Ey as <-.
  assert (Hb : BASE_SCORE + 139 <= u32_max) by (vm_compute; discriminate).
  rewrite !xor_max by lia.
  assert (P : 16 ^ N.of_nat 8 = u32_max + 1) by reflexivity.
  assert (L : forall n m, n <= u32_max -> m <= u32_max -> n < m -> lex_lt (hex_digits 8 n) (hex_digits 8 m)).
  { intros n m' Hn Hm Hlt. apply hex_digits_lex; rewrite ?P; lia. }
  assert (Irr : forall l, ~ lex_lt l l).
  { clear. intros l H. remember l as l' in H at 2. revert Heql'. induction H; intros E; try discriminate; injection E; intros; subst; [lia|auto]. }
  assert (As : forall l l', lex_lt l l' -> ~ lex_lt l' l).
  { clear. intros l l' H. induction H; intros K; inversion K; subst; try lia; auto. }
  split; [apply hex_digits_length|]. split; split.
  - intros H. destruct (N.lt_trichotomy sa sb) as [K|[K|K]]; auto.
    + exfalso. eapply As; [exact H|]. apply L; lia.
    + exfalso. rewrite K in H. now apply Irr in H.
  - intros H. apply L; lia.
  - intros H. destruct (N.lt_trichotomy sa sb) as [K|[K|K]]; auto; exfalso.
    + apply (Irr (hex_digits 8 (u32_max - sb))). rewrite <- H at 2. apply L; lia.
    + apply (Irr (hex_digits 8 (u32_max - sa))). rewrite H at 2. apply L; lia.
  - now intros ->.
Qed.
Print Assumptions sort_text_orders.

Lemma max_relevance_spec : forall rs, exists m, max_relevance rs = Ok m /\
  (forall r s, In r rs -> score r = Ok s -> s <= m) /\ (rs <> [] -> exists r, In r rs /\ score r = Ok m).
Proof.
  induction rs as [|r rs (m & E & H1 & H2)].
  - exists 0. split; [reflexivity|]. split; [intros r s []|congruence].
  - destruct (score_total r) as (s & Es & _). cbn [max_relevance]. rewrite Es, E. cbn [bind].
    eexists. split; [reflexivity|]. split.
    + intros r' s' [<-|Hr] Es'.
      * rewrite Es in Es'. injection Es' as <-. lia.
      * specialize (H1 r' s' Hr Es'). lia.
    + intros _. destruct (N.le_gt_cases m s).
      * exists r. split; [now left|]. rewrite Es. f_equal. lia.
      * destruct rs as [|r' rs].
        -- cbn in E. injection E as <-. lia.
        -- destruct H2 as (x & Hx & Ex); [discriminate|]. exists x. split; [now right|]. rewrite Ex. f_equal. lia.
Qed.

Lemma map_res_ok : forall A B (f : A -> res B) (g : A -> B) l, (forall a, In a l -> f a = Ok (g a)) -> map_res f l = Ok (map g l).
Proof.
  intros A B f g. induction l as [|a l IH]; intros H; [reflexivity|]. cbn [map_res map].
  rewrite H by now left. cbn [bind]. rewrite IH by (intros; apply H; now right). reflexivity.
Qed.

Theorem preselect_best : forall rs, exists out, completion_scores rs = Ok out /\ length out = length rs /\
  forall i r p t, nth_error rs i = Some r -> nth_error out i = Some (p, t) ->
    (p = true <-> (exists s, score r = Ok s /\ BASE_SCORE < s /\
                   forall r' s', In r' rs -> score r' = Ok s' -> s' <= s)).
Proof.
  intros rs. unfold completion_scores. destruct (max_relevance_spec rs) as (m & E & H1 & H2). rewrite E. cbn [bind].
  set (sc := fun r => match score r with Ok s => s | Panic => 0 end).
  assert (Hsc : forall r, score r = Ok (sc r)) by (intros r; unfold sc; destruct (score_total r) as (s & -> & _); reflexivity).
  rewrite (map_res_ok _ _ (set_score m) (fun r => ((BASE_SCORE <? sc r) && (sc r =? m), hex_digits 8 (N.lxor (sc r) u32_max)))).
  2:{ intros r _. unfold set_score, is_relevant. rewrite Hsc. reflexivity. }
  eexists. split; [reflexivity|]. split; [apply map_length|].
  intros i r p t Hr Hp. rewrite nth_error_map, Hr in Hp. cbn in Hp. injection Hp as <- _.
  rewrite andb_true_iff, N.ltb_lt, N.eqb_eq. split.
  - intros [A B]. exists (sc r). split; [auto|]. split; [auto|]. intros r' s' Hr' Es'. rewrite B. eauto.
  - intros (s & Es & A & B). rewrite Hsc in Es. injection Es as <-. split; auto.
    destruct H2 as (x & Hx & Ex); [destruct rs; [destruct i; discriminate|discriminate]|].
    pose proof (B x m Hx Ex). pose proof (H1 r (sc r) (nth_error_In _ _ Hr) (Hsc r)). lia.
Qed.
Print Assumptions preselect_best.

Example ex_a : relevance := mkRel false None false false.
Example ex_b : relevance := mkRel true (Some Exact) true true.
Example ex_scope : exists sa sb, score ex_a = Ok sa /\ score ex_b = Ok sb /\ sa = BASE_SCORE + 100 /\ sb = BASE_SCORE + 39.
Proof. eexists _, _. repeat split; reflexivity. Qed.
Example ex_good : at_least_as_good (mkRel true (Some Exact) true false) ex_b.
Proof. unfold at_least_as_good. cbn. lia. Qed.
(** "7fffff9c" < "7fffffd9" *)
Example ex_sort : completion_scores [ex_a; ex_b] =
  Ok [(true, [55;102;102;102;102;102;57;99]); (false, [55;102;102;102;102;102;100;57])].
Proof. vm_compute. reflexivity. Qed.
