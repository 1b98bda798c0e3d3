(** C12: highlights tile the document, and the innermost, latest highlight wins. *)
From Verif Require Import Base HighlightsModel HighlightsSpec HighlightsProofs.

Definition root_node (root : hl_range) : node := Node root [].

(** Any series of insertions of ranges inside the root that are pairwise nested or disjoint does not
    panic, yields adjacent non-empty pieces from the start to the end of the root, and each offset
    shows the tag of the smallest range covering it, the latest among equally small ones. *)
Theorem highlights_correct : forall root xs,
  wf root -> Forall (fun x => wf x /\ inside x root) xs -> ForallOrdPairs compatible xs ->
  exists n, add_all (root_node root) xs = Ok n /\
    tiles (h_start root) (h_end root) (flatten n) /\
    (forall p o, In p (flatten n) -> covers p o ->
       exists w, winner (root :: xs) o w /\ h_tag p = h_tag w).
Proof.
  intros root xs Hw Hin Hc. rewrite Forall_forall in Hin.
  assert (Hg : good (root_node root)) by (apply good_eq; split; auto; cbn; apply Hw).
  destruct (add_all_ok xs (root_node root) Hg Hin Hc) as (n & E & Hgn & Hr & Hd).
  { intros y x [<-|[]] Hx. right. left. apply Hin. exact Hx. }
  exists n. split; [exact E|].
  pose proof (flatten_tiles n Hgn) as Ht. rewrite Hr in Ht. cbn [root_node n_range] in Ht.
  split; [exact Ht|]. intros p o Hp Ho.
  assert (Hcov : covers root o).
  { clear -Ht Hp Ho. unfold covers at 1. revert Ht Hp. generalize (h_start root), (h_end root).
    intros s0 e0 Ht. revert Ho. induction Ht as [|s m e t l Hsm Ht IH]; intros Ho Hp; [destruct Hp|].
    pose proof (tiles_le _ _ _ Ht). destruct Hp as [<-|Hp]; unfold covers in *; cbn in *; [lia|].
    specialize (IH Ho Hp). lia. }
  exists (best root xs o). split; [now apply best_winner|].
  destruct (flatten_shown n Hgn o) as (q & Hq & Hqo & Hqt); [rewrite Hr; exact Hcov|].
  rewrite (tiles_unique _ _ _ Ht o p q) by auto. rewrite Hqt, Hd by exact Hcov. reflexivity.
Qed.
Print Assumptions highlights_correct.

(** There is exactly one winner, so the shown tag is determined. *)
Theorem winner_unique : forall ranges o w1 w2, winner ranges o w1 -> winner ranges o w2 -> w1 = w2.
Proof.
  intros ranges o w1 w2 (p1 & q1 & E1 & C1 & A1 & B1) (p2 & q2 & E2 & C2 & A2 & B2).
  rewrite E1 in E2. clear E1.
  apply app_eq_app in E2. destruct E2 as (m & [[-> E]|[-> E]]); destruct m as [|z m]; cbn in E.
  - now injection E.
  - injection E as <- ->.
    specialize (B2 w1). specialize (A1 w2).
    assert (size w1 <= size w2) by (apply A1; [apply in_or_app; right; now left|auto]).
    assert (size w2 < size w1) by (apply B2; [apply in_or_app; right; now left|auto]). lia.
  - now injection E.
  - injection E as <- ->. specialize (B1 w2). specialize (A2 w1).
    assert (size w2 <= size w1) by (apply A2; [apply in_or_app; right; now left|auto]).
    assert (size w1 < size w2) by (apply B1; [apply in_or_app; right; now left|auto]). lia.
Qed.
Print Assumptions winner_unique.

Definition own_highlight (d : elem) : option N := match d with Tok _ hl | Nd hl _ => hl end.

(** An element of the tree over the offset [o], at least touching the requested range. *)
Definition visible_at (view : nat * nat) (root : elem) (off o : nat) (d : elem) (s : nat) : Prop :=
  occurs root off d s /\ s <= o < s + elem_width d /\
  Nat.max (fst view) s <= Nat.min (snd view) (s + elem_width d).

(** End to end, for every syntax tree with any assignment of highlights to its elements and any
    requested range: [highlight] does not panic, its output tiles the root, and an offset shows the
    highlight of a smallest highlighted visible element covering it, or none if there is no such element. *)
Theorem highlight_tree_correct : forall view off root,
  exists out, highlight view off root = Ok out /\
    tiles off (off + elem_width root) out /\
    forall p o, In p out -> covers p o ->
      (exists d s, visible_at view root off o d s /\ own_highlight d = Some (h_tag p) /\
         forall d' s' t', visible_at view root off o d' s' -> own_highlight d' = Some t' -> elem_width d <= elem_width d') \/
      (h_tag p = no_hl /\ forall d s t, visible_at view root off o d s -> own_highlight d = Some t -> False).
Proof.
  intros view off root.
  destruct (highlights_correct (mkHl off (off + width root) no_hl) (traverse view off root)) as (n & E & Ht & Hw).
  - unfold wf. cbn. lia.
  - apply Forall_forall. intros x Hx. apply traverse_inside in Hx. unfold inside. cbn. tauto.
  - apply traverse_pairs.
  - unfold highlight. unfold root_node in E. rewrite E. exists (flatten n). split; [reflexivity|].
    cbn in Ht. split; [rewrite <- width_elem_width; exact Ht|].
    intros p o Hp Ho. pose (visible := visible_at view root off o). fold visible. destruct (Hw p o Hp Ho) as (w & (pre & post & El & Hc & Hpre & Hpost) & Htag).
    assert (Hmin : forall y, In y (traverse view off root) -> covers y o -> size w <= size y).
    { intros y Hy Hcy. assert (Hy' : In y (mkHl off (off + width root) no_hl :: traverse view off root)) by now right.
      rewrite El in Hy'. apply in_app_or in Hy'. destruct Hy' as [Hy'|[<-|Hy']]; auto.
      specialize (Hpost y Hy' Hcy). lia. }
    assert (Hvis : forall d s t, visible d s -> own_highlight d = Some t ->
              In (mkHl s (s + elem_width d) t) (traverse view off root)).
    { intros d s t (Hocc & _ & Hv) Hd. apply traverse_occurs. exists d, s, t. repeat split; auto. destruct d; auto. }
    destruct pre as [|a pre]; cbn in El; injection El as Ew El.
    + right. subst w. split; [exact Htag|]. intros d s t Hv Hd. pose proof (Hvis d s t Hv Hd) as Hi.
      rewrite El in Hi. assert (Hcy : covers (mkHl s (s + elem_width d) t) o) by (destruct Hv as (_ & Hv & _); exact Hv).
      specialize (Hpost _ Hi Hcy). 
      rewrite <- El in Hi. apply traverse_inside in Hi. unfold size in Hpost. cbn in *. lia.
    + left. assert (Hiw : In w (traverse view off root)) by (rewrite El; apply in_or_app; right; now left).
      pose proof Hiw as Hiw'. apply traverse_occurs in Hiw'. destruct Hiw' as (d & s & t & Hocc & -> & Hd & Hv).
      exists d, s. split; [repeat split; auto; apply Hc|]. split; [rewrite Htag; cbn; destruct d; auto|].
      intros d' s' t' Hv' Hd'. specialize (Hmin _ (Hvis d' s' t' Hv' Hd')).
      assert (Hcy : covers (mkHl s' (s' + elem_width d') t') o) by (destruct Hv' as (_ & Hv' & _); exact Hv').
      specialize (Hmin Hcy). unfold size in Hmin. cbn in Hmin. lia.
Qed.
Print Assumptions highlight_tree_correct.

(** Crossing ranges break the tiling: [0,5) then [3,8) in [0,10) show offset 3 twice. *)
Theorem highlights_crossing_refuted : exists root xs n,
  wf root /\ Forall (fun x => wf x /\ inside x root) xs /\ add_all (root_node root) xs = Ok n /\
  ~ tiles (h_start root) (h_end root) (flatten n).
Proof.
  exists (mkHl 0 10 0), [mkHl 0 5 1; mkHl 3 8 2].
  eexists. split; [unfold wf; cbn; lia|]. split; [repeat constructor; cbn; lia|]. split; [reflexivity|].
  cbn. intros H. inversion H; subst. inversion H6.
Qed.
Print Assumptions highlights_crossing_refuted.

(** Non-trivial instances. *)
Example ex_ranges : list hl_range := [mkHl 2 8 1; mkHl 3 5 2; mkHl 3 5 3; mkHl 0 10 4; mkHl 8 8 5].
Example ex_ranges_hyps : Forall (fun x => wf x /\ inside x (mkHl 0 10 0)) ex_ranges /\ ForallOrdPairs compatible ex_ranges.
Proof.
  split; [repeat constructor; cbn; lia|].
  unfold ex_ranges. repeat (constructor; [repeat constructor; unfold compatible, disjoint_ranges, inside; cbn; lia|]). constructor.
Qed.
Example ex_ranges_out : exists n, add_all (root_node (mkHl 0 10 0)) ex_ranges = Ok n /\
  flatten n = [mkHl 0 2 4; mkHl 2 3 1; mkHl 3 5 3; mkHl 5 8 1; mkHl 8 10 4].
Proof. eexists. split; reflexivity. Qed.

(** [foo = 12] with a highlighted name node around a highlighted token; the whitespace has none *)
Example ex_tree : elem := Nd None [Nd (Some 7%N) [Tok 3 (Some 8%N)]; Tok 1 None; Tok 1 (Some 9%N); Tok 1 None; Tok 2 (Some 4%N)].
Example ex_tree_out : highlight (0, 8) 0 ex_tree =
  Ok [mkHl 0 3 8; mkHl 3 4 0; mkHl 4 5 9; mkHl 5 6 0; mkHl 6 8 4].
Proof. reflexivity. Qed.
