(** The tokens of a file in order, and the one before the cursor. *)
From Verif Require Import Base SyntaxKind TextEditModel TreeSinkModel TreeSinkSpec TreeDiffModel TreeDiffSpec TreeDiffProofs EditorModel EditorSpec EditorProofs EditorOrder SelectionModel SelectionProofs SelectionProps SignatureModel.
From Coq Require Import Sorted.
Close Scope N_scope.
Open Scope nat_scope.

Lemma skipn_next {A} (l : list A) : forall i c n, skipn i l = c :: n -> skipn (S i) l = n.
Proof. induction l as [|x l IH]; intros [|i] c n H; cbn in *; try discriminate; [now inversion H | now apply IH in H]. Qed.
Definition before (t : tree) (p q : place_path) : Prop := r_end (range_at t p) <= r_start (range_at t q).
Lemma sorted_app {A} (R : A -> A -> Prop) a b : StronglySorted R a -> StronglySorted R b -> (forall x y, In x a -> In y b -> R x y) -> StronglySorted R (a ++ b).
Proof.
  induction a as [|x a IH]; intros A1 B1 C; [exact B1|]. cbn. inversion A1; subst. constructor.
  - apply IH; auto. intros u v U V. apply C; cbn; auto.
  - apply Forall_app. split; [assumption|]. apply Forall_forall. intros y Y. apply C; cbn; auto.
Qed.
Lemma under t p q : In q (tokens_from p t) -> prefix p q.
Proof. intros H. apply tokens_in in H as (s & _ & _ & -> & _). now exists s. Qed.
Lemma go_tokens_sorted t p k ch : element_at t p = Some (TNode k ch) -> forall n i, skipn i ch = n -> 
  Forall (fun c => forall q, element_at t q = Some c -> StronglySorted (before t) (tokens_from q c)) ch -> StronglySorted (before t) (go_tokens p i (skipn i ch)).
Proof.
  intros E n. induction n as [|c n IH]; intros i S F; rewrite S; cbn [go_tokens]; [constructor|].
  assert (Nth : nth_error ch i = Some c) by (rewrite <- (Nat.add_0_r i), <- nth_skipn, S; reflexivity).
  assert (S' : skipn (Datatypes.S i) ch = n) by now apply skipn_next in S.
  assert (El : forall j d, nth_error ch j = Some d -> element_at t (p ++ [j]) = Some d) by (intros j d J; rewrite element_at_app, E; cbn; now rewrite J).
  apply sorted_app.
  - rewrite Forall_forall in F. apply F; [eapply nth_error_In; eauto|]. now apply El.
  - fold (go_tokens p). rewrite <- S'. now apply IH.
  - intros x y X Y. fold (go_tokens p) in Y. apply go_tokens_in in Y as (j & d & J & Y). rewrite <- S', nth_skipn in J. replace (Datatypes.S i + j) with (Datatypes.S (i + j)) in * by lia.
    apply tokens_in in X as (s & kx & tx & -> & X). apply tokens_in in Y as (s' & ky & ty & -> & Y). unfold before.
    assert (Xx : exists_at t ((p ++ [i]) ++ s)) by (unfold exists_at; rewrite element_at_app, (El _ _ Nth), X; discriminate).
    assert (Xy : exists_at t ((p ++ [Datatypes.S (i + j)]) ++ s')) by (unfold exists_at; rewrite element_at_app, (El _ _ J), Y; discriminate).
    pose proof (range_prefix t _ _ Xx) as [_ A]. pose proof (range_prefix t _ _ Xy) as [B _].
    pose proof (siblings_range t p i (Datatypes.S (i + j)) ltac:(lia) (exists_prefix _ _ _ Xx) (exists_prefix _ _ _ Xy)). lia.
Qed.
Lemma tokens_sorted t e : forall p, element_at t p = Some e -> StronglySorted (before t) (tokens_from p e).
Proof.
  induction e as [k ch IH|k x] using tree_ind2; intros p E.
  - rewrite tokens_node. change ch with (skipn 0 ch). eapply go_tokens_sorted; eauto.
  - cbn. constructor; constructor.
Qed.
Definition token_at (t : tree) (p : place_path) : Prop := exists k x, element_at t p = Some (TTok k x).
Lemma all_tokens t p : In p (tokens_from [] t) <-> token_at t p.
Proof. rewrite tokens_in. split; [intros (s & k & x & -> & E); exists k, x; exact E | intros (k & x & E); exists p, k, x; auto]. Qed.

(** the token just before the cursor *)
Lemma token_ending t : forall o, 0 < o <= length (elem_text t) -> exists s k x, element_at t s = Some (TTok k x) /\ offset_at t s < o <= offset_at t s + length x.
Proof.
  induction t as [k ch IH|k x] using tree_ind2; intros o L.
  - cbn [elem_text] in L. assert (H : exists a c b, ch = a ++ c :: b /\ length (flat_map elem_text a) < o <= length (flat_map elem_text a) + length (elem_text c)).
    { clear IH. revert o L. induction ch as [|c ch IHc]; intros o L; [cbn in L; lia|]. cbn [flat_map] in L. rewrite app_length in L. destruct (Nat.le_gt_cases o (length (elem_text c))).
      - exists [], c, ch. cbn. split; [reflexivity|lia].
      - destruct (IHc (o - length (elem_text c)) ltac:(lia)) as (a & d & b & -> & H'). exists (c :: a), d, b. cbn. rewrite app_length. split; [reflexivity|lia]. }
    destruct H as (a & c & b & -> & H). rewrite Forall_forall in IH. destruct (IH c ltac:(apply in_elt) (o - length (flat_map elem_text a)) ltac:(lia)) as (s & k' & x & E & P).
    exists (length a :: s), k', x. rewrite child_offset. split; [|lia]. cbn [element_at]. rewrite nth_error_app2, Nat.sub_diag by lia. cbn. exact E.
  - cbn in L. exists [], k, x. cbn. split; [reflexivity|lia].
Qed.
Lemma filter_hd {A} (R : A -> A -> Prop) f (l : list A) x m : StronglySorted R l -> filter f l = x :: m -> forall y, In y l -> f y = true -> y = x \/ R x y.
Proof.
  induction l as [|a l IH]; intros S E y Y F; [destruct Y|]. inversion S; subst. cbn in E. destruct (f a) eqn:Fa.
  - inversion E; subst a. destruct Y as [->|Y]; [now left|]. right. rewrite Forall_forall in H2. now apply H2.
  - destruct Y as [->|Y]; [congruence|]. eapply IH; eauto.
Qed.
Lemma left_token t o l r : 0 < o <= length (elem_text t) -> token_at_offset t o = l :: r -> touching t o l /\ r_start (range_at t l) < o <= r_end (range_at t l).
Proof.
  intros L E. assert (Tl : touching t o l) by (apply token_at_touching; rewrite E; cbn; auto). split; [exact Tl|]. destruct (token_ending t o L) as (s & k & x & Es & P).
  assert (Ts : touching t o s). { split; [exists k, x; split; [exact Es|]; intros ->; cbn in P; lia|]. unfold range_at, text_at. rewrite Es. cbn. lia. }
  assert (Rs : r_start (range_at t s) < o <= r_end (range_at t s)) by (unfold range_at, text_at; rewrite Es; cbn; lia).
  pose proof (filter_hd (before t) (touches t o) (tokens_from [] t) l r (tokens_sorted t t [] eq_refl) E s) as H.
  assert (In s (tokens_from [] t)) by (apply all_tokens; exists k, x; exact Es).
  assert (touches t o s = true) by (apply token_at_touching in Ts; unfold token_at_offset in Ts; apply filter_In in Ts; tauto).
  destruct (H H0 H1) as [<-|B]; [exact Rs|]. unfold before in B. destruct Tl as [(k' & x' & El & Nl) Rl]. split; [|lia].
  unfold range_at, text_at in *. rewrite El in *. cbn in *. destruct x'; [congruence|]. cbn in *. lia.
Qed.

Lemma path_eqb_spec p q : path_eqb p q = true <-> p = q.
Proof. unfold path_eqb. destruct (list_eq_dec Nat.eq_dec p q); split; congruence. Qed.
Lemma upto_in p l : In p l -> exists a b, l = a ++ p :: b /\ upto p l = a ++ [p].
Proof.
  induction l as [|x l IH]; intros H; [destruct H|]. cbn. destruct (path_eqb x p) eqn:E.
  - apply path_eqb_spec in E. subst x. exists [], l. auto.
  - destruct H as [->|H]; [rewrite (proj2 (path_eqb_spec p p) eq_refl) in E; discriminate|]. destruct (IH H) as (a & b & -> & ->). exists (x :: a), b. auto.
Qed.
Lemma find_rev {A} (f : A -> bool) l x : find f (rev l) = Some x -> exists a b, l = a ++ x :: b /\ f x = true /\ Forall (fun y => f y = false) b.
Proof.
  induction l as [|y l IH] using rev_ind; [discriminate|]. rewrite rev_app_distr. cbn. destruct (f y) eqn:F.
  - intros H. inversion H; subst. exists l, []. auto.
  - intros H. destruct (IH H) as (a & b & -> & Fx & Fb). exists a, (b ++ [y]). rewrite <- app_assoc. split; [reflexivity|]. split; [exact Fx|]. apply Forall_app. auto.
Qed.
(** The last token before the cursor that is neither whitespace nor a comment. *)
Definition last_before (t : tree) (o : nat) (p : place_path) : Prop :=
  token_at t p /\ is_trivia_at t p = false /\ r_start (range_at t p) < o /\
  forall c, token_at t c -> is_trivia_at t c = false -> r_start (range_at t c) < o -> c = p \/ before t c p.
Lemma token_before_spec t o p : solid t -> 0 < o <= length (elem_text t) -> token_before t o = Some p -> last_before t o p.
Proof.
  intros W L. unfold token_before. destruct (token_at_offset t o) as [|l r] eqn:E; [discriminate|]. destruct (left_token t o l r L E) as [Tl Rl].
  assert (Il : In l (tokens_from [] t)). { apply all_tokens. destruct Tl as [(k & x & El & _) _]. now exists k, x. }
  destruct (upto_in l _ Il) as (a & b & Eq & ->). intros F. apply find_rev in F as (u & v & Euv & Fp & Fv). apply negb_true_iff in Fp.
  pose proof (tokens_sorted t t [] eq_refl) as S. rewrite Eq in S. assert (Ip : In p (tokens_from [] t)). { rewrite Eq. change (l :: b) with ([l] ++ b). rewrite app_assoc, Euv. rewrite !in_app_iff. cbn. auto. }
  assert (Ord : p = l \/ before t p l).
  { destruct v as [|z v _] using rev_ind.
    - apply app_inj_tail in Euv as [_ ->]. now left.
    - rewrite app_comm_cons, app_assoc in Euv. apply app_inj_tail in Euv as [-> ->]. right. rewrite <- !app_assoc in S. clear - S.
      induction u as [|y u IH]; [|inversion S; subst; auto]. cbn in S. inversion S; subst. rewrite Forall_forall in H2. apply H2. rewrite in_app_iff. right. cbn. auto. }
  split; [now apply all_tokens|]. split; [exact Fp|]. split.
  - destruct Ord as [->|B]; [lia|]. unfold before in B. pose proof (range_order t p). lia.
  - intros c Tc Nc Sc. assert (Ic : In c (tokens_from [] t)) by now apply all_tokens. rewrite Eq in Ic. change (l :: b) with ([l] ++ b) in Ic. rewrite app_assoc, Euv, <- app_assoc in Ic. apply in_app_iff in Ic as [Ic|Ic].
    + right. change (l :: b) with ([l] ++ b) in S. rewrite app_assoc, Euv, <- app_assoc in S. clear - S Ic. induction u as [|y u IH]; [destruct Ic|]. cbn in S. inversion S; subst. destruct Ic as [->|Ic]; [|auto].
      rewrite Forall_forall in H2. apply H2. rewrite in_app_iff. right. cbn. auto.
    + cbn in Ic. destruct Ic as [->|Ic]; [now left|]. apply in_app_iff in Ic as [Ic|Ic].
      * exfalso. rewrite Forall_forall in Fv. specialize (Fv c Ic). rewrite Nc in Fv. discriminate.
      * exfalso. assert (B : before t l c). { clear - S Ic. induction a as [|y a IH]; [|cbn in S; inversion S; subst; auto]. cbn in S. inversion S; subst. rewrite Forall_forall in H2. now apply H2. }
        unfold before in B. lia.
Qed.
