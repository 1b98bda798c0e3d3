(** Parameter hints: the argument the cursor is in. *)
From Coq Require Import String.
Close Scope string_scope.
From Verif Require Import Base SyntaxKind TextEditModel TreeSinkModel TreeSinkSpec TreeDiffModel TreeDiffSpec TreeDiffProofs EditorModel EditorSpec EditorProofs EditorOrder AddressModel SelectionModel SelectionProofs SelectionProps SignatureModel SignatureProofs.
From Coq Require Import Sorted FinFun.
Close Scope N_scope.
Open Scope nat_scope.
Open Scope list_scope.

(** * The specification *)
(** the [j]-th child of [q] is a token of kind [k] *)
Definition token_child (t : tree) (q : place_path) (k : kind) (j : nat) : Prop := exists x, element_at t (q ++ [j]) = Some (TTok k x).
(** [n] is the number of commas of the list [q] that lie before the offset *)
Definition commas_before (t : tree) (q : place_path) (o n : nat) : Prop :=
  exists l, NoDup l /\ length l = n /\ forall j, In j l <-> token_child t q COMMA j /\ r_end (range_at t (q ++ [j])) <= o.
Definition commas_one (t : tree) : Prop := forall p x, element_at t p = Some (TTok COMMA x) -> length x = 1.
(** the first token of the kind among the children *)
Definition closing (t : tree) (q : place_path) (k : kind) (j : nat) : Prop := token_child t q k j /\ forall i, i < j -> ~ token_child t q k i.
(** the list ends with the bracket *)
Definition closed (t : tree) (q : place_path) (k : kind) (j : nat) : Prop := closing t q k j /\ length (children_of t q) = S j.
Definition node_at (t : tree) (q : place_path) (k : kind) : Prop := exists ch, element_at t q = Some (TNode k ch).

(** * Children and ancestors *)
Lemma token_child_nth t q k j : token_child t q k j <-> exists x, nth_error (children_of t q) j = Some (TTok k x).
Proof.
  unfold token_child. split; intros (x & H); exists x; [|now apply child_at]. destruct (exist_children t q j) as (e & A & B); [unfold exists_at; congruence|]. congruence.
Qed.
Lemma is_token_of_spec k e : is_token_of k e = true <-> exists x, e = TTok k x.
Proof. destruct e as [k' ch|k' x]; cbn; [split; [discriminate|intros (x & H); discriminate]|]. rewrite kind_eqb_spec. split; [intros ->; eauto | intros (y & H); now inversion H]. Qed.
Lemma find_index_some {A} (f : A -> bool) l : forall i j, find_index f i l = Some j -> i <= j /\ (exists x, nth_error l (j - i) = Some x /\ f x = true) /\ forall m x, m < j - i -> nth_error l m = Some x -> f x = false.
Proof.
  induction l as [|a l IH]; intros i j; cbn; [discriminate|]. destruct (f a) eqn:F.
  - intros H. inversion H; subst. rewrite Nat.sub_diag. split; [lia|]. split; [exists a; auto|]. lia.
  - intros H. apply IH in H as (L & (x & E & Fx) & N). split; [lia|]. replace (j - i) with (S (j - S i)) by lia. split; [exists x; auto|]. intros [|m] y M Y; cbn in Y; [inversion Y; now subst | apply (N m y); [lia|exact Y]].
Qed.
Lemma find_index_none {A} (f : A -> bool) l : forall i, find_index f i l = None -> forall m x, nth_error l m = Some x -> f x = false.
Proof.
  induction l as [|a l IH]; intros i; cbn; [intros _ [|m] x H; discriminate|]. destruct (f a) eqn:F; [discriminate|]. intros H [|m] x E; cbn in E; [inversion E; now subst | eapply IH; eauto].
Qed.
Lemma child_token_spec t q k c : child_token t q k = Some c <-> exists j, c = q ++ [j] /\ closing t q k j.
Proof.
  unfold child_token, closing. destruct (find_index (is_token_of k) 0 (children_of t q)) as [i|] eqn:E; cbn [option_map].
  - apply find_index_some in E as (_ & (e & N & F) & B). rewrite Nat.sub_0_r in *. apply is_token_of_spec in F as (x & ->).
    assert (Ci : token_child t q k i) by (apply token_child_nth; eauto).
    assert (Bi : forall m, m < i -> ~ token_child t q k m). { intros m M H. apply token_child_nth in H as (y & H). pose proof (B m _ M H) as Z. rewrite (proj2 (is_token_of_spec _ _)) in Z; [discriminate|eauto]. }
    split.
    + intros H. inversion H; subst. exists i. auto.
    + intros (j & -> & Cj & Bj). destruct (Nat.lt_trichotomy i j) as [L|[->|L]]; [exfalso; exact (Bj i L Ci) | reflexivity | exfalso; exact (Bi j L Cj)].
  - split; [discriminate|]. intros (j & _ & Cj & _). apply token_child_nth in Cj as (x & Cj). pose proof (find_index_none _ _ _ E _ _ Cj) as Z. rewrite (proj2 (is_token_of_spec _ _)) in Z; [discriminate|eauto].
Qed.
Lemma ups_in rp : forall q, In q (ups rp) <-> exists i s, rev rp = q ++ i :: s.
Proof.
  induction rp as [|a rp IH]; intros q; cbn.
  - split; [intros []|]. intros (i & s & H). destruct q; discriminate.
  - rewrite IH. split.
    + intros [<-|(i & s & H)]; [exists a, []; reflexivity|]. exists i, (s ++ [a]). now rewrite H, <- app_assoc.
    + intros (i & s & H). destruct s as [|z s _] using rev_ind; [apply app_inj_tail in H as [-> ->]; now left|]. right. change (i :: s ++ [z]) with ((i :: s) ++ [z]) in H. rewrite app_assoc in H. apply app_inj_tail in H as [-> _]. eauto.
Qed.
Lemma parents_in p q : In q (parents p) <-> exists i s, p = q ++ i :: s.
Proof. unfold parents. rewrite ups_in, rev_involutive. tauto. Qed.
(** innermost first *)
Lemma ups_sorted rp : StronglySorted (fun a b => prefix b a) (ups rp).
Proof.
  induction rp as [|a rp IH]; cbn; [constructor|]. constructor; [exact IH|]. apply Forall_forall. intros q Q. apply ups_in in Q as (i & s & H). exists (i :: s). exact H.
Qed.

(** * Commas *)
Lemma comma_children_in t q c : In c (comma_children t q) <-> exists j, c = q ++ [j] /\ token_child t q COMMA j.
Proof.
  unfold comma_children. rewrite in_map_iff. split.
  - intros (j & <- & H). apply filter_In in H as [_ H]. exists j. split; [reflexivity|]. apply token_child_nth. destruct (nth_error (children_of t q) j) as [e|]; [|discriminate]. apply is_token_of_spec in H as (x & ->). eauto.
  - intros (j & -> & H). apply token_child_nth in H as (x & H). exists j. split; [reflexivity|]. apply filter_In. rewrite H. split; [|apply is_token_of_spec; eauto]. apply in_seq. assert (j < length (children_of t q)) by (apply nth_error_Some; congruence). lia.
Qed.
Lemma seq_sorted n : forall a, StronglySorted lt (seq a n).
Proof. induction n as [|n IH]; intros a; cbn; constructor; [apply IH|]. apply Forall_forall. intros x X. apply in_seq in X. lia. Qed.
Lemma filter_sorted {A} (R : A -> A -> Prop) f l : StronglySorted R l -> StronglySorted R (filter f l).
Proof.
  induction 1 as [|a l S IH F]; cbn; [constructor|]. destruct (f a); [|exact IH]. constructor; [exact IH|]. rewrite Forall_forall in *. intros x X. apply filter_In in X as [X _]. auto.
Qed.
Lemma comma_children_sorted t q : StronglySorted (before t) (comma_children t q).
Proof.
  unfold comma_children. set (l := filter _ _).
  assert (S : StronglySorted lt l) by (apply filter_sorted, seq_sorted).
  assert (X : forall j, In j l -> exists_at t (q ++ [j])). { intros j J. apply filter_In in J as [J _]. apply in_seq in J. apply children_exist. lia. }
  induction S as [|a l S IH F]; cbn; constructor.
  - apply IH. intros j J. apply X. now right.
  - rewrite Forall_map. rewrite Forall_forall in *. intros b B. unfold before. apply siblings_range; [now apply F | apply X; now left | apply X; now right].
Qed.
Lemma take_while_filter {A} (R : A -> A -> Prop) f (l : list A) : StronglySorted R l -> (forall a b, R a b -> f a = false -> f b = false) -> take_while f l = filter f l.
Proof.
  intros S M. induction S as [|a l S IH F]; cbn; [reflexivity|]. destruct (f a) eqn:E; [now rewrite IH|]. symmetry. clear IH S. induction F as [|b l B F IH]; [reflexivity|]. cbn. rewrite (M a b B E). exact IH.
Qed.
(** the number of commas that start at or before an offset *)
Lemma active_param_count t q s o : solid t -> (forall j, token_child t q COMMA j -> r_start (range_at t (q ++ [j])) <= s <-> r_end (range_at t (q ++ [j])) <= o) -> commas_before t q o (active_param t q s).
Proof.
  intros W H. unfold active_param. rewrite (take_while_filter (before t)).
  2:{ apply comma_children_sorted. }
  2:{ intros a b B A. apply Nat.leb_gt in A. apply Nat.leb_gt. unfold before in B. pose proof (range_order t a). lia. }
  set (f := fun c => r_start (range_at t c) <=? s).
  set (l0 := filter (fun i => match nth_error (children_of t q) i with Some e => is_token_of COMMA e | None => false end) (seq 0 (length (children_of t q)))).
  exists (filter (fun j => f (q ++ [j])) l0). split; [apply NoDup_filter, NoDup_filter, seq_NoDup|]. split.
  - unfold comma_children. fold l0. clearbody f l0. clear. induction l0 as [|a l IH]; [reflexivity|]. cbn. destruct (f (q ++ [a])); cbn; now rewrite IH.
  - intros j. rewrite filter_In. assert (J : In j l0 <-> token_child t q COMMA j).
    { rewrite token_child_nth. unfold l0. rewrite filter_In, in_seq. split.
      - intros [_ Z]. destruct (nth_error (children_of t q) j) as [e|]; [|discriminate]. apply is_token_of_spec in Z as (x & ->). eauto.
      - intros (x & Z). rewrite Z. split; [|apply is_token_of_spec; eauto]. assert (j < length (children_of t q)) by (apply nth_error_Some; congruence). lia. }
    rewrite J. unfold f. rewrite Nat.leb_le. split; intros [A B]; (split; [exact A|]); now apply (H j A).
Qed.
Lemma commas_unique t q o n m : commas_before t q o n -> commas_before t q o m -> n = m.
Proof.
  intros (l & N & <- & H) (l' & N' & <- & H'). apply Nat.le_antisymm; apply NoDup_incl_length; auto; intros j J; [apply H', H | apply H, H']; exact J.
Qed.

(** * Signature help *)
Lemma nontrivia_token t p k x : element_at t p = Some (TTok k x) -> is_trivia k = false -> token_at t p /\ is_trivia_at t p = false.
Proof. intros E K. split; [now exists k, x|]. unfold is_trivia_at, kind_at. now rewrite E. Qed.
Lemma is_path_spec o p : is_path o p = true <-> o = Some p.
Proof. destruct o as [q|]; cbn; [rewrite path_eqb_spec; split; congruence|split; discriminate]. Qed.
Lemma find_target_spec t tok l g : find_target t tok l = Some g ->
  exists a q b, l = a ++ q :: b /\
    (match g with
     | ForCall p n => p = q /\ kind_at t q = Some VALUE_ARG_LIST /\ child_token t q R_PAREN <> Some tok /\ n = active_param t q (r_start (range_at t tok))
     | ForTypes p n => p = q /\ kind_at t q = Some TYPE_ARG_LIST /\ child_token t q R_ANGLE <> Some tok /\ n = active_param t q (r_start (range_at t tok))
     | ForStruct p => p = q /\ kind_at t q = Some STRUCT_LIT
     end) /\
    Forall (fun q' => (kind_at t q' = Some VALUE_ARG_LIST -> child_token t q' R_PAREN = Some tok) /\ (kind_at t q' = Some TYPE_ARG_LIST -> child_token t q' R_ANGLE = Some tok)) a.
Proof.
  induction l as [|q l IH]; cbn [find_target]; [discriminate|].
  assert (Skip : (kind_at t q = Some VALUE_ARG_LIST -> child_token t q R_PAREN = Some tok) /\ (kind_at t q = Some TYPE_ARG_LIST -> child_token t q R_ANGLE = Some tok) -> find_target t tok l = Some g ->
    exists a q0 b, q :: l = a ++ q0 :: b /\
    (match g with
     | ForCall p n => p = q0 /\ kind_at t q0 = Some VALUE_ARG_LIST /\ child_token t q0 R_PAREN <> Some tok /\ n = active_param t q0 (r_start (range_at t tok))
     | ForTypes p n => p = q0 /\ kind_at t q0 = Some TYPE_ARG_LIST /\ child_token t q0 R_ANGLE <> Some tok /\ n = active_param t q0 (r_start (range_at t tok))
     | ForStruct p => p = q0 /\ kind_at t q0 = Some STRUCT_LIT
     end) /\
    Forall (fun q' => (kind_at t q' = Some VALUE_ARG_LIST -> child_token t q' R_PAREN = Some tok) /\ (kind_at t q' = Some TYPE_ARG_LIST -> child_token t q' R_ANGLE = Some tok)) a).
  { intros Hq H. destruct (IH H) as (a & q0 & b & -> & G & F). exists (q :: a), q0, b. split; [reflexivity|]. split; [exact G|]. constructor; assumption. }
  destruct (kind_at t q) as [k|] eqn:K; [|apply Skip; split; discriminate].
  destruct (kind_eq_dec k VALUE_ARG_LIST) as [->|N1]; [|destruct (kind_eq_dec k TYPE_ARG_LIST) as [->|N2]; [|destruct (kind_eq_dec k STRUCT_LIT) as [->|N3]]].
  - destruct (is_path (child_token t q R_PAREN) tok) eqn:P.
    + apply is_path_spec in P. apply Skip. split; [auto|discriminate].
    + intros H. inversion H; subst g. exists [], q, l. split; [reflexivity|]. split; [|constructor]. refine (conj eq_refl (conj K (conj _ eq_refl))). intros Z. apply is_path_spec in Z. congruence.
  - destruct (is_path (child_token t q R_ANGLE) tok) eqn:P.
    + apply is_path_spec in P. apply Skip. split; [discriminate|auto].
    + intros H. inversion H; subst g. exists [], q, l. split; [reflexivity|]. split; [|constructor]. refine (conj eq_refl (conj K (conj _ eq_refl))). intros Z. apply is_path_spec in Z. congruence.
  - destruct (match child_node t q STRUCT_LIT_FIELD_LIST with Some fl => is_path (child_token t fl R_CURLY) tok | None => false end); [apply Skip; split; discriminate|].
    intros H. inversion H; subst g. exists [], q, l. split; [reflexivity|]. split; [|constructor]. auto.
  - intros H. apply Skip; [split; congruence|]. destruct k; try exact H; congruence.
Qed.
Lemma find_target_none t tok l : find_target t tok l = None -> forall q, In q l -> (kind_at t q = Some VALUE_ARG_LIST -> child_token t q R_PAREN = Some tok) /\ (kind_at t q = Some TYPE_ARG_LIST -> child_token t q R_ANGLE = Some tok).
Proof.
  induction l as [|q l IH]; cbn [find_target]; intros H p P; [destruct P|]. destruct P as [<-|P].
  - split; intros K; rewrite K in H.
    + destruct (is_path (child_token t q R_PAREN) tok) eqn:Z; [now apply is_path_spec in Z|discriminate].
    + destruct (is_path (child_token t q R_ANGLE) tok) eqn:Z; [now apply is_path_spec in Z|discriminate].
  - apply IH; [|exact P]. destruct (kind_at t q) as [k|]; [|exact H]. destruct k; try exact H.
    all: repeat match type of H with (if ?c then _ else _) = _ => destruct c; [exact H|discriminate] end.
Qed.

(** the last token before the cursor lies in a list exactly when the cursor is behind its first token *)
Lemma in_list t o tok q : last_before t o tok -> In q (parents tok) -> r_start (range_at t q) < o.
Proof.
  intros ((k & x & E) & _ & L & _) P. apply parents_in in P as (i & s & ->). assert (X : exists_at t (q ++ i :: s)) by (unfold exists_at; congruence).
  pose proof (range_prefix t q (i :: s) X) as R. unfold inside in R. lia.
Qed.
Lemma token_len t p k x : element_at t p = Some (TTok k x) -> r_end (range_at t p) = r_start (range_at t p) + length x.
Proof. intros E. unfold range_at, text_at. now rewrite E. Qed.
(** the argument: as many commas of the list lie before the cursor *)
Lemma argument_count t o tok q : solid t -> commas_one t -> last_before t o tok -> commas_before t q o (active_param t q (r_start (range_at t tok))).
Proof.
  intros W C1 M. apply active_param_count; [exact W|]. intros j (x & E). pose proof (token_len _ _ _ _ E) as Le. rewrite (C1 _ _ E) in Le.
  destruct (nontrivia_token t _ _ _ E eq_refl) as [T N]. destruct M as (Tt & _ & Lt & M). split; [lia|]. intros B. destruct (M _ T N ltac:(lia)) as [<-|Z]; [lia|]. unfold before in Z. lia.
Qed.
Theorem signature_argument : forall t o q n, solid t -> commas_one t -> 0 < o <= length (elem_text t) ->
  signature_target t o = Some (ForCall q n) \/ signature_target t o = Some (ForTypes q n) -> commas_before t q o n.
Proof.
  intros t o q n W C1 L H. unfold signature_target in H. destruct (token_before t o) as [tok|] eqn:T; [|destruct H; discriminate]. apply (token_before_spec t o tok W L) in T.
  destruct H as [H|H]; apply find_target_spec in H as (a & q0 & b & E & G & F); destruct G as (-> & _ & _ & ->); now apply argument_count.
Qed.

(** the cursor is inside the brackets of the list that is shown *)
Lemma cursor_inside t o tok q k j : solid t -> is_trivia k = false -> last_before t o tok -> In q (parents tok) -> child_token t q k <> Some tok -> closed t q k j -> o <= r_start (range_at t (q ++ [j])).
Proof.
  intros W K M P N [C Len]. destruct (Nat.le_gt_cases o (r_start (range_at t (q ++ [j])))) as [L|L]; [exact L|exfalso].
  assert (D : tok <> q ++ [j]). { intros ->. apply N. apply child_token_spec. eauto. }
  destruct C as [(x & E) _]. destruct (nontrivia_token t _ _ _ E K) as [T Tn]. destruct M as ((tk & tx & Et) & _ & Lt & M).
  destruct (M _ T Tn L) as [<-|B]; [now apply D|]. unfold before in B. apply parents_in in P as (i & s & ->).
  assert (X : exists_at t (q ++ i :: s)) by (unfold exists_at; congruence). replace (q ++ i :: s) with ((q ++ [i]) ++ s) in * by now rewrite <- app_assoc.
  pose proof (exists_prefix t (q ++ [i]) s X) as Xi. destruct (exist_children t q i Xi) as (ci & Ni & _). assert (Li : i < length (children_of t q)) by (apply nth_error_Some; congruence).
  pose proof (range_prefix t (q ++ [i]) s X) as R. unfold inside in R. pose proof (range_order t (q ++ [j])). pose proof (token_len _ _ _ _ Et). pose proof (token_len _ _ _ _ E). pose proof (W _ _ _ Et) as Wt. pose proof (W _ _ _ E) as We.
  assert (0 < length tx) by (destruct tx; [congruence|cbn; lia]). assert (0 < length x) by (destruct x; [congruence|cbn; lia]).
  destruct (Nat.eq_dec i j) as [->|Nj].
  - destruct s as [|z s]; [now rewrite app_nil_r in D|]. rewrite element_at_app, E in Et. discriminate Et.
  - assert (Xj : exists_at t (q ++ [j])) by (unfold exists_at; congruence). pose proof (siblings_range t q i j ltac:(lia) Xi Xj). lia.
Qed.
Lemma kind_node t q k i s : exists_at t (q ++ i :: s) -> kind_at t q = Some k -> node_at t q k.
Proof.
  intros X K. unfold kind_at in K. unfold node_at. unfold exists_at in X. rewrite element_at_app in X. destruct (element_at t q) as [[k' ch|k' x]|]; [|exfalso; now apply X|discriminate]. cbn in K. inversion K. eauto.
Qed.
Theorem signature_inside : forall t o, solid t -> 0 < o <= length (elem_text t) ->
  (forall q n, signature_target t o = Some (ForCall q n) -> node_at t q VALUE_ARG_LIST /\ r_start (range_at t q) < o /\ forall j, closed t q R_PAREN j -> o <= r_start (range_at t (q ++ [j]))) /\
  (forall q n, signature_target t o = Some (ForTypes q n) -> node_at t q TYPE_ARG_LIST /\ r_start (range_at t q) < o /\ forall j, closed t q R_ANGLE j -> o <= r_start (range_at t (q ++ [j]))).
Proof.
  intros t o W L. split; intros q n H; unfold signature_target in H; (destruct (token_before t o) as [tok|] eqn:T; [|discriminate]); apply (token_before_spec t o tok W L) in T;
  apply find_target_spec in H as (a & q0 & b & E & G & F); destruct G as (-> & K & N & _); (assert (P : In q0 (parents tok)) by (rewrite E; apply in_elt));
  (split; [|split; [now apply (in_list t o tok) | intros j C; eapply cursor_inside; try exact C; eauto; reflexivity]]).
  all: destruct T as ((k & x & Et) & _); apply parents_in in P as (i & s & ->); eapply kind_node; [unfold exists_at; rewrite Et; discriminate | exact K].
Qed.

Lemma token_before_some t o p : 0 < o <= length (elem_text t) -> token_at t p -> is_trivia_at t p = false -> r_start (range_at t p) < o -> token_before t o <> None.
Proof.
  intros L T N S. unfold token_before. destruct (token_at_offset t o) as [|l r] eqn:E.
  - destruct (token_ending t o L) as (s & k & x & Es & P). assert (Ts : touching t o s). { split; [exists k, x; split; [exact Es|]; intros ->; cbn in P; lia|]. unfold range_at, text_at. rewrite Es. cbn. lia. }
    apply token_at_touching in Ts. rewrite E in Ts. destruct Ts.
  - destruct (left_token t o l r L E) as [Tl Rl]. assert (Il : In l (tokens_from [] t)). { apply all_tokens. destruct Tl as [(k & x & El & _) _]. now exists k, x. }
    destruct (upto_in l _ Il) as (a & b & Eq & ->). intros F. assert (Ip : In p (a ++ [l])).
    { pose proof (tokens_sorted t t [] eq_refl) as So. apply all_tokens in T. rewrite Eq in T, So. apply in_app_iff in T as [T|[->|T]]; rewrite in_app_iff; cbn; auto. exfalso.
      assert (B : before t l p). { clear - So T. induction a as [|y a IH]; [|cbn in So; inversion So; subst; auto]. cbn in So. inversion So; subst. rewrite Forall_forall in H2. now apply H2. } unfold before in B. lia. }
    apply in_rev in Ip. pose proof (find_none _ _ F p Ip) as Z. cbn in Z. rewrite N in Z. discriminate.
Qed.
Lemma prefix_dec (p : place_path) : forall q, prefix p q \/ ~ prefix p q.
Proof.
  induction p as [|i p IH]; intros q; [left; now exists q|]. destruct q as [|j q]; [right; intros (r & H); discriminate|].
  destruct (Nat.eq_dec i j) as [->|N]; [|right; intros (r & H); inversion H; subst; now apply N]. destruct (IH q) as [(r & ->)|Z]; [left; now exists r|]. right. intros (r & H). inversion H. apply Z. now exists r.
Qed.

(** the innermost list: every list around the cursor contains the one that is shown *)
Definition target_path (g : target) : place_path := match g with ForCall q _ | ForTypes q _ | ForStruct q => q end.
Definition opened (t : tree) (q : place_path) : Prop := exists k x, element_at t (q ++ [0]) = Some (TTok k x) /\ is_trivia k = false.
Definition around (t : tree) (q : place_path) (o : nat) : Prop :=
  opened t q /\ r_start (range_at t q) < o /\
  ((node_at t q VALUE_ARG_LIST /\ exists j, closing t q R_PAREN j /\ o <= r_start (range_at t (q ++ [j]))) \/
   (node_at t q TYPE_ARG_LIST /\ exists j, closing t q R_ANGLE j /\ o <= r_start (range_at t (q ++ [j])))).
Theorem signature_innermost : forall t o q, solid t -> 0 < o <= length (elem_text t) -> around t q o ->
  exists g, signature_target t o = Some g /\ prefix q (target_path g).
Proof.
  intros t o q W L ((ok & ox & Eo & Ko) & Lq & A).
  assert (B : exists k j c, is_trivia k = false /\ element_at t q = Some c /\ (exists kk ch, c = TNode kk ch /\ (kk = VALUE_ARG_LIST /\ k = R_PAREN \/ kk = TYPE_ARG_LIST /\ k = R_ANGLE)) /\ closing t q k j /\ o <= r_start (range_at t (q ++ [j]))).
  { destruct A as [[(ch & Q) (j & C & P)]|[(ch & Q) (j & C & P)]]; [exists R_PAREN, j, (TNode VALUE_ARG_LIST ch) | exists R_ANGLE, j, (TNode TYPE_ARG_LIST ch)]; (split; [reflexivity|]); (split; [exact Q|]); (split; [eauto 6|]); auto. }
  clear A. destruct B as (k & j & c & Kt & Q & (kk & ch & -> & KK) & C & P).
  assert (Xc : exists_at t (q ++ [j])) by (destruct C as [(x & Ec) _]; unfold exists_at; congruence).
  pose proof (range_prefix t q [j] Xc) as Rc. unfold inside in Rc.
  destruct (nontrivia_token t _ _ _ Eo Ko) as [To Tn].
  assert (So : r_start (range_at t (q ++ [0])) = r_start (range_at t q)).
  { unfold range_at. cbn [r_start]. rewrite (offset_at_app q [0] t _ Q). cbn. destruct ch; cbn; lia. }
  unfold signature_target. destruct (token_before t o) as [tok|] eqn:T.
  2:{ exfalso. eapply token_before_some; eauto. lia. }
  apply (token_before_spec t o tok W L) in T. destruct T as ((tk & tx & Et) & Nt & Lt & M).
  assert (Ge : r_start (range_at t q) <= r_start (range_at t tok)). { destruct (M _ To Tn ltac:(lia)) as [<-|B]; [lia|]. unfold before in B. pose proof (range_order t (q ++ [0])). lia. }
  assert (Wt : 0 < length tx) by (pose proof (W _ _ _ Et); destruct tx; [congruence|cbn; lia]). pose proof (token_len _ _ _ _ Et) as Len.
  assert (Pq : prefix q tok).
  { destruct (prefix_dec q tok) as [Y|N1]; [exact Y|]. destruct (prefix_dec tok q) as [(s & ->)|N2].
    - destruct s as [|z s]; [rewrite app_nil_r in Q; congruence|]. rewrite element_at_app, Et in Q. discriminate Q.
    - exfalso. pose proof (range_order t (q ++ [j])). destruct (disjoint_ranges t q tok N1 N2) as [D|D]; try congruence; lia. }
  assert (In q (parents tok)). { destruct Pq as (s & ->). apply parents_in. destruct s as [|z s]; [rewrite app_nil_r in Et; congruence|]. eauto. }
  assert (Kq : kind_at t q = Some kk) by (unfold kind_at; now rewrite Q).
  assert (NotClosing : ~ ((kind_at t q = Some VALUE_ARG_LIST -> child_token t q R_PAREN = Some tok) /\ (kind_at t q = Some TYPE_ARG_LIST -> child_token t q R_ANGLE = Some tok))).
  { intros [H1 H2]. assert (Z : child_token t q k = Some tok) by (destruct KK as [[-> ->]|[-> ->]]; auto). rewrite (proj2 (child_token_spec t q k (q ++ [j]))) in Z by eauto. apply some_eq in Z. subst tok. lia. }
  destruct (find_target t tok (parents tok)) as [g|] eqn:G; [|exfalso; apply NotClosing; eapply find_target_none; eauto].
  exists g. split; [reflexivity|]. apply find_target_spec in G as (a & q0 & b & E & G & F).
  assert (target_path g = q0) as -> by (destruct g; cbn; apply G).
  rewrite E in H. apply in_app_or in H as [H|[->|H]].
  - exfalso. rewrite Forall_forall in F. apply NotClosing. now apply F.
  - exists []. now rewrite app_nil_r.
  - pose proof (ups_sorted (rev tok)) as S. fold (parents tok) in S. rewrite E in S. clear -S H. induction a as [|z a IH]; cbn in S; inversion S; subst; [|now apply IH]. rewrite Forall_forall in H3. now apply H3.
Qed.

(** ** Struct literals *)
(** the cursor is in a field that is written out: that field is highlighted *)
Lemma highlighted_at x declared : forall i acc, NoDup declared -> highlighted (Some x) i declared acc = match find_index (fun d => if list_eq_dec N.eq_dec x d then true else false) i declared with Some j => j | None => acc end.
Proof.
  induction declared as [|d r IH]; intros i acc N; cbn; [reflexivity|]. inversion N; subst. rewrite IH by assumption. destruct (list_eq_dec N.eq_dec x d) as [->|D]; [|reflexivity].
  match goal with |- match ?e with _ => _ end = _ => destruct e as [j|] eqn:F; [|reflexivity] end. exfalso. apply find_index_some in F as (_ & (y & Y & Z) & _). destruct (list_eq_dec N.eq_dec d y) as [->|]; [|discriminate]. apply nth_error_In in Y. contradiction.
Qed.
Lemma highlighted_spec x declared j : NoDup declared -> nth_error declared j = Some x -> highlighted (Some x) 0 declared (length declared) = j.
Proof.
  intros N E. rewrite highlighted_at by exact N. match goal with |- match ?e with _ => _ end = _ => destruct e as [m|] eqn:F end.
  - apply find_index_some in F as (_ & (y & Y & Z) & _). rewrite Nat.sub_0_r in Y. destruct (list_eq_dec N.eq_dec x y) as [<-|]; [|discriminate]. apply (proj1 (NoDup_nth_error declared) N m j); [apply nth_error_Some; intros Q; discriminate (eq_trans (eq_sym Y) Q) | exact (eq_trans Y (eq_sym E))].
  - exfalso. pose proof (find_index_none _ _ _ F _ _ E) as Z. cbn in Z. destruct (list_eq_dec N.eq_dec x x); [discriminate|contradiction].
Qed.
Theorem struct_field_named : forall idx lits declared l x j, NoDup declared -> nth_error lits idx = Some l -> lf_name_ref l = Some x -> nth_error declared j = Some x ->
  active_field_index idx lits declared = j.
Proof. intros idx lits declared l x j N E R D. unfold active_field_index, active_field. rewrite E, R. now apply highlighted_spec. Qed.
(** behind the fields that are there: the first declared field that is not filled yet *)
Lemma text_mem_spec x l : text_mem x l = true <-> In x l.
Proof.
  unfold text_mem. rewrite existsb_exists. split; [intros (y & Y & Z); destruct (list_eq_dec N.eq_dec y x); [now subst|discriminate]|]. intros H. exists x. split; [exact H|]. now destruct (list_eq_dec N.eq_dec x x).
Qed.
Lemma somes_in {A B} (f : A -> option B) l y : In y (somes f l) <-> exists x, In x l /\ f x = Some y.
Proof.
  induction l as [|x l IH]; cbn; [firstorder|]. destruct (f x) as [z|] eqn:E; cbn; rewrite IH; split.
  - intros [<-|(u & U & F)]; eauto.
  - intros (u & [<-|U] & F); [left; congruence|right; eauto].
  - intros (u & U & F); eauto.
  - intros (u & [<-|U] & F); [congruence|eauto].
Qed.
Definition filled (lits : list lit_field) (x : text) : Prop := exists l, In l lits /\ lf_field_name l = Some x.
Theorem struct_field_next : forall idx lits declared x j, NoDup declared -> length lits <= idx -> nth_error declared j = Some x -> ~ filled lits x ->
  (forall i y, i < j -> nth_error declared i = Some y -> filled lits y) -> active_field_index idx lits declared = j.
Proof.
  intros idx lits declared x j N L E NF B. unfold active_field_index, active_field. rewrite (proj2 (nth_error_None lits idx) L).
  assert (F : find (fun n => negb (text_mem n (somes lf_field_name lits))) declared = Some x).
  { clear N. revert declared E B. induction j as [|j IH]; intros [|d r] E B; try discriminate; cbn [find].
    - inversion E; subst d. assert (text_mem x (somes lf_field_name lits) = false) as ->. { destruct (text_mem _ _) eqn:Z; [|reflexivity]. apply text_mem_spec, somes_in in Z. contradiction. } reflexivity.
    - assert (text_mem d (somes lf_field_name lits) = true) as ->. { apply text_mem_spec, somes_in. apply (B 0 d); [lia|reflexivity]. } cbn. apply IH; [exact E|]. intros i y I Y. apply (B (S i) y); [lia|exact Y]. }
  rewrite F. now apply highlighted_spec.
Qed.
(** ... but with the cursor on a shorthand field another field is highlighted: `S { a| }` with the fields a, b *)
Theorem struct_field_shorthand_refuted : exists idx lits declared l x j,
  NoDup declared /\ nth_error lits idx = Some l /\ lf_field_name l = Some x /\ nth_error declared j = Some x /\ active_field_index idx lits declared <> j.
Proof.
  exists 0, [mkLitField None (Some [97%N])], [[97%N]; [98%N]], (mkLitField None (Some [97%N])), [97%N], 0.
  split; [repeat constructor; cbn; intuition discriminate|]. repeat (split; [reflexivity|]). vm_compute. discriminate.
Qed.

(** ** The label *)
Lemma slice_app a b c : slice_of (a ++ b ++ c) (mkRange (length a) (length (a ++ b))) = b.
Proof. unfold slice_of. cbn. rewrite app_length. replace (length a + length b - length a) with (length b) by lia. rewrite skipn_app, skipn_all, Nat.sub_diag. cbn. rewrite firstn_app, firstn_all, Nat.sub_diag. cbn. apply app_nil_r. Qed.
(** the texts of the parameters joined with ", " *)
Fixpoint joined (ps : list text) : text := match ps with [] => [] | [p] => p | p :: r => p ++ [44%N; 32%N] ++ joined r end.
Lemma joined_last ps p : joined (ps ++ [p]) = match ps with [] => p | _ => joined ps ++ [44%N; 32%N] ++ p end.
Proof.
  induction ps as [|a ps IH]; [reflexivity|]. destruct ps as [|b ps]; [reflexivity|]. change ((a :: b :: ps) ++ [p]) with (a :: ((b :: ps) ++ [p])).
  change (joined (a :: (b :: ps) ++ [p])) with (a ++ [44%N; 32%N] ++ joined ((b :: ps) ++ [p])). rewrite IH. change (joined (a :: b :: ps)) with (a ++ [44%N; 32%N] ++ joined (b :: ps)). now rewrite <- !app_assoc.
Qed.
Theorem label_parameters : forall ps, h_signature (push_params ps) = joined ps /\ length (h_parameters (push_params ps)) = length ps /\
  (forall i p, nth_error ps i = Some p -> exists r, nth_error (h_parameters (push_params ps)) i = Some r /\ r_start r <= r_end r <= length (h_signature (push_params ps)) /\ slice_of (h_signature (push_params ps)) r = p) /\
  (forall i r r', nth_error (h_parameters (push_params ps)) i = Some r -> nth_error (h_parameters (push_params ps)) (S i) = Some r' -> r_start r' = r_end r + 2).
Proof.
  intros ps. unfold push_params. induction ps as [|p ps IH] using rev_ind; [repeat split; intros [|i]; discriminate|].
  rewrite fold_left_app. cbn [fold_left]. set (h := fold_left push_param ps (mkHelp [] [])) in *. destruct IH as (Sg & Len & At & Sep).
  assert (Last : forall r, nth_error (h_parameters h) (length ps - 1) = Some r -> r_end r = length (h_signature h)).
  { clear -h. subst h. destruct ps as [|z ps _] using rev_ind; [discriminate|]. rewrite fold_left_app, app_length. cbn. replace (length ps + 1 - 1) with (length ps) by lia. set (h := fold_left push_param ps (mkHelp [] [])).
    assert (L : length (h_parameters h) = length ps). { subst h. clear. induction ps as [|a ps IH] using rev_ind; [reflexivity|]. rewrite fold_left_app. cbn. rewrite !app_length, IH. reflexivity. }
    intros r. rewrite nth_error_app2, L, Nat.sub_diag by lia. cbn. intros H. inversion H. reflexivity. }
  set (s := match h_parameters h with [] => h_signature h | _ => h_signature h ++ [44%N; 32%N] end).
  assert (Es : exists d, s = h_signature h ++ d) by (unfold s; destruct (h_parameters h); [exists []; now rewrite app_nil_r | eauto]). destruct Es as (d & Es).
  change (h_signature (push_param h p)) with (s ++ p). change (h_parameters (push_param h p)) with (h_parameters h ++ [mkRange (length s) (length (s ++ p))]).
  split; [|split; [|split]].
  - rewrite joined_last. unfold s. destruct ps as [|a ps]; [reflexivity|]. destruct (h_parameters h) eqn:Hp; [discriminate Len|]. rewrite Sg, <- app_assoc. reflexivity.
  - rewrite !app_length, Len. reflexivity.
  - intros i q E. destruct (Nat.lt_ge_cases i (length ps)) as [Li|Li].
    + rewrite nth_error_app1 in E by exact Li. destruct (At i q E) as (r & R & B & Sl). exists r. rewrite nth_error_app1 by lia. split; [exact R|]. rewrite Es, !app_length. split; [lia|].
      rewrite <- Sl. unfold slice_of. rewrite <- app_assoc, skipn_app, firstn_app, skipn_length. replace (r_end r - r_start r - (length (h_signature h) - r_start r)) with 0 by lia. cbn. now rewrite app_nil_r.
    + rewrite nth_error_app2 in E by exact Li. destruct (i - length ps) as [|z] eqn:Z; [|destruct z; discriminate]. inversion E; subst q. exists (mkRange (length s) (length (s ++ p))). rewrite nth_error_app2 by lia. rewrite Len, Z. split; [reflexivity|]. split; [cbn; rewrite app_length; lia|].
      rewrite <- (app_nil_r p) at 1. apply slice_app.
  - intros i r r' R R'. destruct (Nat.lt_ge_cases (S i) (length ps)) as [Li|Li].
    + rewrite nth_error_app1 in R, R' by lia. eapply Sep; eauto.
    + assert (Ei : S i < length (h_parameters h ++ [mkRange (length s) (length (s ++ p))])) by (apply nth_error_Some; congruence). rewrite app_length in Ei. cbn in Ei.
      rewrite nth_error_app1 in R by lia. rewrite nth_error_app2, Len in R' by lia. replace (S i - length ps) with 0 in R' by lia. cbn in R'. inversion R'; subst r'. cbn. rewrite (Last r) by (replace (length ps - 1) with i by lia; exact R).
      unfold s. destruct (h_parameters h); [destruct i; discriminate|]. rewrite app_length. reflexivity.
Qed.

(** ** Completion: the call around the cursor *)
Definition len_le (t : tree) (a b : place_path) : Prop := len_at t a <= len_at t b.
Lemma kmerge_in t : forall f a b, length a + length b <= f -> forall x, In x (kmerge t f a b) <-> In x a \/ In x b.
Proof.
  induction f as [|f IH]; intros a b L x; [destruct a, b; cbn in L |- *; try lia; tauto|]. cbn [kmerge]. destruct a as [|u a]; [cbn; tauto|]. destruct b as [|v b]; [cbn; tauto|]. cbn in L.
  destruct (len_at t v <? len_at t u); cbn [In]; rewrite IH by (cbn; lia); cbn [In]; tauto.
Qed.
Lemma kmerge_sorted t : forall f a b, length a + length b <= f -> StronglySorted (len_le t) a -> StronglySorted (len_le t) b -> StronglySorted (len_le t) (kmerge t f a b).
Proof.
  induction f as [|f IH]; intros a b L A B; [constructor|]. cbn [kmerge]. destruct a as [|u a]; [exact B|]. destruct b as [|v b]; [exact A|]. cbn in L. inversion A as [|? ? Sa Fa]; inversion B as [|? ? Sb Fb]; subst.
  destruct (len_at t v <? len_at t u) eqn:C; [apply Nat.ltb_lt in C | apply Nat.ltb_ge in C]; constructor; try (apply IH; [cbn; lia|assumption|assumption]);
  apply Forall_forall; intros x X; apply kmerge_in in X; try (cbn; lia); rewrite Forall_forall in Fa, Fb; unfold len_le in *; cbn [In] in X; pose proof (Fa x) as Ax; pose proof (Fb x) as Bx; intuition (subst; lia).
Qed.
Lemma len_range t p : r_end (range_at t p) = r_start (range_at t p) + len_at t p. Proof. reflexivity. Qed.
Lemma parents_sorted t p : exists_at t p -> StronglySorted (len_le t) (parents p).
Proof.
  intros X. assert (Xq : forall q, In q (parents p) -> exists_at t q). { intros q Q. apply parents_in in Q as (i & s & ->). now apply (exists_prefix t q (i :: s)). }
  pose proof (ups_sorted (rev p)) as S. fold (parents p) in S. induction S as [|a l S IH F]; constructor; [apply IH; intros; apply Xq; now right|].
  rewrite Forall_forall in *. intros b B. destruct (F b B) as (r & E). assert (Xa : exists_at t a) by (apply Xq; now left). rewrite E in Xa. pose proof (range_prefix t b r Xa) as R. rewrite <- E in R. unfold inside in R. rewrite !len_range in R. unfold len_le. lia.
Qed.
Lemma touching_exists t o p : touching t o p -> exists_at t p.
Proof. intros ((k & x & E & _) & _). unfold exists_at. congruence. Qed.
(** exactly the nodes above a token that touches the offset *)
Lemma ancestors_in t o p : solid t -> In p (ancestors_at_offset t o) <-> exists tok, touching t o tok /\ In p (parents tok).
Proof.
  intros W. pose proof (fun q => token_at_touching t o q) as T. pose proof (token_at_two (fun _ => true) t o) as Two. unfold ancestors_at_offset. destruct (token_at_offset t o) as [|l [|r [|z m]]].
  - split; [intros []|]. intros (tok & X & _). now apply T in X.
  - split; [intros H; exists l; split; [apply T; now left|exact H]|]. intros (tok & X & P). apply T in X as [->|[]]. exact P.
  - rewrite kmerge_in by lia. split; [intros [H|H]; [exists l|exists r]; (split; [apply T; cbn; auto|exact H])|]. intros (tok & X & P). apply T in X as [->|[->|[]]]; auto.
  - cbn in Two. lia.
Qed.
Lemma ancestors_sorted t o : solid t -> StronglySorted (len_le t) (ancestors_at_offset t o).
Proof.
  intros W. assert (X : forall q, In q (token_at_offset t o) -> exists_at t q) by (intros q Q; apply token_at_touching in Q; eapply touching_exists; eauto). unfold ancestors_at_offset. destruct (token_at_offset t o) as [|l [|r m]]; [constructor|apply parents_sorted, X; cbn; auto|].
  apply kmerge_sorted; [lia|apply parents_sorted, X; cbn; auto|apply parents_sorted, X; cbn; auto].
Qed.

Definition call_kind (k : kind) : Prop := In k [CALL_EXPR; METHOD_CALL_EXPR; ASSERT_MACRO_EXPR; APPLY_LEMMA; BEHAVIOR_PREDICATE_EXPR].
Lemma is_call_spec k : is_call k = true <-> call_kind k.
Proof. unfold call_kind. split; [destruct k; cbn; try discriminate; tauto | intros [<-|[<-|[<-|[<-|[<-|[]]]]]]; reflexivity]. Qed.
Definition call_at (t : tree) (c : place_path) : Prop := exists k ch, element_at t c = Some (TNode k ch) /\ call_kind k.
Definition node_child (t : tree) (q : place_path) (k : kind) (j : nat) : Prop := exists ch, element_at t (q ++ [j]) = Some (TNode k ch).
(** the argument list of a call *)
Definition args_of (t : tree) (c : place_path) (j : nat) : Prop := node_child t c VALUE_ARG_LIST j /\ forall i, i < j -> ~ node_child t c VALUE_ARG_LIST i.
Definition in_args (t : tree) (c : place_path) (o : nat) : Prop := exists j, args_of t c j /\ r_start (range_at t (c ++ [j])) <= o < r_end (range_at t (c ++ [j])).
Lemma node_child_nth t q k j : node_child t q k j <-> exists ch, nth_error (children_of t q) j = Some (TNode k ch).
Proof.
  unfold node_child. split; intros (x & H); exists x; [|now apply child_at]. destruct (exist_children t q j) as (e & A & B); [unfold exists_at; congruence|]. congruence.
Qed.
Lemma is_node_of_spec k e : is_node_of k e = true <-> exists ch, e = TNode k ch.
Proof. destruct e as [k' ch|k' x]; cbn; [|split; [discriminate|intros (x' & H); discriminate]]. rewrite kind_eqb_spec. split; [intros ->; eauto | intros (y & H); now inversion H]. Qed.
Lemma child_node_spec t q a : child_node t q VALUE_ARG_LIST = Some a <-> exists j, a = q ++ [j] /\ args_of t q j.
Proof.
  unfold child_node, args_of. destruct (find_index (is_node_of VALUE_ARG_LIST) 0 (children_of t q)) as [i|] eqn:E; cbn [option_map].
  - apply find_index_some in E as (_ & (e & N & F) & B). rewrite Nat.sub_0_r in *. apply is_node_of_spec in F as (x & ->).
    assert (Ci : node_child t q VALUE_ARG_LIST i) by (apply node_child_nth; eauto).
    assert (Bi : forall m, m < i -> ~ node_child t q VALUE_ARG_LIST m). { intros m M H. apply node_child_nth in H as (y & H). pose proof (B m _ M H) as Z. rewrite (proj2 (is_node_of_spec _ _)) in Z; [discriminate|eauto]. }
    split.
    + intros H. inversion H; subst. exists i. auto.
    + intros (j & -> & Cj & Bj). destruct (Nat.lt_trichotomy i j) as [L|[->|L]]; [exfalso; exact (Bj i L Ci) | reflexivity | exfalso; exact (Bi j L Cj)].
  - split; [discriminate|]. intros (j & _ & Cj & _). apply node_child_nth in Cj as (x & Cj). pose proof (find_index_none _ _ _ E _ _ Cj) as Z. rewrite (proj2 (is_node_of_spec _ _)) in Z; [discriminate|eauto].
Qed.
Lemma args_contain_spec t o c : args_contain t o c = true <-> in_args t c o.
Proof.
  unfold args_contain, in_args. destruct (child_node t c VALUE_ARG_LIST) as [a|] eqn:E.
  - pose proof E as E0. apply child_node_spec in E as (j & -> & A). unfold contains_offset. rewrite andb_true_iff, Nat.leb_le, Nat.ltb_lt. split; [eauto|]. intros (j' & A' & B).
    assert (Z : child_node t c VALUE_ARG_LIST = Some (c ++ [j'])) by (apply child_node_spec; eauto). assert (c ++ [j'] = c ++ [j]) as <- by congruence. exact B.
  - split; [discriminate|]. intros (j & A & _). assert (child_node t c VALUE_ARG_LIST = Some (c ++ [j])) by (apply child_node_spec; eauto). congruence.
Qed.
Lemma find_sorted {A} (R : A -> A -> Prop) f (l : list A) x : StronglySorted R l -> find f l = Some x -> In x l /\ f x = true /\ forall y, In y l -> f y = true -> y = x \/ R x y.
Proof.
  intros S. induction S as [|a l S IH F]; cbn; [discriminate|]. destruct (f a) eqn:E.
  - intros H. inversion H; subst. split; [auto|]. split; [exact E|]. rewrite Forall_forall in F. intros y [->|Y] _; [now left|right; auto].
  - intros H. destruct (IH H) as (I & Fx & M). split; [auto|]. split; [exact Fx|]. intros y [->|Y] Fy; [congruence|auto].
Qed.
Lemma is_call_at_node t p i s : exists_at t (p ++ i :: s) -> is_call_at t p = true -> call_at t p.
Proof.
  unfold is_call_at, kind_at, exists_at, call_at. rewrite element_at_app. destruct (element_at t p) as [[k ch|k x]|]; intros X K; [|exfalso; now apply X|discriminate]. apply is_call_spec in K. eauto.
Qed.
Lemma call_at_is t p : call_at t p -> is_call_at t p = true.
Proof. intros (k & ch & E & K). unfold is_call_at, kind_at. rewrite E. now apply is_call_spec. Qed.
(** the token that covers a byte lies below every node that covers it *)
Lemma token_over t p o k ch : element_at t p = Some (TNode k ch) -> r_start (range_at t p) <= o < r_end (range_at t p) -> exists tok, touching t o tok /\ In p (parents tok).
Proof.
  intros E B. assert (X : exists_at t p) by (unfold exists_at; congruence). pose proof (range_prefix t [] p X) as R. cbn [app] in R. unfold inside in R. assert (Re : r_end (range_at t []) = length (elem_text t)) by reflexivity.
  destruct (token_ending t (S o) ltac:(lia)) as (tok & k' & x & Et & P). pose proof (token_len _ _ _ _ Et) as L. assert (St : r_start (range_at t tok) = offset_at t tok) by reflexivity.
  exists tok. split. { split; [exists k', x; split; [exact Et|]; intros ->; cbn in P; lia|]. lia. }
  destruct (prefix_dec p tok) as [(s & ->)|N1]; [|destruct (prefix_dec tok p) as [(s & ->)|N2]].
  - apply parents_in. destruct s as [|i s]; [rewrite app_nil_r in Et; congruence|eauto].
  - destruct s as [|i s]; [rewrite app_nil_r in E; congruence|]. rewrite element_at_app, Et in E. discriminate E.
  - exfalso. destruct (disjoint_ranges t p tok N1 N2) as [D|D]; try congruence; lia.
Qed.
Lemma in_args_range t c o : in_args t c o -> r_start (range_at t c) <= o < r_end (range_at t c) /\ exists k ch, element_at t c = Some (TNode k ch).
Proof.
  intros (j & [(ch & E) _] & B). assert (X : exists_at t (c ++ [j])) by (unfold exists_at; congruence). pose proof (range_prefix t c [j] X) as R. unfold inside in R. split; [lia|].
  rewrite element_at_app in E. destruct (element_at t c) as [[k ch'|k x]|]; [eauto|discriminate|discriminate].
Qed.

(** what is found: a call, the cursor in its argument list, and -- unless the cursor is just before a comma -- the
    number of commas before it *)
Theorem call_argument_partial : forall t o c n, solid t -> commas_one t -> call_for_offset t o = Some (c, n) ->
  call_at t c /\ exists j m, args_of t c j /\ r_start (range_at t (c ++ [j])) <= o < r_end (range_at t (c ++ [j])) /\ n = Some m /\
    ((forall i, token_child t (c ++ [j]) COMMA i -> r_start (range_at t ((c ++ [j]) ++ [i])) <> o) -> commas_before t (c ++ [j]) o m).
Proof.
  intros t o c n W C1. unfold call_for_offset. destruct (find (args_contain t o) (filter (is_call_at t) (ancestors_at_offset t o))) as [c'|] eqn:F; [|discriminate]. intros H. injection H as -> <-.
  apply find_some in F as [I A]. apply filter_In in I as [I K]. apply ancestors_in in I as (tok & T & P); [|exact W]. apply touching_exists in T. apply parents_in in P as (i & s & ->).
  split; [eapply is_call_at_node; eauto|]. apply args_contain_spec in A as (j & A & B). assert (child_node t c VALUE_ARG_LIST = Some (c ++ [j])) as -> by (apply child_node_spec; eauto). cbn [option_map].
  exists j, (active_param t (c ++ [j]) o). split; [exact A|]. split; [exact B|]. split; [reflexivity|]. intros N. apply active_param_count; [exact W|]. intros m M. specialize (N m M). destruct M as (x & E). pose proof (token_len _ _ _ _ E). rewrite (C1 _ _ E) in *. lia.
Qed.
(** it is the innermost one *)
Theorem call_innermost : forall t o c', solid t -> call_at t c' -> in_args t c' o ->
  exists c n, call_for_offset t o = Some (c, n) /\ in_args t c o /\ inside (range_at t c) (range_at t c').
Proof.
  intros t o c' W K A. destruct (in_args_range t c' o A) as [B' (k' & ch' & E')]. unfold call_for_offset.
  assert (I : In c' (filter (is_call_at t) (ancestors_at_offset t o))). { apply filter_In. split; [|now apply call_at_is]. apply ancestors_in; [exact W|]. eapply token_over; eauto. }
  destruct (find (args_contain t o) (filter (is_call_at t) (ancestors_at_offset t o))) as [c|] eqn:F.
  2:{ pose proof (find_none _ _ F c' I) as Z. cbn in Z. rewrite (proj2 (args_contain_spec t o c') A) in Z. discriminate. }
  destruct (find_sorted (len_le t) _ _ _ (filter_sorted _ _ _ (ancestors_sorted t o W)) F) as (Ic & Ac & M). apply args_contain_spec in Ac.
  eexists c, _. split; [reflexivity|]. split; [exact Ac|]. destruct (in_args_range t c o Ac) as [B (k & ch & E)].
  destruct (M c' I (proj2 (args_contain_spec t o c') A)) as [->|L]; [unfold inside; lia|]. unfold len_le in L.
  destruct (prefix_dec c' c) as [(s & ->)|N1]; [apply range_prefix; unfold exists_at; congruence|]. destruct (prefix_dec c c') as [(s & ->)|N2].
  - assert (X : exists_at t (c ++ s)) by (unfold exists_at; congruence). pose proof (range_prefix t c s X) as R. unfold inside in *. rewrite !len_range in *. lia.
  - exfalso. destruct (disjoint_ranges t c' c N1 N2) as [D|D]; try congruence; lia.
Qed.
(** its parameters are the ones looked up, if no other call that is as short touches its start *)
Theorem looked_up_partial : forall t o c n, solid t -> call_for_offset t o = Some (c, n) ->
  (forall c', call_at t c' -> r_start (range_at t c') <= r_start (range_at t c) <= r_end (range_at t c') -> c' = c \/ len_at t c < len_at t c') ->
  looked_up_call t o = Some (c, n).
Proof.
  intros t o c n W H U. unfold looked_up_call. rewrite H. unfold call_for_offset in H. destruct (find (args_contain t o) _) as [c'|] eqn:F; [|discriminate]. injection H as -> <-. apply find_some in F as [I A]. apply filter_In in I as [_ K].
  apply args_contain_spec in A. destruct (in_args_range t c o A) as [B (k & ch & E)]. set (s := r_start (range_at t c)).
  assert (Ic : In c (ancestors_at_offset t s)). { apply ancestors_in; [exact W|]. eapply token_over; [exact E|]. subst s. lia. }
  destruct (find (is_call_at t) (ancestors_at_offset t s)) as [c'|] eqn:F.
  2:{ pose proof (find_none _ _ F c Ic) as Z. cbn in Z. congruence. }
  destruct (find_sorted (len_le t) _ _ _ (ancestors_sorted t s W) F) as (I & K' & M). apply ancestors_in in I as (tok & T & P); [|exact W]. pose proof (touching_exists _ _ _ T) as X. apply parents_in in P as (i & r & ->).
  pose proof (range_prefix t c' (i :: r) X) as R. unfold inside in R. destruct T as [_ T]. 
  assert (Kc : call_at t c') by (eapply is_call_at_node; eauto).
  destruct (U c' Kc) as [->|L]; [fold s; lia | reflexivity|]. destruct (M c Ic K) as [<-|L']; [reflexivity|]. unfold len_le in L'. lia.
Qed.

(** * Examples *)
Definition commas_one_b (t : tree) : bool := forallb (fun p => match element_at t p with Some (TTok COMMA x) => length x =? 1 | _ => true end) (tokens_from [] t).
Lemma commas_one_sound t : commas_one_b t = true -> commas_one t.
Proof.
  unfold commas_one_b. rewrite forallb_forall. intros H p x E. assert (I : In p (tokens_from [] t)) by (apply all_tokens; now exists COMMA, x). specialize (H p I). cbn in H. rewrite E in H. now apply Nat.eqb_eq in H.
Qed.
Definition ex_sig : text := str "module 0x1::m { fun f() { a.b(1).c(2, 3); g(h(4), S { x, y: 5 }); k<u8, u16>(); } }".
Definition ex_sig_tree : tree := match parsed ex_sig with Some t => t | None => TTok COMMENT [] end.
Lemma ex_sig_parsed : parsed ex_sig = Some ex_sig_tree.
Proof. assert (H : match parsed ex_sig with Some _ => true | None => false end = true) by (vm_compute; reflexivity). unfold ex_sig_tree. destruct (parsed ex_sig); [reflexivity|discriminate]. Qed.
Lemma ex_sig_solid : solid ex_sig_tree. Proof. apply solid_b_sound. vm_compute. reflexivity. Qed.
Lemma ex_sig_commas : commas_one ex_sig_tree. Proof. apply commas_one_sound. vm_compute. reflexivity. Qed.
Lemma ex_sig_len o : 0 < o <= 83 -> 0 < o <= length (elem_text ex_sig_tree).
Proof. assert (L : length (elem_text ex_sig_tree) = 83) by (vm_compute; reflexivity). now rewrite L. Qed.
(** the argument lists of the calls of c, g, h, and the type arguments of k *)
Definition ex_c : place_path := [0; 8; 5; 2; 0].
Definition ex_g : place_path := [0; 8; 5; 4; 0].
Definition ex_h : place_path := [0; 8; 5; 4; 0; 1; 1; 0].
Definition ex_k : place_path := [0; 8; 5; 6; 0; 0; 0; 0; 1].
Lemma range_is t p a b : range_at t p = mkRange a b -> r_start (range_at t p) = a /\ r_end (range_at t p) = b.
Proof. intros ->. auto. Qed.

(** `.c(2, |3)`, and `k<u8, u|16>` *)
Example signature_argument_example : signature_target ex_sig_tree 38 = Some (ForCall (ex_c ++ [3]) 1) /\ signature_target ex_sig_tree 73 = Some (ForTypes ex_k 1) /\ signature_target ex_sig_tree 48 = Some (ForCall (ex_g ++ [1]) 0) /\
  commas_before ex_sig_tree (ex_c ++ [3]) 38 1 /\ commas_before ex_sig_tree ex_k 73 1 /\ commas_before ex_sig_tree (ex_g ++ [1]) 48 0.
Proof.
  assert (A : signature_target ex_sig_tree 38 = Some (ForCall (ex_c ++ [3]) 1)) by (vm_compute; reflexivity). assert (B : signature_target ex_sig_tree 73 = Some (ForTypes ex_k 1)) by (vm_compute; reflexivity). assert (C : signature_target ex_sig_tree 48 = Some (ForCall (ex_g ++ [1]) 0)) by (vm_compute; reflexivity).
  refine (conj A (conj B (conj C (conj _ (conj _ _))))); (eapply signature_argument; [exact ex_sig_solid|exact ex_sig_commas|apply ex_sig_len; lia|]); [left; exact A|right; exact B|left; exact C].
Qed.
Lemma closing_at t q k c : child_token t q k = Some c -> exists j, c = q ++ [j] /\ closing t q k j.
Proof. apply child_token_spec. Qed.
(** the cursor in h(4|): the call of h is the innermost of the two lists around it *)
Example signature_innermost_example : around ex_sig_tree (ex_g ++ [1]) 47 /\ around ex_sig_tree (ex_h ++ [1]) 47 /\ closed ex_sig_tree (ex_h ++ [1]) R_PAREN 2 /\ signature_target ex_sig_tree 47 = Some (ForCall (ex_h ++ [1]) 0).
Proof.
  assert (R1 : r_start (range_at ex_sig_tree (ex_g ++ [1])) = 43) by (vm_compute; reflexivity). assert (R2 : r_start (range_at ex_sig_tree (ex_h ++ [1])) = 45) by (vm_compute; reflexivity).
  assert (C1 : child_token ex_sig_tree (ex_g ++ [1]) R_PAREN = Some ((ex_g ++ [1]) ++ [5])) by (vm_compute; reflexivity). assert (C2 : child_token ex_sig_tree (ex_h ++ [1]) R_PAREN = Some ((ex_h ++ [1]) ++ [2])) by (vm_compute; reflexivity).
  assert (S1 : r_start (range_at ex_sig_tree ((ex_g ++ [1]) ++ [5])) = 63) by (vm_compute; reflexivity). assert (S2 : r_start (range_at ex_sig_tree ((ex_h ++ [1]) ++ [2])) = 47) by (vm_compute; reflexivity).
  apply closing_at in C1 as (j1 & E1 & C1). apply app_inv_head in E1. injection E1 as <-. apply closing_at in C2 as (j2 & E2 & C2). apply app_inv_head in E2. injection E2 as <-.
  split; [|split; [|split; [split; [exact C2|vm_compute; reflexivity]|vm_compute; reflexivity]]].
  - split; [exists L_PAREN, [40%N]; split; vm_compute; reflexivity|]. split; [rewrite R1; lia|]. left. split; [eexists; vm_compute; reflexivity|]. exists 5. split; [exact C1|rewrite S1; lia].
  - split; [exists L_PAREN, [40%N]; split; vm_compute; reflexivity|]. split; [rewrite R2; lia|]. left. split; [eexists; vm_compute; reflexivity|]. exists 2. split; [exact C2|rewrite S2; lia].
Qed.
(** `S { x, y: 5| }` and `S { y: 5, | }` with the fields x, y, z *)
Example struct_field_example : let declared := [[120%N]; [121%N]; [122%N]] in let x := mkLitField None (Some [120%N]) in let y := mkLitField (Some [121%N]) (Some [121%N]) in
  NoDup declared /\ active_field_index 1 [x; y] declared = 1 /\ active_field_index 1 [y] declared = 0 /\ active_field_index 2 [x; y] declared = 2.
Proof. cbv zeta. split; [repeat constructor; cbn; intuition discriminate|]. repeat split. Qed.
Example label_example : push_params [str "a: u8"; str "b: bool"] = mkHelp (str "a: u8, b: bool") [mkRange 0 5; mkRange 7 14]. Proof. reflexivity. Qed.
(** `g(h(4), S| ...)`: the call of g, its second argument; it is the only call that starts there *)
Example call_argument_example : call_for_offset ex_sig_tree 51 = Some (ex_g, Some 1) /\ looked_up_call ex_sig_tree 51 = Some (ex_g, Some 1) /\ call_at ex_sig_tree ex_g /\ in_args ex_sig_tree ex_g 51 /\
  (forall i, token_child ex_sig_tree (ex_g ++ [1]) COMMA i -> r_start (range_at ex_sig_tree ((ex_g ++ [1]) ++ [i])) <> 51).
Proof.
  split; [vm_compute; reflexivity|]. split; [vm_compute; reflexivity|]. split; [eexists _, _; split; [vm_compute; reflexivity|apply is_call_spec; reflexivity]|]. split; [apply args_contain_spec; vm_compute; reflexivity|].
  intros i H. assert (I : In ((ex_g ++ [1]) ++ [i]) (comma_children ex_sig_tree (ex_g ++ [1]))) by (exact (proj2 (comma_children_in ex_sig_tree _ _) (ex_intro _ i (conj eq_refl H)))). assert (L : comma_children ex_sig_tree (ex_g ++ [1]) = [(ex_g ++ [1]) ++ [2]]) by (vm_compute; reflexivity). rewrite L in I.
  destruct I as [E|[]]. rewrite <- E. assert (R : r_start (range_at ex_sig_tree ((ex_g ++ [1]) ++ [2])) = 48) by (vm_compute; reflexivity). rewrite R. lia.
Qed.

(** * Not so *)
(** just before a comma the expected type is that of the next parameter (`g(h(4)|, ...)`), although signature help
    shows the one before it *)
Theorem call_argument_refuted : exists s t o c j m, parsed s = Some t /\ solid t /\ commas_one t /\ call_for_offset t o = Some (c, Some m) /\ args_of t c j /\
  commas_before t (c ++ [j]) o 0 /\ m = 1 /\ signature_target t o = Some (ForCall (c ++ [j]) 0).
Proof.
  exists ex_sig, ex_sig_tree, 48, ex_g, 1, 1. split; [exact ex_sig_parsed|]. split; [exact ex_sig_solid|]. split; [exact ex_sig_commas|]. split; [vm_compute; reflexivity|]. split.
  - assert (E : child_node ex_sig_tree ex_g VALUE_ARG_LIST = Some (ex_g ++ [1])) by (vm_compute; reflexivity). apply child_node_spec in E as (j & E & A). apply app_inv_head in E. injection E as <-. exact A.
  - split; [apply signature_argument_example|]. split; [reflexivity|]. vm_compute. reflexivity.
Qed.
(** in the arguments of a method that is called on the result of a call -- `a.b(1).c(2|, 3)` -- the parameters of
    the first call are looked up *)
Theorem looked_up_refuted : exists s t o c c' n, parsed s = Some t /\ solid t /\ call_for_offset t o = Some (c, n) /\ looked_up_call t o = Some (c', n) /\ prefix c c' /\ c <> c' /\ in_args t c o /\ ~ in_args t c' o.
Proof.
  exists ex_sig, ex_sig_tree, 35, ex_c, (ex_c ++ [0]), (Some 0). split; [exact ex_sig_parsed|]. split; [exact ex_sig_solid|]. split; [vm_compute; reflexivity|]. split; [vm_compute; reflexivity|]. split; [now exists [0]|]. split; [discriminate|].
  split; [apply args_contain_spec; vm_compute; reflexivity|]. intros H. apply args_contain_spec in H. vm_compute in H. discriminate H.
Qed.
(** at the end of the name of the function -- `g(h|(4), ...)` -- the cursor is taken to be in its first argument,
    and not in that of the call around it *)
Theorem call_inside_refuted : exists s t o c j, parsed s = Some t /\ solid t /\ call_for_offset t o = Some (c, Some 0) /\ args_of t c j /\ o = r_start (range_at t (c ++ [j])) /\
  exists q, signature_target t o = Some (ForCall q 0) /\ prefix q c.
Proof.
  exists ex_sig, ex_sig_tree, 45, ex_h, 1. split; [exact ex_sig_parsed|]. split; [exact ex_sig_solid|]. split; [vm_compute; reflexivity|]. split.
  - assert (E : child_node ex_sig_tree ex_h VALUE_ARG_LIST = Some (ex_h ++ [1])) by (vm_compute; reflexivity). apply child_node_spec in E as (j & E & A). apply app_inv_head in E. injection E as <-. exact A.
  - split; [vm_compute; reflexivity|]. exists (ex_g ++ [1]). split; [vm_compute; reflexivity|]. now exists [1; 0].
Qed.

Print Assumptions signature_argument.
Print Assumptions signature_inside.
Print Assumptions signature_innermost.
Print Assumptions struct_field_named.
Print Assumptions struct_field_next.
Print Assumptions struct_field_shorthand_refuted.
Print Assumptions label_parameters.
Print Assumptions call_argument_partial.
Print Assumptions call_innermost.
Print Assumptions looked_up_partial.
Print Assumptions call_argument_refuted.
Print Assumptions looked_up_refuted.
Print Assumptions call_inside_refuted.
