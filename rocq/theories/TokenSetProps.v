(** C15: token sets are sets. *)
From Verif Require Import Base SyntaxKind TokenSetModel.
Open Scope N_scope.

(** Specification: sets of kinds as predicates. *)
Fixpoint denotes (e : ts_expr) (k : kind) : Prop :=
  match e with
  | TEmpty => False
  | TNew ks => In k ks
  | TOf k' => k = k'
  | TUnion a b => denotes a k \/ denotes b k
  | TSub a b => denotes a k /\ ~ denotes b k
  | TOrKind a k' => denotes a k \/ k = k'
  | TKindOrKind a b => k = a \/ k = b
  | TKindOr k' a => k = k' \/ denotes a k
  end.

(** The kinds that fit in the mask. *)
Definition small (k : kind) : Prop := disc k < 128.
Fixpoint mentions_small (e : ts_expr) : Prop :=
  match e with
  | TEmpty => True
  | TNew ks => Forall small ks
  | TOf k => small k
  | TUnion a b | TSub a b => mentions_small a /\ mentions_small b
  | TOrKind a k | TKindOr k a => mentions_small a /\ small k
  | TKindOrKind a b => small a /\ small b
  end.

Definition fits (a : token_set) : Prop := forall i, 128 <= i -> N.testbit a i = false.
Definition repr (a : token_set) (P : kind -> Prop) : Prop :=
  fits a /\ forall k, small k -> (N.testbit a (disc k) = true <-> P k).

Lemma mask_small : forall p k, small k -> mask p k = Ok (N.shiftl 1 (disc k)).
Proof. intros p k H. unfold mask. apply N.ltb_lt in H. now rewrite H. Qed.

Lemma bit_one : forall d i, N.testbit (N.shiftl 1 d) i = (i =? d).
Proof.
  intros d i. destruct (N.ltb_spec i d).
  - rewrite N.shiftl_spec_low by lia. symmetry. apply N.eqb_neq. lia.
  - rewrite N.shiftl_spec_high by lia. destruct (N.eqb_spec i d).
    + subst. now rewrite N.sub_diag.
    + apply N.bits_above_log2. cbn. lia.
Qed.

Lemma contains_testbit : forall p a k, small k -> contains p a k = Ok (N.testbit a (disc k)).
Proof.
  intros p a k H. unfold contains. rewrite mask_small by auto. cbn [bind]. f_equal.
  destruct (N.testbit a (disc k)) eqn:E.
  - apply negb_true_iff, N.eqb_neq. intros K. apply (f_equal (fun x => N.testbit x (disc k))) in K.
    rewrite N.land_spec, bit_one, N.eqb_refl, E in K. rewrite N.bits_0 in K. discriminate.
  - apply negb_false_iff, N.eqb_eq. apply N.bits_inj. intros i. rewrite N.land_spec, bit_one, N.bits_0.
    destruct (N.eqb_spec i (disc k)); [subst; now rewrite E|apply andb_false_r].
Qed.

Lemma new_loop_repr : forall p ks acc P, Forall small ks -> repr acc P ->
  exists a, new_loop p acc ks = Ok a /\ repr a (fun k => P k \/ In k ks).
Proof.
  intros p. induction ks as [|k ks IH]; intros acc P HF HR; cbn [new_loop].
  - exists acc. split; [reflexivity|]. destruct HR as [H1 H2]. split; auto. intros k Hk. rewrite H2 by auto. cbn. tauto.
  - inversion HF as [|? ? Hk HF']; subst. rewrite mask_small by auto. cbn [bind].
    destruct (IH (N.lor acc (N.shiftl 1 (disc k))) (fun x => P x \/ x = k) HF') as (a & E & H1 & H2).
    { destruct HR as [H1 H2]. split.
      - intros i Hi. rewrite N.lor_spec, H1, bit_one by auto. cbn. apply N.eqb_neq. unfold small in Hk. lia.
      - intros x Hx. rewrite N.lor_spec, bit_one, orb_true_iff, N.eqb_eq, H2 by auto.
        split; (intros [A|A]; [auto|right]); [now apply disc_inj|now subst]. }
    exists a. split; [auto|]. split; auto. intros x Hx. rewrite H2 by auto. cbn [In]. intuition congruence.
Qed.

Lemma empty_repr : repr 0 (fun _ => False).
Proof. split; [intros i _; apply N.bits_0|]. intros k _. rewrite N.bits_0. split; [discriminate|tauto]. Qed.

Lemma new_repr : forall p ks, Forall small ks -> exists a, new p ks = Ok a /\ repr a (fun k => In k ks).
Proof.
  intros p ks H. destruct (new_loop_repr p ks 0 _ H empty_repr) as (a & E & H1 & H2).
  exists a. split; [exact E|]. split; auto. intros k Hk. rewrite H2 by auto. tauto.
Qed.

Lemma union_repr : forall a b P Q, repr a P -> repr b Q -> repr (union a b) (fun k => P k \/ Q k).
Proof.
  intros a b P Q [H1 H2] [H3 H4]. split.
  - intros i Hi. unfold union. now rewrite N.lor_spec, H1, H3.
  - intros k Hk. unfold union. rewrite N.lor_spec, orb_true_iff, H2, H4 by auto. tauto.
Qed.

Lemma sub_repr : forall a b P Q, repr a P -> repr b Q -> repr (sub a b) (fun k => P k /\ ~ Q k).
Proof.
  intros a b P Q [H1 H2] [H3 H4]. split.
  - intros i Hi. unfold sub. now rewrite N.land_spec, H1.
  - intros k Hk. unfold sub. rewrite N.land_spec, andb_true_iff, H2 by auto.
    rewrite N.lnot_spec_low by exact Hk. rewrite negb_true_iff, <- (H4 k Hk).
    destruct (N.testbit b (disc k)); intuition congruence.
Qed.

Lemma repr_ext : forall a (P Q : kind -> Prop), repr a P -> (forall k, P k <-> Q k) -> repr a Q.
Proof. intros a P Q [H1 H2] H. split; auto. intros k Hk. rewrite H2 by auto. apply H. Qed.

Lemma eval_repr : forall p e, mentions_small e -> exists a, eval p e = Ok a /\ repr a (denotes e).
Proof.
  intros p. induction e as [|ks|k|a IHa b IHb|a IHa b IHb|a IHa k|k1 k2|k a IHa]; cbn [mentions_small eval denotes]; intros H.
  - exists 0. split; [reflexivity|apply empty_repr].
  - now apply new_repr.
  - destruct (new_repr p [k]) as (a & E & HR); [auto|]. exists a. split; auto. eapply repr_ext; eauto. cbn. intuition congruence.
  - destruct H as [Ha Hb]. destruct (IHa Ha) as (x & -> & Hx). destruct (IHb Hb) as (y & -> & Hy). cbn [bind].
    eexists. split; [reflexivity|]. now apply union_repr.
  - destruct H as [Ha Hb]. destruct (IHa Ha) as (x & -> & Hx). destruct (IHb Hb) as (y & -> & Hy). cbn [bind].
    eexists. split; [reflexivity|]. now apply sub_repr.
  - destruct H as [Ha Hk]. destruct (IHa Ha) as (x & -> & Hx). destruct (new_repr p [k]) as (y & -> & Hy); [auto|]. cbn [bind].
    eexists. split; [reflexivity|]. eapply repr_ext; [apply union_repr; eauto|]. cbn. intuition congruence.
  - destruct H as [H1 H2]. destruct (new_repr p [k1; k2]) as (y & E & Hy); [auto|]. exists y. split; auto.
    eapply repr_ext; eauto. cbn. intuition congruence.
  - destruct H as [Ha Hk]. destruct (IHa Ha) as (x & -> & Hx). destruct (new_repr p [k]) as (y & -> & Hy); [auto|]. cbn [bind].
    eexists. split; [reflexivity|]. eapply repr_ext; [apply union_repr; eauto|]. cbn. intuition congruence.
Qed.

(** In either build profile a token set expression over kinds below 128 evaluates without panicking, and
    [contains] answers membership for all such kinds. *)
Theorem token_set_membership : forall p e, mentions_small e ->
  exists a, eval p e = Ok a /\ forall k, small k ->
    exists b, contains p a k = Ok b /\ (b = true <-> denotes e k).
Proof.
  intros p e H. destruct (eval_repr p e H) as (a & E & _ & HR). exists a. split; [exact E|].
  intros k Hk. rewrite contains_testbit by auto. eexists. split; [reflexivity|]. now apply HR.
Qed.
Print Assumptions token_set_membership.

Lemma all_kinds_small : forall k, In k (firstn 128 all_kinds) <-> small k.
Proof.
  intros k. unfold small. split.
  - intros H. apply N.ltb_lt. revert k H. apply Forall_forall. vm_compute. repeat constructor.
  - intros H. pose proof (of_disc_disc k) as E. unfold of_disc in E.
    rewrite <- (firstn_skipn 128 all_kinds) in E.
    rewrite nth_error_app1 in E; [now apply nth_error_In in E|].
    change (length (firstn 128 all_kinds)) with 128%nat. lia.
Qed.

(** [is_empty] and the listing of the members agree with membership; equal sets have equal masks. *)
Theorem token_set_extensional : forall p e1 e2 a1 a2, mentions_small e1 -> mentions_small e2 ->
  eval p e1 = Ok a1 -> eval p e2 = Ok a2 ->
  (is_empty a1 = true <-> forall k, small k -> ~ denotes e1 k) /\
  (forall k, In k (kinds p a1) <-> small k /\ denotes e1 k) /\
  (a1 = a2 <-> forall k, small k -> (denotes e1 k <-> denotes e2 k)).
Proof.
  intros p e1 e2 a1 a2 H1 H2 E1 E2.
  destruct (eval_repr p e1 H1) as (x & Ex & F1 & R1). rewrite E1 in Ex. injection Ex as <-.
  destruct (eval_repr p e2 H2) as (y & Ey & F2 & R2). rewrite E2 in Ey. injection Ey as <-.
  assert (Hbit : forall i, i < 128 -> exists k, disc k = i).
  { intros i Hi. assert (K : of_disc i <> None).
    { unfold of_disc. apply nth_error_Some. change (length all_kinds) with 307%nat. lia. }
    destruct (of_disc i) as [k|] eqn:E; [|congruence]. exists k. unfold of_disc in E.
    assert (G : forall n k, nth_error all_kinds n = Some k -> disc k = N.of_nat n).
    { clear. intros n k. 
      assert (K : forall m l, map disc l = map N.of_nat (seq m (length l)) -> forall n k, nth_error l n = Some k -> disc k = N.of_nat (m + n)).
      { intros m l. revert m. induction l as [|c l IH]; intros m H n' k' Hn; [destruct n'; discriminate|].
        cbn [map length seq] in H. injection H as Hc Hl. destruct n' as [|n']; cbn in Hn.
        - injection Hn as <-. rewrite Hc. f_equal. lia.
        - rewrite (IH (S m) Hl n' k' Hn). f_equal. lia. }
      apply (K 0%nat). vm_compute. reflexivity. }
    apply G in E. lia. }
  split; [|split].
  - unfold is_empty. rewrite N.eqb_eq. split.
    + intros -> k Hk Hd. apply R1 in Hd; auto. now rewrite N.bits_0 in Hd.
    + intros H. apply N.bits_inj. intros i. rewrite N.bits_0. destruct (N.lt_ge_cases i 128) as [Hi|Hi]; [|now apply F1].
      destruct (Hbit i Hi) as [k <-]. destruct (N.testbit a1 (disc k)) eqn:E; auto. apply R1 in E; auto. now apply H in E.
  - intros k. unfold kinds. rewrite filter_In, all_kinds_small. split.
    + intros [Hk Hc]. rewrite contains_testbit in Hc by auto. split; auto. now apply R1.
    + intros [Hk Hd]. split; auto. rewrite contains_testbit by auto. now apply R1.
  - split.
    + intros <- k Hk. rewrite <- R1, <- R2 by auto. tauto.
    + intros H. apply N.bits_inj. intros i. destruct (N.lt_ge_cases i 128) as [Hi|Hi]; [|now rewrite F1, F2].
      destruct (Hbit i Hi) as [k <-]. specialize (H k Hi). specialize (R1 k Hi). specialize (R2 k Hi).
      destruct (N.testbit a1 (disc k)), (N.testbit a2 (disc k)); intuition congruence.
Qed.
Print Assumptions token_set_extensional.

(** Kinds the parser can look at: lexer.rs:57-172 (all results of [aptos_token_kind_to_syntax_kind]) without
    the trivia it never sees, the end marker, and every keyword a contextual remap can produce. *)
Definition parser_visible : list kind :=
  EOF :: [BAD_CHARACTER; INT_NUMBER; IDENT; QUOTE_IDENT; BYTE_STRING; HEX_STRING; PLUS; MINUS; STAR; SLASH; PERCENT; AT;
   POUND; UNDERSCORE; L_PAREN; R_PAREN; L_CURLY; R_CURLY; L_BRACK; R_BRACK; L_ANGLE; R_ANGLE; EQ_EQ; NOT_EQ; CARET;
   AMP; PIPE; PLUS_EQ; MINUS_EQ; STAR_EQ; SLASH_EQ; PERCENT_EQ; CARET_EQ; AMP_EQ; PIPE_EQ; FAT_ARROW; IMPLIES; EQ; BANG;
   DOT; COMMA; SEMICOLON; COLON; COLON_COLON; DOT_DOT] ++ filter is_keyword all_kinds.

Theorem parser_visible_small : Forall small parser_visible.
Proof. unfold parser_visible, small. vm_compute. repeat constructor. Qed.
Print Assumptions parser_visible_small.

(** The bound matters: a comment (discriminant 128) makes a debug build panic, and in a release build it is
    confused with the tombstone. *)
Theorem token_set_big_kind_refuted :
  eval Debug (TNew [COMMENT]) = Panic /\
  exists a, eval Release (TNew [COMMENT]) = Ok a /\ contains Release a TOMBSTONE = Ok true /\ ~ denotes (TNew [COMMENT]) TOMBSTONE.
Proof.
  split; [reflexivity|]. eexists. split; [reflexivity|]. split; [reflexivity|]. cbn. intros [H|[]]. discriminate.
Qed.
Print Assumptions token_set_big_kind_refuted.

Example ex_ts : ts_expr := TSub (TOrKind (TNew [PLUS; IDENT; QUOTE_IDENT]) EOF) (TKindOrKind PLUS COMMA).
Example ex_ts_small : mentions_small ex_ts.
Proof. unfold ex_ts, small. cbn. repeat split; repeat constructor. Qed.
Example ex_ts_kinds : forall p, exists a, eval p ex_ts = Ok a /\ kinds p a = [EOF; IDENT; QUOTE_IDENT].
Proof. intros p. destruct p; eexists; (split; [reflexivity|vm_compute; reflexivity]). Qed.
