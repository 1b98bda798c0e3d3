(** Termination of the grammar, part 1: a judgement saying that a computation does not run out of fuel, only
    moves forward, and consumes a token when its result says so.

    The allowance: a recursive call that is made with [3 * tokens left + rank + 1 <= n] succeeds within [n]
    unfoldings, where the rank orders the functions that call each other without consuming anything. *)
From Coq Require Import String.
From Verif Require Import Base SyntaxKind ParserModel ParserSpec ParserProofs ParserProofs2 TreeSinkProps AddressModel GrammarBase GrammarModel GrammarDisc.
Close Scope string_scope.

(** * What every computation keeps *)
(** events up to what markers change in them *)
Definition tk (e : event) : option nat := match e with EToken _ n => Some n | EStart _ _ => None | _ => Some 0 end.
Definition grows (p p' : parser) : Prop := p_toks p' = p_toks p /\ exists a b, p_events p' = a ++ b /\ map tk a = map tk (p_events p).
Definition sound (p : parser) : Prop := Forall (fun t => rt_kind (fst t) <> EOF) (p_toks p) /\ p_pos p = toks_of (p_events p) /\ p_pos p <= length (p_toks p).
Lemma grows_refl : forall p, grows p p. Proof. intros p. split; auto. exists (p_events p), []. now rewrite app_nil_r. Qed.
Lemma map_app_split : forall {A B} (f : A -> B) l a b, map f l = a ++ b -> exists l1 l2, l = l1 ++ l2 /\ map f l1 = a /\ map f l2 = b.
Proof.
  intros A B f l a. revert l. induction a as [|x a IH]; intros l b H; [exists [], l; auto|]. destruct l as [|y l]; [discriminate|]. injection H as <- H.
  destruct (IH _ _ H) as (l1 & l2 & -> & <- & <-). exists (y :: l1), l2. auto.
Qed.
Lemma grows_trans : forall p q r, grows p q -> grows q r -> grows p r.
Proof.
  intros p q r [T1 (a & b & E1 & M1)] [T2 (c & d & E2 & M2)]. split; [congruence|]. rewrite E1, map_app in M2. destruct (map_app_split _ _ _ _ M2) as (c1 & c2 & -> & M3 & M4). exists c1, (c2 ++ d). rewrite E2, app_assoc. split; auto. congruence.
Qed.
Lemma toks_of_tk : forall a b, map tk a = map tk b -> toks_of a = toks_of b.
Proof.
  induction a as [|x a IH]; intros [|y b] H; try discriminate; auto. cbn in H. injection H as H1 H2. specialize (IH _ H2). destruct x as [| |? n|], y as [| |? n'|]; cbn in *; try discriminate; try exact IH; inversion H1; subst; cbn; lia.
Qed.
Lemma grows_pos : forall p p', sound p -> sound p' -> grows p p' -> p_pos p <= p_pos p'.
Proof. intros p p' (_ & A & _) (_ & B & _) [_ (x & y & E & M)]. rewrite A, B, E, toks_of_app, (toks_of_tk _ _ M). lia. Qed.
Lemma grows_left : forall p p', grows p p' -> p_pos p <= p_pos p' -> left_ p' <= left_ p.
Proof. intros p p' [T _] L. unfold left_. rewrite T. lia. Qed.

Definition not_eof (p : parser) : Prop := current p <> EOF.
Lemma not_eof_lt : forall p, not_eof p -> p_pos p < length (p_toks p).
Proof. intros p H. pose proof (not_eof_in p) as N. destruct (kind_eqb_reflect (current p) EOF); [contradiction|]. specialize (N eq_refl). lia. Qed.
Lemma grows_push : forall p e, grows p (push_event e p). Proof. intros p e. split; auto. exists (p_events p), [e]. auto. Qed.
Lemma sound_push : forall p e, sound p -> toks_of [e] = 0 -> sound (push_event e p).
Proof. intros p e (A & B & C) T. split; auto. cbn. rewrite toks_of_app, T. split; [lia|auto]. Qed.
Lemma bump_sound : forall p k n, sound p -> p_pos p + n <= length (p_toks p) -> sound (do_bump k n p) /\ grows p (do_bump k n p) /\ p_pos (do_bump k n p) = p_pos p + n.
Proof.
  intros p k n (A & B & C) L. unfold do_bump. rewrite bump_n_ok by auto. split; [|split; auto].
  - split; auto. cbn. rewrite toks_of_app. cbn. split; [lia|auto].
  - split; auto. cbn. exists (p_events p), [EToken k n]. auto.
Qed.
Lemma pop_n_pos : forall n p p', pop_n n p = Ok p' -> p_pos p' = p_pos p - n /\ n <= p_pos p.
Proof.
  induction n as [|n IH]; intros p p' H; cbn in H; [injection H as <-; lia|]. unfold pop_position in H. destruct (p_pos p) as [|q] eqn:P; [discriminate|]. cbn in H. apply IH in H. cbn in H. lia.
Qed.
Lemma pop_back : forall n p a b p', sound p -> p_events p = a ++ b -> length b = n -> pop_events n p = Ok p' -> p_events p' = a /\ p_toks p' = p_toks p /\ p_pos p' = toks_of a.
Proof.
  induction n as [|n IH]; intros p a b p' S E L H; cbn in H.
  - injection H as <-. destruct b; [|discriminate]. rewrite app_nil_r in E. split; auto. split; auto. rewrite <- E. apply S.
  - destruct (pop_event p) as [q|] eqn:Q; [|discriminate]. cbn in H. destruct (snoc_cases _ b) as [->|(b' & e & ->)]; [discriminate|]. rewrite app_assoc in E. unfold pop_event in Q. rewrite E, split_last_app in Q.
    destruct S as (A & B & C). rewrite E, toks_of_app in B. assert (L' : length b' = n) by (rewrite app_length in L; cbn in L; lia).
    assert (SQ : sound q /\ p_events q = a ++ b' /\ p_toks q = p_toks p).
    { destruct e as [k fp| |k m|msg]; try (injection Q as <-; cbn [toks_of] in B; rewrite Nat.add_0_r in B; repeat split; auto).
      destruct (pop_n_keep _ _ _ Q) as [T V]. apply pop_n_pos in Q. cbn in T, V, Q. cbn [toks_of] in B. repeat split; auto; rewrite ?T, ?V; auto; lia. }
    destruct SQ as (SQ & EQ & TQ). destruct (IH q a b' p' SQ EQ L' H) as (X & Y & Z). split; auto. split; [congruence|auto].
Qed.
Lemma sound_back : forall p q, sound p -> p_toks q = p_toks p -> map tk (p_events q) = map tk (p_events p) -> p_pos q = toks_of (p_events q) -> sound q /\ grows p q /\ p_pos q = p_pos p.
Proof.
  intros p q (A & B & C) T M P. pose proof (toks_of_tk _ _ M) as E. split; [|split].
  - split; [now rewrite T|]. split; auto. rewrite T. lia.
  - split; auto. exists (p_events q), []. now rewrite app_nil_r.
  - lia.
Qed.
Lemma replace_tk : forall es i k fp k' fp', nth_error es i = Some (EStart k fp) -> map tk (replace_at es i (EStart k' fp')) = map tk es.
Proof. induction es as [|e es IH]; intros [|i] k fp k' fp' H; cbn in *; try discriminate; [now injection H as ->|]. f_equal. eauto. Qed.
Lemma sound_replace : forall p i k fp k' fp', sound p -> nth_error (p_events p) i = Some (EStart k fp) -> sound (set_events (replace_at (p_events p) i (EStart k' fp')) p) /\ grows p (set_events (replace_at (p_events p) i (EStart k' fp')) p).
Proof.
  intros p i k fp k' fp' S N. pose proof (replace_tk _ _ _ _ k' fp' N) as M. destruct (sound_back p (set_events (replace_at (p_events p) i (EStart k' fp')) p) S eq_refl M) as (X & Y & _); auto.
  cbn. rewrite (toks_of_tk _ _ M). apply S.
Qed.

Lemma app_same : forall {A} (a b c d : list A), a ++ b = c ++ d -> length a = length c -> a = c.
Proof. induction a as [|x a IH]; intros b [|y c] d H L; try discriminate; auto. injection H as -> H. f_equal. eapply IH; eauto. Qed.
(** closing a marker made at [p], after a body that ended in [p2] *)
Lemma complete_sound : forall p m k p', sound p -> complete m k p = Ok p' -> sound p' /\ grows p p' /\ p_pos p' = p_pos p.
Proof.
  intros p m k p' S H. unfold complete in H. destruct (nth_error (p_events p) m) as [[k0 fp| | |]|] eqn:N; try discriminate. injection H as <-. destruct (sound_replace p m k0 fp k fp S N) as [A B].
  split; [apply sound_push; auto|]. split; [|reflexivity]. eapply grows_trans; [exact B|apply grows_push].
Qed.
Lemma close_sound : forall p c p2 p3, sound p -> sound p2 -> grows (push_event tombstone p) p2 -> close (length (p_events p)) c p2 = Ok p3 ->
  sound p3 /\ grows p p3 /\ (match c with Rollback => True | _ => p_pos p3 = p_pos p2 end).
Proof.
  intros p c p2 p3 S S2 G H. assert (G0 := grows_trans _ _ _ (grows_push p tombstone) G). destruct G as [T (a & b & E & Mk)]. cbn in T, Mk. rewrite map_app in Mk. destruct (map_app_split _ _ _ _ Mk) as (a1 & a2 & -> & M1 & M2).
  destruct a2 as [|e1 [|]]; try discriminate. cbn in M2. injection M2 as M2. assert (LA : length a1 = length (p_events p)) by (apply (f_equal (@length _)) in M1; now rewrite !map_length in M1).
  destruct c as [k| | |c]; cbn [close] in H.
  - destruct (complete_sound _ _ _ _ S2 H) as (A & B & C). split; auto. split; [eapply grows_trans; eauto|exact C].
  - unfold abandon in H. destruct (split_last (p_events p2)) as [[es e]|] eqn:SL; [|discriminate]. apply split_last_spec in SL. destruct (Nat.eqb_spec (length (p_events p)) (length es)) as [EL|].
    + assert (HE : e = tombstone) by (destruct e as [k fp| | |]; try discriminate; destruct k; try discriminate; destruct fp; [discriminate|reflexivity]). subst e. cbn [tombstone] in H. injection H as <-.
      rewrite SL, <- app_assoc in E. assert (es = a1) by (eapply app_same; [exact E|congruence]). subst es.
      destruct (sound_back p (set_events a1 p2) S T M1) as (X & Y & Z); [cbn; destruct S2 as (_ & S2 & _); rewrite SL, toks_of_app in S2; cbn in S2; lia|]. cbn [set_events p_pos] in *. auto.
    + injection H as <-. auto.
  - unfold rollback in H. destruct (split_last (p_events p2)) as [[es e]|] eqn:SL; [|discriminate]. apply split_last_spec in SL. destruct (Nat.eqb_spec (length (p_events p)) (length es)) as [EL|].
    + assert (HE : e = tombstone) by (destruct e as [k fp| | |]; try discriminate; destruct k; try discriminate; destruct fp; [discriminate|reflexivity]). subst e. cbn [tombstone] in H. injection H as <-.
      rewrite SL, <- app_assoc in E. assert (es = a1) by (eapply app_same; [exact E|congruence]). subst es.
      destruct (sound_back p (set_events a1 p2) S T M1) as (X & Y & Z); [cbn; destruct S2 as (_ & S2 & _); rewrite SL, toks_of_app in S2; cbn in S2; lia|]. split; auto.
    + rewrite <- app_assoc in E.
      destruct (pop_back (length (p_events p2) - length (p_events p)) p2 a1 ([e1] ++ b) p3 S2 E) as (X & Y & Z); [rewrite E, (app_length a1), <- LA; lia|exact H|]. destruct (sound_back p p3 S) as (U & V & W); [congruence|now rewrite X|now rewrite X|]. split; auto.
  - unfold extend_to in H. destruct (nth_error (p_events p2) (length (p_events p))) as [[k fp| | |]|] eqn:N; try discriminate. destruct (_ <=? _); [|discriminate]. injection H as <-.
    edestruct (sound_replace p2) as [X Y]; [exact S2|exact N|]. split; [exact X|]. split; [eapply grows_trans; [exact G0|exact Y]|reflexivity].
Qed.

Lemma precede_sound : forall p c m p1, sound p -> precede c p = Ok (m, p1) -> sound p1 /\ grows p p1 /\ p_pos p1 = p_pos p.
Proof.
  intros p c m p1 S H. unfold precede in H. cbn [start] in H. destruct (nth_error (p_events (push_event tombstone p)) c) as [[k fp| | |]|] eqn:N; try discriminate. injection H as <- <-.
  edestruct (sound_replace (push_event tombstone p)) as [X Y]; [apply sound_push; auto|exact N|]. split; [exact X|]. split; [eapply grows_trans; [apply grows_push|exact Y]|reflexivity].
Qed.
Lemma restore_sound : forall p p2 q p3, sound p -> sound p2 -> grows p p2 -> event_pos p = Ok q -> rollback_to q p2 = Ok p3 -> sound p3 /\ grows p p3.
Proof.
  intros p p2 q p3 S S2 [T (a & b & E & Mk)] Q H. unfold event_pos in Q. destruct (length (p_events p)) as [|n] eqn:L; [discriminate|]. injection Q as ->. unfold rollback_to in H. destruct (_ <? _); [discriminate|].
  assert (LA : length a = Datatypes.S q) by (apply (f_equal (@length _)) in Mk; rewrite !map_length in Mk; congruence).
  destruct (pop_back (length (p_events p2) - Datatypes.S q) p2 a b p3 S2 E) as (X & Y & Z); [rewrite E, (app_length a), LA; lia|exact H|]. destruct (sound_back p p3 S) as (U & V & W); [congruence|now rewrite X|now rewrite X|]. split; auto.
Qed.

(** * The judgement *)
Section Tot.
Variable n : nat.
Definition tot {A} (d : nat) (z : bool) (m : M A) (Q : A -> bool) : Prop :=
  forall e p, sound p -> 3 * left_ p + d <= n -> (z = true -> not_eof p) ->
  match m e p with
  | Ret a p' => sound p' /\ grows p p' /\ (Q a = true -> p_pos p < p_pos p')
  | Crash | Broken => True
  | Fuel => False
  end.
Definition ff {A} (_ : A) : bool := false.
Definition yes {A} (_ : A) : bool := true.
(** the test holds only before a token *)
Definition nz (t : test) : Prop := forall e p, sound p -> t e p = true -> not_eof p.

Lemma in_not_eof : forall p, sound p -> p_pos p < length (p_toks p) -> not_eof p.
Proof.
  intros p (A & _ & _) L E. unfold current, lookahead_nth, token_at_pos in E. rewrite Nat.add_0_r in E. destruct (nth_error (p_toks p) (p_pos p)) as [[t off]|] eqn:N; [|apply nth_error_None in N; lia].
  apply nth_error_In in N. rewrite Forall_forall in A. apply (A _ N). exact E.
Qed.
Lemma nz_kind : forall p i k, sound p -> k <> EOF -> t_kind (lookahead_nth p i) = k -> not_eof p.
Proof. intros p i k S K H. apply kind_in in H; auto. apply in_not_eof; auto. lia. Qed.
Lemma nz_nth_at : forall i k, k <> EOF -> nz (t_nth_at i k).
Proof.
  intros i k K e p S H. unfold t_nth_at in H.
  assert (C2 : forall a b, a <> EOF -> at_composite2 p i a b = true -> not_eof p).
  { intros a b N X. unfold at_composite2 in X. destruct (kind_eqb_reflect (t_kind (lookahead_nth p i)) a) as [E|]; [|discriminate]. eapply nz_kind; eauto. }
  assert (C3 : forall a b c, a <> EOF -> at_composite3 p i a b c = true -> not_eof p).
  { intros a b c N X. unfold at_composite3 in X. destruct (kind_eqb_reflect (t_kind (lookahead_nth p i)) a) as [E|]; [|discriminate]. eapply nz_kind; eauto. }
  destruct k; cbn [nth_at] in H; try (eapply C2; [|exact H]; discriminate); try (eapply C3; [|exact H]; discriminate);
  match type of H with kind_eqb ?x ?y = true => destruct (kind_eqb_reflect x y) as [E|]; [eapply nz_kind; eauto|discriminate] end.
Qed.
Lemma nz_at : forall k, k <> EOF -> nz (t_at k). Proof. intros k K. exact (nz_nth_at 0 k K). Qed.
Lemma nz_cur : forall k, k <> EOF -> nz (t_cur k).
Proof. intros k K e p S H. unfold t_cur in H. destruct (kind_eqb_reflect (current p) k) as [E|]; [|discriminate]. unfold not_eof. congruence. Qed.
Lemma nz_kwi : forall s, nz (t_kwi s). Proof. intros s e p S H. apply andb_prop in H. eapply (nz_at IDENT); [discriminate|exact S|apply H]. Qed.
Lemma nz_and : forall t u, nz t -> nz (t_and t u). Proof. intros t u N e p S H. apply andb_prop in H. eapply N; [exact S|apply H]. Qed.
Lemma nz_and2 : forall t u, nz u -> nz (t_and t u). Proof. intros t u N e p S H. apply andb_prop in H. eapply N; [exact S|apply H]. Qed.
Lemma nz_or : forall t u, nz t -> nz u -> nz (t_or t u). Proof. intros t u N N' e p S H. apply orb_prop in H. destruct H; eauto. Qed.
Lemma nz_ts : forall l, mem EOF l = false -> nz (t_ts l).
Proof. intros l M e p S H E. unfold t_ts in H. rewrite E in H. congruence. Qed.
Lemma nz_nth_ts : forall i l, mem EOF l = false -> nz (t_nth_ts i l).
Proof.
  intros i l M e p S H. unfold t_nth_ts in H. eapply nz_kind; [exact S| |reflexivity]. intros E. rewrite E in H. congruence.
Qed.
Ltac nzb := repeat match goal with H : _ && _ = true |- _ => apply andb_prop in H; destruct H | H : _ || _ = true |- _ => apply orb_prop in H; destruct H end.
Ltac nzf := intros e p S H; nzb; first [eapply nz_cur; [|exact S|eassumption]; discriminate | eapply nz_kwi; [exact S|eassumption]].
Lemma nz_path_start : nz is_path_start. Proof. unfold is_path_start. nzf. Qed.
Lemma nz_assert_ident : nz is_assert_ident. Proof. unfold is_assert_ident. nzf. Qed.
Lemma nz_funmod : nz on_function_modifiers_start. Proof. unfold on_function_modifiers_start. nzf. Qed.
Lemma nz_vismod : nz on_visibility_modifier_start. Proof. unfold on_visibility_modifier_start. nzf. Qed.
Lemma nz_behavior : nz is_behavior. Proof. unfold is_behavior. nzf. Qed.
Section Rules.
Context {A B : Type}.
Lemma t_ret : forall d z (a : A) Q, Q a = false -> tot d z (ret a) Q.
Proof. intros d z a Q H e p S F Z. cbn. split; auto. split; [apply grows_refl|]. congruence. Qed.
Lemma t_crash : forall d z (Q : A -> bool), tot d z crash Q. Proof. intros d z Q e p S F Z. exact I. Qed.
Lemma t_weak : forall d z (m : M A) Q Q', tot d z m Q -> (forall a, Q' a = true -> Q a = true) -> tot d z m Q'.
Proof. intros d z m Q Q' T W e p S F Z. specialize (T e p S F Z). destruct (m e p); auto. destruct T as (X & Y & U). auto. Qed.
Lemma t_z : forall d (m : M A) Q z, tot d false m Q -> tot d z m Q.
Proof. intros d m Q z T e p S F Z. apply T; auto. discriminate. Qed.
Lemma t_bind : forall d z (m : M A) (k : A -> M B) (Qm : A -> bool) Q, tot d z m Qm -> (forall a, if Qm a then tot 3 false (k a) ff else tot d false (k a) Q) -> tot d z (mbind m k) Q.
Proof.
  intros d z m k Qm Q T K e p S F Z. unfold mbind. specialize (T e p S F Z). destruct (m e p) as [a p1| | |]; auto. destruct T as (S1 & G1 & P1). specialize (K a).
  pose proof (grows_pos _ _ S S1 G1) as L1. pose proof (grows_left _ _ G1 L1) as L2. destruct (Qm a) eqn:EQ.
  - specialize (P1 eq_refl). assert (left_ p1 < left_ p) by (destruct S1 as (_ & _ & S1); unfold left_; rewrite (proj1 G1) in *; lia).
    specialize (K e p1 S1 ltac:(lia) ltac:(discriminate)). destruct (k a e p1) as [b p2| | |]; auto. destruct K as (S2 & G2 & _). pose proof (grows_pos _ _ S1 S2 G2). split; auto. split; [eapply grows_trans; eauto|lia].
  - specialize (K e p1 S1 ltac:(lia) ltac:(discriminate)). destruct (k a e p1) as [b p2| | |]; auto. destruct K as (S2 & G2 & P2). split; auto. split; [eapply grows_trans; eauto|]. intros H. specialize (P2 H). lia.
Qed.
(** the first part may also have stayed where it was *)
Lemma not_eof_same : forall p p', grows p p' -> p_pos p' = p_pos p -> not_eof p -> not_eof p'.
Proof. intros p p' [T _] P N. unfold not_eof, current, lookahead_nth in *. now rewrite P, T. Qed.
Lemma t_bind_z : forall d z (m : M A) (k : A -> M B) (Qm : A -> bool) Q, tot d z m Qm -> (forall a, tot 3 false (k a) ff) -> (forall a, Qm a = false -> tot d z (k a) Q) -> tot d z (mbind m k) Q.
Proof.
  intros d z m k Qm Q T K1 K2 e p S F Z. unfold mbind. specialize (T e p S F Z). destruct (m e p) as [a p1| | |]; auto. destruct T as (S1 & G1 & P1).
  pose proof (grows_pos _ _ S S1 G1) as L1. pose proof (grows_left _ _ G1 L1) as L2. destruct (Nat.eq_dec (p_pos p1) (p_pos p)) as [E|NE].
  - assert (EQ : Qm a = false) by (destruct (Qm a); auto; specialize (P1 eq_refl); lia). specialize (K2 a EQ e p1 S1 ltac:(lia) (fun H => not_eof_same _ _ G1 E (Z H))).
    destruct (k a e p1) as [b p2| | |]; auto. destruct K2 as (S2 & G2 & P2). split; auto. split; [eapply grows_trans; eauto|]. rewrite <- E. exact P2.
  - specialize (K1 a e p1 S1). assert (left_ p1 < left_ p) by (destruct S1 as (_ & _ & S1); unfold left_; rewrite (proj1 G1) in *; lia).
    specialize (K1 ltac:(lia) ltac:(discriminate)). destruct (k a e p1) as [b p2| | |]; auto. destruct K1 as (S2 & G2 & _). pose proof (grows_pos _ _ S1 S2 G2). split; auto. split; [eapply grows_trans; eauto|lia].
Qed.
(** reading leaves the parser alone *)
Lemma t_read : forall d z (g : env -> parser -> A) Q, (forall e p, Q (g e p) = false) -> tot d z (fun e p => Ret (g e p) p) Q.
Proof. intros d z g Q H e p S F Z. split; auto. split; [apply grows_refl|]. rewrite H. discriminate. Qed.
Lemma t_bind_read : forall d z (g : env -> parser -> A) (k : A -> M B) Q, (forall a, tot d z (k a) Q) -> tot d z (mbind (fun e p => Ret (g e p) p) k) Q.
Proof. intros d z g k Q K e p S F Z. unfold mbind. apply K; auto. Qed.
Lemma t_bind_ask : forall d z t (k : bool -> M B) Q, tot d z (k true) Q -> tot d z (k false) Q -> tot d z (mbind (ask t) k) Q.
Proof. intros d z t k Q K1 K2 e p S F Z. unfold mbind, ask. destruct (t e p); [apply K1|apply K2]; auto. Qed.
Lemma t_bind_ask_nz : forall d z t (k : bool -> M B) Q, nz t -> tot d true (k true) Q -> tot d z (k false) Q -> tot d z (mbind (ask t) k) Q.
Proof. intros d z t k Q N K1 K2 e p S F Z. unfold mbind, ask. destruct (t e p) eqn:E; [apply K1|apply K2]; auto. intros _. eapply N; eauto. Qed.
Lemma t_bind_assert : forall d z t (k : unit -> M B) Q, nz t -> tot d true (k tt) Q -> tot d z (mbind (assert_ t) k) Q.
Proof. intros d z t k Q N K e p S F Z. unfold mbind, assert_, ask. cbv [mbind]. destruct (t e p) eqn:E; [|exact I]. apply K; auto. intros _. eapply N; eauto. Qed.
Lemma t_assert : forall d z t, tot d z (assert_ t) ff.
Proof. intros d z t e p S F Z. unfold assert_, mbind, ask. destruct (t e p); [|exact I]. cbn. split; auto. split; [apply grows_refl|discriminate]. Qed.
Lemma t_local : forall d z g (m : M A) Q, tot d z m Q -> tot d z (local g m) Q.
Proof. intros d z g m Q T e. apply (T (g e)). Qed.
Lemma t_node : forall d z k (body : M A) b, tot d z body (fun _ => b) -> tot d z (node k body) (fun _ => b).
Proof.
  intros d z k body b T e p S F Z. unfold node. cbn [start]. assert (S1 : sound (push_event tombstone p)) by (apply sound_push; auto). specialize (T e _ S1 F Z). destruct (body e _) as [a p2| | |]; auto. destruct T as (S2 & G2 & P2).
  destruct (complete _ k p2) as [p3|] eqn:C; auto. destruct (complete_sound _ _ _ _ S2 C) as (S3 & G3 & P3). split; auto. split; [eapply grows_trans; [apply grows_push|]; eapply grows_trans; eauto|]. rewrite P3. exact P2.
Qed.
Lemma t_marked : forall d z (body : M (closing * A)), tot d z body ff -> tot d z (marked body) ff.
Proof.
  intros d z body T e p S F Z. unfold marked. cbn [start]. assert (S1 : sound (push_event tombstone p)) by (apply sound_push; auto). specialize (T e _ S1 F Z). destruct (body e _) as [[c a] p2| | |]; auto. destruct T as (S2 & G2 & P2).
  destruct (close _ c p2) as [p3|] eqn:C; auto. destruct (close_sound _ _ _ _ S S2 G2 C) as (S3 & G3 & _). split; auto. split; auto. discriminate.
Qed.
(** the same when a result that promises progress does not come with a rollback *)
Lemma t_marked_q : forall d z (body : M (closing * A)) Q, tot d z body (fun x => Q (snd x)) -> (forall e p a p', body e p = Ret (Rollback, a) p' -> Q a = false) -> tot d z (marked body) (fun x => Q (snd x)).
Proof.
  intros d z body Q T N e p S F Z. unfold marked. cbn [start]. assert (S1 : sound (push_event tombstone p)) by (apply sound_push; auto). specialize (T e _ S1 F Z). destruct (body e _) as [[c a] p2| | |] eqn:EB; auto. destruct T as (S2 & G2 & P2).
  destruct (close _ c p2) as [p3|] eqn:C; auto. destruct (close_sound _ _ _ _ S S2 G2 C) as (S3 & G3 & P3). split; auto. split; auto. cbn [snd] in *. destruct c as [k| | |c]; try (rewrite P3; exact P2). rewrite (N _ _ _ _ EB). discriminate.
Qed.
Lemma t_preceded : forall d z c (body : M (kind * A)) b, tot d z body (fun _ => b) -> tot d z (preceded c body) (fun _ => b).
Proof.
  intros d z c body b T e p S F Z. unfold preceded. destruct (precede (c_pos c) p) as [[m p1]|] eqn:P; auto. destruct (precede_sound _ _ _ _ S P) as (S1 & G1 & P1).
  assert (F1 : 3 * left_ p1 + d <= n) by (unfold left_; rewrite P1, (proj1 G1); exact F).
  assert (Z1 : z = true -> not_eof p1) by (intros ->; unfold not_eof, current, lookahead_nth; rewrite P1, (proj1 G1); apply Z; reflexivity).
  specialize (T e _ S1 F1 Z1). destruct (body e p1) as [[k a] p2| | |]; auto. destruct T as (S2 & G2 & P2).
  destruct (complete _ k p2) as [p3|] eqn:C; auto. destruct (complete_sound _ _ _ _ S2 C) as (S3 & G3 & P3). split; auto. split; [eapply grows_trans; [exact G1|]; eapply grows_trans; eauto|]. rewrite P3, <- P1. exact P2.
Qed.
Lemma t_checked : forall d z (body : M (bool * A)), tot d z body ff -> tot d z (checked body) ff.
Proof.
  intros d z body T e p S F Z. unfold checked. destruct (event_pos p) as [q|] eqn:Q; auto. specialize (T e _ S F Z). destruct (body e p) as [[[|] a] p2| | |]; auto.
  destruct T as (S2 & G2 & _). destruct (rollback_to q p2) as [p3|] eqn:R; auto. destruct (restore_sound _ _ _ _ S S2 G2 Q R) as [X Y]. split; auto. split; auto. discriminate.
Qed.
End Rules.

(** * Primitives *)
Lemma t_err : forall d z s, tot d z (err s) ff.
Proof. intros d z s e p S F Z. cbn. split; [apply sound_push; auto|]. split; [apply grows_push|discriminate]. Qed.
Lemma t_bind_err : forall {B} d z s (k : unit -> M B) Q, tot d z (k tt) Q -> tot d z (mbind (err s) k) Q.
Proof. intros B d z s k Q K e p S F Z. unfold mbind. cbn [err upd]. assert (S1 : sound (push_error (str s) p)) by (apply sound_push; auto). specialize (K e _ S1 F Z). destruct (k tt e _) as [b p2| | |]; auto. destruct K as (S2 & G2 & P2). split; auto. split; [eapply grows_trans; [apply grows_push|exact G2]|exact P2]. Qed.
Lemma t_eat : forall d z k, okk k = true -> tot d z (eat_ k) (fun b => b).
Proof.
  intros d z k K e p S F Z. apply okk_spec in K. destruct K as (_ & _ & K). unfold eat_, eat. destruct (nth_at p 0 k) eqn:N.
  - destruct (bump_sound p k (n_raw k) S (eat_in p k K N)) as (X & Y & W). split; auto. split; auto. intros _. rewrite W. destruct k; cbn; lia.
  - split; auto. split; [apply grows_refl|discriminate].
Qed.
Lemma t_bump : forall d z k, okk k = true -> tot d z (bump k) yes.
Proof. intros d z k K. unfold bump. eapply t_bind; [now apply t_eat|]. intros [|]; [now apply t_ret|apply t_crash]. Qed.
Lemma t_remap : forall d z k, tot d z (remap k) (fun _ => z).
Proof.
  intros d z k e p S F Z. cbn. unfold bump_remap. destruct (kind_eqb_reflect (current p) EOF) as [E|E].
  - split; auto. split; [apply grows_refl|]. intros H. now apply Z in H.
  - destruct (bump_sound p k 1 S) as (X & Y & W); [apply not_eof_lt in E; lia|]. split; auto. split; auto. intros _. lia.
Qed.
Lemma t_bump_any : forall d z, tot d z bump_any_ (fun _ => z).
Proof.
  intros d z e p S F Z. cbn. unfold bump_any. destruct (kind_eqb_reflect (current p) EOF) as [E|E].
  - split; auto. split; [apply grows_refl|]. intros H. now apply Z in H.
  - destruct (bump_sound p (current p) 1 S) as (X & Y & W); [apply not_eof_lt in E; lia|]. split; auto. split; auto. intros _. lia.
Qed.
Lemma t_expect_msg : forall d z k s, okk k = true -> tot d z (expect_msg k s) (fun b => b).
Proof. intros d z k s K. unfold expect_msg. eapply t_bind; [now apply t_eat|]. intros [|]; [now apply t_ret|]. apply t_bind_err. now apply t_ret. Qed.
Lemma t_expect : forall d z k, okk k = true -> tot d z (expect k) (fun b => b). Proof. intros. now apply t_expect_msg. Qed.
Lemma t_error_and_bump : forall d z s, tot d z (error_and_bump s) (fun _ => z).
Proof.
  intros d z s. unfold error_and_bump. eapply (t_bind _ _ _ _ (fun _ => z)); [|intros _; destruct z; now apply t_ret].
  apply t_node. eapply (t_bind _ _ _ _ (fun _ => z)); [apply t_bump_any|]. intros _. destruct z; apply t_err.
Qed.
Lemma skip_loop_ok : forall fuel rs e p, sound p -> left_ p < fuel -> match skip_loop fuel rs e p with Ret _ p' => sound p' /\ grows p p' | Crash | Broken => True | Fuel => False end.
Proof.
  induction fuel as [|fuel IH]; intros rs e p S L; [lia|]. cbn [skip_loop]. unfold mbind, ask. destruct (t_and _ _ e p) eqn:E; [|cbn; auto using grows_refl].
  assert (N : not_eof p) by (unfold t_and, t_not, t_at in E; apply andb_prop in E; destruct E as [E _]; cbn [nth_at] in E; intros Q; unfold current in Q; rewrite Q in E; discriminate).
  cbn [bump_any_ upd]. unfold bump_any. destruct (kind_eqb_reflect (current p) EOF) as [Q|Q]; [contradiction|].
  pose proof (not_eof_lt p N) as NL. destruct (bump_sound p (current p) 1 S) as (X & Y & W); [lia|].
  specialize (IH rs e _ X). assert (L1 : left_ (do_bump (current p) 1 p) < fuel) by (unfold left_ in *; rewrite (proj1 Y), W; lia). specialize (IH L1). destruct (skip_loop fuel rs e _); auto. destruct IH as [U V]. split; auto. eapply grows_trans; eauto.
Qed.
Lemma t_error_and_recover : forall d z s rs, tot d z (error_and_recover s rs) ff.
Proof.
  intros d z s rs. unfold error_and_recover. apply t_bind_read. intros outer. cbv zeta. apply t_bind_ask; [apply t_err|]. eapply t_bind; [apply t_error_and_bump|].
  assert (G : forall d, tot d false (fun e p => skip_loop (Datatypes.S (left_ p)) (rs_union outer rs) e p) ff).
  { intros d' e p S F Z. pose proof (skip_loop_ok (Datatypes.S (left_ p)) (rs_union outer rs) e p S ltac:(lia)) as H. destruct (skip_loop _ _ e p); auto. destruct H as [X Y]. split; auto. split; auto. discriminate. }
  intros a. cbv beta. destruct z; apply G.
Qed.

(** * Loops *)
Definition inl_ {A B} (x : A + B) : bool := match x with inl _ => true | inr _ => false end.
Lemma loop_ok : forall {T U} (f : T -> M (T + U)) d, (forall s, tot d false (f s) inl_) -> forall fuel s e p, sound p -> 3 * left_ p + d <= n -> left_ p < fuel ->
  match loop_ fuel f s e p with Ret _ p' => sound p' /\ grows p p' | Crash | Broken => True | Fuel => False end.
Proof.
  intros T U f d Hf. induction fuel as [|fuel IH]; intros s e p S F L; [lia|]. cbn [loop_]. unfold mbind at 1. specialize (Hf s e p S F ltac:(discriminate)). destruct (f s e p) as [[s'|x] p1| | |]; auto.
  - destruct Hf as (S1 & G1 & P1). specialize (P1 eq_refl). assert (left_ p1 < left_ p) by (destruct S1 as (_ & _ & S1); unfold left_; rewrite (proj1 G1) in *; lia).
    specialize (IH s' e p1 S1 ltac:(lia) ltac:(lia)). destruct (loop_ fuel f s' e p1); auto. destruct IH. split; auto. eapply grows_trans; eauto.
  - destruct Hf as (S1 & G1 & _). cbn. auto.
Qed.
Lemma t_loop : forall {T U} (f : T -> M (T + U)) d z s, (forall s, tot d false (f s) inl_) -> tot d z (loop f s) ff.
Proof.
  intros T U f d z s H e p S F Z. unfold loop. pose proof (loop_ok f d H (Datatypes.S (left_ p)) s e p S F ltac:(lia)) as L. destruct (loop_ _ f s e p); auto. destruct L. split; auto. split; auto. discriminate.
Qed.
Lemma t_iterate : forall {T} d z stop (f : T -> M (bool * T)) s, (forall s, tot d true (f s) ff) -> tot d z (iterate_to_EOF stop f s) ff.
Proof.
  intros T d z stop f s H. unfold iterate_to_EOF. apply t_loop. clear s. intros s e p S F _. unfold iter_step, mbind at 1, ask at 1. destruct (t_or (t_at EOF) (t_ts stop) e p) eqn:E; [cbn; split; auto; split; [apply grows_refl|discriminate]|].
  assert (N : not_eof p) by (unfold t_or, t_at in E; apply orb_false_iff in E; destruct E as [E _]; cbn [nth_at] in E; intros Q; unfold current in Q; rewrite Q in E; discriminate).
  unfold mbind at 1. cbn [pos_]. unfold mbind at 1. unfold with_ts, with_rs, local at 1. specialize (H s (set_rs (rs_union (e_rs e) (rs_of stop)) e) p S F (fun _ => N)). destruct (f s _ p) as [[go s'] p1| | |]; auto. destruct H as (S1 & G1 & _).
  destruct (negb go); [cbn; split; auto; split; [auto|discriminate]|]. unfold mbind at 1. cbn [outer_rs]. unfold mbind at 1. cbn [at_ts ask]. destruct (t_ts _ e p1); [cbn; split; auto; split; [auto|discriminate]|].
  unfold mbind at 1, pos_ at 1. destruct (Nat.eqb_spec (p_pos p1) (p_pos p)) as [EQ|NE].
  - unfold mbind, debug_. destruct (e_debug e); [exact I|cbn; split; auto; split; [auto|discriminate]].
  - cbn. split; auto. split; auto. intros _. pose proof (grows_pos _ _ S S1 G1). lia.
Qed.
Lemma t_delim_step : forall d element delim msg list_end outer is_empty, okk delim = true -> tot d true element ff -> tot d false (delim_step element delim msg list_end outer is_empty) inl_.
Proof.
  intros d element delim msg list_end outer is_empty K H e p S F _. unfold delim_step. cbv zeta.
  unfold mbind at 1, ask at 1. destruct (t_or (t_at EOF) _ e p) eqn:E; [cbn; split; auto; split; [apply grows_refl|discriminate]|].
  assert (N : not_eof p) by (unfold t_or, t_at in E; apply orb_false_iff in E; destruct E as [E _]; cbn [nth_at] in E; intros Q; unfold current in Q; rewrite Q in E; discriminate).
  unfold mbind at 1. cbn [pos_]. unfold pos_ at 1.
  unfold mbind at 1. pose proof (t_local d true (fun e => set_rs (rs_union (e_rs e) (rs_of (delim :: match list_end with Some PIPE => [] | Some k => [k] | None => [] end))) e) element ff H e p S F (fun _ => N)) as H1.
  unfold with_ts, with_rs. destruct (local _ element e p) as [ae p1| | |]; auto. destruct H1 as (S1 & G1 & _). pose proof (grows_pos _ _ S S1 G1) as L1. pose proof (grows_left _ _ G1 L1) as LL1.
  set (ie := if ae then false else is_empty).
  match goal with |- match mbind ?m ?k e p1 with _ => _ end => assert (TM : tot d false m ff); [|assert (TK : forall a, match k a e p1 with Ret x q => True | _ => True end) by (intros; destruct (k a e p1); auto); unfold mbind at 1; specialize (TM e p1 S1 ltac:(lia) ltac:(discriminate)); destruct (m e p1) as [stop p2| | |]; auto] end.
  { destruct (negb ae); [|now apply t_ret]. destruct (mem _ _); [now apply t_ret|]. apply t_bind_ask; [now apply t_ret|]. eapply t_bind; [apply t_error_and_recover|]. intros u. now apply t_ret. }
  destruct TM as (S2 & G2 & _). assert (G02 := grows_trans _ _ _ G1 G2). destruct stop; [cbn; split; auto; split; [auto|discriminate]|].
  pose proof (grows_pos _ _ S S2 G02) as L2. pose proof (grows_left _ _ G02 L2) as LL2.
  unfold mbind at 1, rs_test, ask at 1. destruct (rs_here _ e p2); [cbn; split; auto; split; [auto|discriminate]|].
  unfold mbind at 1. pose proof (t_expect d false delim K e p2 S2 ltac:(lia) ltac:(discriminate)) as H3. destruct (expect delim e p2) as [isd p3| | |]; auto. destruct H3 as (S3 & G3 & _). assert (G03 := grows_trans _ _ _ G02 G3).
  unfold mbind at 1, ask at 1. destruct (t_and _ _ e p3); [cbn; split; auto; split; [auto|discriminate]|].
  unfold mbind at 1, pos_. destruct (Nat.eqb_spec (p_pos p3) (p_pos p)) as [EQ|NE].
  - unfold mbind, debug_. destruct (e_debug e); [exact I|cbn; split; auto; split; [auto|discriminate]].
  - cbn. split; auto. split; auto. intros _. pose proof (grows_pos _ _ S S3 G03). lia.
Qed.
Lemma t_delimited : forall d z element delim msg list_end, okk delim = true -> tot d true element ff -> tot d z (delimited element delim msg list_end) ff.
Proof. intros d z element delim msg list_end K H. unfold delimited. apply t_bind_read. intros outer. apply t_loop. intros s. now apply t_delim_step. Qed.
End Tot.
