(** How far a grammar function can move: the rules.

    A place inside braces is followed by the closing brace.  A function keeps inside when it does not move past
    that brace, whatever the tokens in between are. *)
From Coq Require Import String.
From Verif Require Import Base SyntaxKind ParserModel AddressModel TreeSinkModel TreeSinkSpec TreeSinkProps ParserSpec ParserProofs ParserProofs2 ParserProps GrammarDisc GrammarDiscAll GrammarTot PrecSpec PrecRun GrammarSafe GrammarBase GrammarModel.
Close Scope string_scope.
Close Scope N_scope.
Open Scope nat_scope.

Section Keep.
Variables (T : toks) (X : list text).
Notation K i k := (kind_at T i = k).
(** the braces among the tokens [i .. j-1] match *)
Inductive balanced : nat -> nat -> Prop :=
| bal_nil : forall i, balanced i i
| bal_tok : forall i j, kind_at T i <> L_CURLY -> kind_at T i <> R_CURLY -> balanced (i + 1) j -> balanced i j
| bal_braces : forall i m j, K i L_CURLY -> balanced (i + 1) m -> K m R_CURLY -> balanced (m + 1) j -> balanced i j.
(** the brace at [i] is closed at [m] *)
Definition matching (i m : nat) : Prop := K i L_CURLY /\ balanced (i + 1) m /\ K m R_CURLY.
(** a quantifier begins at [i] *)
Definition quantifier (i : nat) : Prop :=
  K i IDENT /\ (reads X i "forall" = true \/ (reads X i "exists" = true /\ (K (i + 1) COLON \/ K (i + 1) IDENT))).
(** [i] is in a stretch with matching braces that ends with the brace or the semicolon at [s]; in the second case
    there is no brace after a quantifier *)
Definition inside (s i : nat) : Prop :=
  i <= s /\ (exists k, k <= i /\ balanced k s) /\ (K s R_CURLY \/ (K s SEMICOLON /\ forall q k, i <= q -> q < k -> k < s -> quantifier q -> kind_at T k <> L_CURLY)).

Lemma balanced_le : forall i j, balanced i j -> i <= j. Proof. induction 1; lia. Qed.
Lemma balanced_open : forall k s, balanced k s -> forall i, k <= i -> i < s -> K i L_CURLY -> exists m, matching i m /\ m < s.
Proof.
  induction 1 as [k|k j N1 N2 B IH|k m j KL B1 IH1 KR B2 IH2]; intros i L1 L2 KI; [lia| |].
  - destruct (Nat.eq_dec i k) as [->|NE]; [contradiction|]. apply IH; auto. lia.
  - destruct (Nat.eq_dec i k) as [->|NE]; [exists m; split; [repeat split; auto|apply balanced_le in B2; lia]|]. destruct (Nat.lt_trichotomy i m) as [L|[->|L]].
    + destruct (IH1 i ltac:(lia) L KI) as (q & M & Lq). exists q. split; auto. apply balanced_le in B2. lia.
    + congruence.
    + apply IH2; auto. lia.
Qed.
Lemma inside_le : forall s i, inside s i -> i <= s. Proof. intros s i [L _]. exact L. Qed.
Lemma inside_kind : forall s i, inside s i -> K s R_CURLY \/ K s SEMICOLON. Proof. intros s i (_ & _ & [E|[E _]]); auto. Qed.
Lemma inside_next : forall s i j, inside s i -> i <= j -> j <= s -> inside s j.
Proof. intros s i j (L & (k & Lk & B) & H) L1 L2. split; auto. split; [exists k; split; [lia|exact B]|]. destruct H as [H|[H N]]; [auto|right; split; auto; intros q k0 Lq; apply N; lia]. Qed.
Lemma inside_open : forall s i, inside s i -> K i L_CURLY -> exists m, i < m /\ m < s /\ K m R_CURLY /\ inside m (i + 1) /\ matching i m.
Proof.
  intros s i (L & (k & Lk & B) & H) KI. destruct (Nat.eq_dec i s) as [->|NE]; [destruct H as [H|[H _]]; congruence|].
  destruct (balanced_open _ _ B i Lk ltac:(lia) KI) as (m & (_ & BM & KM) & Lm). exists m. pose proof (balanced_le _ _ BM). split; [lia|]. split; auto. split; auto. split; [|repeat split; auto]. split; [lia|]. split; [exists (i + 1); auto|auto].
Qed.
Lemma inside_lt : forall s i, inside s i -> kind_at T i <> R_CURLY -> kind_at T i <> SEMICOLON -> i < s.
Proof. intros s i H N1 N2. destruct (Nat.eq_dec i s) as [->|NE]; [destruct (inside_kind _ _ H); contradiction|destruct H; lia]. Qed.
Lemma inside_lt_curly : forall s i, inside s i -> K s R_CURLY -> kind_at T i <> R_CURLY -> i < s.
Proof. intros s i H E N1. destruct (Nat.eq_dec i s) as [->|NE]; [contradiction|destruct H; lia]. Qed.
Lemma inside_length : forall s i, inside s i -> s < length T.
Proof. intros s i H. destruct (inside_kind _ _ H) as [E|E]; unfold kind_at in E; (destruct (nth_error T s) eqn:N; [apply nth_error_Some; congruence|discriminate]). Qed.
Lemma inside_joined : forall s i ks, i <= s -> joined T i ks = true -> GrammarBase.mem (kind_at T s) ks = false -> ks <> [] -> i + length ks <= s.
Proof.
  intros s i ks. revert i. induction ks as [|k ks IH]; intros i L J M NE; [tauto|]. cbn [GrammarBase.mem existsb] in M. apply orb_false_iff in M. destruct M as [M1 M2].
  destruct ks as [|k2 ks].
  - cbn [joined] in J. destruct (Nat.eq_dec i s) as [->|Ni]; [|cbn; lia]. destruct (kind_eqb_reflect (kind_at T s) k); congruence.
  - cbn [joined] in J. apply andb_prop in J. destruct J as [J1 J2]. apply andb_prop in J1. destruct J1 as [J1 _]. destruct (Nat.eq_dec i s) as [->|Ni]; [congruence|].
    specialize (IH (Datatypes.S i) ltac:(lia) J2 M2 ltac:(discriminate)). cbn [length] in *. lia.
Qed.
Lemma parts_nil : forall k, parts k <> []. Proof. destruct k; discriminate. Qed.
Lemma parts_raw : forall k, length (parts k) = n_raw k. Proof. destruct k; reflexivity. Qed.

Definition kbase (e : env) (p : parser) : Prop := e_texts e = X /\ p_toks p = T /\ sound p.
(** from place [i] the function does not move past [s]; [f]: given that the recovery set has the token at [s] *)
Definition keep {A} (f : bool) (s i : nat) (m : M A) (Q : A -> nat -> Prop) : Prop :=
  inside s i -> forall e p, kbase e p -> p_pos p = i -> (f = true -> GrammarBase.mem (kind_at T s) (rs_kinds (e_rs e)) = true) ->
  match m e p with
  | Ret a p' => sound p' /\ grows p p' /\ p_pos p' <= s /\ Q a (p_pos p')
  | _ => True
  end.
Lemma kbase_next : forall e p p', kbase e p -> sound p' -> grows p p' -> kbase e p'.
Proof. intros e p p' (TX & TT & S) S' G. split; auto. split; auto. rewrite (proj1 G). exact TT. Qed.
Lemma kbase_pos : forall e p p', kbase e p -> sound p' -> grows p p' -> p_pos p <= p_pos p'.
Proof. intros e p p' (TX & TT & S) S' G. now apply grows_pos. Qed.

Section Values.
Variables (e : env) (p : parser) (i : nat).
Hypothesis B : kbase e p.
Hypothesis P : p_pos p = i.
Lemma kv_raw : forall n k, nth_at p n k = joined T (i + n) (parts k). Proof. intros n k. destruct B as (_ & TT & _). now rewrite nth_at_joined, TT, P. Qed.
Lemma kv_at : forall k, t_at k e p = joined T i (parts k). Proof. intros k. unfold t_at. now rewrite kv_raw, Nat.add_0_r. Qed.
Lemma kv_nth_at : forall n k, t_nth_at n k e p = joined T (i + n) (parts k). Proof. exact kv_raw. Qed.
Lemma kv_cur : forall k, t_cur k e p = kind_eqb (kind_at T i) k. Proof. intros k. unfold t_cur. destruct B as (_ & TT & _). now rewrite cur_at, TT, P. Qed.
Lemma kv_nth : forall n k, t_nth n k e p = kind_eqb (kind_at T (i + n)) k. Proof. intros n k. unfold t_nth. destruct B as (_ & TT & _). now rewrite look_at, TT, P. Qed.
Lemma kv_ts : forall l, t_ts l e p = GrammarBase.mem (kind_at T i) l. Proof. intros l. unfold t_ts. destruct B as (_ & TT & _). now rewrite cur_at, TT, P. Qed.
Lemma kv_nth_ts : forall n l, t_nth_ts n l e p = GrammarBase.mem (kind_at T (i + n)) l. Proof. intros n l. unfold t_nth_ts. destruct B as (_ & TT & _). now rewrite look_at, TT, P. Qed.
Lemma kv_kw : forall s, t_kw s e p = reads X i s. Proof. intros s. unfold t_kw, text_at, reads. destruct B as (TX & _). now rewrite TX, P, Nat.add_0_r. Qed.
Lemma kv_rs : forall rs, kind_at T i <> IDENT -> rs_here rs e p = GrammarBase.mem (kind_at T i) (rs_kinds rs).
Proof. intros rs N. unfold rs_here, rs_nth. cbv zeta. destruct B as (_ & TT & _). rewrite look_at, TT, P, Nat.add_0_r. destruct (kind_eqb_reflect (kind_at T i) IDENT); [contradiction|reflexivity]. Qed.
End Values.
Definition kobs (t : test) (i : nat) (b : bool) : Prop := exists e p, kbase e p /\ p_pos p = i /\ t e p = b.

(** * Rules *)
Section Rules.
Context {A B : Type}.
Lemma k_inside : forall f s i (m : M A) Q, (inside s i -> keep f s i m Q) -> keep f s i m Q. Proof. intros f s i m Q H I. now apply H. Qed.
Lemma k_ret : forall f s i (a : A) (Q : A -> nat -> Prop), Q a i -> keep f s i (ret a) Q.
Proof. intros f s i a Q H I e p B0 P RS. cbn. split; [apply B0|]. split; [apply grows_refl|]. rewrite P. split; auto. apply I. Qed.
Lemma k_weak : forall f s i (m : M A) (Q R : A -> nat -> Prop), keep f s i m Q -> (forall a j, i <= j -> j <= s -> Q a j -> R a j) -> keep f s i m R.
Proof. intros f s i m Q R H H2 I e p B0 P RS. specialize (H I e p B0 P RS). destruct (m e p) as [a p'| | |]; auto. destruct H as (S' & G & L & q). split; auto. split; auto. split; auto. apply H2; auto. rewrite <- P. eapply kbase_pos; eauto. Qed.
Lemma k_any : forall f s i (m : M A) Q, keep f s i m Q -> keep f s i m any.
Proof. intros f s i m Q H. eapply k_weak; [exact H|]. intros. exact Logic.I. Qed.
Lemma k_free : forall f s i (m : M A) Q, keep false s i m Q -> keep f s i m Q.
Proof. intros f s i m Q H I e p B0 P RS. apply H; auto. discriminate. Qed.
Lemma k_bind : forall f s i (m : M A) (k : A -> M B) Q R, keep f s i m Q -> (forall a j, i <= j -> j <= s -> Q a j -> keep f s j (k a) R) -> keep f s i (mbind m k) R.
Proof.
  intros f s i m k Q R H H2 I e p B0 P RS. unfold mbind. specialize (H I e p B0 P RS). destruct (m e p) as [a p'| | |]; auto. destruct H as (S' & G & L & q). pose proof (kbase_pos _ _ _ B0 S' G) as L0. rewrite P in L0.
  specialize (H2 a (p_pos p') L0 L q (inside_next _ _ _ I L0 L) e p' (kbase_next _ _ _ B0 S' G) eq_refl RS). destruct (k a e p') as [b p2| | |]; auto. destruct H2 as (S2 & G2 & r). split; auto. split; auto. eapply grows_trans; eauto.
Qed.
Lemma k_fuel : forall f s i (Q : A -> nat -> Prop), keep f s i out_of_fuel Q. Proof. intros f s i Q I e p B0 P RS. exact Logic.I. Qed.
Lemma k_crash : forall f s i (Q : A -> nat -> Prop), keep f s i crash Q. Proof. intros f s i Q I e p B0 P RS. exact Logic.I. Qed.
Lemma k_bind_read : forall f s i (g : env -> parser -> A) (k : A -> M B) R, (forall a, (exists e p, kbase e p /\ p_pos p = i /\ g e p = a) -> keep f s i (k a) R) -> keep f s i (mbind (fun e p => Ret (g e p) p) k) R.
Proof. intros f s i g k R H I e p B0 P RS. unfold mbind. apply H; auto. exists e, p. auto. Qed.
Lemma k_bind_ask : forall f s i t (k : bool -> M B) R, (forall b, kobs t i b -> keep f s i (k b) R) -> keep f s i (mbind (ask t) k) R.
Proof. intros f s i t k R H I e p B0 P RS. unfold mbind, ask. apply H; auto. exists e, p. auto. Qed.
(** the recovery set that is known to have the token at [s] *)
Lemma k_bind_outer : forall s i (k : rset -> M B) R, (forall rs, GrammarBase.mem (kind_at T s) (rs_kinds rs) = true -> keep true s i (k rs) R) -> keep true s i (mbind outer_rs k) R.
Proof. intros s i k R H I e p B0 P RS. unfold mbind, outer_rs. apply H; auto. Qed.
Lemma k_bind_assert : forall f s i t (k : unit -> M B) R, (kobs t i true -> keep f s i (k tt) R) -> keep f s i (mbind (assert_ t) k) R.
Proof. intros f s i t k R H I e p B0 P RS. unfold mbind, assert_, mbind, ask. destruct (t e p) eqn:E; [|exact Logic.I]. cbn. apply H; auto. exists e, p. auto. Qed.
Lemma k_local : forall f f' s i g (m : M A) Q,
  (forall e, e_texts (g e) = e_texts e /\ ((f = true -> GrammarBase.mem (kind_at T s) (rs_kinds (e_rs e)) = true) -> f' = true -> GrammarBase.mem (kind_at T s) (rs_kinds (e_rs (g e))) = true)) -> keep f' s i m Q -> keep f s i (local g m) Q.
Proof. intros f f' s i g m Q HG H I e p (TX & TT & S) P RS. unfold local. destruct (HG e) as [G1 G2]. apply H; auto. split; [congruence|]. auto. Qed.
Lemma k_rs : forall f s i rs (m : M A) Q, keep f s i m Q -> keep f s i (with_rs rs m) Q.
Proof. intros f s i rs m Q H. eapply k_local; [|exact H]. intros e. split; auto. intros R1 R2. cbn. unfold GrammarBase.mem. rewrite existsb_app. unfold GrammarBase.mem in R1. now rewrite R1. Qed.
Lemma k_ts : forall f s i l (m : M A) Q, keep f s i m Q -> keep f s i (with_ts l m) Q. Proof. intros f s i l m Q H. now apply k_rs. Qed.
Lemma k_ts_own : forall f s i l (m : M A) Q, GrammarBase.mem (kind_at T s) l = true -> keep true s i m Q -> keep f s i (with_ts l m) Q.
Proof. intros f s i l m Q ML H. eapply k_local; [|exact H]. intros e. split; auto. intros _ _. cbn. unfold GrammarBase.mem. rewrite existsb_app. unfold GrammarBase.mem in ML. now rewrite ML, orb_true_r. Qed.
Lemma k_reset : forall f s i (m : M A) Q, keep false s i m Q -> keep f s i (reset_rs m) Q.
Proof. intros f s i m Q H. eapply k_local; [|exact H]. intros e. split; [reflexivity|discriminate]. Qed.
Lemma k_sk : forall f s i sk (m : M A) Q, keep f s i m Q -> keep f s i (with_sk sk m) Q.
Proof. intros f s i sk m Q H. eapply k_local; [|exact H]. intros e. auto. Qed.
(** a function that keeps inside the inner braces keeps inside the outer ones *)
Lemma k_nested : forall f f' s m i (b : M A) Q, m < s -> inside m i -> (f' = true -> f = true /\ kind_at T m = kind_at T s) -> keep f' m i b Q -> keep f s i b (fun a j => j <= m /\ Q a j).
Proof. intros f f' s m i b Q L I HF H IO e p B0 P RS. specialize (H I e p B0 P ltac:(intros E; destruct (HF E) as [-> ->]; auto)). destruct (b e p) as [a p'| | |]; auto. destruct H as (S' & G & Lm & q). split; auto. split; auto. split; [lia|auto]. Qed.
Lemma k_braced : forall f f' s i (body : M A) (rest : A -> M B) R, inside s i -> K i L_CURLY -> (f' = true -> f = true /\ K s R_CURLY) ->
  (forall m, K m R_CURLY -> inside m (i + 1) -> keep f' m (i + 1) body any) -> (forall a m j, i + 1 <= j -> j <= m -> m < s -> K m R_CURLY -> keep f s j (rest a) R) -> keep f s (i + 1) (mbind body rest) R.
Proof.
  intros f f' s i body rest R I KI HF HB HR. destruct (inside_open _ _ I KI) as (m & L1 & L2 & KM & IM & _). eapply k_bind; [apply (k_nested f f' s m); auto|].
  - intros E. destruct (HF E) as [-> ->]. auto.
  - intros a j Lj _ [Lm _]. eapply HR; eauto.
Qed.
(** what keeps inside several things does so at once *)
Lemma k_all : forall f s i (m : M A) Q (C : nat -> Prop), keep f s i m Q ->
  (forall x, C x -> inside x i -> exists f', keep f' x i m any /\ (f' = true -> f = true /\ kind_at T x = kind_at T s)) -> keep f s i m (fun a j => Q a j /\ forall x, C x -> inside x i -> j <= x).
Proof.
  intros f s i m Q C H HC I e p B0 P RS. specialize (H I e p B0 P RS). assert (HX : forall x, C x -> inside x i -> match m e p with Ret _ p' => p_pos p' <= x | _ => True end).
  { intros x Cx Ix. destruct (HC x Cx Ix) as (f' & Hx & HF). specialize (Hx Ix e p B0 P ltac:(intros E; destruct (HF E) as [-> ->]; auto)). destruct (m e p); auto. apply Hx. }
  destruct (m e p) as [a p'| | |]; auto. destruct H as (S' & G & L & q). split; auto.
Qed.
End Rules.
Lemma rollback_pos : forall p p2 p3, sound p -> sound p2 -> grows (push_event tombstone p) p2 -> rollback (length (p_events p)) p2 = Ok p3 -> p_pos p3 = p_pos p.
Proof.
  intros p p2 p3 S S2 G H. destruct G as [TT (a & b & E & Mk)]. cbn in TT, Mk. rewrite map_app in Mk. destruct (map_app_split _ _ _ _ Mk) as (a1 & a2 & -> & M1 & M2).
  destruct a2 as [|e1 [|]]; try discriminate. cbn in M2. injection M2 as M2. assert (LA : length a1 = length (p_events p)) by (apply (f_equal (@length _)) in M1; now rewrite !map_length in M1).
  unfold rollback in H. destruct (split_last (p_events p2)) as [[es e]|] eqn:SL; [|discriminate]. apply split_last_spec in SL. destruct (Nat.eqb_spec (length (p_events p)) (length es)) as [EL|].
  - assert (HE : e = tombstone) by (destruct e as [k fp| | |]; try discriminate; destruct k; try discriminate; destruct fp; [discriminate|reflexivity]). subst e. cbn [tombstone] in H. injection H as <-.
    rewrite SL, <- app_assoc in E. assert (es = a1) by (eapply app_same; [exact E|congruence]). subst es. cbn. destruct S2 as (_ & S2 & _). rewrite SL, toks_of_app in S2. cbn in S2. rewrite (toks_of_tk _ _ M1) in S2. destruct S as (_ & S & _). lia.
  - rewrite <- app_assoc in E. destruct (pop_back (length (p_events p2) - length (p_events p)) p2 a1 ([e1] ++ b) p3 S2 E) as (_ & Y & Z); [rewrite E, (app_length a1), <- LA; lia|exact H|]. rewrite Z, (toks_of_tk _ _ M1). symmetry. apply S.
Qed.
Section Marks.
Context {A : Type}.
Lemma kbase_start : forall e p, kbase e p -> kbase e (push_event tombstone p).
Proof. intros e p B0. eapply kbase_next; [exact B0| |apply grows_push]. apply sound_push; auto. apply B0. Qed.
Lemma k_node : forall f s i k (body : M A) (Q : A -> nat -> Prop) (R : nat -> Prop), keep f s i body Q -> (forall a j, Q a j -> R j) -> keep f s i (node k body) (fun _ j => R j).
Proof.
  intros f s i k body Q R H H2 I e p B0 P RS. unfold node. cbn [start]. specialize (H I e _ (kbase_start _ _ B0) P RS). destruct (body e _) as [a p2| | |]; auto. destruct H as (S2 & G2 & L & q).
  destruct (complete _ k p2) as [p3|] eqn:C; auto. destruct (complete_sound _ _ _ _ S2 C) as (S3 & G3 & P3). split; auto. split; [eapply grows_trans; [apply grows_push|]; eapply grows_trans; eauto|]. rewrite P3. split; auto. eapply H2; eauto.
Qed.
Lemma k_node_any : forall f s i k (body : M A), keep f s i body any -> keep f s i (node k body) any.
Proof. intros f s i k body H. exact (k_node f s i k body any (fun _ => True) H (fun _ _ _ => Logic.I)). Qed.
Lemma k_marked : forall f s i (body : M (closing * A)) (R : bool -> A -> nat -> Prop),
  keep f s i body (fun x j => if kept (fst x) then R (ends (fst x)) (snd x) j else R false (snd x) i) -> keep f s i (marked body) (fun x j => R (is_some (fst x)) (snd x) j).
Proof.
  intros f s i body R H I e p B0 P RS. unfold marked. cbn [start]. specialize (H I e _ (kbase_start _ _ B0) P RS). destruct (body e _) as [[c a] p2| | |]; auto. destruct H as (S2 & G2 & L & q).
  destruct (close _ c p2) as [p3|] eqn:C; auto. assert (S : sound p) by apply B0. destruct (close_sound _ _ _ _ S S2 G2 C) as (S3 & G3 & P3). split; auto. split; auto. cbn [fst snd] in *.
  destruct c as [k| | |c]; cbn [kept ends closed is_some] in *; try rewrite P3; auto. rewrite (rollback_pos p p2 p3 S S2 G2 C), P. split; auto. apply I.
Qed.
Lemma k_marked_any : forall f s i (body : M (closing * A)), keep f s i body any -> keep f s i (marked body) any.
Proof. intros f s i body H. apply (k_marked f s i body (fun _ _ _ => True)). eapply k_weak; [exact H|]. intros [c a] j _ _ _. destruct (kept _); auto. Qed.
Lemma k_preceded : forall f s i c (body : M (kind * A)) (R : A -> nat -> Prop), keep f s i body (fun x j => R (snd x) j) -> keep f s i (preceded c body) (fun x j => R (snd x) j).
Proof.
  intros f s i c body R H I e p B0 P RS. unfold preceded. destruct (precede (c_pos c) p) as [[m p1]|] eqn:E; auto. assert (S : sound p) by apply B0. destruct (precede_sound _ _ _ _ S E) as (S1 & G1 & P1).
  specialize (H I e p1 (kbase_next _ _ _ B0 S1 G1)). rewrite P1 in H. specialize (H P RS). destruct (body e p1) as [[k a] p2| | |]; auto. destruct H as (S2 & G2 & L & q).
  destruct (complete _ k p2) as [p3|] eqn:C; auto. destruct (complete_sound _ _ _ _ S2 C) as (S3 & G3 & P3). split; auto. split; [eapply grows_trans; [exact G1|]; eapply grows_trans; eauto|]. rewrite P3. split; auto.
Qed.
Lemma k_preceded_any : forall f s i c (body : M (kind * A)), keep f s i body any -> keep f s i (preceded c body) any.
Proof. intros f s i c body H. exact (k_preceded f s i c body (fun _ _ => True) H). Qed.
Lemma k_checked : forall f s i (body : M (bool * A)) (R : A -> nat -> Prop), keep f s i body (fun x j => R (snd x) (if fst x then i else j)) -> keep f s i (checked body) R.
Proof.
  intros f s i body R H I e p B0 P RS. unfold checked. destruct (event_pos p) as [q|] eqn:Q; auto. specialize (H I e p B0 P RS). destruct (body e p) as [[[|] a] p2| | |]; auto.
  destruct H as (S2 & G2 & L & r). assert (S : sound p) by apply B0. destruct (rollback_to q p2) as [p3|] eqn:E; auto. destruct (restore_sound _ _ _ _ S S2 G2 Q E) as [U V]. split; auto. split; auto. rewrite (restore_pos _ _ _ _ S S2 G2 Q E), P. split; [apply I|exact r].
Qed.
Lemma k_checked_any : forall f s i (body : M (bool * A)), keep f s i body any -> keep f s i (checked body) any.
Proof. intros f s i body H. apply k_checked. eapply k_weak; [exact H|]. intros; exact Logic.I. Qed.
End Marks.
Lemma k_ask_any : forall f s i t, keep f s i (ask t) any.
Proof. intros f s i t I e p B0 P RS. cbn. split; [apply B0|]. split; [apply grows_refl|]. rewrite P. split; [apply I|exact Logic.I]. Qed.

(** * Primitives *)
Lemma k_err : forall f s i x, keep f s i (err x) (fun _ j => j = i).
Proof. intros f s i x I e p B0 P RS. cbn. split; [apply sound_push; auto; apply B0|]. split; [apply grows_push|]. rewrite P. split; auto. apply I. Qed.
Lemma k_skip : forall f s i, keep f s i skip (fun _ j => j = i). Proof. intros f s i. now apply k_ret. Qed.
(** the token is not the one at [s], or there is one before *)
Definition clear_of (s i : nat) (k : kind) : Prop := GrammarBase.mem (kind_at T s) (parts k) = false \/ (i < s /\ n_raw k = 1).
Lemma clear_step : forall s i k, i <= s -> clear_of s i k -> joined T i (parts k) = true -> i + n_raw k <= s.
Proof. intros s i k L [C|[C1 C2]] J; [|lia]. rewrite <- parts_raw. apply inside_joined; auto. apply parts_nil. Qed.
Lemma k_bind_eat : forall {B} f s i k (g : bool -> M B) R, okk k = true -> (inside s i -> joined T i (parts k) = true -> clear_of s i k) -> (joined T i (parts k) = true -> keep f s (i + n_raw k) (g true) R) -> (joined T i (parts k) = false -> keep f s i (g false) R) -> keep f s i (mbind (eat_ k) g) R.
Proof.
  intros B f s i k g R KK C H1 H2 I e p B0 P RS. unfold mbind, eat_, eat. apply okk_spec in KK. destruct KK as (_ & _ & KK). assert (S : sound p) by apply B0.
  pose proof (kv_raw e p i B0 P 0 k) as V. rewrite Nat.add_0_r in V. rewrite V. destruct (joined T i (parts k)) eqn:J; [|apply H2; auto].
  destruct (bump_sound p k (n_raw k) S (eat_in p k KK V)) as (U & G & W). pose proof (clear_step s i k ltac:(apply I) (C I eq_refl) J) as L.
  specialize (H1 eq_refl (inside_next _ _ _ I (Nat.le_add_r _ _) L) e _ (kbase_next _ _ _ B0 U G)). rewrite W, P in H1. specialize (H1 eq_refl RS). destruct (g true e _) as [b p2| | |]; auto. destruct H1 as (S2 & G2 & r). split; auto. split; auto. eapply grows_trans; eauto.
Qed.
Lemma k_eat : forall f s i k (Q : bool -> nat -> Prop), okk k = true -> (inside s i -> joined T i (parts k) = true -> clear_of s i k) -> (joined T i (parts k) = true -> Q true (i + n_raw k)) -> (joined T i (parts k) = false -> Q false i) -> keep f s i (eat_ k) Q.
Proof.
  intros f s i k Q KK C H1 H2 I e p B0 P RS. pose proof (k_bind_eat f s i k ret Q KK C (fun J => k_ret _ _ _ _ Q (H1 J)) (fun J => k_ret _ _ _ _ Q (H2 J)) I e p B0 P RS) as H. unfold mbind, ret in H. destruct (eat_ k e p); auto.
Qed.
Lemma k_bump : forall f s i k, okk k = true -> (inside s i -> joined T i (parts k) = true -> clear_of s i k) -> keep f s i (bump k) (fun _ j => j = i + n_raw k /\ joined T i (parts k) = true).
Proof. intros f s i k KK C. unfold bump. apply k_bind_eat; auto; intros J; [now apply k_ret|apply k_crash]. Qed.
Lemma k_expect_msg : forall f s i k x, okk k = true -> (inside s i -> joined T i (parts k) = true -> clear_of s i k) -> keep f s i (expect_msg k x) (fun b j => if b then j = i + n_raw k /\ joined T i (parts k) = true else j = i).
Proof. intros f s i k x KK C. unfold expect_msg. apply k_bind_eat; auto; intros J; [now apply k_ret|]. eapply k_bind; [apply k_err|]. intros ? j ? ? q. cbv beta in q. subst j. now apply k_ret. Qed.
Lemma k_expect : forall f s i k, okk k = true -> (inside s i -> joined T i (parts k) = true -> clear_of s i k) -> keep f s i (expect k) (fun b j => if b then j = i + n_raw k /\ joined T i (parts k) = true else j = i).
Proof. intros. now apply k_expect_msg. Qed.
Lemma not_eof : forall e p i s, kbase e p -> p_pos p = i -> inside s i -> current p <> EOF.
Proof. intros e p i s (_ & TT & S) P I. eapply in_place; [exact S|exact TT|]. pose proof (inside_length _ _ I). pose proof (inside_le _ _ I). lia. Qed.
Lemma k_one : forall f s i g, (forall e p, kbase e p -> p_pos p = i -> current p <> EOF -> exists k, g p = do_bump k 1 p) -> (inside s i -> i < s) -> keep f s i (upd g) (fun _ j => j = i + 1).
Proof.
  intros f s i g H L I e p B0 P RS. cbn. destruct (H e p B0 P (not_eof _ _ _ _ B0 P I)) as (k & ->). specialize (L I). assert (S : sound p) by apply B0. assert (TT : p_toks p = T) by apply B0.
  destruct (bump_sound p k 1 S) as (U & G & W); [pose proof (inside_length _ _ I); rewrite TT; lia|]. split; auto. split; auto. split; lia.
Qed.
Lemma k_remap : forall f s i k, (inside s i -> i < s) -> keep f s i (remap k) (fun _ j => j = i + 1).
Proof. intros f s i k L. apply k_one; auto. intros e p B0 P N. exists k. unfold bump_remap. destruct (kind_eqb_reflect (current p) EOF); [contradiction|reflexivity]. Qed.
Lemma k_bump_any : forall f s i, (inside s i -> i < s) -> keep f s i bump_any_ (fun _ j => j = i + 1).
Proof. intros f s i L. apply k_one; auto. intros e p B0 P N. eexists. unfold bump_any. destruct (kind_eqb_reflect (current p) EOF); [contradiction|reflexivity]. Qed.
Lemma k_error_and_bump : forall f s i x, (inside s i -> i < s) -> keep f s i (error_and_bump x) (fun _ j => j = i + 1).
Proof.
  intros f s i x L. unfold error_and_bump. eapply (k_bind _ _ _ _ _ (fun _ j => j = i + 1)); [|intros c j _ _ ->; now apply k_ret]. eapply (k_node _ _ _ _ _ (fun _ j => j = i + 1) (fun j => j = i + 1)); auto.
  eapply k_bind; [now apply k_bump_any|]. intros ? j ? ? q. cbv beta in q. subst j. eapply k_weak; [apply k_err|]. auto.
Qed.
Lemma k_wrap_with_error : forall f s i c x, keep f s i (wrap_with_error c x) (fun _ j => j = i).
Proof.
  intros f s i c x. unfold wrap_with_error. eapply (k_bind _ _ _ _ _ (fun _ j => j = i)); [|intros ? j _ _ ->; now apply k_ret]. eapply (k_preceded _ _ _ _ _ (fun _ j => j = i)). eapply k_bind; [apply k_err|]. intros ? j ? ? q. cbv beta in q. subst j. now apply k_ret.
Qed.
Lemma bar_not_ident : forall s i, inside s i -> kind_at T s <> IDENT. Proof. intros s i I. destruct (inside_kind _ _ I) as [E|E]; rewrite E; discriminate. Qed.
Lemma k_skip_loop : forall fuel f s rs i, GrammarBase.mem (kind_at T s) (rs_kinds rs) = true -> keep f s i (skip_loop fuel rs) any.
Proof.
  induction fuel as [|fuel IH]; intros f s rs i M; [apply k_fuel|]. cbn [skip_loop]. apply k_inside. intros I. apply k_bind_ask. intros b O. destruct b; [|now apply k_ret].
  eapply (k_bind _ _ _ _ _ (fun _ j => j = i + 1)); [|intros; now apply IH]. apply k_bump_any. intros _. destruct (Nat.eq_dec i s) as [->|NE]; [|apply inside_le in I; lia]. exfalso.
  destruct O as (e & p & B0 & P & O). unfold t_and, t_not in O. rewrite (kv_rs e p s B0 P rs (bar_not_ident _ _ I)), M in O. rewrite andb_false_r in O. discriminate.
Qed.
Lemma mem_app : forall k a b, GrammarBase.mem k (a ++ b) = GrammarBase.mem k a || GrammarBase.mem k b. Proof. intros. unfold GrammarBase.mem. apply existsb_app. Qed.
Lemma k_error_and_recover : forall s i x rs, keep true s i (error_and_recover x rs) any.
Proof.
  intros s i x extra. unfold error_and_recover. apply k_inside. intros I. apply k_bind_outer. intros outer M. cbv zeta. assert (M2 : GrammarBase.mem (kind_at T s) (rs_kinds (rs_union outer extra)) = true) by (unfold rs_union; cbn [rs_kinds]; rewrite mem_app, M; reflexivity).
  apply k_bind_ask. intros b O. destruct b; [eapply k_any, k_err|]. eapply k_bind; [apply k_error_and_bump|].
  - intros _. destruct (Nat.eq_dec i s) as [->|NE]; [|apply inside_le in I; lia]. exfalso. destruct O as (e & p & B0 & P & O). rewrite (kv_rs e p s B0 P _ (bar_not_ident _ _ I)), M2 in O. discriminate.
  - intros ? j ? ? q. intros Ij e p B0 P RS. exact (k_skip_loop _ true s _ j M2 Ij e p B0 P RS).
Qed.
(** recovery stops at the tokens it is told to stop at *)
Lemma k_skip_loop_stops : forall fuel f s rs l i, GrammarBase.mem (kind_at T s) (rs_kinds rs) = true -> (forall k, GrammarBase.mem k l = true -> k <> IDENT /\ GrammarBase.mem k (rs_kinds rs) = true) ->
  keep f s i (skip_loop fuel rs) (fun _ j => forall y, i <= y -> y < j -> GrammarBase.mem (kind_at T y) l = false).
Proof.
  induction fuel as [|fuel IH]; intros f s rs l i M HL; [apply k_fuel|]. cbn [skip_loop]. apply k_inside. intros I. apply k_bind_ask. intros b O. destruct b; [|apply k_ret; intros; lia].
  assert (NI : GrammarBase.mem (kind_at T i) l = false).
  { destruct (GrammarBase.mem (kind_at T i) l) eqn:E; auto. destruct (HL _ E) as [N1 N2]. destruct O as (e & p & B0 & P & O). unfold t_and, t_not in O. rewrite (kv_rs e p i B0 P rs N1), N2 in O. rewrite andb_false_r in O. discriminate. }
  eapply (k_bind _ _ _ _ _ (fun _ j => j = i + 1)).
  - apply k_bump_any. intros _. destruct (Nat.eq_dec i s) as [->|NE]; [|apply inside_le in I; lia]. exfalso.
    destruct O as (e & p & B0 & P & O). unfold t_and, t_not in O. rewrite (kv_rs e p s B0 P rs (bar_not_ident _ _ I)), M in O. rewrite andb_false_r in O. discriminate.
  - intros ? j ? ? ->. eapply k_weak; [now apply (IH f s rs l)|]. intros ? j _ _ q y L1 L2. destruct (Nat.eq_dec y i) as [->|NE]; auto. apply q; lia.
Qed.
Lemma k_recover_stops : forall s i x rs extra l, (forall k, GrammarBase.mem k l = true -> k <> IDENT /\ (GrammarBase.mem k (rs_kinds rs) = true \/ k = kind_at T s)) ->
  keep true s i (with_rs rs (error_and_recover x extra)) (fun _ j => forall y, i <= y -> y < j -> GrammarBase.mem (kind_at T y) l = false).
Proof.
  intros s i x rs extra l HL I e p B0 P RS. specialize (RS eq_refl). unfold with_rs, local, error_and_recover, mbind at 1, outer_rs. cbv zeta. cbn [e_rs set_rs].
  set (rs1 := rs_union (rs_union (e_rs e) rs) extra). set (e1 := set_rs (rs_union (e_rs e) rs) e).
  assert (M1 : GrammarBase.mem (kind_at T s) (rs_kinds rs1) = true) by (subst rs1; unfold rs_union; cbn [rs_kinds]; now rewrite !mem_app, RS).
  assert (HL1 : forall k, GrammarBase.mem k l = true -> k <> IDENT /\ GrammarBase.mem k (rs_kinds rs1) = true).
  { intros k E. destruct (HL k E) as [N1 [N2|N2]]; split; auto; subst rs1; unfold rs_union; cbn [rs_kinds]; rewrite !mem_app; [rewrite N2; now destruct (GrammarBase.mem k (rs_kinds (e_rs e)))|subst k; now rewrite RS]. }
  assert (B1 : kbase e1 p) by (destruct B0 as (B1 & B2 & B3); exact (conj B1 (conj B2 B3))).
  cut (keep true s i (mbind (rs_test rs1) (fun b => if b then err x else (error_and_bump x ;; fun e p => skip_loop (Datatypes.S (left_ p)) rs1 e p))) (fun _ j => forall y, i <= y -> y < j -> GrammarBase.mem (kind_at T y) l = false)).
  { intros H. apply (H I e1 p B1 P). intros _. subst e1. cbn [e_rs set_rs rs_union rs_kinds]. now rewrite mem_app, RS. }
  apply k_bind_ask. intros b O. destruct b; [eapply k_weak; [apply k_err|]; intros ? j _ _ q; cbv beta in q; intros; lia|].
  assert (NI : GrammarBase.mem (kind_at T i) l = false).
  { destruct (GrammarBase.mem (kind_at T i) l) eqn:E; auto. destruct (HL1 _ E) as [N1 N2]. destruct O as (e2 & p2 & B2 & P2 & O). rewrite (kv_rs e2 p2 i B2 P2 rs1 N1), N2 in O. discriminate. }
  eapply k_bind; [apply k_error_and_bump|].
  - intros _. destruct (Nat.eq_dec i s) as [->|NE]; [|apply inside_le in I; lia]. exfalso. destruct O as (e2 & p2 & B2 & P2 & O). rewrite (kv_rs e2 p2 s B2 P2 _ (bar_not_ident _ _ I)), M1 in O. discriminate.
  - intros ? j ? ? q. cbv beta in q. subst j. intros Ij e2 p2 B2 P2 RS2. pose proof (k_skip_loop_stops (Datatypes.S (left_ p2)) true s rs1 l (i + 1) M1 HL1 Ij e2 p2 B2 P2 RS2) as HS. destruct (skip_loop _ _ _ _) as [a0 p'| | |]; auto. destruct HS as (S' & G & L & q). split; auto. split; auto. split; auto. intros y L1 L2. destruct (Nat.eq_dec y i) as [->|NE]; auto. apply q; lia.
Qed.
Lemma wildcard_keeps : forall fuel p s n, p_toks p = T -> (kind_at T s <> IDENT /\ kind_at T s <> STAR) -> p_pos p + n <= s -> p_pos p + wildcard_count fuel p n n <= s.
Proof.
  induction fuel as [|fuel IH]; intros p s n TT N L; cbn [wildcard_count]; auto. rewrite !nth_at_joined, TT. cbn [parts spelling joined]. destruct (kind_eqb_reflect (kind_at T (p_pos p + n)) IDENT) as [E|E]; cbn [orb].
  - assert (p_pos p + n <> s) by (intros Q; rewrite Q in E; tauto). destruct (negb _); [lia|]. apply IH; auto. lia.
  - destruct (kind_eqb_reflect (kind_at T (p_pos p + n)) STAR) as [E2|E2]; auto. assert (p_pos p + n <> s) by (intros Q; rewrite Q in E2; tauto). destruct (negb _); [lia|]. apply IH; auto. lia.
Qed.
Lemma k_wildcard_ident : forall f s i, keep f s i wildcard_ident any.
Proof.
  intros f s i I e p B0 P RS. assert (S : sound p) by apply B0. assert (TT : p_toks p = T) by apply B0. unfold wildcard_ident. cbv zeta. destruct (e_debug e && _); auto.
  set (n := wildcard_count (Datatypes.S (left_ p)) p 0 0). destruct (Nat.ltb_spec 0 (n mod 256)) as [L|L]; [|split; auto; split; [apply grows_refl|split; [rewrite P; apply I|exact Logic.I]]].
  destruct (kind_eqb_reflect (current p) EOF) as [E|E]; [split; auto; split; [apply grows_refl|split; [rewrite P; apply I|exact Logic.I]]|].
  assert (W : p_pos p + n <= s).
  { apply wildcard_keeps; auto; [destruct (inside_kind _ _ I) as [Q|Q]; rewrite Q; split; discriminate|rewrite P; apply inside_le in I; lia]. }
  pose proof (Nat.mod_le n 256 ltac:(lia)) as LM. pose proof (inside_length _ _ I). destruct (bump_sound p WILDCARD_IDENT (n mod 256) S ltac:(rewrite TT; lia)) as (U & V & Z). split; auto. split; auto. split; [lia|exact Logic.I].
Qed.

(** * Loops *)
Lemma k_loop : forall {U V} (g : U -> M (U + V)) (J : U -> nat -> Prop) (Q : V -> nat -> Prop) f s u i,
  (forall u j, i <= j -> j <= s -> J u j -> keep f s j (g u) (fun r k => match r with inl u' => J u' k | inr x => Q x k end)) -> J u i -> keep f s i (loop g u) Q.
Proof.
  intros U V g J Q f s u i H Ji I e p B0 P RS. unfold loop. assert (L : forall fuel u j, i <= j -> j <= s -> J u j -> keep f s j (loop_ fuel g u) Q).
  { induction fuel as [|fuel IH]; intros u' j L1 L2 Jj; [apply k_fuel|]. cbn [loop_]. eapply k_bind; [now apply H|]. intros [u2|x] k Lk L3 q; cbv beta iota in *; [apply IH; auto; lia|now apply k_ret]. }
  apply (L _ u i); auto. apply I.
Qed.
Lemma k_loop_any : forall {U V} (g : U -> M (U + V)) f s u i, (forall u j, i <= j -> j <= s -> keep f s j (g u) any) -> keep f s i (loop g u) any.
Proof. intros U V g f s u i H. apply (k_loop g (fun _ _ => True)); auto. intros u' j L1 L2 _. eapply k_weak; [now apply H|]. intros [|] k _ _ _; exact Logic.I. Qed.
(** the body of an iteration begins before a token that does not stop it *)
Lemma k_iter : forall {U} stop (g : U -> M (bool * U)) f f' s u i, (forall l : M (bool * U), forall j, keep f' s j l any -> keep f s j (with_ts stop l) any) ->
  (forall u j, i <= j -> j <= s -> GrammarBase.mem (kind_at T j) stop = false -> keep f' s j (g u) any) -> keep f s i (iterate_to_EOF stop g u) any.
Proof.
  intros U stop g f f' s u i HT H. unfold iterate_to_EOF. apply k_loop_any. intros u' j L1 L2. unfold iter_step. apply k_bind_ask. intros b O. destruct b; [now apply k_ret|]. apply (k_bind_read _ _ _ (fun _ p => p_pos p)). intros before _.
  assert (ST : GrammarBase.mem (kind_at T j) stop = false). { destruct O as (e & p & B0 & P & O). unfold t_or in O. rewrite (kv_ts _ _ _ B0 P) in O. apply orb_false_iff in O. apply O. }
  eapply k_bind; [apply HT; now apply H|]. intros [go u2] k _ _ _. destruct (negb go); [now apply k_ret|]. apply (k_bind_read _ _ _ (fun e _ => e_rs e)). intros outer _. apply k_bind_ask. intros c _. destruct c; [now apply k_ret|].
  apply (k_bind_read _ _ _ (fun _ p => p_pos p)). intros now_ _. destruct (now_ =? before); [|now apply k_ret]. apply (k_bind_read _ _ _ (fun e _ => e_debug e)). intros d _. destruct d; [apply k_crash|now apply k_ret].
Qed.
Lemma k_iterate : forall {U} stop (g : U -> M (bool * U)) f s u i, (forall u j, i <= j -> j <= s -> GrammarBase.mem (kind_at T j) stop = false -> keep f s j (g u) any) -> keep f s i (iterate_to_EOF stop g u) any.
Proof. intros U stop g f s u i H. apply (k_iter stop g f f); auto. intros l j. apply k_ts. Qed.
Lemma k_iterate_own : forall {U} stop (g : U -> M (bool * U)) f s u i, GrammarBase.mem (kind_at T s) stop = true -> (forall u j, i <= j -> j <= s -> GrammarBase.mem (kind_at T j) stop = false -> keep true s j (g u) any) -> keep f s i (iterate_to_EOF stop g u) any.
Proof. intros U stop g f s u i ST H. apply (k_iter stop g f true); auto. intros l j. now apply k_ts_own. Qed.
(** [err_ok]: the element may say that it is not one *)
Lemma k_delim : forall element delim msg list_end f f' s i, okk delim = true -> GrammarBase.mem (kind_at T s) (parts delim) = false ->
  (forall (l : M bool) Q j, keep f' s j l Q -> keep f s j (with_ts (delim :: match list_end with Some PIPE => [] | Some k => [k] | None => [] end) l) Q) ->
  (f = true \/ (f = false /\ forall j, i <= j -> j <= s -> GrammarBase.mem (kind_at T j) (match list_end with Some k => [k] | None => [] end) = false -> keep f' s j element (fun b _ => b = true))) ->
  (forall j, i <= j -> j <= s -> GrammarBase.mem (kind_at T j) (match list_end with Some k => [k] | None => [] end) = false -> keep f' s j element any) -> keep f s i (delimited element delim msg list_end) any.
Proof.
  intros element delim msg list_end f f' s i KK C HT HF H. unfold delimited. apply (k_bind_read _ _ _ (fun e _ => e_rs e)). intros outer _. apply k_loop_any. intros is_empty j L1 L2. unfold delim_step. cbv zeta. apply k_bind_ask. intros b O. destruct b; [now apply k_ret|].
  assert (ST : GrammarBase.mem (kind_at T j) (match list_end with Some k => [k] | None => [] end) = false). { destruct O as (e & p & B0 & P & O). unfold t_or in O. rewrite (kv_ts _ _ _ B0 P) in O. apply orb_false_iff in O. apply O. }
  apply (k_bind_read _ _ _ (fun _ p => p_pos p)). intros before _.
  eapply (k_bind _ _ _ _ _ (fun (b : bool) _ => f = false -> b = true)).
  { apply HT. destruct HF as [->|[-> HF]]; [eapply k_weak; [now apply H|]; discriminate|eapply k_weak; [now apply HF|]; auto]. }
  intros ae k L3 L4 AE. eapply (k_bind _ _ _ _ _ any).
  { destruct ae; cbn [negb]; [now apply k_ret|]. destruct f; [|specialize (AE eq_refl); discriminate]. destruct (GrammarBase.mem delim (rs_kinds outer)); [now apply k_ret|]. apply k_bind_ask. intros c _. destruct c; [now apply k_ret|]. eapply k_bind; [apply k_error_and_recover|]. intros. now apply k_ret. }
  intros c k2 L5 L6 _. destruct c; [now apply k_ret|]. apply k_bind_ask. intros c _. destruct c; [now apply k_ret|]. eapply k_bind; [apply k_expect; auto; intros _ _; now left|]. intros isd k3 _ _ _. apply k_bind_ask. intros c _. destruct c; [now apply k_ret|].
  apply (k_bind_read _ _ _ (fun _ p => p_pos p)). intros now_ _. destruct (now_ =? before); [|now apply k_ret]. apply (k_bind_read _ _ _ (fun e _ => e_debug e)). intros d _. destruct d; [apply k_crash|now apply k_ret].
Qed.
Lemma k_delimited : forall element delim msg list_end s i, okk delim = true -> (inside s i -> GrammarBase.mem (kind_at T s) (parts delim) = false) ->
  (forall j, i <= j -> j <= s -> GrammarBase.mem (kind_at T j) (match list_end with Some k => [k] | None => [] end) = false -> keep true s j element any) -> keep true s i (delimited element delim msg list_end) any.
Proof. intros. apply k_inside. intros I. apply (k_delim _ _ _ _ true true); auto. intros l Q j. apply k_ts. Qed.
(** a list that ends with the token at [s], with elements that never fail *)
Lemma k_delimited_own : forall element delim msg k f s i, okk delim = true -> K s R_CURLY -> k = R_CURLY -> GrammarBase.mem R_CURLY (parts delim) = false ->
  (forall j, i <= j -> j <= s -> kind_at T j <> R_CURLY -> keep true s j element (fun b _ => b = true)) -> keep f s i (delimited element delim msg (Some k)) any.
Proof.
  intros element delim msg k f s i KK KS -> C H. apply k_free. assert (ST : forall j, GrammarBase.mem (kind_at T j) [R_CURLY] = false -> kind_at T j <> R_CURLY) by (intros j Q E; rewrite E in Q; discriminate).
  apply (k_delim _ _ _ _ false true); auto; [rewrite KS; exact C| |].
  - intros l Q j. apply k_ts_own. rewrite KS. cbn. now rewrite orb_true_r.
  - intros j L1 L2 ME. eapply k_any, H; auto.
Qed.
End Keep.
