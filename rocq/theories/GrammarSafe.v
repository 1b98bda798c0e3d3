(** Where a grammar function can fail an assertion in a release build: the rules.

    The tokens [T] and their texts [X] are fixed, so a test of the input is a fact about a place, and the
    guard in front of an assertion can be remembered until the assertion is reached. *)
From Coq Require Import String.
From Verif Require Import Base SyntaxKind ParserModel GrammarBase GrammarModel AddressModel TreeSinkModel TreeSinkSpec TreeSinkProps ParserSpec ParserProofs ParserProofs2 ParserProps GrammarDisc GrammarDiscAll GrammarTot PrecSpec PrecRun.
Close Scope string_scope.
Close Scope N_scope.
Open Scope nat_scope.

Section Safe.
Variables (T : toks) (X : list text).
(** the token at [i] reads [s] *)
Definition reads (i : nat) (s : string) : bool := (i <? length X) && text_eqb (nth i X []) (str s).
(** an earlier token is the word [proof] *)
Definition proof_before (i : nat) : Prop := exists j, j < i /\ kind_at T j = IDENT /\ reads j "proof" = true.
Definition base (e : env) (p : parser) : Prop :=
  e_debug e = false /\ e_texts e = X /\ p_toks p = T /\ sound p /\ (e_sk e = SProof -> proof_before (p_pos p)).
(** from place [i] no assertion fails, and the result and the place it ends at satisfy [Q] *)
Definition safe {A} (i : nat) (m : M A) (Q : A -> nat -> Prop) : Prop :=
  forall e p, base e p -> p_pos p = i ->
  match m e p with
  | Ret a p' => sound p' /\ grows p p' /\ Q a (p_pos p')
  | Crash => False
  | Broken | Fuel => True
  end.
Definition any {A} (_ : A) (_ : nat) : Prop := True.

Lemma base_next : forall e p p', base e p -> sound p' -> grows p p' -> base e p'.
Proof.
  intros e p p' (D & TX & TT & S & K) S' G. repeat split; auto; try apply S'; [rewrite (proj1 G); exact TT|]. intros H. destruct (K H) as (j & L & J). exists j. split; auto. pose proof (grows_pos _ _ S S' G). lia.
Qed.
Lemma base_pos : forall e p p', base e p -> sound p' -> grows p p' -> p_pos p <= p_pos p'.
Proof. intros e p p' (D & TX & TT & S & K) S' G. now apply grows_pos. Qed.

(** * Tests are facts about places *)
Section Values.
Variables (e : env) (p : parser) (i : nat).
Hypothesis B : base e p.
Hypothesis P : p_pos p = i.
Lemma v_at : forall k, t_at k e p = joined T i (parts k). Proof. intros k. unfold t_at. destruct B as (_ & _ & TT & _). now rewrite nth_at_joined, TT, P, Nat.add_0_r. Qed.
Lemma v_raw0 : forall k, nth_at p 0 k = joined T i (parts k). Proof. exact v_at. Qed.
Lemma v_raw : forall n k, nth_at p n k = joined T (i + n) (parts k). Proof. intros n k. destruct B as (_ & _ & TT & _). now rewrite nth_at_joined, TT, P. Qed.
Lemma v_nth_at : forall n k, t_nth_at n k e p = joined T (i + n) (parts k). Proof. exact v_raw. Qed.
Lemma v_cur : forall k, t_cur k e p = kind_eqb (kind_at T i) k. Proof. intros k. unfold t_cur. destruct B as (_ & _ & TT & _). now rewrite cur_at, TT, P. Qed.
Lemma v_nth : forall n k, t_nth n k e p = kind_eqb (kind_at T (i + n)) k. Proof. intros n k. unfold t_nth. destruct B as (_ & _ & TT & _). now rewrite look_at, TT, P. Qed.
Lemma v_ts : forall l, t_ts l e p = GrammarBase.mem (kind_at T i) l. Proof. intros l. unfold t_ts. destruct B as (_ & _ & TT & _). now rewrite cur_at, TT, P. Qed.
Lemma v_nth_ts : forall n l, t_nth_ts n l e p = GrammarBase.mem (kind_at T (i + n)) l. Proof. intros n l. unfold t_nth_ts. destruct B as (_ & _ & TT & _). now rewrite look_at, TT, P. Qed.
Lemma v_kw : forall s, t_kw s e p = reads i s. Proof. intros s. unfold t_kw, text_at, reads. destruct B as (_ & TX & _). now rewrite TX, P, Nat.add_0_r. Qed.
End Values.
(** the test gave [b] at [i] *)
Definition obs (t : test) (i : nat) (b : bool) : Prop := exists e p, base e p /\ p_pos p = i /\ t e p = b.
(** the test gives [true] at [i] *)
Definition holds (t : test) (i : nat) : Prop := forall e p, base e p -> p_pos p = i -> t e p = true.

(** * Rules *)
Section Rules.
Context {A B : Type}.
Lemma s_ret : forall i (a : A) (Q : A -> nat -> Prop), Q a i -> safe i (ret a) Q.
Proof. intros i a Q H e p B0 P. cbn. split; [apply B0|]. split; [apply grows_refl|]. now rewrite P. Qed.
Lemma s_weak : forall i (m : M A) (Q R : A -> nat -> Prop), safe i m Q -> (forall a j, i <= j -> Q a j -> R a j) -> safe i m R.
Proof. intros i m Q R H K e p B0 P. specialize (H e p B0 P). destruct (m e p) as [a p'| | |]; auto. destruct H as (S' & G & q). split; auto. split; auto. apply K; auto. rewrite <- P. eapply base_pos; eauto. Qed.
Lemma s_any : forall i (m : M A) (Q : A -> nat -> Prop), safe i m Q -> safe i m any.
Proof. intros i m Q H. eapply s_weak; [exact H|]. intros. exact I. Qed.
Lemma s_bind : forall i (m : M A) (k : A -> M B) Q R, safe i m Q -> (forall a j, i <= j -> Q a j -> safe j (k a) R) -> safe i (mbind m k) R.
Proof.
  intros i m k Q R H K e p B0 P. unfold mbind. specialize (H e p B0 P). destruct (m e p) as [a p'| | |]; auto. destruct H as (S' & G & q). pose proof (base_pos _ _ _ B0 S' G) as L. rewrite P in L.
  specialize (K a (p_pos p') L q e p' (base_next _ _ _ B0 S' G) eq_refl). destruct (k a e p') as [b p2| | |]; auto. destruct K as (S2 & G2 & r). split; auto. split; auto. eapply grows_trans; eauto.
Qed.
Lemma s_fuel : forall i (Q : A -> nat -> Prop), safe i out_of_fuel Q. Proof. intros i Q e p B0 P. exact I. Qed.
Lemma s_read : forall i (g : env -> parser -> A) (Q : A -> nat -> Prop), (forall e p, base e p -> p_pos p = i -> Q (g e p) i) -> safe i (fun e p => Ret (g e p) p) Q.
Proof. intros i g Q H e p B0 P. split; [apply B0|]. split; [apply grows_refl|]. rewrite P. now apply H. Qed.
Lemma s_bind_read : forall i (g : env -> parser -> A) (k : A -> M B) R, (forall a, (exists e p, base e p /\ p_pos p = i /\ g e p = a) -> safe i (k a) R) -> safe i (mbind (fun e p => Ret (g e p) p) k) R.
Proof. intros i g k R H e p B0 P. unfold mbind. apply H; auto. exists e, p. auto. Qed.
Lemma s_bind_ask : forall i t (k : bool -> M B) R, (forall b, obs t i b -> safe i (k b) R) -> safe i (mbind (ask t) k) R.
Proof. intros i t k R H e p B0 P. unfold mbind, ask. apply H; auto. exists e, p. auto. Qed.
Lemma s_local_rs : forall i g (m : M A) Q, (forall e, e_debug (g e) = e_debug e /\ e_texts (g e) = e_texts e /\ e_sk (g e) = e_sk e) -> safe i m Q -> safe i (local g m) Q.
Proof. intros i g m Q HG H e p (D & TX & TT & S & K) P. unfold local. apply H; auto. destruct (HG e) as (G1 & G2 & G3). repeat split; try congruence; try apply S. intros E. apply K. congruence. Qed.
Lemma s_rs : forall i rs (m : M A) Q, safe i m Q -> safe i (with_rs rs m) Q. Proof. intros i rs m Q H. apply s_local_rs; auto. Qed.
Lemma s_ts : forall i l (m : M A) Q, safe i m Q -> safe i (with_ts l m) Q. Proof. intros i l m Q H. now apply s_rs. Qed.
Lemma s_reset : forall i (m : M A) Q, safe i m Q -> safe i (reset_rs m) Q. Proof. intros i m Q H. apply s_local_rs; auto. Qed.
Lemma s_sk : forall i sk (m : M A) Q, (sk = SProof -> proof_before i) -> safe i m Q -> safe i (with_sk sk m) Q.
Proof. intros i sk m Q K H e p (D & TX & TT & S & _) P. unfold with_sk, local. apply H; auto. repeat split; auto; try apply S. cbn. rewrite P. exact K. Qed.
End Rules.
Section Marks.
Context {A : Type}.
Lemma base_start : forall e p, base e p -> base e (push_event tombstone p).
Proof. intros e p B0. eapply base_next; [exact B0| |apply grows_push]. apply sound_push; auto. apply B0. Qed.
Lemma s_node : forall i k (body : M A) (Q : A -> nat -> Prop) (R : nat -> Prop), safe i body Q -> (forall a j, Q a j -> R j) -> safe i (node k body) (fun _ j => R j).
Proof.
  intros i k body Q R H K e p B0 P. unfold node. cbn [start]. specialize (H e _ (base_start _ _ B0) P). destruct (body e _) as [a p2| | |]; auto. destruct H as (S2 & G2 & q).
  destruct (complete _ k p2) as [p3|] eqn:C; auto. destruct (complete_sound _ _ _ _ S2 C) as (S3 & G3 & P3). split; auto. split; [eapply grows_trans; [apply grows_push|]; eapply grows_trans; eauto|]. rewrite P3. eapply K; eauto.
Qed.
Lemma s_node_any : forall i k (body : M A), safe i body any -> safe i (node k body) any.
Proof. intros i k body H. exact (s_node i k body any (fun _ => True) H (fun _ _ _ => I)). Qed.
Definition ends (c : closing) : bool := match c with Complete _ | Extend _ => true | _ => false end.
Definition kept (c : closing) : bool := match c with Rollback => false | _ => true end.
Lemma s_marked : forall i (body : M (closing * A)) (R : bool -> A -> nat -> Prop),
  safe i body (fun x j => if kept (fst x) then R (ends (fst x)) (snd x) j else forall j, R false (snd x) j) -> safe i (marked body) (fun x j => R (is_some (fst x)) (snd x) j).
Proof.
  intros i body R H e p B0 P. unfold marked. cbn [start]. specialize (H e _ (base_start _ _ B0) P). destruct (body e _) as [[c a] p2| | |]; auto. destruct H as (S2 & G2 & q).
  destruct (close _ c p2) as [p3|] eqn:C; auto. assert (S : sound p) by apply B0. destruct (close_sound _ _ _ _ S S2 G2 C) as (S3 & G3 & P3). split; auto. split; auto. cbn [fst snd] in *. destruct c as [k| | |c]; cbn [kept ends closed is_some] in *; try rewrite P3; auto.
Qed.
Lemma s_marked_any : forall i (body : M (closing * A)), safe i body any -> safe i (marked body) any.
Proof. intros i body H. apply (s_marked i body (fun _ _ _ => True)). eapply s_weak; [exact H|]. intros [c a] j _ _. destruct (kept _); auto. Qed.
Lemma s_marked_ends : forall i (body : M (closing * A)), safe i body (fun x _ => ends (fst x) = true) -> safe i (marked body) (fun x _ => is_some (fst x) = true).
Proof. intros i body H. apply (s_marked i body (fun b _ _ => b = true)). eapply s_weak; [exact H|]. intros [c a] j _ E. cbn [fst] in *. destruct c; try discriminate E; reflexivity. Qed.
Lemma s_preceded : forall i c (body : M (kind * A)) (R : A -> nat -> Prop), safe i body (fun x j => R (snd x) j) -> safe i (preceded c body) (fun x j => R (snd x) j).
Proof.
  intros i c body R H e p B0 P. unfold preceded. destruct (precede (c_pos c) p) as [[m p1]|] eqn:E; auto. assert (S : sound p) by apply B0. destruct (precede_sound _ _ _ _ S E) as (S1 & G1 & P1).
  specialize (H e p1 (base_next _ _ _ B0 S1 G1)). rewrite P1 in H. specialize (H P). destruct (body e p1) as [[k a] p2| | |]; auto. destruct H as (S2 & G2 & q).
  destruct (complete _ k p2) as [p3|] eqn:C; auto. destruct (complete_sound _ _ _ _ S2 C) as (S3 & G3 & P3). split; auto. split; [eapply grows_trans; [exact G1|]; eapply grows_trans; eauto|]. rewrite P3. exact q.
Qed.
Lemma s_preceded_any : forall i c (body : M (kind * A)), safe i body any -> safe i (preceded c body) any.
Proof. intros i c body H. exact (s_preceded i c body (fun _ _ => True) H). Qed.
End Marks.

Lemma restore_pos : forall p p2 q p3, sound p -> sound p2 -> grows p p2 -> event_pos p = Ok q -> rollback_to q p2 = Ok p3 -> p_pos p3 = p_pos p.
Proof.
  intros p p2 q p3 S S2 [TT (a & b & E & Mk)] Q H. unfold event_pos in Q. destruct (length (p_events p)) as [|n] eqn:L; [discriminate|]. injection Q as ->. unfold rollback_to in H. destruct (_ <? _); [discriminate|].
  assert (LA : length a = Datatypes.S q) by (apply (f_equal (@length _)) in Mk; rewrite !map_length in Mk; congruence).
  destruct (pop_back (length (p_events p2) - Datatypes.S q) p2 a b p3 S2 E) as (U & Y & Z); [rewrite E, (app_length a), LA; lia|exact H|]. rewrite Z, (toks_of_tk _ _ Mk). symmetry. apply S.
Qed.
(** a rollback brings the place back *)
Lemma s_checked : forall {A} i (body : M (bool * A)) (R : A -> nat -> Prop), safe i body (fun x j => R (snd x) (if fst x then i else j)) -> safe i (checked body) R.
Proof.
  intros A i body R H e p B0 P. unfold checked. destruct (event_pos p) as [q|] eqn:Q; auto. specialize (H e p B0 P). destruct (body e p) as [[[|] a] p2| | |]; auto.
  destruct H as (S2 & G2 & r). assert (S : sound p) by apply B0. destruct (rollback_to q p2) as [p3|] eqn:E; auto. destruct (restore_sound _ _ _ _ S S2 G2 Q E) as [U V]. split; auto. split; auto. rewrite (restore_pos _ _ _ _ S S2 G2 Q E), P. exact r.
Qed.

(** * Primitives *)
Lemma s_upd : forall i f, (forall p, sound p -> sound (f p) /\ grows p (f p)) -> safe i (upd f) any.
Proof. intros i f H e p B0 P. cbn. destruct (H p) as [U V]; [apply B0|]. split; auto. split; auto. exact I. Qed.
Lemma s_err : forall i s, safe i (err s) (fun _ j => j = i).
Proof. intros i s e p B0 P. cbn. split; [apply sound_push; auto; apply B0|]. split; [apply grows_push|auto]. Qed.
Lemma s_skip : forall i, safe i skip (fun _ j => j = i). Proof. intros i. now apply s_ret. Qed.
Lemma s_bind_eat : forall {B} i k (g : bool -> M B) R, okk k = true -> (joined T i (parts k) = true -> safe (i + n_raw k) (g true) R) -> (joined T i (parts k) = false -> safe i (g false) R) -> safe i (mbind (eat_ k) g) R.
Proof.
  intros B i k g R K H1 H2 e p B0 P. unfold mbind, eat_, eat. apply okk_spec in K. destruct K as (_ & _ & K). assert (S : sound p) by apply B0. rewrite (v_raw0 e p i B0 P). destruct (joined T i (parts k)) eqn:J; [|apply H2; auto].
  assert (N : nth_at p 0 k = true) by (rewrite (v_raw0 e p i B0 P); exact J). destruct (bump_sound p k (n_raw k) S (eat_in p k K N)) as (U & V & W).
  specialize (H1 eq_refl e _ (base_next _ _ _ B0 U V)). rewrite W, P in H1. specialize (H1 eq_refl). destruct (g true e _) as [b p2| | |]; auto. destruct H1 as (S2 & G2 & r). split; auto. split; auto. eapply grows_trans; eauto.
Qed.
Lemma s_eat : forall i k (Q : bool -> nat -> Prop), okk k = true -> (joined T i (parts k) = true -> Q true (i + n_raw k)) -> (joined T i (parts k) = false -> Q false i) -> safe i (eat_ k) Q.
Proof.
  intros i k Q K H1 H2 e p B0 P. pose proof (s_bind_eat i k ret Q K (fun J => s_ret _ _ Q (H1 J)) (fun J => s_ret _ _ Q (H2 J)) e p B0 P) as H. unfold mbind, ret in H. destruct (eat_ k e p); auto.
Qed.
Lemma s_bump : forall i k, okk k = true -> joined T i (parts k) = true -> safe i (bump k) (fun _ j => j = i + n_raw k).
Proof. intros i k K J. unfold bump. apply s_bind_eat; auto; [intros _; now apply s_ret|congruence]. Qed.
Lemma s_expect_msg : forall i k s, okk k = true -> safe i (expect_msg k s) (fun b j => if b then joined T i (parts k) = true /\ j = i + n_raw k else j = i).
Proof. intros i k s K. unfold expect_msg. apply s_bind_eat; auto; intros J; [now apply s_ret|]. eapply s_bind; [apply s_err|]. intros _ j _ ->. now apply s_ret. Qed.
Lemma s_expect : forall i k, okk k = true -> safe i (expect k) (fun b j => if b then joined T i (parts k) = true /\ j = i + n_raw k else j = i).
Proof. intros. now apply s_expect_msg. Qed.
Lemma in_place : forall p, sound p -> p_toks p = T -> p_pos p < length T -> current p <> EOF.
Proof.
  intros p (A & _ & _) TT L. rewrite cur_at, TT. unfold kind_at. destruct (nth_error T (p_pos p)) as [[t o]|] eqn:N; [|apply nth_error_None in N; lia]. apply nth_error_In in N. rewrite TT, Forall_forall in A. exact (A _ N).
Qed.
Lemma s_remap : forall i k, safe i (remap k) (fun _ j => i < length T -> j = i + 1).
Proof.
  intros i k e p B0 P. assert (S : sound p) by apply B0. cbn. unfold bump_remap. destruct (kind_eqb_reflect (current p) EOF) as [E|E].
  - split; auto. split; [apply grows_refl|]. intros L. exfalso. eapply in_place; [exact S|apply B0|rewrite P; exact L|exact E].
  - destruct (bump_sound p k 1 S) as (U & V & W); [apply not_eof_lt in E; lia|]. split; auto. split; auto. intros _. lia.
Qed.
Lemma s_bump_any : forall i, safe i bump_any_ any.
Proof.
  intros i. apply s_upd. intros p S. unfold bump_any. destruct (kind_eqb_reflect (current p) EOF) as [E|E]; [split; auto using grows_refl|].
  destruct (bump_sound p (current p) 1 S) as (U & V & W); [apply not_eof_lt in E; lia|]. auto.
Qed.
Lemma s_assert : forall i t, holds t i -> safe i (assert_ t) (fun _ j => j = i).
Proof. intros i t H e p B0 P. unfold assert_, mbind, ask. rewrite (H e p B0 P). cbn. split; [apply B0|]. split; [apply grows_refl|exact P]. Qed.
Lemma s_error_and_bump : forall i s, safe i (error_and_bump s) any.
Proof.
  intros i s. unfold error_and_bump. eapply s_bind; [|intros c j _ _; now apply s_ret]. apply s_node_any. eapply s_bind; [apply s_bump_any|]. intros a j _ _. eapply s_any, s_err.
Qed.
Lemma s_wrap_with_error : forall i c s, safe i (wrap_with_error c s) any.
Proof.
  intros i c s. unfold wrap_with_error. eapply s_bind; [|intros x j _ _; now apply s_ret]. apply s_preceded_any. eapply s_bind; [apply s_err|]. intros _ j _ _. now apply s_ret.
Qed.
Lemma skip_safe : forall fuel rs i, safe i (skip_loop fuel rs) any.
Proof.
  induction fuel as [|fuel IH]; intros rs i; [apply s_fuel|]. cbn [skip_loop]. apply s_bind_ask. intros [|] _; [|now apply s_ret]. eapply s_bind; [apply s_bump_any|]. intros a j _ _. apply IH.
Qed.
Lemma s_error_and_recover : forall i s rs, safe i (error_and_recover s rs) any.
Proof.
  intros i s rs. unfold error_and_recover. apply (s_bind_read i (fun e _ => e_rs e)). intros outer _. cbv zeta. apply s_bind_ask. intros [|] _; [eapply s_any, s_err|]. eapply s_bind; [apply s_error_and_bump|]. intros a j _ _ e p B0 P. exact (skip_safe _ _ j e p B0 P).
Qed.
Lemma s_wildcard_ident : forall i, safe i wildcard_ident any.
Proof.
  intros i e p B0 P. assert (D : e_debug e = false) by apply B0. assert (S : sound p) by apply B0. unfold wildcard_ident. cbv zeta. rewrite D. cbn [andb].
  set (n := wildcard_count (Datatypes.S (left_ p)) p 0 0). destruct (Nat.ltb_spec 0 (n mod 256)) as [L|L]; [|split; auto; split; [apply grows_refl|exact I]].
  destruct (kind_eqb_reflect (current p) EOF) as [E|E]; [split; auto; split; [apply grows_refl|exact I]|].
  assert (W : p_pos p + n mod 256 <= length (p_toks p)).
  { pose proof (wildcard_in (Datatypes.S (left_ p)) p 0 0 ltac:(destruct S as (_ & _ & S); lia) eq_refl) as WI. pose proof (Nat.mod_le n 256 ltac:(lia)). unfold n in *. lia. }
  destruct (bump_sound p WILDCARD_IDENT (n mod 256) S W) as (U & V & _). split; auto. split; auto. exact I.
Qed.

(** * Loops *)
Lemma s_loop : forall {U V} (f : U -> M (U + V)) (J : U -> nat -> Prop) (Q : V -> nat -> Prop) s i,
  (forall s j, i <= j -> J s j -> safe j (f s) (fun r k => match r with inl s' => J s' k | inr x => Q x k end)) -> J s i -> safe i (loop f s) Q.
Proof.
  intros U V f J Q s i H Ji e p B0 P. unfold loop. assert (L : forall fuel s j, i <= j -> J s j -> safe j (loop_ fuel f s) Q).
  { induction fuel as [|fuel IH]; intros s' j Lj Jj; [apply s_fuel|]. cbn [loop_]. eapply s_bind; [now apply H|]. intros [s2|x] k Lk q; cbv beta iota in *; [apply IH; auto; lia|now apply s_ret]. }
  apply (L _ s i); auto.
Qed.
Lemma s_loop_any : forall {U V} (f : U -> M (U + V)) s i, (forall s j, i <= j -> safe j (f s) any) -> safe i (loop f s) any.
Proof. intros U V f s i H. apply (s_loop f (fun _ _ => True)); auto. intros s' j L _. eapply s_weak; [now apply H|]. intros [|] k _ _; exact I. Qed.
Lemma s_iterate : forall {U} stop (f : U -> M (bool * U)) s i, (forall s j, i <= j -> safe j (f s) any) -> safe i (iterate_to_EOF stop f s) any.
Proof.
  intros U stop f s i H. unfold iterate_to_EOF. apply s_loop_any. intros s' j L. unfold iter_step. apply s_bind_ask. intros [|] _; [now apply s_ret|]. apply (s_bind_read j (fun _ p => p_pos p)). intros before _.
  eapply s_bind; [apply s_ts; now apply H|]. intros [go s2] k _ _. destruct (negb go); [now apply s_ret|]. apply (s_bind_read k (fun e _ => e_rs e)). intros outer _. apply s_bind_ask. intros [|] _; [now apply s_ret|].
  apply (s_bind_read k (fun _ p => p_pos p)). intros now_ _. destruct (now_ =? before); [|now apply s_ret]. apply (s_bind_read k (fun e _ => e_debug e)). intros d (e & p & (D & _) & _ & <-). rewrite D. now apply s_ret.
Qed.
(** the first turn is the last *)
Lemma s_iterate_once : forall {U} stop (f : U -> M (bool * U)) s i (Q : U -> nat -> Prop), GrammarBase.mem (kind_at T i) (EOF :: stop) = false -> safe i (f s) (fun x j => fst x = false /\ Q (snd x) j) -> safe i (iterate_to_EOF stop f s) Q.
Proof.
  intros U stop f s i Q N H. unfold iterate_to_EOF. apply (s_loop _ (fun s' j => s' = s /\ j = i)); auto. intros s' j _ [-> ->]. unfold iter_step. apply s_bind_ask. intros b (e & p & B0 & P & E).
  unfold t_or in E. rewrite (v_at _ _ _ B0 P), (v_ts _ _ _ B0 P) in E. cbn [GrammarBase.mem existsb] in N. change (joined T i (parts EOF)) with (kind_eqb (kind_at T i) EOF) in E. unfold GrammarBase.mem in *. rewrite N in E. subst b.
  apply (s_bind_read i (fun _ p => p_pos p)). intros before _. eapply s_bind; [apply s_ts; exact H|]. intros [go s2] k _ [G q]. cbn [fst snd] in *. subst go. cbn [negb]. now apply s_ret.
Qed.
Lemma s_delimited : forall element delim msg list_end i, okk delim = true -> (forall j, i <= j -> safe j element any) -> safe i (delimited element delim msg list_end) any.
Proof.
  intros element delim msg list_end i K H. unfold delimited. apply (s_bind_read i (fun e _ => e_rs e)). intros outer _. apply s_loop_any. intros is_empty j L. unfold delim_step. cbv zeta. apply s_bind_ask. intros [|] _; [now apply s_ret|].
  apply (s_bind_read j (fun _ p => p_pos p)). intros before _. eapply s_bind; [apply s_ts; now apply H|]. intros ae k _ _. eapply (s_bind _ _ _ any).
  { destruct (negb ae); [|now apply s_ret]. destruct (GrammarBase.mem _ _); [now apply s_ret|]. apply s_bind_ask. intros [|] _; [now apply s_ret|]. eapply s_bind; [apply s_error_and_recover|]. intros. now apply s_ret. }
  intros [|] k2 _ _; [now apply s_ret|]. apply s_bind_ask. intros [|] _; [now apply s_ret|]. eapply s_bind; [now apply s_expect|]. intros isd k3 _ _. apply s_bind_ask. intros [|] _; [now apply s_ret|].
  apply (s_bind_read k3 (fun _ p => p_pos p)). intros now_ _. destruct (now_ =? before); [|now apply s_ret]. apply (s_bind_read k3 (fun e _ => e_debug e)). intros d (e & p & (D & _) & _ & <-). rewrite D. now apply s_ret.
Qed.
End Safe.
