(** The grammar respects the discipline of ParserSpec.v: what a computation does to the parser is a
    sequence of steps on the innermost open node, and the markers it returns are children of that node. *)
From Coq Require Import String.
From Verif Require Import Base SyntaxKind ParserModel ParserSpec ParserProofs ParserProofs2 ParserProps TreeSinkModel TreeSinkSpec TreeSinkProps AddressModel GrammarBase.

(** * Runs *)
Definition runs (p : parser) (stk : list frame) (p' : parser) (stk' : list frame) : Prop :=
  exists os, steps (p, stk) os = Some (Ok (p', stk')) /\ careful_run (p, stk) os.
Definition solid (p : parser) : Prop := Forall (fun t => is_trivia (rt_kind (fst t)) = false) (p_toks p).
Definition opened (stk : list frame) : bool := existsb (fun f => match f_mark f with Some _ => true | None => false end) stk.
Lemma runs_refl : forall p stk, runs p stk p stk. Proof. intros p stk. exists []. split; [reflexivity|exact I]. Qed.
Lemma steps_app : forall a b st, steps st (a ++ b) = match steps st a with Some (Ok st') => steps st' b | x => x end.
Proof. induction a as [|o a IH]; intros b st; cbn; auto. destruct (step st o) as [[st'|]|]; auto. Qed.
Lemma careful_app : forall a b st st', steps st a = Some (Ok st') -> careful_run st a -> careful_run st' b -> careful_run st (a ++ b).
Proof. induction a as [|o a IH]; intros b st st' H C D; cbn in *; [injection H as ->; auto|]. destruct C as [C1 C2]. split; auto. destruct (step st o) as [[st1|]|]; auto. eauto. Qed.
Lemma runs_trans : forall p s p1 s1 p2 s2, runs p s p1 s1 -> runs p1 s1 p2 s2 -> runs p s p2 s2.
Proof. intros p s p1 s1 p2 s2 (a & A1 & A2) (b & B1 & B2). exists (a ++ b). split; [rewrite steps_app, A1; exact B1|eapply careful_app; eauto]. Qed.
Lemma runs_step : forall p stk o r, Inv p stk -> step (p, stk) o = Some r -> careful p o -> exists p' stk', r = Ok (p', stk') /\ runs p stk p' stk' /\ Inv p' stk'.
Proof.
  intros p stk o r I H C. destruct (step_inv _ _ _ _ I H) as (p' & stk' & -> & I'). exists p', stk'. split; auto. split; auto. exists [o]. cbn [steps careful_run fst]. rewrite H. auto.
Qed.
Lemma runs_step2 : forall p stk, Inv p stk -> forall o r, step (p, stk) o = Some r -> careful p o -> exists p' stk', r = Ok (p', stk') /\ runs p stk p' stk' /\ Inv p' stk'.
Proof. intros p stk I o r. now apply runs_step. Qed.
Lemma runs_inv : forall p s p' s', Inv p s -> runs p s p' s' -> Inv p' s'.
Proof. intros p s p' s' I (os & H & _). destruct (steps_inv _ _ _ _ I H) as (q & t & E & J). injection E as <- <-. exact J. Qed.
Lemma steps_toks : forall os p s p' s', steps (p, s) os = Some (Ok (p', s')) -> p_toks p' = p_toks p.
Proof.
  induction os as [|o os IH]; intros p s p' s' H; cbn [steps] in H; [now injection H as <- _|]. destruct (step (p, s) o) as [[[p1 s1]|]|] eqn:E; try discriminate.
  rewrite (IH _ _ _ _ H). destruct (step_tokens _ _ _ _ _ E) as [[T _]|(k & n & _ & T & _)]; exact T.
Qed.
Lemma runs_toks : forall p s p' s', runs p s p' s' -> p_toks p' = p_toks p.
Proof. intros p s p' s' (os & H & _). eapply steps_toks; eauto. Qed.
Lemma runs_solid : forall p s p' s', solid p -> runs p s p' s' -> solid p'.
Proof. intros p s p' s' S H. unfold solid. now rewrite (runs_toks _ _ _ _ H). Qed.

Lemma add_nil : forall f, add_items [] f = f. Proof. intros []. unfold add_items. cbn. now rewrite app_nil_r. Qed.
Lemma add_add : forall a b f, add_items b (add_items a f) = add_items (a ++ b) f. Proof. intros a b []. unfold add_items. cbn. now rewrite app_assoc. Qed.
Lemma opened_add : forall l f rest, opened (add_items l f :: rest) = opened (f :: rest). Proof. reflexivity. Qed.

(** * Markers held by the code *)
Definition located (c : nat) (l : list item) : Prop := exists x k ch y, l = x ++ INode c false k ch :: y.
Definition holds (o : option nat) (l : list item) : Prop := match o with Some c => located c l | None => True end.
Lemma holds_front : forall o a l, holds o l -> holds o (a ++ l).
Proof. intros [c|] a l H; cbn in *; auto. destruct H as (x & k & ch & y & ->). exists (a ++ x), k, ch, y. now rewrite app_assoc. Qed.
Lemma holds_back : forall o a l, holds o l -> holds o (l ++ a).
Proof. intros [c|] a l H; cbn in *; auto. destruct H as (x & k & ch & y & ->). exists x, k, ch, (y ++ a). now rewrite <- app_assoc. Qed.

(** what a result says about the tree: the marker in it, if any, and that its kinds are usable *)
Class Hnd (A : Type) := { hnd : A -> option nat; fine : A -> Prop }.
Definition okk (k : kind) : bool := negb (kind_eqb k TOMBSTONE) && negb (is_trivia k) && negb (kind_eqb k EOF).
#[export] Instance hnd_unit : Hnd unit := {| hnd _ := None; fine _ := True |}.
#[export] Instance hnd_bool : Hnd bool := {| hnd _ := None; fine _ := True |}.
#[export] Instance hnd_nat : Hnd nat := {| hnd _ := None; fine _ := True |}.
#[export] Instance hnd_rset : Hnd rset := {| hnd _ := None; fine _ := True |}.
#[export] Instance hnd_sk : Hnd stmt_kind := {| hnd _ := None; fine _ := True |}.
#[export] Instance hnd_kind : Hnd kind := {| hnd _ := None; fine k := okk k = true |}.
#[export] Instance hnd_cm : Hnd cm := {| hnd c := Some (c_pos c); fine _ := True |}.
#[export] Instance hnd_option {A} {_ : Hnd A} : Hnd (option A) :=
  {| hnd x := match x with Some a => hnd a | None => None end; fine x := match x with Some a => fine a | None => True end |}.
#[export] Instance hnd_pair {A B} {_ : Hnd A} {_ : Hnd B} : Hnd (A * B) :=
  {| hnd x := match hnd (fst x) with Some c => Some c | None => hnd (snd x) end; fine x := fine (fst x) /\ fine (snd x) |}.
#[export] Instance hnd_sum {A B} {_ : Hnd A} {_ : Hnd B} : Hnd (A + B) :=
  {| hnd x := match x with inl a => hnd a | inr b => hnd b end; fine x := match x with inl a => fine a | inr b => fine b end |}.
#[export] Instance hnd_closing : Hnd closing :=
  {| hnd c := match c with Extend c => Some (c_pos c) | _ => None end; fine c := match c with Complete k => okk k = true | _ => True end |}.
(** a type of results without markers *)
Class Free (A : Type) {H : Hnd A} := free : forall a : A, hnd a = None.
#[export] Instance free_unit : Free unit. Proof. intros a. reflexivity. Qed.
#[export] Instance free_bool : Free bool. Proof. intros a. reflexivity. Qed.
#[export] Instance free_nat : Free nat. Proof. intros a. reflexivity. Qed.
#[export] Instance free_option {A} {H : Hnd A} {F : Free A} : Free (option A). Proof. intros [a|]; cbn; auto. Qed.
#[export] Instance free_pair {A B} {H : Hnd A} {F : Free A} {H' : Hnd B} {F' : Free B} : Free (A * B). Proof. intros [a b]. cbn. rewrite (free a). apply free. Qed.

(** * The judgement *)
Definition disc {A} {H : Hnd A} (o : option nat) (m : M A) : Prop :=
  forall e p f rest l0, solid p -> opened (f :: rest) = true -> holds o l0 -> Inv p (add_items l0 f :: rest) ->
  match m e p with
  | Ret a p' => fine a /\ exists l', runs p (add_items l0 f :: rest) p' (add_items l' f :: rest) /\ holds (hnd a) l'
  | Broken => False
  | _ => True
  end.

Section Rules.
Context {A B : Type} {HA : Hnd A} {HB : Hnd B}.
Lemma d_ret : forall o (a : A), fine a -> (hnd a = None \/ hnd a = o) -> disc o (ret a).
Proof. intros o a F E e p f rest l0 S O H I. cbn. split; auto. exists l0. split; [apply runs_refl|]. destruct E as [->| ->]; cbn; auto. Qed.
Lemma d_crash : forall o, disc o (@crash A). Proof. intros o e p f rest l0 S O H I. exact Logic.I. Qed.
Lemma d_weaken : forall o (m : M A), disc None m -> disc o m.
Proof.
  intros o m D e p f rest l0 S O H I. specialize (D e p (add_items l0 f) rest [] S O Logic.I). rewrite add_nil in D. specialize (D I). destruct (m e p) as [a p'| | |]; auto.
  destruct D as (F & l' & R & L). split; auto. exists (l0 ++ l'). rewrite add_add in R. split; auto. now apply holds_front.
Qed.
Lemma d_bind : forall o (m : M A) (k : A -> M B), disc o m -> (forall a, fine a -> disc (hnd a) (k a)) -> disc o (mbind m k).
Proof.
  intros o m k D K e p f rest l0 S O H I. unfold mbind. specialize (D e p f rest l0 S O H I). destruct (m e p) as [a p1| | |]; auto. destruct D as (F & l1 & R1 & L1).
  specialize (K a F e p1 f rest l1 (runs_solid _ _ _ _ S R1) O L1 (runs_inv _ _ _ _ I R1)). destruct (k a e p1) as [b p2| | |]; auto. destruct K as (F2 & l2 & R2 & L2).
  split; auto. exists l2. split; auto. eapply runs_trans; eauto.
Qed.
Lemma d_keep : forall o (m : M A) (k : A -> M B), disc None m -> (forall a, fine a -> disc o (k a)) -> disc o (mbind m k).
Proof.
  intros o m k D K e p f rest l0 S O H I. unfold mbind. specialize (D e p (add_items l0 f) rest [] S O Logic.I). rewrite add_nil in D. specialize (D I). destruct (m e p) as [a p1| | |]; auto.
  destruct D as (F & l1 & R1 & _). rewrite add_add in R1.
  specialize (K a F e p1 f rest (l0 ++ l1) (runs_solid _ _ _ _ S R1) O (holds_back _ _ _ H) (runs_inv _ _ _ _ I R1)). destruct (k a e p1) as [b p2| | |]; auto. destruct K as (F2 & l2 & R2 & L2).
  split; auto. exists l2. split; auto. eapply runs_trans; eauto.
Qed.
Lemma d_local : forall o g (m : M A), disc o m -> disc o (local g m).
Proof. intros o g m D e. apply (D (g e)). Qed.
Lemma d_read : forall o (g : env -> parser -> A), (forall e p, hnd (g e p) = None /\ fine (g e p)) -> disc o (fun e p => Ret (g e p) p).
Proof. intros o g G e p f rest l0 S O H I. destruct (G e p) as [G1 G2]. split; auto. exists l0. rewrite G1. split; [apply runs_refl|exact Logic.I]. Qed.
End Rules.

Lemma d_ask : forall o t, disc o (ask t). Proof. intros o t. apply d_read. split; [reflexivity|exact I]. Qed.
Lemma d_outer_rs : forall o, disc o outer_rs. Proof. intros o. apply d_read. split; [reflexivity|exact I]. Qed.
Lemma d_stmt_kind : forall o, disc o stmt_kind_. Proof. intros o. apply d_read. split; [reflexivity|exact I]. Qed.
Lemma d_pos : forall o, disc o pos_. Proof. intros o. apply d_read. split; [reflexivity|exact I]. Qed.
Lemma d_debug : forall o, disc o debug_. Proof. intros o. apply d_read. split; [reflexivity|exact I]. Qed.
Lemma d_skip : forall o, disc o skip. Proof. intros o. apply d_ret; [exact I|now left]. Qed.

Lemma okk_spec : forall k, okk k = true -> kind_eqb k TOMBSTONE = false /\ is_trivia k = false /\ k <> EOF.
Proof. intros k H. unfold okk in H. apply andb_prop in H. destruct H as [H C]. apply andb_prop in H. destruct H as [A B]. rewrite negb_true_iff in A, B, C. split; auto. split; auto. intros ->. discriminate. Qed.

(** * Consuming *)
Lemma d_upd_err : forall s, disc None (err s).
Proof.
  intros s e p f rest l0 S O H I. cbn. split; auto. destruct (runs_step p (add_items l0 f :: rest) (OErr (str s)) _ I eq_refl Logic.I) as (p' & stk' & E & R & _). injection E as <- <-.
  rewrite add_add in R. eexists. split; [exact R|exact Logic.I].
Qed.
Lemma runs_bump : forall p f rest k n, Inv p (f :: rest) -> careful p (OBump k n) -> p_pos p + n <= length (p_toks p) -> runs p (f :: rest) (do_bump k n p) (add_items [ITok k n] f :: rest).
Proof.
  intros p f rest k n I C L. destruct (runs_step p (f :: rest) (OBump k n) (Ok (do_bump k n p, add_items [ITok k n] f :: rest)) I) as (p' & stk' & E & R & _); auto.
  - cbn [step]. apply Nat.leb_le in L. now rewrite L.
  - injection E as <- <-. exact R.
Qed.
Lemma kind_in : forall p n k, k <> EOF -> t_kind (lookahead_nth p n) = k -> p_pos p + n < length (p_toks p).
Proof.
  intros p n k K H. unfold lookahead_nth, token_at_pos in H. destruct (nth_error (p_toks p) (p_pos p + n)) as [[t off]|] eqn:E; [apply nth_error_Some; congruence|]. cbn in H. congruence.
Qed.
Lemma eat_in : forall p k, k <> EOF -> nth_at p 0 k = true -> p_pos p + n_raw k <= length (p_toks p).
Proof.
  assert (C2 : forall p a b, b <> EOF -> at_composite2 p 0 a b = true -> p_pos p + 2 <= length (p_toks p)).
  { intros p a b N H. unfold at_composite2 in H. destruct (_ || _); [discriminate|]. destruct (kind_eqb_reflect (t_kind (lookahead_nth p (0 + 1))) b) as [E|]; [|discriminate]. apply kind_in in E; auto. lia. }
  assert (C3 : forall p a b c, c <> EOF -> at_composite3 p 0 a b c = true -> p_pos p + 3 <= length (p_toks p)).
  { intros p a b c N H. unfold at_composite3 in H. destruct (_ || _); [discriminate|]. destruct (_ || _); [discriminate|]. destruct (kind_eqb_reflect (t_kind (lookahead_nth p (0 + 2))) c) as [E|]; [|discriminate]. apply kind_in in E; auto. lia. }
  intros p k K H. destruct k; cbn [nth_at n_raw] in *; try (eapply C2; [|exact H]; discriminate); try (eapply C3; [|exact H]; discriminate);
  match type of H with kind_eqb ?x ?y = true => destruct (kind_eqb_reflect x y) as [E|]; [apply kind_in in E; auto; lia|discriminate] end.
Qed.
Lemma d_eat : forall k, okk k = true -> disc None (eat_ k).
Proof.
  intros k K e p f rest l0 S O H I. apply okk_spec in K. destruct K as (_ & T & K). unfold eat_. destruct (eat k p) as [b p'] eqn:E. split; [exact Logic.I|]. assert (E0 := E). unfold eat in E. destruct (nth_at p 0 k) eqn:N.
  - injection E as <- <-. exists (l0 ++ [ITok k (n_raw k)]). rewrite <- add_add. split; [|exact Logic.I]. apply runs_bump; auto; [eapply eat_careful; eauto|now apply eat_in].
  - injection E as <- <-. exists l0. split; [apply runs_refl|exact Logic.I].
Qed.
Lemma one_careful : forall p k, is_trivia k = false -> careful p (OBump k 1).
Proof. intros p k T. cbn. split; [lia|]. split; auto. intros j J. lia. Qed.
Lemma not_eof_in : forall p, kind_eqb (current p) EOF = false -> p_pos p + 1 <= length (p_toks p).
Proof.
  intros p H. destruct (kind_eqb_reflect (current p) EOF) as [|N]; [discriminate|]. unfold current in N. unfold lookahead_nth, token_at_pos in N. rewrite Nat.add_0_r in N.
  destruct (nth_error (p_toks p) (p_pos p)) as [[t off]|] eqn:E; [|now cbn in N]. assert (p_pos p < length (p_toks p)) by (apply nth_error_Some; congruence). lia.
Qed.
Lemma d_remap : forall k, okk k = true -> disc None (remap k).
Proof.
  intros k K e p f rest l0 S O H I. apply okk_spec in K. destruct K as (_ & T & _). cbn. split; [exact Logic.I|]. unfold bump_remap. destruct (kind_eqb (current p) EOF) eqn:E.
  - exists l0. split; [apply runs_refl|exact Logic.I].
  - exists (l0 ++ [ITok k 1]). rewrite <- add_add. split; [|exact Logic.I]. apply runs_bump; auto using one_careful, not_eof_in.
Qed.
Lemma solid_current : forall p, solid p -> is_trivia (current p) = false.
Proof.
  intros p S. unfold current, lookahead_nth, token_at_pos. rewrite Nat.add_0_r. destruct (nth_error (p_toks p) (p_pos p)) as [[t off]|] eqn:E; [|reflexivity].
  unfold solid in S. rewrite Forall_forall in S. apply nth_error_In in E. exact (S _ E).
Qed.
Lemma d_bump_any : disc None bump_any_.
Proof.
  intros e p f rest l0 S O H I. cbn. split; [exact Logic.I|]. unfold bump_any. destruct (kind_eqb (current p) EOF) eqn:E.
  - exists l0. split; [apply runs_refl|exact Logic.I].
  - exists (l0 ++ [ITok (current p) 1]). rewrite <- add_add. split; [|exact Logic.I]. apply runs_bump; auto using one_careful, not_eof_in, solid_current.
Qed.

(** * Markers *)
Lemma NoDup_app_l : forall {T} (a b : list T), NoDup (a ++ b) -> NoDup b.
Proof. intros T a. induction a as [|x a IH]; intros b H; auto. inversion H; auto. Qed.
Lemma find_located : forall c x k ch y, ~ In c (labs (flat_items x)) -> find_node c (x ++ INode c false k ch :: y) = Some (x, (k, ch), y).
Proof.
  intros c x k ch y. induction x as [|i x IH]; intros N; [cbn; now rewrite Nat.eqb_refl|].
  assert (N1 : ~ In c (labs (flat_items x))) by (intros Q; apply N; unfold flat_items; cbn [flat_map]; rewrite labs_app; apply in_or_app; now right).
  specialize (IH N1). cbn [app find_node]. destruct i as [h u k' ch'|h|k' n|m']; try (rewrite IH; reflexivity). destruct u; [rewrite IH; reflexivity|].
  destruct (Nat.eqb_spec h c) as [->|]; [|rewrite IH; reflexivity]. exfalso. apply N. unfold flat_items. cbn. now left.
Qed.
Lemma find_held : forall p f rest l0 x c k ch y, Inv p (add_items l0 f :: rest) -> l0 = x ++ INode c false k ch :: y -> find_node c (f_items f ++ l0) = Some (f_items f ++ x, (k, ch), y).
Proof.
  intros p f rest l0 x c k ch y [M _] ->. rewrite app_assoc. apply find_located. pose proof (mn_nodup _ _ _ M) as N. cbn [flat_stack] in N. rewrite labs_app in N. apply NoDup_app_l in N.
  unfold flat_frame in N. rewrite labs_app in N. apply NoDup_app_l in N. cbn [add_items f_items] in N. rewrite app_assoc, flat_items_app, labs_app in N.
  change (flat_items (INode c false k ch :: y)) with (FS c (SNode k false) :: (flat_map flat_item ch ++ [FO CFinish]) ++ flat_items y) in N. cbn [labs flat_map app] in N. apply NoDup_remove_2 in N.
  intros Q. apply N. apply in_or_app. now left.
Qed.

(** the snapshot of the innermost marker *)
Lemma rollback_exact : forall p s f g rest m p', Inv p (f :: g :: rest) -> f_mark f = Some m -> f_prec f = false -> f_snap f = Some s -> step (p, f :: g :: rest) (ORollback m) = Some (Ok (p', g :: rest)) -> p' = s.
Proof.
  intros p s f g rest m p' [M SN] Fm Fp Fs H. cbn [step] in H. unfold is_mark in H. rewrite Fm, Nat.eqb_refl, Fp in H. cbn [andb negb] in H.
  destruct (rollback m p) as [q|] eqn:R; [|discriminate]. cbn in H. injection H as ->. cbn [snaps] in SN. rewrite Fs, Fm in SN. destruct SN as (((Tk & E & HE) & Ms & Ss & -> & _) & _).
  assert (LS0 : nth_error (p_events p) (length (p_events s)) = Some tombstone).
  { unfold MainS in M. cbn [flat_stack] in M. pose proof (mn_lab _ _ _ M) as F. rewrite Forall_app in F. destruct F as [_ F]. unfold flat_frame, mark_list in F. rewrite Fm in F. inversion F; subst. assumption. }
  unfold rollback in R. destruct (snoc_cases _ E) as [->|(E' & e & ->)].
  - exfalso. rewrite app_nil_r in HE. rewrite HE in LS0. assert (length (p_events s) < length (p_events s)) by (apply nth_error_Some; congruence). lia.
  - rewrite HE, app_assoc, split_last_app in R. rewrite app_length in R. destruct (Nat.eqb_spec (length (p_events s)) (length (p_events s) + length E')) as [EE|EE].
    + assert (E' = []) by (destruct E'; auto; cbn in EE; lia). subst E'. rewrite HE in LS0. cbn [app] in LS0. rewrite nth_error_app2, Nat.sub_diag in LS0 by lia. cbn in LS0. injection LS0 as ->.
      cbn [tombstone] in R. rewrite app_nil_r in R. injection R as <-. unfold set_events. unfold MainS in M. cbn [flat_stack] in M. pose proof (mn_pos _ _ _ M) as P. rewrite HE, toks_of_app in P. cbn in P. rewrite Nat.add_0_r in P. rewrite <- Tk, P.
      unfold MainS in Ms. rewrite <- (mn_pos _ _ _ Ms). now destruct s.
    + replace (length ((p_events s ++ E') ++ [e]) - length (p_events s)) with (length (E' ++ [e])) in R by (rewrite <- app_assoc, !app_length; lia).
      erewrite rollback_restores in R; eauto. now injection R as <-.
Qed.

Lemma body_ok : forall {A} {HA : Hnd A} (body : M A) e p f rest, disc None body -> solid p -> Inv p (f :: rest) -> body e (snd (start p)) <> Broken.
Proof.
  intros A HA body e p f rest D S I E. destruct (runs_step p (f :: rest) OStart _ I eq_refl Logic.I) as (p1 & stk1 & E1 & R1 & I1). cbn [start] in E1. injection E1 as <- <-. cbn [fst snd start] in *.
  set (f0 := mkFrame (Some (length (p_events p))) false [] (Some p)) in *. specialize (D e (push_event tombstone p) f0 (f :: rest) [] (runs_solid _ _ _ _ S R1) eq_refl Logic.I I1). now rewrite E in D.
Qed.
Lemma close_ok : forall {A} {HA : Hnd A} {FA : Free A} (body : M (closing * A)) e p f rest c a p2, disc None body -> solid p -> Inv p (f :: rest) ->
  body e (snd (start p)) = Ret (c, a) p2 ->
  fine a /\ exists p3 l', close (fst (start p)) c p2 = Ok p3 /\ runs p (f :: rest) p3 (add_items l' f :: rest) /\ holds (hnd (closed (fst (start p)) c)) l' /\ (c = Rollback -> p3 = p).
Proof.
  intros A HA FA body e p f rest c a p2 D S I E. destruct (runs_step p (f :: rest) OStart _ I eq_refl Logic.I) as (p1 & stk1 & E1 & R1 & I1). cbn [start] in E1. injection E1 as <- <-. cbn [fst snd start] in *.
  set (m := length (p_events p)) in *. set (f0 := mkFrame (Some m) false [] (Some p)) in *.
  specialize (D e (push_event tombstone p) f0 (f :: rest) [] (runs_solid _ _ _ _ S R1) eq_refl Logic.I I1). rewrite E in D. destruct D as ([Fc Fa] & l & R2 & L). cbn [fst snd] in Fc, Fa. split; auto.
  rewrite add_nil in R2. pose proof (runs_inv _ _ _ _ I1 R2) as I2. assert (R : runs p (f :: rest) p2 (add_items l f0 :: f :: rest)) by (eapply runs_trans; eauto).
  assert (IM : is_mark m (add_items l f0) = true) by (cbn; apply Nat.eqb_refl).
  destruct c as [k| | |c]; cbn [close closed].
  - cbn in Fc. destruct (okk_spec _ Fc) as [K1 _]. edestruct (runs_step2 _ _ I2 (OComplete m k)) as (p3 & stk3 & E3 & R3 & _); [cbn [step]; rewrite IM, K1; reflexivity|exact Logic.I|].
    destruct (complete m k p2) as [q|]; [|discriminate]. cbn in E3. injection E3 as <- <-. exists q, [INode m false k l]. split; auto. split; [eapply runs_trans; eauto|]. split; [|discriminate]. cbn. exists [], k, l, []. reflexivity.
  - edestruct (runs_step2 _ _ I2 (OAbandon m)) as (p3 & stk3 & E3 & R3 & _); [cbn [step]; rewrite IM; reflexivity|exact Logic.I|].
    destruct (abandon m p2) as [q|]; [|discriminate]. cbn [bind] in E3. injection E3 as <- <-. eexists q, _. split; auto. split; [eapply runs_trans; eauto|]. split; [exact Logic.I|discriminate].
  - edestruct (runs_step2 _ _ I2 (ORollback m)) as (p3 & stk3 & E3 & R3 & _); [cbn [step]; rewrite IM; reflexivity|exact Logic.I|].
    destruct (rollback m p2) as [q|] eqn:Q; [|discriminate]. cbn [bind] in E3. injection E3 as <- <-. exists q, []. rewrite add_nil. split; auto. split; [eapply runs_trans; eauto|]. split; [exact Logic.I|]. intros _.
    eapply rollback_exact; [exact I2| | | |]; try reflexivity. cbn [step]. rewrite IM, Q. reflexivity.
  - cbn in L. destruct L as (x & k & ch & y & ->). pose proof (find_held _ _ _ _ _ _ _ _ _ I2 eq_refl) as FN. cbn [f_items f0 app] in FN.
    edestruct (runs_step2 _ _ I2 (OExtend (c_pos c) m)) as (p3 & stk3 & E3 & R3 & _); [cbn [step]; rewrite IM; cbn [andb negb f_prec add_items f0 f_items app]; rewrite FN; reflexivity|exact Logic.I|].
    destruct (extend_to (c_pos c) m p2) as [q|]; [|discriminate]. cbn [bind] in E3. injection E3 as <- <-. eexists q, _. split; auto. split; [eapply runs_trans; eauto|]. split; [|discriminate]. cbn. eexists [], k, _, y. reflexivity.
Qed.
Lemma d_marked : forall {A} {HA : Hnd A} {FA : Free A} (body : M (closing * A)), disc None body -> disc None (marked body).
Proof.
  intros A HA FA body D e p f rest l0 S O H I. unfold marked. pose proof (body_ok body e p (add_items l0 f) rest D S I) as NB. destruct (start p) as [m p1] eqn:ST. cbn [snd] in NB. destruct (body e p1) as [[c a] p2| | |] eqn:E; auto.
  destruct (close_ok body e p (add_items l0 f) rest c a p2 D S I) as (Fa & p3 & l' & C & R & L & _); [now rewrite ST|]. rewrite ST in C, L. cbn [fst] in C, L. rewrite C. rewrite add_add in R.
  split; [split; auto; cbn; destruct (closed m c); cbn; auto|]. exists (l0 ++ l'). split; auto. cbn [hnd hnd_pair fst snd]. rewrite (free a). destruct (hnd (closed m c)) as [h|] eqn:Hh; [|exact Logic.I].
  change (holds (Some h) (l0 ++ l')). apply holds_front. exact L.
Qed.
Lemma node_ok : forall {A} {HA : Hnd A} (body : M A) k e p f rest a p2, disc None body -> okk k = true -> solid p -> Inv p (f :: rest) ->
  body e (snd (start p)) = Ret a p2 ->
  exists p3 ch, complete (fst (start p)) k p2 = Ok p3 /\ runs p (f :: rest) p3 (add_items [INode (fst (start p)) false k ch] f :: rest).
Proof.
  intros A HA body k e p f rest a p2 D K S I E. destruct (okk_spec _ K) as [K1 _]. destruct (runs_step p (f :: rest) OStart _ I eq_refl Logic.I) as (p1 & stk1 & E1 & R1 & I1). cbn [start] in E1. injection E1 as <- <-. cbn [fst snd start] in *.
  set (m := length (p_events p)) in *. set (f0 := mkFrame (Some m) false [] (Some p)) in *.
  specialize (D e (push_event tombstone p) f0 (f :: rest) [] (runs_solid _ _ _ _ S R1) eq_refl Logic.I I1). rewrite E in D. destruct D as (_ & l & R2 & _).
  rewrite add_nil in R2. pose proof (runs_inv _ _ _ _ I1 R2) as I2. assert (R : runs p (f :: rest) p2 (add_items l f0 :: f :: rest)) by (eapply runs_trans; eauto).
  edestruct (runs_step2 _ _ I2 (OComplete m k)) as (p3 & stk3 & E3 & R3 & _); [cbn [step]; cbn [is_mark f_mark add_items f0]; rewrite Nat.eqb_refl, K1; reflexivity|exact Logic.I|].
  destruct (complete m k p2) as [q|]; [|discriminate]. cbn in E3. injection E3 as <- <-. exists q, l. split; auto. eapply runs_trans; eauto.
Qed.
Lemma d_node : forall {A} {HA : Hnd A} (body : M A) k, okk k = true -> disc None body -> disc None (node k body).
Proof.
  intros A HA body k K D e p f rest l0 S O H I. unfold node. pose proof (body_ok body e p (add_items l0 f) rest D S I) as NB. destruct (start p) as [m p1] eqn:ST. cbn [snd] in NB. destruct (body e p1) as [a p2| | |] eqn:E; auto.
  destruct (node_ok body k e p (add_items l0 f) rest a p2 D K S I) as (p3 & ch & C & R); [now rewrite ST|]. rewrite ST in C, R. cbn [fst] in C, R. rewrite C. rewrite add_add in R.
  split; [exact Logic.I|]. eexists. split; [exact R|]. apply holds_front. exists [], k, ch, []. reflexivity.
Qed.
Lemma precede_ok : forall {A} {HA : Hnd A} {FA : Free A} (body : M (kind * A)) c e p f rest l0, disc None body -> solid p -> located (c_pos c) l0 -> Inv p (add_items l0 f :: rest) ->
  exists m p1, precede (c_pos c) p = Ok (m, p1) /\ p_pos p1 = p_pos p /\ p_toks p1 = p_toks p /\ (exists g stk, Inv p1 (g :: stk) /\ opened (g :: stk) = true) /\ body e p1 <> Broken /\
    forall k a p2, body e p1 = Ret (k, a) p2 -> fine a /\ exists p3 l', complete m k p2 = Ok p3 /\ runs p (add_items l0 f :: rest) p3 (add_items l' f :: rest) /\ located m l'.
Proof.
  intros A HA FA body c e p f rest l0 D S (x & k0 & ch & y & ->) I. pose proof (find_held _ _ _ _ _ _ _ _ _ I eq_refl) as FN.
  edestruct (runs_step2 _ _ I (OPrecede (c_pos c))) as (p1 & stk1 & E1 & R1 & I1); [cbn [step]; cbn [add_items f_items]; rewrite FN; reflexivity|exact Logic.I|].
  destruct (precede (c_pos c) p) as [[m q]|] eqn:P; [|discriminate]. cbn [bind fst snd] in E1. injection E1 as <- <-. exists m, q. split; auto.
  assert (PP : p_pos q = p_pos p) by (unfold precede in P; cbn in P; destruct (nth_error _ _) as [[]|]; try discriminate; injection P as _ <-; reflexivity). split; auto. split; [now apply runs_toks in R1|].
  set (g := mkFrame (Some m) true (INode (c_pos c) true k0 ch :: y) None) in *.
  set (f1 := set_items (f_items f ++ x) (add_items (x ++ INode (c_pos c) false k0 ch :: y) f)) in *.
  split; [exists g, (f1 :: rest); split; auto|].
  assert (I1' : Inv q (add_items [] g :: f1 :: rest)) by now rewrite add_nil.
  pose proof (D e q g (f1 :: rest) [] (runs_solid _ _ _ _ S R1) eq_refl Logic.I I1') as D1. split; [intros E; now rewrite E in D1|]. intros k a p2 E. rewrite E, add_nil in D1. destruct D1 as ([Fk Fa] & l & R2 & L). cbn [fst snd] in Fk, Fa. split; auto. cbn in Fk. destruct (okk_spec _ Fk) as [K1 _].
  pose proof (runs_inv _ _ _ _ I1 R2) as I2.
  edestruct (runs_step2 _ _ I2 (OComplete m k)) as (p3 & stk3 & E3 & R3 & _); [cbn [step]; cbn [is_mark f_mark add_items g]; rewrite Nat.eqb_refl, K1; reflexivity|exact Logic.I|].
  destruct (complete m k p2) as [q3|]; [|discriminate]. cbn [bind] in E3. injection E3 as <- <-. eexists q3, (x ++ [INode m false k _]). split; auto. split.
  - eapply runs_trans; [exact R1|]. eapply runs_trans; [exact R2|]. replace (add_items (x ++ [INode m false k (f_items (add_items l g))]) f) with (add_items [INode m false k (f_items (add_items l g))] f1); [exact R3|].
    unfold add_items, f1, set_items, add_items. cbn. now rewrite app_assoc.
  - exists x, k, (f_items (add_items l g)), []. reflexivity.
Qed.
Lemma d_preceded : forall {A} {HA : Hnd A} {FA : Free A} c (body : M (kind * A)), disc None body -> disc (Some (c_pos c)) (preceded c body).
Proof.
  intros A HA FA c body D e p f rest l0 S O H I. destruct (precede_ok body c e p f rest l0 D S H I) as (m & p1 & P & _ & _ & _ & NB & K). unfold preceded. rewrite P.
  destruct (body e p1) as [[k a] p2| | |]; auto. destruct (K k a p2 eq_refl) as (Fa & p3 & l' & C & R & L). rewrite C. split; [split; [exact Logic.I|exact Fa]|]. exists l'. split; auto.
Qed.
Lemma restore_exact : forall p s f g rest p', Inv p (f :: g :: rest) -> f_mark f = None -> f_snap f = Some s -> step (p, f :: g :: rest) ORestore = Some (Ok (p', g :: rest)) -> p' = s.
Proof.
  intros p s f g rest p' [M SN] Fm Fs H. cbn [step] in H. rewrite Fm, Fs in H. cbn [snaps] in SN. rewrite Fs, Fm in SN. destruct SN as (((Tk & E & HE) & Ms & Ss & Ls & _) & _).
  unfold event_pos in H. destruct (length (p_events s)) as [|q] eqn:Lq; [lia|]. cbn [bind] in H. unfold rollback_to in H. destruct (_ <? _); [discriminate|].
  replace (length (p_events p) - S q) with (length E) in H by (rewrite HE, app_length; lia). erewrite rollback_restores in H; eauto. cbn in H. now injection H as <-.
Qed.
Lemma checked_ok : forall {A} {HA : Hnd A} {FA : Free A} (body : M (bool * A)) e p f rest, disc None body -> solid p -> opened (f :: rest) = true -> Inv p (f :: rest) ->
  exists q, event_pos p = Ok q /\ Inv p (mkFrame None false [] (Some p) :: f :: rest) /\ body e p <> Broken /\
  forall b a p2, body e p = Ret (b, a) p2 -> fine a /\ exists p3 l', (if b then rollback_to q p2 = Ok p3 /\ p3 = p else p3 = p2) /\ runs p (f :: rest) p3 (add_items l' f :: rest).
Proof.
  intros A HA FA body e p f rest D S O I. edestruct (runs_step2 _ _ I OCheck) as (p1 & stk1 & E1 & R1 & I1); [cbn [step]; unfold opened in O; rewrite O; reflexivity|exact Logic.I|].
  destruct (event_pos p) as [q|] eqn:Q; [|discriminate]. cbn [bind] in E1. injection E1 as <- <-. exists q. split; auto. split; auto. set (g := mkFrame None false [] (Some p)) in *.
  assert (I1' : Inv p (add_items [] g :: f :: rest)) by now rewrite add_nil.
  assert (O' : opened (g :: f :: rest) = true) by exact O.
  pose proof (D e p g (f :: rest) [] S O' Logic.I I1') as D1. split; [intros E; now rewrite E in D1|]. intros b a p2 E. rewrite E, add_nil in D1. destruct D1 as ([_ Fa] & l & R2 & _). cbn [snd] in Fa. split; auto. pose proof (runs_inv _ _ _ _ I1 R2) as I2.
  destruct b.
  - edestruct (runs_step2 _ _ I2 ORestore) as (p3 & stk3 & E3 & R3 & _); [cbn [step add_items g f_mark f_snap]; rewrite Q; reflexivity|exact Logic.I|].
    cbn [bind] in E3. destruct (rollback_to q p2) as [q3|] eqn:RT; [|discriminate]. cbn [bind] in E3. injection E3 as <- <-. exists q3, []. rewrite add_nil. split; [split; auto|eapply runs_trans; [exact R1|]; eapply runs_trans; eauto].
    eapply restore_exact; [exact I2| | |]; try reflexivity. cbn [step add_items g f_mark f_snap]. rewrite Q. cbn [bind]. rewrite RT. reflexivity.
  - edestruct (runs_step2 _ _ I2 OCommit) as (p3 & stk3 & E3 & R3 & _); [cbn [step add_items g f_mark f_snap]; reflexivity|exact Logic.I|].
    injection E3 as <- <-. eexists _, _. split; [reflexivity|]. eapply runs_trans; [exact R1|]; eapply runs_trans; [exact R2|exact R3].
Qed.
Lemma d_checked : forall {A} {HA : Hnd A} {FA : Free A} (body : M (bool * A)), disc None body -> disc None (checked body).
Proof.
  intros A HA FA body D e p f rest l0 S O H I. destruct (checked_ok body e p (add_items l0 f) rest D S O I) as (q & Q & _ & NB & K). unfold checked. rewrite Q.
  destruct (body e p) as [[b a] p2| | |]; auto. destruct (K b a p2 eq_refl) as (Fa & p3 & l' & C & R). rewrite add_add in R. destruct b.
  - destruct C as [-> C]. split; auto. eexists. split; [exact R|]. now rewrite (free a).
  - subst p3. split; auto. eexists. split; [exact R|]. now rewrite (free a).
Qed.

(** * Loops *)
Lemma d_loop_ : forall {S R} {HS : Hnd S} {HR : Hnd R} (f : S -> M (S + R)), (forall s, fine s -> disc (hnd s) (f s)) -> forall n s, fine s -> disc (hnd s) (loop_ n f s).
Proof.
  intros S R HS HR f F n. induction n as [|n IH]; intros s Fs; [intros e p g rest l0 ? ? ? ?; exact I|]. cbn [loop_]. apply d_bind; auto. intros [s'|x] Fx; cbn in Fx |- *; auto. apply d_ret; auto.
Qed.
Lemma d_loop : forall {S R} {HS : Hnd S} {HR : Hnd R} (f : S -> M (S + R)) s, fine s -> (forall s, fine s -> disc (hnd s) (f s)) -> disc (hnd s) (loop f s).
Proof. intros S R HS HR f s Fs F e p. exact (d_loop_ f F _ s Fs e p). Qed.
Lemma d_skip_loop : forall n rs, disc None (skip_loop n rs).
Proof.
  induction n as [|n IH]; intros rs; [intros e p g rest l0 ? ? ? ?; exact I|]. cbn [skip_loop]. apply d_keep; [apply d_ask|]. intros [|] _; [|apply d_skip]. apply d_keep; [apply d_bump_any|auto].
Qed.

(** * Automation *)
Lemma d_bump : forall k, okk k = true -> disc None (bump k).
Proof. intros k K. apply d_bind; [now apply d_eat|]. intros [|] _; [apply d_skip|apply d_crash]. Qed.
Lemma d_assert : forall t, disc None (assert_ t).
Proof. intros t. apply d_bind; [apply d_ask|]. intros [|] _; [apply d_skip|apply d_crash]. Qed.
Lemma d_expect_msg : forall k s, okk k = true -> disc None (expect_msg k s).
Proof. intros k s K. apply d_bind; [now apply d_eat|]. intros [|] _; [apply d_ret; cbn; auto|]. apply d_keep; [apply d_upd_err|]. intros _ _. apply d_ret; cbn; auto. Qed.
Lemma d_expect : forall k, okk k = true -> disc None (expect k). Proof. intros k K. now apply d_expect_msg. Qed.
Lemma d_error_and_bump : forall s, disc None (error_and_bump s).
Proof. intros s. apply d_keep; [|intros; apply d_skip]. apply d_node; [reflexivity|]. apply d_keep; [apply d_bump_any|]. intros _ _. apply d_upd_err. Qed.
Lemma d_error_and_recover : forall s rs, disc None (error_and_recover s rs).
Proof.
  intros s rs. apply d_keep; [apply d_outer_rs|]. intros outer _. apply d_keep; [apply d_ask|]. intros [|] _; [apply d_upd_err|]. apply d_keep; [apply d_error_and_bump|]. intros _ _ e p. exact (d_skip_loop _ _ e p).
Qed.
Lemma d_wrap_with_error : forall c s, disc (Some (c_pos c)) (wrap_with_error c s).
Proof.
  intros c s. apply d_bind; [|intros; apply d_weaken, d_skip]. apply d_preceded. apply d_keep; [apply d_upd_err|]. intros _ _. apply d_ret; cbn; auto.
Qed.
Lemma d_with_rs : forall {A} {HA : Hnd A} o rs (m : M A), disc o m -> disc o (with_rs rs m). Proof. intros. now apply d_local. Qed.
Lemma d_with_ts : forall {A} {HA : Hnd A} o l (m : M A), disc o m -> disc o (with_ts l m). Proof. intros. now apply d_local. Qed.
Lemma d_reset_rs : forall {A} {HA : Hnd A} o (m : M A), disc o m -> disc o (reset_rs m). Proof. intros. now apply d_local. Qed.
Lemma d_with_sk : forall {A} {HA : Hnd A} o k (m : M A), disc o m -> disc o (with_sk k m). Proof. intros. now apply d_local. Qed.
Lemma d_iterate : forall {S} {HS : Hnd S} {FS : Free S} stop (f : S -> M (bool * S)) s, fine s -> (forall s, fine s -> disc None (f s)) -> disc None (iterate_to_EOF stop f s).
Proof.
  intros S HS FS stop f s Fs F. unfold iterate_to_EOF. rewrite <- (free s). apply d_loop; auto. clear s Fs. intros s Fs. rewrite (free s). unfold iter_step.
  apply d_keep; [apply d_ask|]. intros [|] _; [apply d_ret; cbn; auto; left; apply free|]. apply d_keep; [apply d_pos|]. intros before _. apply d_keep; [apply d_with_ts; auto|].
  intros [go s'] [_ Fs']. cbn [snd] in Fs'. destruct go; cbn [negb]; [|apply d_ret; cbn; auto; left; apply free]. apply d_keep; [apply d_outer_rs|]. intros outer _. apply d_keep; [apply d_ask|].
  intros [|] _; [apply d_ret; cbn; auto; left; apply free|]. apply d_keep; [apply d_pos|]. intros now _. destruct (now =? before); [|apply d_ret; cbn; auto; left; apply free]. apply d_keep; [apply d_debug|].
  intros [|] _; [apply d_crash|apply d_ret; cbn; auto; left; apply free].
Qed.
Lemma d_delimited : forall element delim msg list_end, okk delim = true -> disc None element -> disc None (delimited element delim msg list_end).
Proof.
  intros element delim msg list_end K D. unfold delimited. apply d_keep; [apply d_outer_rs|]. intros outer _. change (disc (hnd true) (loop (delim_step element delim msg list_end outer) true)). apply d_loop; [exact I|]. intros s _. change (hnd s) with (@None nat). unfold delim_step.
  apply d_keep; [apply d_ask|]. intros [|] _; [apply d_ret; cbn; auto|]. apply d_keep; [apply d_pos|]. intros before _. apply d_keep; [now apply d_with_ts|]. intros at_element _.
  apply d_keep.
  - destruct (negb at_element); [|apply d_ret; cbn; auto]. destruct (mem delim (rs_kinds outer)); [apply d_ret; cbn; auto|]. apply d_keep; [apply d_ask|]. intros [|] _; [apply d_ret; cbn; auto|].
    apply d_keep; [apply d_error_and_recover|]. intros _ _. apply d_ret; cbn; auto.
  - intros [|] _; [apply d_ret; cbn; auto|]. apply d_keep; [apply d_ask|]. intros [|] _; [apply d_ret; cbn; auto|]. apply d_keep; [now apply d_expect|]. intros isd _. apply d_keep; [apply d_ask|]. intros [|] _; [apply d_ret; cbn; auto|].
    apply d_keep; [apply d_pos|]. intros now _. destruct (now =? before); [|apply d_ret; cbn; auto]. apply d_keep; [apply d_debug|]. intros [|] _; [apply d_crash|apply d_ret; cbn; auto].
Qed.
