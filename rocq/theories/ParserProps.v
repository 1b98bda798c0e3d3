(** Properties of the parser primitives and of the replay of events (C16, C18, C19). *)
From Verif Require Import Base SyntaxKind ParserModel ParserSpec ParserProofs ParserProofs2.

(** * Well-formed call sequences: an independent definition *)
(** the depth never drops below zero and ends at zero *)
Fixpoint nested (depth : nat) (l : list call) : Prop :=
  match l with
  | [] => depth = 0
  | CStart _ :: r => nested (S depth) r
  | CFinish :: r => match depth with O => False | S d => nested d r end
  | _ :: r => nested depth r
  end.
Fixpoint calls_tokens (l : list call) : list (kind * nat) :=
  match l with [] => [] | CToken k n :: r => (k, n) :: calls_tokens r | _ :: r => calls_tokens r end.
Fixpoint event_tokens (l : list event) : list (kind * nat) :=
  match l with [] => [] | EToken k n :: r => (k, n) :: event_tokens r | _ :: r => event_tokens r end.
Definition total (l : list (kind * nat)) : nat := fold_right (fun t a => snd t + a) 0 l.

Fixpoint item_ind' (P : item -> Prop) (H1 : forall h u k ch, Forall P ch -> P (INode h u k ch)) (H2 : forall h, P (IGone h)) (H3 : forall k n, P (ITok k n)) (H4 : forall m, P (IErr m)) (i : item) {struct i} : P i :=
  match i with
  | INode h u k ch => H1 h u k ch ((fix all l := match l return Forall P l with [] => Forall_nil P | x :: r => Forall_cons x (item_ind' P H1 H2 H3 H4 x) (all r) end) ch)
  | IGone h => H2 h
  | ITok k n => H3 k n
  | IErr m => H4 m
  end.
Lemma build_nested : forall i d r, nested d r -> nested d (build i ++ r).
Proof.
  intros i. induction i as [h u k ch IH| | |] using item_ind'; intros d r H; cbn; auto.
  assert (G : forall l d' r', Forall (fun i => forall d r, nested d r -> nested d (build i ++ r)) l -> nested d' r' -> nested d' (flat_map build l ++ r')).
  { induction l as [|x l IHl]; intros d' r' F Hr; cbn; auto. inversion F; subst. rewrite <- app_assoc. auto. }
  rewrite <- app_assoc. apply G; auto. 
Qed.
Lemma builds_nested : forall l, nested 0 (flat_map build l).
Proof. induction l as [|i l IH]; cbn; [reflexivity|]. now apply build_nested. Qed.

(** * Reachable states *)
Definition no_eof (raw : list raw_token) : Prop := Forall (fun t => rt_kind t <> EOF) raw.
Lemma significant_kinds : forall raw off, no_eof raw -> Forall (fun t => rt_kind (fst t) <> EOF) (significant off raw).
Proof.
  induction raw as [|t raw IH]; intros off H; cbn; [constructor|]. inversion H; subst. destruct (is_trivia (rt_kind t)); [now apply IH|]. constructor; [assumption|now apply IH].
Qed.
Lemma begin_inv : forall raw, no_eof raw -> Inv (parser_new raw) [base_frame].
Proof.
  intros raw H. split.
  - constructor; cbn; auto; try constructor; try lia.
    + now apply significant_kinds.
    + unfold link in H0. destruct i; discriminate.
    + unfold link in H0. destruct i; discriminate.
  - cbn. split; auto.
Qed.
Lemma steps_inv : forall os p stk r, Inv p stk -> steps (p, stk) os = Some r -> exists p' stk', r = Ok (p', stk') /\ Inv p' stk'.
Proof.
  induction os as [|o os IH]; intros p stk r I H; [injection H as <-; eauto|]. cbn [steps] in H. destruct (step (p, stk) o) as [r0|] eqn:S; [|discriminate].
  destruct (step_inv _ _ _ _ I S) as (p1 & stk1 & -> & I1). eauto.
Qed.

(** * The replay *)
Lemma render_items : forall es l, Forall (lab_ok es) (flat_items l) -> flat_map (render es) (map strip (flat_items l)) = flat_map build l.
Proof.
  intros es. assert (G : forall i, Forall (lab_ok es) (flat_item i) -> flat_map (render es) (map strip (flat_item i)) = build i).
  { induction i as [h u k ch IH| | |] using item_ind'; intros H; cbn [flat_item build] in *; auto.
    - inversion H as [|? ? H1 H2]; subst. cbn in H1. destruct H1 as (fp & E & K & _). apply Forall_app in H2. destruct H2 as [H2 _].
      cbn [map strip flat_map render]. unfold kind_at. rewrite E. apply kind_eqb_neq in K. rewrite K. cbn [app]. f_equal. rewrite map_app, flat_map_app. cbn. f_equal.
      clear -IH H2. induction ch as [|x ch IHc]; auto. cbn in *. inversion IH; subst. apply Forall_app in H2. destruct H2 as [A B]. rewrite map_app, flat_map_app. f_equal; auto.
    - inversion H as [|? ? H1 _]; subst. cbn in H1. destruct H1 as (fp & E). cbn. unfold kind_at. rewrite E. reflexivity. }
  induction l as [|i l IH]; intros H; auto. cbn in *. apply Forall_app in H. destruct H as [A B]. rewrite map_app, flat_map_app. f_equal; auto.
Qed.

(** C16: a disciplined grammar never makes the primitives panic, and when every node has been closed the
    replay makes exactly the calls that build the trees the grammar assembled *)
Theorem replay_builds_tree : forall raw os r, no_eof raw -> steps (begin raw) os = Some r ->
  exists p stk, r = Ok (p, stk) /\ forall f, stk = [f] -> f_mark f = None -> process (p_events p) = Ok (flat_map build (f_items f)).
Proof.
  intros raw os r N H. destruct (steps_inv _ _ _ _ (begin_inv raw N) H) as (p & stk & -> & M & _). exists p, stk. split; auto. intros f -> Fm.
  rewrite process_spec by apply (mn_wf _ _ _ M). rewrite (mn_flat _ _ _ M). cbn [flat_stack app]. f_equal.
  pose proof (mn_lab _ _ _ M) as L. cbn [flat_stack app] in L. unfold flat_frame, mark_list in *. rewrite Fm in *. cbn [map app] in *. now apply render_items.
Qed.
(** the base frame stays at the bottom, so a stack of one frame is the base frame *)
Lemma step_bottom : forall p stk o p' stk', step (p, stk) o = Some (Ok (p', stk')) ->
  forall b, last stk b = last stk b -> stk <> [] -> (f_mark (last stk base_frame) = None -> f_mark (last stk' base_frame) = None) /\ stk' <> [].
Proof.
  intros p stk o p' stk' H b _ NE. assert (LC : forall (x y : frame) l d, last (x :: y :: l) d = last (y :: l) d) by reflexivity.
  assert (LA : forall l g rest, f_mark (last (add_items l g :: rest) base_frame) = f_mark (last (g :: rest) base_frame)) by (intros l g [|y rest]; reflexivity).
  destruct stk as [|f stk]; [congruence|]. unfold step in H. destruct o as [|m k|m|m|c|c m| | | |k n|msg].
  - cbn [start] in H. injection H as <- <-. rewrite LC. split; [auto|discriminate].
  - destruct stk as [|g rest]; [discriminate|]. destruct (is_mark m f && _); [|discriminate]. destruct (complete m k p); [|discriminate]. injection H as <- <-. rewrite LA, (LC f). split; [auto|discriminate].
  - destruct stk as [|g rest]; [discriminate|]. destruct (is_mark m f && _); [|discriminate]. destruct (abandon m p); [|discriminate]. cbn [bind] in H. injection H as <- <-. rewrite LA, (LC f). split; [auto|discriminate].
  - destruct stk as [|g rest]; [discriminate|]. destruct (is_mark m f && _); [|discriminate]. destruct (rollback m p); [|discriminate]. injection H as <- <-. rewrite (LC f). split; [auto|discriminate].
  - destruct (find_node c (f_items f)) as [[[a [k ch]] bb]|]; [|discriminate]. destruct (precede c p) as [[n q]|]; [|discriminate]. injection H as <- <-. rewrite LC. split; [destruct stk; auto|discriminate].
  - destruct stk as [|g rest]; [discriminate|]. destruct (is_mark m f && _); [|discriminate]. destruct (find_node c (f_items f)) as [[[a [k ch]] bb]|]; [|discriminate]. destruct (extend_to c m p); [|discriminate]. injection H as <- <-. rewrite LA, (LC f). split; [auto|discriminate].
  - destruct (existsb _ _); [|discriminate]. destruct (event_pos p); [|discriminate]. injection H as <- <-. rewrite LC. split; [auto|discriminate].
  - destruct stk as [|g rest]; [discriminate|]. destruct (f_mark f); [discriminate|]. injection H as <- <-. rewrite LA, (LC f). split; [auto|discriminate].
  - destruct stk as [|g rest]; [discriminate|]. destruct (f_mark f); [discriminate|]. destruct (f_snap f) as [s|]; [|discriminate]. destruct (event_pos s) as [q|]; [|discriminate]. cbn [bind] in H. destruct (rollback_to q p); [|discriminate]. injection H as <- <-. rewrite (LC f). split; [auto|discriminate].
  - destruct (_ <=? _); [|discriminate]. injection H as <- <-. rewrite LA. split; [auto|discriminate].
  - injection H as <- <-. rewrite LA. split; [auto|discriminate].
Qed.
Lemma steps_bottom : forall os p stk p' stk', steps (p, stk) os = Some (Ok (p', stk')) -> stk <> [] -> f_mark (last stk base_frame) = None -> f_mark (last stk' base_frame) = None /\ stk' <> [].
Proof.
  induction os as [|o os IH]; intros p stk p' stk' H NE F; [injection H as <- <-; auto|]. cbn [steps] in H. destruct (step (p, stk) o) as [[[p1 stk1]|]|] eqn:S; try discriminate.
  destruct (step_bottom _ _ _ _ _ S base_frame eq_refl NE) as [A B]. eauto.
Qed.
Theorem replay_when_closed : forall raw os p f, no_eof raw -> steps (begin raw) os = Some (Ok (p, [f])) -> process (p_events p) = Ok (flat_map build (f_items f)).
Proof.
  intros raw os p f N H. destruct (replay_builds_tree _ _ _ N H) as (p' & stk & E & G). injection E as <- <-. apply G; auto.
  apply (proj1 (steps_bottom _ _ _ _ _ H ltac:(discriminate) eq_refl)).
Qed.
(** C16: balanced, and with a single root when the grammar wraps everything in one node *)
Theorem replay_balanced : forall raw os p f, no_eof raw -> steps (begin raw) os = Some (Ok (p, [f])) -> exists out, process (p_events p) = Ok out /\ nested 0 out.
Proof. intros raw os p f N H. eexists. split; [eapply replay_when_closed; eauto|apply builds_nested]. Qed.
Theorem replay_one_root : forall raw os p f m u k ch, no_eof raw -> steps (begin raw) os = Some (Ok (p, [f])) -> f_items f = [INode m u k ch] ->
  exists inner, process (p_events p) = Ok (CStart k :: inner ++ [CFinish]) /\ nested 0 inner.
Proof.
  intros raw os p f m u k ch N H E. exists (flat_map build ch). split; [|apply builds_nested]. rewrite (replay_when_closed _ _ _ _ N H), E. cbn. now rewrite app_nil_r.
Qed.
(** replaying never reorders, loses or duplicates a token *)
Lemma visit_others : forall s k i c, i + k = length s -> flat_map (fun x => match x with LO o => [o] | LS _ => [] end) (visit k i s c) = flat_map (fun e => match e with KO o => [o] | KS _ => [] end) (skipn i s).
Proof.
  intros s. assert (G : forall l, flat_map (fun x => match x with LO o => [o] | LS _ => [] end) (rev (map LS l)) = []).
  { intros l. rewrite <- map_rev. induction (rev l) as [|x r IH]; auto. }
  assert (SK : forall i e, nth_error s i = Some e -> skipn i s = e :: skipn (S i) s).
  { clear. induction s as [|x s IH]; intros [|i] e H; cbn in *; try discriminate; [congruence|]. now apply IH. }
  induction k as [|k IH]; intros i c H.
  - cbn. rewrite skipn_all2 by lia. reflexivity.
  - cbn [visit]. destruct (nth_error s i) as [e|] eqn:N; [|apply nth_error_None in N; lia]. rewrite (SK _ _ N). destruct e as [fp|o]; cbn [flat_map].
    + rewrite flat_map_app, G. apply IH. lia.
    + cbn [app]. f_equal. apply IH. lia.
Qed.
Theorem replay_keeps_tokens : forall es out, wf_links (map skel es) -> process es = Ok out -> calls_tokens out = event_tokens es.
Proof.
  intros es out W H. rewrite process_spec in H by auto. injection H as <-.
  pose proof (visit_others (map skel es) (length (map skel es)) 0 [] eq_refl) as V. cbn [skipn] in V. fold (procL (map skel es)) in V.
  assert (A : forall l, calls_tokens (flat_map (render es) l) = calls_tokens (flat_map (fun x => match x with LO o => [o] | LS _ => [] end) l)).
  { induction l as [|[i|o] l IH]; auto; cbn [flat_map render].
    - destruct (kind_eqb (kind_at es i) TOMBSTONE); cbn; auto.
    - cbn [app]. destruct o; cbn; auto. now rewrite IH. }
  rewrite A, V. clear. induction es as [|[k fp| |k n|m] es IH]; cbn; auto. now rewrite IH.
Qed.
Lemma total_tokens : forall es, total (event_tokens es) = toks_of es.
Proof. induction es as [|[k fp| |k n|m] es IH]; cbn; auto. Qed.
(** the tokens handed to the sink account for exactly the tokens the grammar has consumed *)
Theorem replay_consumes_position : forall raw os p f out, no_eof raw -> steps (begin raw) os = Some (Ok (p, [f])) -> process (p_events p) = Ok out ->
  total (calls_tokens out) = p_pos p.
Proof.
  intros raw os p f out N H P. destruct (steps_inv _ _ _ _ (begin_inv raw N) H) as (p' & stk & E & M & _). injection E as <- <-.
  rewrite (replay_keeps_tokens _ _ (mn_wf _ _ _ M) P), total_tokens. symmetry. apply (mn_pos _ _ _ M).
Qed.

(** * Rollback (C18) *)
Definition delta (o : op) : nat * nat := (* (subtract, add) *)
  match o with
  | OStart | OCheck | OPrecede _ => (0, 1)
  | OComplete _ _ | OAbandon _ | ORollback _ | OExtend _ _ | OCommit | ORestore => (1, 0)
  | OBump _ _ | OErr _ => (0, 0)
  end.
(** the calls in [os] open and close their own nodes only: the depth, one at the start, stays positive *)
Fixpoint own (depth : nat) (os : list op) : bool :=
  match os with
  | [] => depth =? 1
  | o :: r => let d := depth - fst (delta o) + snd (delta o) in (1 <=? d) && own d r
  end.
Definition keeps (f : frame) (p : parser) (m : option nat) : Prop := f_mark f = m /\ f_prec f = false /\ f_snap f = Some p.

Lemma step_own : forall p stk o p' stk' L f base p0 m, stk = L ++ f :: base -> keeps f p0 m -> 1 <= S (length L) - fst (delta o) + snd (delta o) ->
  step (p, stk) o = Some (Ok (p', stk')) -> exists L' f', stk' = L' ++ f' :: base /\ keeps f' p0 m /\ S (length L') = S (length L) - fst (delta o) + snd (delta o).
Proof.
  intros p stk o p' stk' L f base p0 m E K D H.
  assert (KA : forall l, keeps (add_items l f) p0 m) by (intros l; exact K).
  assert (KS : forall l, keeps (set_items l f) p0 m) by (intros l; exact K).
  assert (POP : forall X x y, L <> [] -> L ++ f :: base = x :: y -> forall g rest, y = g :: rest -> exists L' f', add_items X g :: rest = L' ++ f' :: base /\ keeps f' p0 m /\ length L' = length L - 1).
  { intros X x y NL EE g rest ->. destruct L as [|l0 L0]; [congruence|]. injection EE as -> EE. destruct L0 as [|l1 L1].
    - injection EE as <- <-. exists [], (add_items X f). auto.
    - injection EE as <- <-. exists (add_items X l1 :: L1), f. cbn. split; auto. }
  assert (POP0 : forall x y, L <> [] -> L ++ f :: base = x :: y -> exists L' f', y = L' ++ f' :: base /\ keeps f' p0 m /\ length L' = length L - 1).
  { intros x y NL EE. destruct L as [|l0 L0]; [congruence|]. injection EE as -> <-. exists L0, f. cbn. split; auto. split; auto. lia. }
  unfold step in H. subst stk. remember (L ++ f :: base) as stk eqn:Es.
  assert (NE : fst (delta o) = 1 -> snd (delta o) = 0 -> L <> []) by (intros A B ->; cbn in D; rewrite A, B in D; cbn in D; lia).
  destruct o as [|mm k|mm|mm|c|c mm| | | |k n|msg]; cbn [delta fst snd] in *.
  - cbn [start] in H. injection H as <- <-. exists (mkFrame (Some (length (p_events p))) false [] (Some p) :: L), f. cbn. rewrite Es. split; auto. split; auto. lia.
  - destruct stk as [|h [|g rest]]; try discriminate. destruct (is_mark mm h && _); [|discriminate]. destruct (complete mm k p); [|discriminate]. cbn [bind] in H. injection H as <- <-.
    destruct (POP [INode mm false k (f_items h)] _ _ (NE eq_refl eq_refl) eq_refl _ _ eq_refl) as (L' & f' & A & B & C). exists L', f'. split; auto. split; auto. specialize (NE eq_refl eq_refl). destruct L; [congruence|]. cbn in *. lia.
  - destruct stk as [|h [|g rest]]; try discriminate. destruct (is_mark mm h && _); [|discriminate]. destruct (abandon mm p); [|discriminate]. cbn [bind] in H. injection H as <- <-.
    destruct (POP ((if match length (p_events p) with 0 => false | S m' => mm =? m' end then [] else [IGone mm]) ++ f_items h) _ _ (NE eq_refl eq_refl) eq_refl _ _ eq_refl) as (L' & f' & A & B & C). exists L', f'. split; auto. split; auto. specialize (NE eq_refl eq_refl). destruct L; [congruence|]. cbn in *. lia.
  - destruct stk as [|h [|g rest]]; try discriminate. destruct (is_mark mm h && _); [|discriminate]. destruct (rollback mm p); [|discriminate]. cbn [bind] in H. injection H as <- <-.
    destruct (POP0 _ _ (NE eq_refl eq_refl) eq_refl) as (L' & f' & A & B & C). exists L', f'. split; auto. split; auto. specialize (NE eq_refl eq_refl). destruct L; [congruence|]. cbn in *. lia.
  - destruct stk as [|h rest]; [discriminate|]. destruct (find_node c (f_items h)) as [[[a [k ch]] bb]|]; [|discriminate]. destruct (precede c p) as [[n q]|]; [|discriminate]. cbn [bind fst snd] in H. injection H as <- <-.
    destruct L as [|l0 L0]; injection Es as -> ->.
    + exists [mkFrame (Some n) true (INode c true k ch :: bb) None], (set_items a f). cbn. split; auto.
    + exists (mkFrame (Some n) true (INode c true k ch :: bb) None :: set_items a l0 :: L0), f. cbn. split; auto. split; auto. lia.
  - destruct stk as [|h [|g rest]]; try discriminate. destruct (is_mark mm h && _); [|discriminate]. destruct (find_node c (f_items h)) as [[[a [k ch]] bb]|]; [|discriminate]. destruct (extend_to c mm p); [|discriminate]. cbn [bind] in H. injection H as <- <-.
    destruct (POP (INode c false k (IGone mm :: a ++ ch) :: bb) _ _ (NE eq_refl eq_refl) eq_refl _ _ eq_refl) as (L' & f' & A & B & C). exists L', f'. split; auto. split; auto. specialize (NE eq_refl eq_refl). destruct L; [congruence|]. cbn in *. lia.
  - destruct stk as [|h rest]; [discriminate|]. destruct (existsb _ _); [|discriminate]. destruct (event_pos p); [|discriminate]. cbn [bind] in H. injection H as <- <-. exists (mkFrame None false [] (Some p) :: L), f. cbn. rewrite <- Es. split; auto. split; auto. lia.
  - destruct stk as [|h [|g rest]]; try discriminate. destruct (f_mark h); [discriminate|]. injection H as <- <-.
    destruct (POP (f_items h) _ _ (NE eq_refl eq_refl) eq_refl _ _ eq_refl) as (L' & f' & A & B & C). exists L', f'. split; auto. split; auto. specialize (NE eq_refl eq_refl). destruct L; [congruence|]. cbn in *. lia.
  - destruct stk as [|h [|g rest]]; try discriminate. destruct (f_mark h); [discriminate|]. destruct (f_snap h) as [s|]; [|discriminate]. destruct (event_pos s) as [q|]; [|discriminate]. cbn [bind] in H. destruct (rollback_to q p); [|discriminate]. cbn [bind] in H. injection H as <- <-.
    destruct (POP0 _ _ (NE eq_refl eq_refl) eq_refl) as (L' & f' & A & B & C). exists L', f'. split; auto. split; auto. specialize (NE eq_refl eq_refl). destruct L; [congruence|]. cbn in *. lia.
  - destruct stk as [|h rest]; [discriminate|]. destruct (_ <=? _); [|discriminate]. injection H as <- <-. destruct L as [|l0 L0]; injection Es as -> ->.
    + exists [], (add_items [ITok k n] f). auto.
    + exists (add_items [ITok k n] l0 :: L0), f. cbn. repeat split; auto; try apply K; lia.
  - destruct stk as [|h rest]; [discriminate|]. injection H as <- <-. destruct L as [|l0 L0]; injection Es as -> ->.
    + exists [], (add_items [IErr msg] f). auto.
    + exists (add_items [IErr msg] l0 :: L0), f. cbn. repeat split; auto; try apply K; lia.
Qed.
Lemma steps_own : forall os p stk p' stk' L f base p0 m, stk = L ++ f :: base -> keeps f p0 m -> own (S (length L)) os = true ->
  steps (p, stk) os = Some (Ok (p', stk')) -> exists f', stk' = f' :: base /\ keeps f' p0 m.
Proof.
  induction os as [|o os IH]; intros p stk p' stk' L f base p0 m E K O H.
  - cbn in *. injection H as <- <-. destruct L; [|discriminate]. exists f. auto.
  - cbn [own] in O. apply andb_prop in O. destruct O as [O1 O2]. apply Nat.leb_le in O1. cbn [steps] in H. destruct (step (p, stk) o) as [[[p1 stk1]|]|] eqn:S; try discriminate.
    destruct (step_own _ _ _ _ _ _ _ _ _ _ E K O1 S) as (L' & f' & E' & K' & LL). rewrite <- LL in O2. eapply IH; eauto.
Qed.
(** what a reachable state allows *)
Definition reachable (raw : list raw_token) (st : state) : Prop := exists os, steps (begin raw) os = Some (Ok st).
Lemma reachable_inv : forall raw p stk, no_eof raw -> reachable raw (p, stk) -> Inv p stk.
Proof. intros raw p stk N [os H]. destruct (steps_inv _ _ _ _ (begin_inv raw N) H) as (p' & stk' & E & I). injection E as <- <-. exact I. Qed.
Lemma reachable_steps : forall raw st os st', reachable raw st -> steps st os = Some (Ok st') -> reachable raw st'.
Proof.
  intros raw st os st' [os0 H0] H. exists (os0 ++ os). revert H0. generalize (begin raw). induction os0 as [|o os0 IH]; intros s H0; cbn in *; [injection H0 as ->; exact H|].
  destruct (step s o) as [[s1|]|]; try discriminate. auto.
Qed.

(** C18: whatever the grammar does between starting a marker and rolling it back, the token position,
    the events and the errors among them are restored *)
Theorem rollback_leaves_no_trace : forall raw p stk os p' stk', no_eof raw -> reachable raw (p, stk) -> stk <> [] -> own 1 os = true ->
  steps (p, stk) (OStart :: os) = Some (Ok (p', stk')) ->
  step (p', stk') (ORollback (length (p_events p))) = Some (Ok (p, stk)).
Proof.
  intros raw p stk os p' stk' N R NE O H.
  assert (R' : reachable raw (p', stk')) by (eapply reachable_steps; eauto).
  cbn [steps step start] in H. set (f0 := mkFrame (Some (length (p_events p))) false [] (Some p)) in H.
  destruct (steps_own os _ _ _ _ [] f0 stk p (Some (length (p_events p))) eq_refl ltac:(repeat split) O H) as (f' & -> & K1 & K2 & K3).
  destruct stk as [|g rest]; [congruence|]. unfold step. unfold is_mark. rewrite K1, K2, Nat.eqb_refl. cbn [andb negb].
  destruct (reachable_inv _ _ _ N R') as [M SN].
  pose proof (step_inv p' (f' :: g :: rest) (ORollback (length (p_events p))) (bind (rollback (length (p_events p)) p') (fun p'0 => Ok (p'0, g :: rest))) (conj M SN)) as SI.
  destruct SI as (q & stk2 & E & I2); [unfold step, is_mark; rewrite K1, K2, Nat.eqb_refl; reflexivity|].
  rewrite E. f_equal. f_equal.
  (* the restored parser is the snapshot *)
  cbn [snaps] in SN. rewrite K1, K3 in SN. destruct SN as (((Tk & EE & HE) & Ms & _) & _).
  assert (RR : rollback (length (p_events p)) p' = Ok p).
  { unfold MainS in M. cbn [flat_stack] in M. unfold flat_frame at 2 in M. unfold mark_list in M. rewrite K1 in M. cbn [map app] in M.
    assert (LS0 : nth_error (p_events p') (length (p_events p)) = Some tombstone).
    { pose proof (mn_lab _ _ _ M) as F. rewrite Forall_app in F. destruct F as [_ F]. inversion F; subst. assumption. }
    unfold rollback. destruct (snoc_cases _ EE) as [->|(E' & e & ->)].
    - exfalso. rewrite app_nil_r in HE. rewrite HE in LS0. assert (length (p_events p) < length (p_events p)) by (apply nth_error_Some; congruence). lia.
    - rewrite HE, app_assoc, split_last_app. rewrite app_length. destruct (Nat.eqb_spec (length (p_events p)) (length (p_events p) + length E')) as [EQ|EQ].
      + assert (E' = []) by (destruct E'; auto; cbn in EQ; lia). subst E'. rewrite HE in LS0. cbn [app] in LS0. rewrite nth_error_app2, Nat.sub_diag in LS0 by lia. cbn in LS0. injection LS0 as ->.
        cbn [tombstone]. rewrite app_nil_r. f_equal. unfold set_events. pose proof (mn_pos _ _ _ M) as P. rewrite HE, toks_of_app in P. cbn in P. rewrite Nat.add_0_r in P. rewrite <- Tk, P, <- (mn_pos _ _ _ Ms). now destruct p.
      + replace (length ((p_events p ++ E') ++ [e]) - length (p_events p)) with (length (E' ++ [e])) by (rewrite <- app_assoc, !app_length; lia).
        eapply rollback_restores; eauto. }
  rewrite RR in E. cbn [bind] in E. congruence.
Qed.
(** the same for the checkpoint taken with [event_pos] *)
Theorem restore_leaves_no_trace : forall raw p stk os p' stk', no_eof raw -> reachable raw (p, stk) -> stk <> [] -> own 1 os = true ->
  steps (p, stk) (OCheck :: os) = Some (Ok (p', stk')) ->
  step (p', stk') ORestore = Some (Ok (p, stk)).
Proof.
  intros raw p stk os p' stk' N R NE O H.
  assert (R' : reachable raw (p', stk')) by (eapply reachable_steps; eauto).
  cbn [steps] in H. destruct (step (p, stk) OCheck) as [[[p1 stk1]|]|] eqn:S1; try discriminate.
  destruct stk as [|g rest]; [congruence|]. unfold step in S1. destruct (existsb _ _); [|discriminate]. destruct (event_pos p) as [z|] eqn:EP; [|discriminate]. cbn [bind] in S1. injection S1 as <- <-.
  destruct (steps_own os _ _ _ _ [] (mkFrame None false [] (Some p)) (g :: rest) p None eq_refl ltac:(repeat split) O H) as (f' & -> & K1 & K2 & K3).
  destruct (reachable_inv _ _ _ N R') as [M SN]. unfold step. rewrite K1, K3, EP. cbn [bind].
  cbn [snaps] in SN. rewrite K1, K3 in SN. destruct SN as (((Tk & EE & HE) & Ms & _) & _).
  assert (Lz : length (p_events p) = S z) by (unfold event_pos in EP; destruct (length (p_events p)); [discriminate|congruence]).
  assert (LE : length (p_events p') = length (p_events p) + length EE) by (rewrite HE, app_length; lia).
  unfold rollback_to. destruct (Nat.ltb_spec (length (p_events p')) (S z)); [lia|]. replace (length (p_events p') - S z) with (length EE) by lia.
  rewrite (rollback_restores _ _ _ _ _ _ _ Ms M Tk HE). reflexivity.
Qed.

(** * Composite operators (C19) *)
(** the [i]-th significant token of [raw] and what follows it *)
Definition sig_count (l : list raw_token) : nat := length (filter (fun t => negb (is_trivia (rt_kind t))) l).
Fixpoint len (l : list raw_token) : nat := match l with [] => 0 | t :: r => rt_len t + len r end.
Definition at_sig (raw : list raw_token) (i : nat) (before : list raw_token) (t : raw_token) (after : list raw_token) : Prop :=
  raw = before ++ t :: after /\ is_trivia (rt_kind t) = false /\ sig_count before = i.

Lemma significant_spec : forall raw off i t o, nth_error (significant off raw) i = Some (t, o) <-> exists a b, at_sig raw i a t b /\ o = off + len a.
Proof.
  intros raw off i t o. split.
  - revert off i. induction raw as [|x raw IH]; intros off i H; cbn in H; [destruct i; discriminate|]. destruct (is_trivia (rt_kind x)) eqn:T.
    + destruct (IH _ _ H) as (a & b & (-> & B & C) & ->). exists (x :: a), b. split; [|cbn; lia]. split; auto. split; auto. unfold sig_count. cbn. now rewrite T.
    + destruct i as [|i]; cbn in H.
      * injection H as <- <-. exists [], raw. split; [|cbn; lia]. split; auto.
      * destruct (IH _ _ H) as (a & b & (-> & B & C) & ->). exists (x :: a), b. split; [|cbn; lia]. split; auto. split; auto. unfold sig_count in *. cbn. rewrite T. cbn. now rewrite C.
  - intros (a & b & (-> & B & C) & ->). revert off i C. induction a as [|x a IH]; intros off i C; unfold sig_count in C; cbn in *.
    + rewrite B. subst i. cbn. f_equal. f_equal. lia.
    + destruct (is_trivia (rt_kind x)) eqn:T; cbn in C.
      * rewrite (IH (off + rt_len x) i C). f_equal. f_equal. lia.
      * subst i. cbn. fold (sig_count a). rewrite (IH (off + rt_len x) _ eq_refl). f_equal. f_equal. lia.
Qed.
Lemma sig_count_app : forall a b, sig_count (a ++ b) = sig_count a + sig_count b.
Proof. intros. unfold sig_count. now rewrite filter_app, app_length. Qed.
Lemma len_app : forall a b, len (a ++ b) = len a + len b.
Proof. induction a as [|x a IH]; intros b; cbn; auto. rewrite IH. lia. Qed.

Lemma at_sig_det : forall raw i a t b a' t' b', at_sig raw i a t b -> at_sig raw i a' t' b' -> a = a' /\ t = t' /\ b = b'.
Proof.
  intros raw. induction raw as [|x raw IH]; intros i a t b a' t' b' (E & T & C) (E' & T' & C'); [destruct a; discriminate|].
  destruct a as [|y a]; destruct a' as [|y' a']; cbn in E, E'.
  - injection E as -> ->. injection E' as -> ->. auto.
  - injection E as -> ->. injection E' as -> ->. exfalso. unfold sig_count in *. cbn in *. rewrite T in C'. cbn in C'. lia.
  - injection E' as -> ->. injection E as -> ->. exfalso. unfold sig_count in *. cbn in *. rewrite T' in C. cbn in C. lia.
  - injection E as -> E. injection E' as -> E'. unfold sig_count in C, C'. cbn in C, C'. destruct (negb (is_trivia (rt_kind y'))) eqn:Q; cbn in C, C'.
    + destruct (IH (i - 1) a t b a' t' b') as (-> & -> & ->); auto; split; auto; split; auto; unfold sig_count; lia.
    + destruct (IH i a t b a' t' b') as (-> & -> & ->); auto; split; auto.
Qed.
(** tokens have text *)
Definition pos_len (raw : list raw_token) : Prop := Forall (fun t => 0 < rt_len t) raw.
Lemma jointed_spec : forall raw i k, pos_len raw -> k <> EOF -> no_eof raw ->
  (t_kind (token_at_pos (significant 0 raw) i) = k /\ t_jointed (token_at_pos (significant 0 raw) i) = true) <->
  exists a t1 t2 b, raw = a ++ t1 :: t2 :: b /\ sig_count a = i /\ is_trivia (rt_kind t1) = false /\ is_trivia (rt_kind t2) = false /\ rt_kind t1 = k.
Proof.
  intros raw i k P KE NE. split.
  - intros [K J]. unfold token_at_pos in *. destruct (nth_error (significant 0 raw) i) as [[t1 o1]|] eqn:N1; [|cbn in J; discriminate]. cbn [t_kind t_jointed] in K, J.
    destruct (nth_error (significant 0 raw) (S i)) as [[t2 o2]|] eqn:N2; [|discriminate]. apply Nat.eqb_eq in J.
    apply significant_spec in N1. destruct N1 as (a & b & (E & T & C) & O1). apply significant_spec in N2. destruct N2 as (a2 & b2 & (E2 & T2 & C2) & O2).
    (* the second significant token lies in [b] *)
    assert (X : exists tr, a2 = a ++ t1 :: tr /\ b = tr ++ t2 :: b2).
    { clear -E E2 C C2 T. subst raw. revert a2 i C C2 E2. induction a as [|x a IH]; intros a2 i C C2 E2.
      - destruct a2 as [|y a2]; [cbn in *; unfold sig_count in *; cbn in *; lia|]. cbn in E2. injection E2 as -> ->. exists a2. auto.
      - destruct a2 as [|y a2]; [unfold sig_count in *; cbn in *; lia|]. cbn in E2. injection E2 as -> E2. unfold sig_count in C, C2. cbn in C, C2.
        destruct (negb (is_trivia (rt_kind y))); cbn in C, C2.
        + destruct (IH a2 (i - 1)) as (tr & -> & ->); unfold sig_count; try lia; auto. exists tr. auto.
        + destruct (IH a2 i) as (tr & -> & ->); auto. exists tr. auto. }
    destruct X as (tr & -> & ->). rewrite len_app in O2. cbn in O2. assert (len tr = 0) by lia.
    assert (tr = []). { destruct tr as [|x tr]; auto. exfalso. cbn in H. unfold pos_len in P. rewrite E, !Forall_app in P. destruct P as [_ P]. inversion P as [|? ? _ P']; subst. cbn in P'. inversion P'; subst. lia. }
    subst tr. exists a, t1, t2, b2. cbn in E. auto.
  - intros (a & t1 & t2 & b & E & C & T1 & T2 & K).
    assert (N1 : nth_error (significant 0 raw) i = Some (t1, len a)) by (apply significant_spec; exists a, (t2 :: b); split; [split; auto|lia]).
    assert (N2 : nth_error (significant 0 raw) (S i) = Some (t2, len a + rt_len t1)).
    { apply significant_spec. exists (a ++ [t1]), b. split; [|rewrite len_app; cbn; lia]. split; [rewrite <- app_assoc; exact E|]. split; auto. rewrite sig_count_app, C. unfold sig_count. cbn. rewrite T1. cbn. lia. }
    unfold token_at_pos. rewrite N1, N2. cbn. split; auto. apply Nat.eqb_refl.
Qed.
Lemma kind_spec : forall raw i k, k <> EOF -> t_kind (token_at_pos (significant 0 raw) i) = k <-> exists a t b, at_sig raw i a t b /\ rt_kind t = k.
Proof.
  intros raw i k KE. unfold token_at_pos. split.
  - destruct (nth_error (significant 0 raw) i) as [[t o]|] eqn:N; cbn; [|congruence]. intros <-. apply significant_spec in N. destruct N as (a & b & A & _). eauto.
  - intros (a & t & b & A & <-). assert (N : nth_error (significant 0 raw) i = Some (t, 0 + len a)) by (apply significant_spec; eauto). rewrite N. reflexivity.
Qed.

(** the raw tokens of each composite operator, written out independently of [nth_at] *)
Definition spelling (k : kind) : option (list kind) :=
  match k with
  | AMP_AMP => Some [AMP; AMP] | PIPE_PIPE => Some [PIPE; PIPE]
  | SHL => Some [L_ANGLE; L_ANGLE] | SHR => Some [R_ANGLE; R_ANGLE]
  | LT_EQ => Some [L_ANGLE; EQ] | GT_EQ => Some [R_ANGLE; EQ]
  | SHL_EQ => Some [L_ANGLE; L_ANGLE; EQ] | SHR_EQ => Some [R_ANGLE; R_ANGLE; EQ]
  | LESS_IMPLIES => Some [L_ANGLE; IMPLIES]
  | _ => None
  end.
(** raw tokens with exactly these kinds follow each other directly, the first being the [i]-th significant one *)
Definition written_at (raw : list raw_token) (i : nat) (ks : list kind) : Prop :=
  exists a ts b, raw = a ++ ts ++ b /\ map rt_kind ts = ks /\ sig_count a = i.

Lemma composite2_spec : forall raw pos n es k1 k2, pos_len raw -> no_eof raw -> is_trivia k1 = false -> is_trivia k2 = false -> k1 <> EOF -> k2 <> EOF ->
  at_composite2 (mkParser (significant 0 raw) pos es) n k1 k2 = true <-> written_at raw (pos + n) [k1; k2].
Proof.
  intros raw pos n es k1 k2 P NE T1 T2 E1 E2. unfold at_composite2, lookahead_nth. cbn [p_toks p_pos]. split.
  - destruct (kind_eqb (t_kind (token_at_pos (significant 0 raw) (pos + n))) k1) eqn:K1; [|discriminate]. destruct (t_jointed (token_at_pos (significant 0 raw) (pos + n))) eqn:J; [|discriminate]. cbn [negb orb].
    intros K2. apply kind_eqb_spec in K1, K2. destruct (proj1 (jointed_spec raw (pos + n) k1 P E1 NE) (conj K1 J)) as (a & t1 & t2 & b & E & C & X1 & X2 & Y1).
    apply kind_spec in K2; auto. destruct K2 as (a2 & t & b2 & A2 & Y2).
    assert (A2' : at_sig raw (pos + (n + 1)) (a ++ [t1]) t2 b). { split; [rewrite <- app_assoc; exact E|]. split; auto. rewrite sig_count_app, C. unfold sig_count. cbn. rewrite X1. cbn. lia. }
    destruct (at_sig_det _ _ _ _ _ _ _ _ A2 A2') as (-> & -> & ->). exists a, [t1; t2], b. split; auto. split; auto. cbn. congruence.
  - intros (a & ts & b & E & M & C). destruct ts as [|t1 [|t2 [|]]]; try discriminate. cbn in M. injection M as M1 M2.
    destruct (proj2 (jointed_spec raw (pos + n) k1 P E1 NE)) as [K1 J]; [exists a, t1, t2, b; rewrite M1, M2; repeat split; auto|].
    rewrite K1, J, kind_eqb_refl. cbn [negb orb]. apply kind_eqb_spec. apply kind_spec; auto. exists (a ++ [t1]), t2, b. split; auto. split; [rewrite <- app_assoc; exact E|]. rewrite M2. split; auto. rewrite sig_count_app, C. unfold sig_count. cbn. rewrite M1, T1. cbn. lia.
Qed.
Lemma composite3_spec : forall raw pos n es k1 k2 k3, pos_len raw -> no_eof raw -> is_trivia k1 = false -> is_trivia k2 = false -> is_trivia k3 = false -> k1 <> EOF -> k2 <> EOF -> k3 <> EOF ->
  at_composite3 (mkParser (significant 0 raw) pos es) n k1 k2 k3 = true <-> written_at raw (pos + n) [k1; k2; k3].
Proof.
  intros raw pos n es k1 k2 k3 P NE T1 T2 T3 E1 E2 E3.
  assert (Split : at_composite3 (mkParser (significant 0 raw) pos es) n k1 k2 k3 = at_composite2 (mkParser (significant 0 raw) pos es) n k1 k2 && at_composite2 (mkParser (significant 0 raw) pos es) (n + 1) k2 k3).
  { unfold at_composite3, at_composite2. replace (n + 1 + 1) with (n + 2) by lia. destruct (kind_eqb (t_kind (lookahead_nth _ n)) k1), (t_jointed (lookahead_nth _ n)); cbn [negb orb andb]; auto.
    destruct (kind_eqb (t_kind (lookahead_nth _ (n + 1))) k2), (t_jointed (lookahead_nth _ (n + 1))); reflexivity. }
  rewrite Split, andb_true_iff, !composite2_spec by auto. split.
  - intros [(a & ts & b & E & M & C) (a' & ts' & b' & E' & M' & C')]. destruct ts as [|t1 [|t2 [|]]]; try discriminate. destruct ts' as [|t1' [|t2' [|]]]; try discriminate. cbn in M, M'. injection M as M1 M2. injection M' as M1' M2'.
    assert (A2 : at_sig raw (pos + (n + 1)) (a ++ [t1]) t2 b). { split; [rewrite <- app_assoc; exact E|]. rewrite M2. split; auto. rewrite sig_count_app, C. unfold sig_count. cbn. rewrite M1, T1. cbn. lia. }
    assert (A2' : at_sig raw (pos + (n + 1)) a' t1' (t2' :: b')) by (split; [exact E'|]; split; auto; congruence).
    destruct (at_sig_det _ _ _ _ _ _ _ _ A2 A2') as (<- & <- & ->). exists a, [t1; t2; t2'], b'. split; [exact E|]. split; [cbn; congruence|auto].
  - intros (a & ts & b & E & M & C). destruct ts as [|t1 [|t2 [|t3 [|]]]]; try discriminate. cbn in M. injection M as M1 M2 M3. split.
    + exists a, [t1; t2], (t3 :: b). split; [exact E|]. split; [cbn; congruence|auto].
    + exists (a ++ [t1]), [t2; t3], b. split; [rewrite <- app_assoc; exact E|]. split; [cbn; congruence|]. rewrite sig_count_app, C. unfold sig_count. cbn. rewrite M1, T1. cbn. lia.
Qed.

(** C19: a composite operator is seen exactly where its characters follow each other with nothing between *)
Theorem composite_exact : forall raw pos n es k ks, pos_len raw -> no_eof raw -> spelling k = Some ks ->
  nth_at (mkParser (significant 0 raw) pos es) n k = true <-> written_at raw (pos + n) ks.
Proof.
  intros raw pos n es k ks P NE S. destruct k; cbn in S; try discriminate; injection S as <-; cbn [nth_at];
    first [apply composite2_spec|apply composite3_spec]; auto; discriminate.
Qed.
(** every other kind is seen exactly where a token of that kind is *)
Theorem simple_exact : forall raw pos n es k, k <> EOF -> is_trivia k = false -> spelling k = None ->
  nth_at (mkParser (significant 0 raw) pos es) n k = true <-> written_at raw (pos + n) [k].
Proof.
  intros raw pos n es k KE T S. assert (Q : nth_at (mkParser (significant 0 raw) pos es) n k = kind_eqb (t_kind (lookahead_nth (mkParser (significant 0 raw) pos es) n)) k) by (destruct k; try reflexivity; discriminate).
  rewrite Q, kind_eqb_spec. unfold lookahead_nth. cbn [p_toks p_pos]. rewrite kind_spec by auto. split.
  - intros (a & t & b & (E & _ & C) & K). exists a, [t], b. cbn. rewrite K. auto.
  - intros (a & ts & b & E & M & C). destruct ts as [|t [|]]; try discriminate. injection M as M. exists a, t, b. split; auto. split; auto. rewrite M. auto.
Qed.
(** [eat] takes exactly the tokens of the spelling *)
Definition raw_size (k : kind) : nat := match spelling k with Some ks => length ks | None => 1 end.
Theorem eat_takes_spelling : forall p k b p', Forall (fun t => rt_kind (fst t) <> EOF) (p_toks p) -> k <> EOF -> eat k p = (b, p') ->
  if b then nth_at p 0 k = true /\ p_toks p' = p_toks p /\ p_pos p' = p_pos p + raw_size k /\ p_events p' = p_events p ++ [EToken k (raw_size k)]
  else nth_at p 0 k = false /\ p' = p.
Proof.
  intros p k b p' F KE H. unfold eat in H. destruct (nth_at p 0 k) eqn:A; injection H as <- <-; [|auto]. split; auto.
  assert (Q : n_raw k = raw_size k) by (unfold raw_size; destruct k; reflexivity). unfold do_bump. rewrite Q.
  assert (L : forall i, t_kind (token_at_pos (p_toks p) i) <> EOF -> i < length (p_toks p)).
  { intros i Hi. unfold token_at_pos in Hi. destruct (nth_error (p_toks p) i) as [[t o]|] eqn:N; [apply nth_error_Some; congruence|cbn in Hi; congruence]. }
  assert (B : p_pos p + raw_size k <= length (p_toks p)).
  { unfold raw_size. destruct (spelling k) as [ks|] eqn:S.
    - destruct k; cbn in S; try discriminate; injection S as <-; cbn [nth_at length] in *; unfold at_composite2, at_composite3, lookahead_nth in A;
        repeat match type of A with (if ?c then false else _) = true => destruct c eqn:?; [discriminate|] end; apply kind_eqb_spec in A;
        match type of A with t_kind (token_at_pos _ ?i) = _ => specialize (L i ltac:(rewrite A; discriminate)) end; lia.
    - assert (Q2 : nth_at p 0 k = kind_eqb (t_kind (lookahead_nth p 0)) k) by (destruct k; try reflexivity; discriminate). rewrite Q2 in A. apply kind_eqb_spec in A. unfold lookahead_nth in A.
      specialize (L (p_pos p + 0) ltac:(congruence)). lia. }
  rewrite bump_n_ok by auto. cbn. auto.
Qed.

(** * Examples *)
Definition raw_ex : list raw_token := [mkRaw IDENT 1; mkRaw WHITESPACE 1; mkRaw AMP 1; mkRaw AMP 1; mkRaw IDENT 1].
(** `a &&b`: parse the operand, wrap it with [precede], roll back a failed attempt *)
Definition ops_ex : list op :=
  [OStart; OStart; OBump IDENT 1; OComplete 1 PATH_EXPR; OStart; OBump AMP 1; OErr []; ORollback 4; OPrecede 1; OBump AMP_AMP 2; OStart; OBump IDENT 1; OComplete 6 PATH_EXPR; OComplete 4 BIN_EXPR; OComplete 0 SOURCE_FILE].
Example no_eof_ex : no_eof raw_ex /\ pos_len raw_ex. Proof. split; repeat constructor; discriminate. Qed.
Example ops_ex_run : exists p f, steps (begin raw_ex) ops_ex = Some (Ok (p, [f])) /\
  process (p_events p) = Ok [CStart SOURCE_FILE; CStart BIN_EXPR; CStart PATH_EXPR; CToken IDENT 1; CFinish; CToken AMP_AMP 2; CStart PATH_EXPR; CToken IDENT 1; CFinish; CFinish; CFinish] /\
  length (f_items f) = 1 /\ p_pos p = 4.
Proof. eexists _, _. split; [vm_compute; reflexivity|]. split; [vm_compute; reflexivity|]. split; reflexivity. Qed.
Example own_ex : own 1 [OBump AMP 1; OErr []] = true /\ own 1 [OStart; OBump IDENT 1; OComplete 5 PATH_EXPR; OPrecede 5; OComplete 7 BIN_EXPR] = true. Proof. split; reflexivity. Qed.
Example extend_ex : exists p f, steps (begin raw_ex) [OStart; OStart; OBump IDENT 1; OComplete 1 PATH_EXPR; OExtend 1 0] = Some (Ok (p, [f])) /\ process (p_events p) = Ok [CStart PATH_EXPR; CToken IDENT 1; CFinish].
Proof. eexists _, _. split; vm_compute; reflexivity. Qed.
Example composite_ex : nth_at (parser_new raw_ex) 1 AMP_AMP = true /\ written_at raw_ex 1 [AMP; AMP] /\ nth_at (parser_new [mkRaw AMP 1; mkRaw WHITESPACE 1; mkRaw AMP 1]) 0 AMP_AMP = false.
Proof. split; [reflexivity|]. split; [|reflexivity]. exists [mkRaw IDENT 1; mkRaw WHITESPACE 1], [mkRaw AMP 1; mkRaw AMP 1], [mkRaw IDENT 1]. repeat split. Qed.
Example eat_ex : eat AMP_AMP (mkParser (significant 0 raw_ex) 1 []) = (true, mkParser (significant 0 raw_ex) 3 [EToken AMP_AMP 2]). Proof. reflexivity. Qed.

(** outside the discipline: abandoning a wrapper right after making it removes its event but leaves the
    link to it behind, and the replay panics *)
Theorem abandoned_wrapper_refuted : exists p c p1 m p2, precede c p = Ok (m, p1) /\ abandon m p1 = Ok p2 /\ process (p_events p) = Ok [CStart PATH_EXPR; CToken IDENT 1; CFinish] /\ process (p_events p2) = Panic.
Proof.
  exists (mkParser (significant 0 raw_ex) 1 [EStart PATH_EXPR None; EToken IDENT 1; EFinish]), 0. eexists _, _, _. repeat split; vm_compute; reflexivity.
Qed.
(** a token event pushed at the end of the input claims a token that does not exist; popping it moves the
    position back although pushing it did not move it forward *)
Theorem bump_past_end_refuted : exists p k, p_pos (do_bump k 1 p) = p_pos p /\ exists p', pop_event (do_bump k 1 p) = Ok p' /\ p_pos p' <> p_pos p.
Proof. exists (mkParser (significant 0 raw_ex) 4 []), IDENT. split; [reflexivity|]. eexists. split; [reflexivity|]. cbn. discriminate. Qed.
(** spaces of no length would be invisible to the adjacency test: tokens must have text *)
Theorem empty_trivia_joins_refuted : exists raw, no_eof raw /\ nth_at (parser_new raw) 0 AMP_AMP = true /\ ~ written_at raw 0 [AMP; AMP].
Proof.
  exists [mkRaw AMP 1; mkRaw WHITESPACE 0; mkRaw AMP 1]. split; [repeat constructor; discriminate|]. split; [reflexivity|].
  intros (a & ts & b & E & M & C). destruct ts as [|t1 [|t2 [|]]]; try discriminate. cbn in M. injection M as M1 M2.
  destruct a as [|x a]; cbn in E; [injection E as <- <- _; discriminate|]. injection E as <- E. destruct a as [|y a]; cbn in E; [injection E as <- _; discriminate|]. injection E as <- E. destruct a as [|z a]; cbn in E; [injection E as _ E; discriminate|]. injection E as _ E. destruct a; discriminate.
Qed.

Print Assumptions replay_builds_tree.
Print Assumptions replay_when_closed.
Print Assumptions replay_one_root.
Print Assumptions replay_consumes_position.
Print Assumptions rollback_leaves_no_trace.
Print Assumptions restore_leaves_no_trace.
Print Assumptions composite_exact.
Print Assumptions simple_exact.
Print Assumptions eat_takes_spelling.
