(** Properties of the reload queue, readiness, open documents and file batches (C31-C34). *)
From Coq Require Import String.
From Verif Require Import Base LineEndingsModel LineEndingsSpec AddressModel AddressProps FileSetModel FileSetProps WorkspaceModel WorkspaceProofs.

(** * C31: the reload queue *)
Definition qscan1 (s : option (option bool * bool)) (e : qevent) : option (option bool * bool) :=
  match s with
  | None => None
  | Some (req, run) =>
      match e with
      | QRequest f => Some (Some f, run)
      | QStart f => if run then None else match req with Some g => if Bool.eqb f g then Some (None, true) else None | None => None end
      | QEnd => if run then Some (req, false) else None
      end
  end.
Definition qscan (l : list qevent) := fold_left qscan1 l (Some (None, false)).
Definition qinv (st : state) : Prop := qscan (qlog st) = Some (q_requested st, q_running st).

Lemma qscan_app : forall a b, qscan (a ++ b) = fold_left qscan1 b (qscan a).
Proof. intros. apply fold_left_app. Qed.
Lemma request_qinv : forall f st, qinv st -> qinv (request_op f st).
Proof. intros f st H. unfold qinv in *. unfold request_op. cbn [qlog q_requested q_running set_queue]. rewrite qscan_app, H. reflexivity. Qed.
Lemma start_qinv : forall st, qinv st -> qinv (start_op st).
Proof.
  intros st H. unfold qinv, start_op in *. destruct (q_running st) eqn:R; [now rewrite R|].
  destruct (q_requested st) as [f|] eqn:Q; cbn [qlog q_requested q_running set_queue]; auto.
  rewrite qscan_app, H. cbn. now rewrite eqb_reflx.
Qed.
Lemma switch_queue : forall st, qlog (switch_workspaces st) = qlog st /\ q_requested (switch_workspaces st) = q_requested st /\ q_running (switch_workspaces st) = q_running st.
Proof. intros st. unfold switch_workspaces. destruct (q_last st) as [[r f]|]; auto. destruct (_ && _); auto. Qed.
Lemma process_qinv : forall st st', qinv st -> process_pending_file_changes st = Ok st' -> qinv st'.
Proof.
  intros st st' H K. unfold process_pending_file_changes in K. destruct (v_changes (s_vfs st)) as [|x xs]; [congruence|].
  destruct (apply_texts _ _ _ _); cbn [bind] in K; [|discriminate]. destruct (existsb _ _); injection K as <-; auto. apply request_qinv. exact H.
Qed.
Lemma after_qinv : forall st st', qinv st -> after_handle_event st = Ok st' -> qinv st'.
Proof.
  intros st st' H K. unfold after_handle_event in K. destruct (syncing st).
  - cbn in K. injection K as <-. now apply start_qinv.
  - destruct (process_pending_file_changes _) as [s|] eqn:P; cbn in K; [|discriminate]. injection K as <-. apply start_qinv. eapply process_qinv; [|exact P].
    destruct (scheduled st); auto. destruct (switch_queue (set_scheduled false st)) as (A & B & C). unfold qinv. rewrite A, B, C. exact H.
Qed.
Lemma load_files_queue : forall ch fs st, qlog (fold_left (load_file ch) fs st) = qlog st /\ q_requested (fold_left (load_file ch) fs st) = q_requested st /\ q_running (fold_left (load_file ch) fs st) = q_running st.
Proof. intros ch. induction fs as [|f fs IH]; intros st; cbn [fold_left]; auto. destruct (load_file_frame ch st f) as [v ->]. apply (IH (set_vfs v st)). Qed.
Lemma msgs_queue : forall n st, qlog (handle_vfs_msgs n st) = qlog st /\ q_requested (handle_vfs_msgs n st) = q_requested st /\ q_running (handle_vfs_msgs n st) = q_running st.
Proof.
  induction n as [|n IH]; intros st; cbn [handle_vfs_msgs]; auto. destruct (channel st) as [|m ch]; auto.
  destruct (IH (handle_vfs_msg (set_loader (l_inbox st) (l_current st) ch (received st) st) m)) as (A & B & C). rewrite A, B, C.
  destruct m as [fs|fs|v p]; cbn [handle_vfs_msg]; auto;
    match goal with |- context [fold_left (load_file ?c) ?f ?s] => destruct (load_files_queue c f s) as (X & Y & Z) end; rewrite X, Y, Z; auto.
Qed.
Lemma ends_qinv : forall rs st st', qinv st -> handle_ends rs st = Ok st' -> qinv st'.
Proof.
  induction rs as [|r rs IH]; intros st st' H K; cbn [handle_ends] in K; [congruence|]. destruct (workers st) as [|f wk]; [congruence|].
  unfold op_completed in K. destruct (q_running st) eqn:R; cbn [bind] in K; [|discriminate]. eapply IH; [|exact K].
  unfold qinv in *. cbn [qlog q_requested q_running set_queue set_scheduled]. rewrite qscan_app, H, R. reflexivity.
Qed.
Lemma step_qinv : forall st e st', qinv st -> step st e = Ok st' -> qinv st'.
Proof.
  intros st e st' H K. destruct e; cbn [step] in K; try (eapply after_qinv; [|exact K]; auto).
  - destruct (aget _ _); auto. destruct (text_eqb _ _); auto.
  - destruct (is_manifest_file p); auto. now apply request_qinv.
  - now apply request_qinv.
  - destruct (handle_ends rs st) as [s|] eqn:E; cbn in K; [|discriminate]. eapply after_qinv; [|exact K]. eapply ends_qinv; eauto.
  - destruct (msgs_queue n st) as (A & B & C). unfold qinv. now rewrite A, B, C.
  - destruct (l_current st); [congruence|]. destruct (l_inbox st) as [|[v|q] ib]; injection K as <-; exact H.
  - destruct (l_current st); [congruence|]. destruct (l_inbox st) as [|[v|q] ib]; injection K as <-; exact H.
  - destruct (l_current st); injection K as <-; exact H.
  - destruct (l_current st); injection K as <-; exact H.
  - destruct (l_current st); injection K as <-; exact H.
  - injection K as <-; exact H.
Qed.
Lemma reachable_qinv : forall st, reachable st -> qinv st.
Proof.
  intros st [es H]. assert (G : qinv initial) by reflexivity. revert G H. generalize initial as s. revert st.
  induction es as [|e es IH]; intros st s G H; cbn in H; [congruence|]. destruct (step s e) as [s1|] eqn:S; cbn in H; [|discriminate].
  eapply IH; [|exact H]. eapply step_qinv; eauto.
Qed.

(** The specification: counting the starts and ends of a log. *)
Definition starts (l : list qevent) : nat := length (filter (fun e => match e with QStart _ => true | _ => false end) l).
Definition ends (l : list qevent) : nat := length (filter (fun e => match e with QEnd => true | _ => false end) l).

Lemma qscan_none : forall l, fold_left qscan1 l None = None.
Proof. induction l; auto. Qed.
Lemma qscan_prefix : forall a b r, qscan (a ++ b) = Some r -> exists r', qscan a = Some r' /\ fold_left qscan1 b (Some r') = Some r.
Proof. intros a b r H. rewrite qscan_app in H. destruct (qscan a) as [r'|]; [eauto|]. now rewrite qscan_none in H. Qed.
Lemma qscan_snoc_inv : forall l e req run, qscan (l ++ [e]) = Some (req, run) -> exists req' run', qscan l = Some (req', run') /\ qscan1 (Some (req', run')) e = Some (req, run).
Proof. intros l e req run H. apply qscan_prefix in H. destruct H as ([req' run'] & A & B). eauto. Qed.
Lemma qscan_count : forall l req run, qscan l = Some (req, run) -> starts l = ends l + (if run then 1 else 0).
Proof.
  intros l. induction l as [|e l IH] using rev_ind; intros req run H; [injection H as <- <-; reflexivity|].
  apply qscan_snoc_inv in H. destruct H as (q & r & A & B). apply IH in A. unfold starts, ends in *. rewrite !filter_app, !app_length. cbn in B.
  destruct e; cbn.
  - injection B as <- <-. lia.
  - destruct r; [discriminate|]. destruct q as [g|]; [|discriminate]. destruct (Bool.eqb force g); [|discriminate]. injection B as <- <-. lia.
  - destruct r; [|discriminate]. injection B as <- <-. lia.
Qed.
Lemma qscan_request : forall l2 l1 f req run, qscan (l1 ++ QRequest f :: l2) = Some (req, run) ->
  (exists g, In (QStart g) l2) \/ req <> None.
Proof.
  intros l2. induction l2 as [|e l2 IH] using rev_ind; intros l1 f req run H.
  - apply qscan_snoc_inv in H. destruct H as (q & r & _ & B). cbn in B. injection B as <- <-. right. discriminate.
  - change (l1 ++ QRequest f :: l2 ++ [e]) with (l1 ++ (QRequest f :: l2) ++ [e]) in H. rewrite app_assoc in H.
    apply qscan_snoc_inv in H. destruct H as (q & r & A & B). apply IH in A. destruct A as [[g A]|A].
    + left. exists g. apply in_or_app. now left.
    + destruct e; cbn in B.
      * injection B as <- <-. right. discriminate.
      * left. exists force. apply in_or_app. right. now left.
      * destruct r; [|discriminate]. injection B as <- <-. now right.
Qed.
Lemma qscan_last_request : forall l req run g, qscan l = Some (req, run) -> req = Some g ->
  exists a b, l = a ++ QRequest g :: b /\ forall e, In e b -> e = QEnd.
Proof.
  intros l. induction l as [|e l IH] using rev_ind; intros req run g H E; [injection H as <- <-; discriminate|].
  apply qscan_snoc_inv in H. destruct H as (q & r & A & B). destruct e; cbn in B.
  - injection B as <- <-. injection E as <-. exists l, []. split; [reflexivity|intros e []].
  - destruct r; [discriminate|]. destruct q as [g'|]; [|discriminate]. destruct (Bool.eqb force g'); [|discriminate]. injection B as <- <-. discriminate.
  - destruct r; [|discriminate]. injection B as <- <-. subst. destruct (IH _ _ _ A eq_refl) as (a & b & -> & K).
    exists a, (b ++ [QEnd]). split; [now rewrite <- app_assoc|]. intros e He. apply in_app_or in He. destruct He as [He|[<-|[]]]; auto.
Qed.

(** At every moment of every history at most one reload runs: among the first events of the log the
    starts exceed the ends by at most one. *)
Theorem one_reload_at_a_time : forall st l1 l2, reachable st -> qlog st = l1 ++ l2 -> ends l1 <= starts l1 <= S (ends l1).
Proof.
  intros st l1 l2 R E. apply reachable_qinv in R. unfold qinv in R. rewrite E in R. apply qscan_prefix in R.
  destruct R as ([q r] & A & _). apply qscan_count in A. destruct r; lia.
Qed.
(** the number of loading closures in the pool is the number of reloads started and not ended *)
Theorem workers_are_running_reloads : forall st, reachable st -> starts (qlog st) = ends (qlog st) + length (workers st) /\ (q_running st = true <-> workers st <> []).
Proof.
  intros st R. pose proof (reachable_qinv _ R) as Q. destruct (reachable_inv _ R) as [(_ & _ & C & _) _]. unfold qinv in Q. apply qscan_count in Q.
  unfold queue_ok in C. rewrite Q. destruct (q_running st); [destruct C as [f ->]|rewrite C]; cbn; split; try lia; split; congruence.
Qed.
(** No request is forgotten: between turns, every request was followed by a start, or a reload is running
    and the request is still recorded. *)
Theorem request_not_lost : forall st l1 f l2, reachable st -> qlog st = l1 ++ QRequest f :: l2 ->
  (exists g, In (QStart g) l2) \/ (q_requested st <> None /\ q_running st = true).
Proof.
  intros st l1 f l2 R E. pose proof (reachable_qinv _ R) as Q. unfold qinv in Q. rewrite E in Q. apply qscan_request in Q.
  destruct Q as [Q|Q]; auto. right. destruct (reachable_inv _ R) as [_ (_ & S & _)]. auto.
Qed.
(** hence an idle server has started a reload after every request *)
Theorem idle_requests_served : forall st l1 f l2, reachable st -> workers st = [] -> qlog st = l1 ++ QRequest f :: l2 -> exists g, In (QStart g) l2.
Proof.
  intros st l1 f l2 R W E. destruct (request_not_lost _ _ _ _ R E) as [H|[_ H]]; auto.
  apply (workers_are_running_reloads st R) in H. congruence.
Qed.
(** a reload that ends while a request is recorded is followed by a new start within the same turn *)
Theorem recorded_request_starts : forall st r st', reachable st -> q_requested st <> None -> step st (ETasks [r]) = Ok st' ->
  q_requested st' = None /\ q_running st' = true /\ workers st' <> [] /\ starts (qlog st') = S (starts (qlog st)).
Proof.
  intros st r st' R Q S. assert (R' : reachable st').
  { destruct R as [es R]. exists (es ++ [ETasks [r]]). assert (G : forall es s, run s es = Ok st -> run s (es ++ [ETasks [r]]) = Ok st').
    { clear R es. induction es as [|e es IH]; intros s H; cbn [run app] in *; [injection H as ->; now rewrite S|].
      destruct (step s e) as [s1|]; cbn in *; [auto|discriminate]. } auto. }
  pose proof (reachable_inv _ R) as [Co (_ & St & _)]. specialize (St Q).
  pose proof (workers_are_running_reloads _ R) as [W1 W2]. pose proof (workers_are_running_reloads _ R') as [W3 W4].
  destruct Co as (_ & _ & C & _). unfold queue_ok in C. rewrite St in C. destruct C as [f C].
  cbn [step handle_ends] in S. rewrite C in S. unfold op_completed in S. rewrite St in S. cbn [bind handle_ends] in S.
  unfold set_queue, set_scheduled in S. cbn in S.
  match type of S with after_handle_event ?s = _ => set (s0 := s) in S end.
  assert (F : forall s s1, q_running s = false -> q_requested s <> None -> after_handle_event s = Ok s1 -> q_requested s1 = None /\ q_running s1 = true /\
              ends (qlog s1) = ends (qlog s)).
  { clear. intros s s1 A B H. unfold after_handle_event in H.
    assert (K : forall s, q_running s = false -> q_requested s <> None -> q_requested (start_op s) = None /\ q_running (start_op s) = true /\ ends (qlog (start_op s)) = ends (qlog s)).
    { clear. intros s A B. unfold start_op. rewrite A. destruct (q_requested s); [|congruence]. cbn. unfold ends. now rewrite filter_app, app_nil_r. }
    destruct (syncing s); cbn in H; [injection H as <-; auto|].
    remember (if scheduled s then switch_workspaces (set_scheduled false s) else s) as s2 eqn:E2.
    assert (q_running s2 = false /\ q_requested s2 <> None /\ qlog s2 = qlog s) as (A2 & B2 & L2).
    { subst s2. destruct (scheduled s); auto. destruct (switch_queue (set_scheduled false s)) as (X & Y & Z). rewrite X, Y, Z. auto. }
    destruct (process_pending_file_changes s2) as [s3|] eqn:P; cbn in H; [|discriminate]. injection H as <-.
    assert (q_running s3 = false /\ q_requested s3 <> None /\ ends (qlog s3) = ends (qlog s2)) as (A3 & B3 & L3).
    { unfold process_pending_file_changes in P. destruct (v_changes (s_vfs s2)); [injection P as <-; auto|].
      destruct (apply_texts _ _ _ _); cbn [bind] in P; [|discriminate]. destruct (existsb _ _); injection P as <-; cbn; auto.
      unfold ends. rewrite filter_app, app_nil_r. repeat split; auto; discriminate. }
    destruct (K s3 A3 B3) as (K1 & K2 & K3). rewrite K3, L3, L2. auto. }
  destruct (F s0 st' eq_refl Q S) as (F1 & F2 & F3). split; auto. split; auto.
  assert (workers st' <> []) by now apply W4. split; auto.
  destruct (reachable_inv _ R') as [(_ & _ & C' & _) _]. unfold queue_ok in C'. rewrite F2 in C'. destruct C' as [g C'].
  rewrite C' in W3. rewrite C in W1. unfold s0 in F3. cbn [qlog] in F3. unfold ends in F3 at 2. rewrite filter_app, app_length in F3. cbn in F3.
  fold (ends (qlog st)) in F3. cbn in *. lia.
Qed.
(** the end-of-loading assertion (op_queue.rs:66) never fails *)
Theorem op_completed_never_panics : forall st rs, reachable st -> exists st', handle_ends rs st = Ok st'.
Proof. intros st rs R. destruct (handle_ends_core rs st) as (s & H & _); [apply (reachable_inv _ R)|eauto]. Qed.
(** a start carries the flag of the most recent request *)
Theorem start_uses_last_request : forall st l1 f l2, reachable st -> qlog st = l1 ++ QStart f :: l2 ->
  exists a b, l1 = a ++ QRequest f :: b /\ forall e, In e b -> e = QEnd.
Proof.
  intros st l1 f l2 R E. apply reachable_qinv in R. unfold qinv in R. rewrite E in R. apply qscan_prefix in R.
  destruct R as ([q r] & A & B). cbn in B. destruct r; [now rewrite qscan_none in B|]. destruct q as [g|]; [|now rewrite qscan_none in B].
  destruct (Bool.eqb f g) eqn:G; [|now rewrite qscan_none in B]. apply eqb_prop in G. subst g. eapply qscan_last_request; eauto.
Qed.
(** The flag of an earlier request is lost: a forced reload asked for while another runs becomes an
    unforced one when anything else asks before it can start. *)
Definition toml : path := str "/ws/Move.toml".
Definition mfile : path := str "/ws/sources/m.move".
Definition ws1 : load_result := mkLR false [str "/ws"].
Definition boot : list event :=
  [ETasks [ws1]; LStart; LLoaded [(toml, Some (str "a")); (mfile, Some (str "b"))]; LFinish; EVfs 3; ETasks [ws1]; LStart; LFinish; EVfs 2].
Theorem forced_reload_lost_refuted : exists es st l1 l2, run initial es = Ok st /\ qlog st = l1 ++ QRequest true :: l2 /\
  workers st = [] /\ is_project_fully_loaded st = true /\ ~ In (QStart true) l2.
Proof.
  exists [ESave toml; ETasks [ws1]; LStart; LLoaded [(mfile, Some (str "b"))]; LFinish; EVfs 3; ESave toml; ETasks [ws1]; ETasks [ws1]; LStart; LFinish; LStart; LFinish; EVfs 4].
  eexists. exists [QRequest false; QStart false; QRequest false; QEnd; QStart false], [QRequest false; QEnd; QStart false; QEnd].
  split; [vm_compute; reflexivity|]. split; [reflexivity|]. split; [reflexivity|]. split; [reflexivity|].
  cbn. intros H. repeat (destruct H as [H|H]; [discriminate|]). exact H.
Qed.

Example reload_example : exists st, run initial (boot ++ [EReload; EReload; ESave toml]) = Ok st /\
  qlog st = [QRequest false; QStart false; QEnd; QRequest true; QStart true; QEnd; QRequest false; QStart false; QRequest false; QRequest false] /\ workers st = [false].
Proof. eexists. split; [vm_compute; reflexivity|split; reflexivity]. Qed.

(** * C32: what being fully loaded means *)
Theorem ready_means_loaded : forall st, reachable st -> is_project_fully_loaded st = true ->
  workers st = [] /\ q_requested st = None /\ scheduled st = false /\
  0 < version st /\ (forall v, ~ In (LConfig v) (l_inbox st)) /\ l_current st = None /\
  In (Progress (version st) Finished) (received st) /\
  (forall m, In m (channel st) -> exists fs, m = Changed fs) /\ v_changes (s_vfs st) = [].
Proof.
  intros st R F. pose proof (reachable_inv _ R) as [(A & B & C & D & E) (S1 & S2 & S3 & S4)].
  unfold is_project_fully_loaded in F. apply andb_true_iff in F. destruct F as [F F3]. apply andb_true_iff in F. destruct F as [F1 F2].
  apply negb_true_iff in F1, F2. apply Nat.leb_le in F3.
  destruct D as (k & cur & k' & D1 & D2 & D3 & D4 & D5 & D6 & D7 & D8 & D9).
  rewrite F1 in D6. destruct cur as [c|]; [discriminate|]. cbn in D5. destruct (scan_wf _ _ _ _ _ D2 D3) as (W1 & W2 & W3). cbn in W2.
  unfold queue_ok in C. rewrite F2 in C.
  assert (V : 0 < version st) by (destruct (version st); [specialize (S4 eq_refl); congruence|lia]).
  assert (L : l_current st = None).
  { destruct (l_current st) as [c|]; auto. cbn in *. lia. }
  rewrite L in *. cbn in D8, D9, W2.
  assert (K : k = version st) by lia. assert (K2 : k' = version st) by lia.
  split; auto. split; [destruct (q_requested st); auto; specialize (S2 ltac:(discriminate)); congruence|].
  split; [destruct (scheduled st); auto; specialize (S1 eq_refl); congruence|]. split; auto.
  split; [|split; auto; split; [|split; auto]].
  - intros v H. rewrite K2, Nat.sub_diag in D9. assert (In v (inbox_versions (l_inbox st))) by (unfold inbox_versions; apply in_flat_map; exists (LConfig v); split; [auto|now left]).
    rewrite D9 in H0. destruct H0.
  - assert (G : forall ms k0 c0 k1, scan (Some (k0, c0)) ms = Some (k1, None) -> (k0 < k1 \/ c0 <> None) -> In (Progress k1 Finished) ms).
    { clear. induction ms as [|m ms IH] using rev_ind; intros k0 c0 k1 H N; [cbn in H; injection H as -> ->; destruct N; [lia|congruence]|].
      rewrite scan_app in H. destruct (scan (Some (k0, c0)) ms) as [[k2 c2]|] eqn:Q; [|cbn in H; discriminate]. apply in_or_app. cbn in H.
      destruct m as [fs|fs|v [| |]], c2 as [c|]; try discriminate; try (destruct (Nat.eqb_spec v (S k2)); discriminate); try (destruct (Nat.eqb_spec v c); discriminate).
      - injection H as ->. left. eapply IH; eauto.
      - destruct (Nat.eqb_spec v c) as [->|]; [|discriminate]. injection H as ->. right. now left. }
    rewrite <- K. eapply G; [exact D1|]. left. lia.
  - revert D2. rewrite K, K2. clear. generalize (version st) as vv. intros vv. induction (channel st) as [|m ms IH]; intros H x Hx; [destruct Hx|].
    change (m :: ms) with ([m] ++ ms) in H. rewrite scan_app in H.
    destruct m as [fs|fs|v p]; [cbn in H; now rewrite scan_none in H| |].
    + cbn in H. destruct Hx as [<-|Hx]; eauto.
    + exfalso. destruct p; cbn in H; try now rewrite scan_none in H.
      destruct (Nat.eqb_spec v (S vv)) as [->|]; [|now rewrite scan_none in H].
      apply scan_wf in H; [|reflexivity]. cbn in H. lia.
Qed.
(** Progress reports never overtake the configuration (the [always!] of main_loop.rs:384). *)
Theorem progress_never_ahead : forall st, reachable st -> progress_version st <= version st.
Proof.
  intros st R. pose proof (reachable_inv _ R) as [(_ & _ & _ & D & _) _]. destruct D as (k & cur & k' & D1 & D2 & D3 & D4 & D5 & D6 & D7 & D8 & D9).
  rewrite D5. destruct (scan_wf _ _ _ _ _ D2 D3) as (_ & W & _). lia.
Qed.
Example ready_example : exists st, run initial boot = Ok st /\ is_project_fully_loaded st = true /\ version st = 2.
Proof. eexists. split; [vm_compute; reflexivity|split; reflexivity]. Qed.
(** not ready: while loading, while the loader reports, and between a finished load and its configuration *)
Example not_ready_examples : forall n, n < 9 -> exists st, run initial (firstn n boot) = Ok st /\ is_project_fully_loaded st = false.
Proof. intros n H. do 9 (destruct n as [|n]; [eexists; split; [vm_compute; reflexivity|reflexivity]|]). lia. Qed.

(** * C33: open documents *)
Theorem open_document_wins : forall st p b, reachable st -> aget (opened st) p = Some b -> v_content (s_vfs st) p = Some b.
Proof. intros st p b R H. pose proof (reachable_inv _ R) as [(_ & B & _) _]. auto. Qed.
(** and the analysis sees it, line endings normalised, whenever the loader is not reporting *)
Theorem analysis_sees_files : forall st p b, reachable st -> syncing st = false -> v_content (s_vfs st) p = Some b ->
  aget (db_text st) p = Some (if utf8_valid b then drop_cr_before_lf b else []).
Proof.
  intros st p b R S H. pose proof (reachable_inv _ R) as [(A & _) (_ & _ & K & _)]. specialize (K S).
  destruct A as [_ _ _ A]. specialize (A p b). rewrite K in A. exact (A eq_refl H).
Qed.
Theorem analysis_sees_open_document : forall st p b, reachable st -> syncing st = false -> aget (opened st) p = Some b ->
  aget (db_text st) p = Some (if utf8_valid b then drop_cr_before_lf b else []).
Proof. intros st p b R S H. apply analysis_sees_files; auto. now apply open_document_wins. Qed.
(** closing asks the loader for the file; the answer replaces the contents if the file is still closed *)
Lemma after_opened : forall st st', after_handle_event st = Ok st' -> opened st' = opened st /\ (exists l, l_inbox st' = l_inbox st ++ l) /\ (forall p, v_content (s_vfs st') p = v_content (s_vfs st) p).
Proof.
  intros st st' H. unfold after_handle_event in H.
  assert (SO : forall s, opened (start_op s) = opened s /\ l_inbox (start_op s) = l_inbox s /\ s_vfs (start_op s) = s_vfs s).
  { intros s. unfold start_op. destruct (q_running s); auto. destruct (q_requested s); auto. }
  destruct (syncing st); cbn [bind] in H.
  - injection H as <-. destruct (SO st) as (A & B & C). rewrite A, B, C. split; auto. split; auto. exists []. now rewrite app_nil_r.
  - destruct (process_pending_file_changes _) as [s|] eqn:P; cbn [bind] in H; [|discriminate]. injection H as <-.
    destruct (SO s) as (A & B & C). rewrite A, B, C.
    set (s0 := if scheduled st then switch_workspaces (set_scheduled false st) else st) in *.
    assert (G0 : opened s0 = opened st /\ (exists l, l_inbox s0 = l_inbox st ++ l) /\ s_vfs s0 = s_vfs st).
    { unfold s0. destruct (scheduled st); [|split; auto; split; auto; exists []; now rewrite app_nil_r]. unfold switch_workspaces. cbn [q_last set_scheduled].
      destruct (q_last st) as [[r f]|]; [|cbn; split; auto; split; auto; exists []; now rewrite app_nil_r].
      destruct (_ && _); cbn; split; auto; split; auto; [exists []; now rewrite app_nil_r|eauto]. }
    clearbody s0. destruct G0 as (G1 & [l G2] & G3).
    unfold process_pending_file_changes in P. destruct (v_changes (s_vfs s0)) eqn:V; [injection P as <-; rewrite G1, G2, G3; eauto|].
    destruct (apply_texts _ _ _ _); cbn [bind] in P; [|discriminate]. destruct (existsb _ _); injection P as <-; cbn; rewrite G1, G2, G3; eauto.
Qed.
Theorem close_asks_disk : forall st p st', step st (EClose p) = Ok st' -> aget (opened st') p = None /\ In (LInvalidate p) (l_inbox st').
Proof.
  intros st p st' H. cbn [step] in H. apply after_opened in H. destruct H as (A & [l B] & _). rewrite A, B. cbn. rewrite aget_adel, text_eqb_refl. split; auto.
  apply in_or_app. left. apply in_or_app. right. now left.
Qed.
Theorem disk_answer_applies : forall st p c ch st', aget (opened st) p = None -> channel st = Changed [(p, c)] :: ch -> step st (EVfs 1) = Ok st' ->
  v_content (s_vfs st') p = c.
Proof.
  intros st p c ch st' O Hc H. cbn [step handle_vfs_msgs] in H. rewrite Hc in H. apply after_opened in H. destruct H as (_ & _ & H). rewrite H.
  cbn. unfold set_loader. cbn. rewrite O. cbn. now rewrite sfc_content, text_eqb_refl.
Qed.
(** loader messages about an open document change nothing *)
Theorem disk_ignored_while_open : forall st st' p b n, reachable st -> aget (opened st) p = Some b -> step st (EVfs n) = Ok st' ->
  aget (opened st') p = Some b /\ v_content (s_vfs st') p = Some b.
Proof.
  intros st st' p b n R O H. cbn [step] in H. pose proof (reachable_inv _ R) as [Co _].
  assert (G : forall n st, opened (handle_vfs_msgs n st) = opened st).
  { clear. assert (LF : forall ch fs st, opened (fold_left (load_file ch) fs st) = opened st).
    { intros ch. induction fs as [|f fs IH]; intros st; cbn; auto. rewrite IH. destruct (load_file_frame ch st f) as [v ->]. reflexivity. }
    induction n as [|n IH]; intros st; cbn [handle_vfs_msgs]; auto. destruct (channel st) as [|m ch]; auto. rewrite IH. destruct m; cbn [handle_vfs_msg]; auto; now rewrite LF. }
  pose proof (handle_vfs_msgs_core n _ Co) as (_ & Do & _). apply after_opened in H. destruct H as (A & _ & B). rewrite A, B, G. split; auto. apply Do. now rewrite G.
Qed.
Example open_example : exists st, run initial (boot ++ [EOpen mfile (str "xyz"); LWatch [(mfile, Some (str "disk"))]; EVfs 1]) = Ok st /\
  v_content (s_vfs st) mfile = Some (str "xyz") /\ aget (db_text st) mfile = Some (str "xyz").
Proof. eexists. split; [vm_compute; reflexivity|split; reflexivity]. Qed.
Example close_example : exists st, run initial (boot ++ [EOpen mfile (str "xyz"); LWatch [(mfile, Some (str "disk"))]; EVfs 1; EClose mfile; LRead (Some (str "disk")); EVfs 1]) = Ok st /\
  v_content (s_vfs st) mfile = Some (str "disk") /\ aget (db_text st) mfile = Some (str "disk").
Proof. eexists. split; [vm_compute; reflexivity|split; reflexivity]. Qed.

(** * C34: batches of file changes *)
Local Arguments package_ids : simpl never.
Local Arguments v_files : simpl never.
Local Arguments v_content : simpl never.
Theorem batch_panics_iff : forall st, core st ->
  (process_pending_file_changes st = Panic <-> exists p, aget (v_changes (s_vfs st)) p = Some Delete).
Proof.
  intros st (A & _). destruct A as [A1 A2 A3 A4]. unfold process_pending_file_changes. split.
  - intros H. destruct (v_changes (s_vfs st)) as [|x xs] eqn:G; [discriminate|]. rewrite <- G in *. clear G x xs.
    destruct (existsb (fun e => match snd e with Delete => true | _ => false end) (v_changes (s_vfs st))) eqn:X.
    + apply existsb_exists in X. destruct X as ([p c] & I & K). cbn in K. destruct c; try discriminate. exists p. now apply aget_nodup.
    + exfalso. match type of H with bind (apply_texts ?s ?k ?c ?d) _ = _ => destruct (apply_texts_ok s k c d) as [db' K] end; [|rewrite K in H; discriminate].
      intros S p c I. rewrite S. cbn. rewrite package_ids_spec.
      destruct (in_dec text_eq_dec p (v_files (mkVfs (v_data (s_vfs st)) []))) as [|N]; [discriminate|]. exfalso. apply N. apply v_files_spec; auto.
      assert (c <> Delete).
      { intros ->. assert (existsb (fun e => match snd e with Delete => true | _ => false end) (v_changes (s_vfs st)) = true) by (apply existsb_exists; exists (p, Delete); auto). congruence. }
      pose proof (A3 p c (aget_nodup _ _ _ _ A2 I)) as Q. unfold v_content in *. cbn [v_data]. rewrite Q. destruct c; try discriminate. congruence.
  - intros (p & D). pose proof (aget_in _ _ _ _ D) as I. destruct (v_changes (s_vfs st)) as [|x xs] eqn:G; [discriminate|]. rewrite <- G in *. clear G x xs.
    assert (S : existsb is_structural (v_changes (s_vfs st)) = true) by (apply existsb_exists; exists (p, Delete); auto). rewrite S.
    rewrite (apply_texts_panic _ _ _ p Delete); auto. cbn. rewrite package_ids_spec.
    destruct (in_dec text_eq_dec p (v_files (mkVfs (v_data (s_vfs st)) []))) as [Y|]; auto. exfalso. apply v_files_spec in Y; auto.
    apply A3 in D. cbn in D. unfold v_content in *. cbn [v_data] in Y. now rewrite D in Y.
Qed.
(** A turn that applies a batch with a created, deleted or manifest file gives every existing file the
    package the configuration says, and no other file any. *)
Theorem structural_batch_partition : forall st st', core st -> existsb is_structural (v_changes (s_vfs st)) = true -> process_pending_file_changes st = Ok st' ->
  forall p, aget (db_package st') p = if match v_content (s_vfs st') p with Some _ => true | None => false end then Some (classify (roots st') p) else None.
Proof.
  intros st st' (A & _) S H p. destruct A as [A1 _ _ _]. unfold process_pending_file_changes in H.
  destruct (v_changes (s_vfs st)) as [|x xs] eqn:G; [discriminate|]. rewrite <- G in *. clear G x xs. rewrite S in H.
  destruct (apply_texts _ _ _ _); cbn [bind] in H; [|discriminate]. injection H as <-. cbn. rewrite package_ids_spec.
  destruct (in_dec text_eq_dec p (v_files (mkVfs (v_data (s_vfs st)) []))) as [Y|N].
  - apply v_files_spec in Y; auto. destruct (v_content (mkVfs (v_data (s_vfs st)) []) p); [reflexivity|now contradict Y].
  - destruct (v_content (mkVfs (v_data (s_vfs st)) []) p) eqn:Q; auto. exfalso. apply N. apply v_files_spec; auto. congruence.
Qed.
(** and asks for a forced reload *)
Theorem structural_batch_reloads : forall st st', existsb is_structural (v_changes (s_vfs st)) = true -> process_pending_file_changes st = Ok st' -> q_requested st' = Some true.
Proof.
  intros st st' S H. unfold process_pending_file_changes in H.
  destruct (v_changes (s_vfs st)) as [|x xs] eqn:G; [discriminate|]. rewrite S in H.
  destruct (apply_texts _ _ _ _); cbn [bind] in H; [|discriminate]. injection H as <-. reflexivity.
Qed.

(** ** histories without deletions never crash the server *)
Definition all_some (fs : list (path * option text)) : Prop := Forall (fun f => snd f <> None) fs.
Definition keeps_files (e : event) : Prop :=
  match e with LRead c => c <> None | LLoaded fs | LWatch fs => all_some fs | _ => True end.
Definition msg_keeps (m : vmsg) : Prop := match m with Loaded fs | Changed fs => all_some fs | _ => True end.
Definition nd (st : state) : Prop :=
  Forall msg_keeps (channel st) /\ (forall p, aget (v_changes (s_vfs st)) p <> Some Delete) /\
  (forall p b, v_content (s_vfs st) p = Some b -> (forall x, aget (v_changes (s_vfs st)) p <> Some (Create x)) -> aget (db_package st) p <> None).

Lemma sfc_nd : forall v db pk p b, vfs_ok v db -> (forall q, aget (v_changes v) q <> Some Delete) ->
  (forall q c, v_content v q = Some c -> (forall x, aget (v_changes v) q <> Some (Create x)) -> aget pk q <> None) ->
  (forall q, aget (v_changes (set_file_contents v p (Some b))) q <> Some Delete) /\
  (forall q c, v_content (set_file_contents v p (Some b)) q = Some c -> (forall x, aget (v_changes (set_file_contents v p (Some b))) q <> Some (Create x)) -> aget (pk : list (path * nat)) q <> None).
Proof.
  intros v db pk p b [V1 V2 V3 V4] A B. unfold set_file_contents. destruct (v_content v p) as [old|] eqn:E.
  - destruct (text_eqb old b) eqn:Q.
    + cbn [v_changes]. split; auto. intros q c. unfold v_content in *. cbn [v_data]. destruct (aget (v_data v) p); [apply B|discriminate].
    + cbn [v_changes]. split.
      * intros q. rewrite aget_aset. destruct (text_eqb p q); auto. specialize (A p). destruct (aget (v_changes v) p) as [[]|]; cbn; congruence.
      * intros q c. unfold v_content in *. cbn [v_data]. rewrite !aget_aset. destruct (text_eqb p q) eqn:Q2; [|apply B].
        apply text_eqb_spec in Q2. subst q. intros _ N. destruct (aget (v_data v) p) as [[o|]|] eqn:G; try discriminate.
        apply (B p o); [now rewrite G|]. intros x X. rewrite X in N. cbn in N. now apply (N b).
  - cbn [v_changes]. assert (N : aget (v_changes v) p = None).
    { destruct (aget (v_changes v) p) as [c|] eqn:G; auto. pose proof (V3 _ _ G) as K. rewrite E in K. destruct c; try discriminate. now apply A in G. }
    rewrite N. split.
    + intros q. rewrite aget_aset. destruct (text_eqb p q); auto. discriminate.
    + intros q c. unfold v_content in *. cbn [v_data]. rewrite !aget_aset. destruct (text_eqb p q) eqn:Q2; [|apply B].
      intros _ K. exfalso. now apply (K b).
Qed.
Lemma after_nd : forall st, core st -> nd st -> exists st', after_handle_event st = Ok st' /\ nd st'.
Proof.
  intros st C (N1 & N2 & N3). unfold after_handle_event.
  assert (SO : forall s, nd s -> nd (start_op s)).
  { intros s H. unfold start_op. destruct (q_running s); auto. destruct (q_requested s); exact H. }
  destruct (syncing st); cbn [bind]; [exists (start_op st); split; auto; apply SO; repeat split; auto|].
  set (s0 := if scheduled st then switch_workspaces (set_scheduled false st) else st).
  assert (C0 : core s0) by (unfold s0; destruct (scheduled st); auto using switch_core).
  assert (G0 : channel s0 = channel st /\ s_vfs s0 = s_vfs st /\ db_package s0 = db_package st).
  { unfold s0. destruct (scheduled st); auto. unfold switch_workspaces. cbn. destruct (q_last st) as [[r f]|]; auto. destruct (_ && _); auto. }
  clearbody s0. destruct G0 as (G1 & G2 & G3).
  destruct (process_pending_file_changes s0) as [s1|] eqn:P.
  - cbn [bind]. exists (start_op s1). split; auto. apply SO. pose proof C0 as (A & _). unfold process_pending_file_changes in P.
    destruct (v_changes (s_vfs s0)) as [|x xs] eqn:V; [injection P as <-; unfold nd; rewrite G1, G2, G3; auto|].
    rewrite <- V in *. clear V x xs. destruct A as [A1 A2 _ _].
    destruct (apply_texts _ _ _ _); cbn [bind] in P; [|discriminate].
    destruct (existsb is_structural (v_changes (s_vfs s0))) eqn:ST; injection P as <-; unfold nd; cbn; rewrite G1.
    + split; auto. split; [discriminate|]. intros p b Hc _. rewrite package_ids_spec.
      destruct (in_dec text_eq_dec p (v_files (mkVfs (v_data (s_vfs s0)) []))) as [|N]; [discriminate|]. exfalso. apply N. apply v_files_spec; auto. congruence.
    + split; auto. split; [discriminate|]. intros p b Hc _. rewrite G3. apply (N3 p b); [now rewrite <- G2|].
      intros x X. rewrite <- G2 in X. apply aget_in in X.
      assert (existsb is_structural (v_changes (s_vfs s0)) = true) by (apply existsb_exists; exists (p, Create x); auto). congruence.
  - exfalso. apply (batch_panics_iff s0 C0) in P. destruct P as [p P]. rewrite G2 in P. now apply N2 in P.
Qed.
Lemma set_vfs_nd : forall st p b, core st -> nd st -> nd (set_vfs (set_file_contents (s_vfs st) p (Some b)) st).
Proof.
  intros st p b (A & _) (N1 & N2 & N3). destruct (sfc_nd _ _ (db_package st) p b A N2 N3) as [K1 K2]. split; auto.
Qed.
Lemma load_file_nd : forall ch f st, snd f <> None -> core st -> nd st -> nd (load_file ch st f).
Proof.
  intros ch [p c] st S C N. unfold load_file. destruct (aget (opened st) p); auto. destruct (_ || _); auto.
  destruct c as [b|]; [|now contradict S]. now apply set_vfs_nd.
Qed.
Lemma load_files_nd : forall ch fs st, all_some fs -> docs_ok st -> vfs_ok (s_vfs st) (db_text st) -> nd st -> nd (fold_left (load_file ch) fs st).
Proof.
  intros ch. induction fs as [|[q [b|]] fs IH]; intros s S D V K; cbn [fold_left]; auto; inversion S as [|? ? H1 H2]; subst; [|now contradict H1].
  unfold load_file at 2. destruct (aget (opened s) q) eqn:O; auto. destruct (_ || _); auto. apply IH; auto.
  - intros r c. cbn. rewrite sfc_content. destruct (text_eqb q r) eqn:Q; [|apply D]. apply text_eqb_spec in Q. subst. congruence.
  - now apply sfc_ok.
  - destruct K as (K1 & K2 & K3). destruct (sfc_nd _ _ (db_package s) q b V K2 K3). split; auto.
Qed.
Lemma msgs_nd : forall n st, core st -> nd st -> nd (handle_vfs_msgs n st).
Proof.
  induction n as [|n IH]; intros st C N; cbn [handle_vfs_msgs]; auto. destruct (channel st) as [|m ch] eqn:E; auto.
  apply IH; [now apply handle_vfs_msg_core|]. destruct N as (N1 & N2 & N3). rewrite E in N1. inversion N1 as [|? ? M1 M2]; subst.
  assert (K : nd (set_loader (l_inbox st) (l_current st) ch (received st ++ [m]) st)) by (repeat split; auto).
  destruct C as (A & B & _).
  destruct m as [fs|fs|v p]; cbn [handle_vfs_msg]; [| |exact K]; apply load_files_nd; auto.
Qed.
Lemma step_nd : forall st e, keeps_files e -> inv st -> nd st -> exists st', step st e = Ok st' /\ nd st'.
Proof.
  intros st e KE I N. pose proof (proj1 I) as C. destruct e; cbn [step].
  - apply after_nd; [now apply set_file_core|]. exact (set_vfs_nd st p b C N).
  - apply after_nd; destruct (aget (opened st) p); auto; destruct (text_eqb _ _); auto; [now apply set_file_core|exact (set_vfs_nd st p b C N)].
  - apply after_nd; [|exact N]. destruct C as (A & B & Q & D & E). split; auto. split; [|split; auto; split; auto].
    + intros q b. cbn. rewrite aget_adel. destruct (text_eqb p q); [discriminate|apply B].
    + destruct D as (k & cur & k' & D). exists k, cur, k'. pj. rewrite inbox_app. cbn. rewrite app_nil_r. exact D.
  - apply after_nd; destruct (is_manifest_file p); auto.
  - apply after_nd; [|exact N]. destruct C as (A & B & Q & D & E). split; auto. split; auto. split; auto. split; auto.
    destruct D as (k & cur & k' & D). exists k, cur, k'. pj. rewrite inbox_app.
    replace (inbox_versions (map LInvalidate ps)) with (@nil nat) by (clear; induction ps; auto). rewrite app_nil_r. exact D.
  - apply after_nd; auto.
  - apply after_nd; auto.
  - destruct (handle_ends_core rs _ C) as (s & H1 & H2). rewrite H1. cbn [bind]. apply after_nd; auto.
    clear -H1 N. revert st H1 N. induction rs as [|r rs IH]; intros st H1 N; cbn [handle_ends] in H1; [congruence|].
    destruct (workers st); [congruence|]. unfold op_completed in H1. destruct (q_running st); cbn [bind] in H1; [|discriminate]. eapply IH; [exact H1|]. exact N.
  - apply after_nd; [now apply handle_vfs_msgs_core|now apply msgs_nd].
  - destruct N as (N1 & N2 & N3). destruct (l_current st); [exists st; repeat split; auto|]. destruct (l_inbox st) as [|[v|q] ib]; eexists; (split; [reflexivity|]); repeat split; auto.
    cbn. apply Forall_app. split; auto. all: repeat constructor.
  - destruct N as (N1 & N2 & N3). destruct (l_current st); [exists st; repeat split; auto|]. destruct (l_inbox st) as [|[v|q] ib]; eexists; (split; [reflexivity|]); repeat split; auto.
    cbn. apply Forall_app. split; auto. repeat constructor. exact KE.
  - destruct N as (N1 & N2 & N3). destruct (l_current st); eexists; (split; [reflexivity|]); repeat split; auto. cbn. apply Forall_app. split; auto.
  - destruct N as (N1 & N2 & N3). destruct (l_current st); eexists; (split; [reflexivity|]); repeat split; auto. cbn. apply Forall_app. split; auto. all: repeat constructor.
  - destruct N as (N1 & N2 & N3). destruct (l_current st); eexists; (split; [reflexivity|]); repeat split; auto. cbn. apply Forall_app. split; auto. all: repeat constructor.
  - destruct N as (N1 & N2 & N3). eexists; (split; [reflexivity|]); repeat split; auto. cbn. apply Forall_app. split; auto.
Qed.
Lemma run_nd : forall es st, Forall keeps_files es -> inv st -> nd st -> exists st', run st es = Ok st' /\ inv st' /\ nd st'.
Proof.
  induction es as [|e es IH]; intros st F I N; cbn [run]; [eauto|]. inversion F; subst. destruct (step_nd st e H1 I N) as (s & S & N'). rewrite S. cbn [bind].
  apply IH; auto. eapply step_inv; eauto.
Qed.
Lemma initial_nd : nd initial.
Proof. repeat split; [constructor|intros p; discriminate|intros p b H; discriminate]. Qed.

(** No history in which no file disappears crashes the server. *)
Theorem no_crash_without_deletion : forall es, Forall keeps_files es -> exists st, run initial es = Ok st.
Proof. intros es F. destruct (run_nd es _ F initial_inv initial_nd) as (st & H & _). eauto. Qed.
(** and in such a history every file the analysis knows has a package whenever the loader is not reporting *)
Theorem every_file_has_package : forall es st p b, Forall keeps_files es -> run initial es = Ok st -> syncing st = false ->
  v_content (s_vfs st) p = Some b -> aget (db_package st) p <> None.
Proof.
  intros es st p b F H S V. destruct (run_nd es _ F initial_inv initial_nd) as (st' & H' & I & N). rewrite H in H'. injection H' as <-.
  destruct N as (_ & _ & N). destruct I as [_ (_ & _ & K & _)]. apply (N p b V). rewrite (K S). discriminate.
Qed.
(** A deletion always crashes it: whatever the history, if an existing file that is not open is reported
    deleted, the turn that receives the report panics. *)
Theorem deletion_crashes_refuted : forall st p b ch, reachable st -> v_content (s_vfs st) p = Some b -> aget (opened st) p = None -> syncing st = false ->
  channel st = Changed [(p, None)] :: ch -> step st (EVfs 1) = Panic.
Proof.
  intros st p b ch R V O S Hc. pose proof (reachable_inv _ R) as [C _]. cbn [step handle_vfs_msgs]. rewrite Hc.
  pose proof (handle_vfs_msg_core st _ ch C Hc) as C1. revert C1. unfold set_loader. cbn. rewrite O. cbn. unfold set_vfs. cbn.
  match goal with |- core ?s -> _ => set (s0 := s) end. intros C1.
  assert (D : aget (v_changes (s_vfs s0)) p = Some Delete).
  { unfold s0. cbn. unfold set_file_contents. rewrite V. cbn. rewrite aget_aset, text_eqb_refl. destruct (aget (v_changes (s_vfs st)) p) as [[]|]; reflexivity. }
  assert (S0 : syncing s0 = false) by exact S. clearbody s0. unfold after_handle_event. rewrite S0.
  set (s1 := if scheduled s0 then switch_workspaces (set_scheduled false s0) else s0).
  assert (C2 : core s1) by (unfold s1; destruct (scheduled s0); auto using switch_core).
  assert (V1 : s_vfs s1 = s_vfs s0) by (unfold s1; destruct (scheduled s0); auto; exact (proj1 (switch_frame (set_scheduled false s0)))).
  clearbody s1. rewrite (proj2 (batch_panics_iff s1 C2)); [reflexivity|]. exists p. now rewrite V1.
Qed.
Example deletion_example : exists st, run initial (boot ++ [LWatch [(mfile, None)]]) = Ok st /\ v_content (s_vfs st) mfile = Some (str "b") /\ aget (opened st) mfile = None /\
  syncing st = false /\ channel st = [Changed [(mfile, None)]] /\ step st (EVfs 1) = Panic.
Proof. eexists. split; [vm_compute; reflexivity|repeat split]. Qed.
(** the same for a document that was never saved: closing it crashes the server *)
Theorem close_unsaved_crashes_refuted : exists es, run initial (boot ++ es) = Panic /\ es = [EOpen (str "/ws/sources/new.move") (str "x"); EClose (str "/ws/sources/new.move"); LRead None; EVfs 1].
Proof. eexists. split; [|reflexivity]. vm_compute. reflexivity. Qed.

(** A configuration that arrives after the files does not move them: the server reports being fully
    loaded while a file is assigned to a package other than the one its path says. *)
Theorem stale_package_refuted : exists es st p, run initial es = Ok st /\ Forall keeps_files es /\ is_project_fully_loaded st = true /\
  v_content (s_vfs st) p <> None /\ aget (db_package st) p = Some 0 /\ classify (roots st) p = 1.
Proof.
  exists [ETasks [ws1]; LStart; LLoaded [(toml, Some (str "a")); (str "/ws/sub/Move.toml", Some (str "a")); (str "/ws/sub/sources/m.move", Some (str "b"))]; LFinish; EVfs 3;
          ETasks [mkLR false [str "/ws"; str "/ws/sub"]]; LStart; LFinish; EVfs 2].
  eexists. exists (str "/ws/sub/sources/m.move"). split; [vm_compute; reflexivity|].
  split; [repeat constructor; cbn; discriminate|]. split; [reflexivity|]. split; [discriminate|]. split; reflexivity.
Qed.
(** A file that is created, deleted and created again while the loader reports ends up without a package. *)
Theorem recreated_file_unassigned_refuted : exists es st p b, run initial es = Ok st /\ is_project_fully_loaded st = true /\
  v_content (s_vfs st) p = Some b /\ aget (db_text st) p = Some b /\ aget (db_package st) p = None.
Proof.
  exists (boot ++ [LWatch [(str "/ws/sources/t.move", Some (str "x"))]; LWatch [(str "/ws/sources/t.move", None)]; LWatch [(str "/ws/sources/t.move", Some (str "y"))]; EVfs 3]).
  eexists. exists (str "/ws/sources/t.move"), (str "y"). split; [vm_compute; reflexivity|]. repeat split.
Qed.

Print Assumptions one_reload_at_a_time. Print Assumptions workers_are_running_reloads. Print Assumptions request_not_lost. Print Assumptions idle_requests_served.
Print Assumptions recorded_request_starts. Print Assumptions op_completed_never_panics. Print Assumptions start_uses_last_request. Print Assumptions forced_reload_lost_refuted.
Print Assumptions ready_means_loaded. Print Assumptions progress_never_ahead. Print Assumptions open_document_wins. Print Assumptions analysis_sees_open_document.
Print Assumptions close_asks_disk. Print Assumptions disk_answer_applies. Print Assumptions disk_ignored_while_open.
Print Assumptions batch_panics_iff. Print Assumptions structural_batch_partition. Print Assumptions structural_batch_reloads. Print Assumptions no_crash_without_deletion. Print Assumptions every_file_has_package.
Print Assumptions deletion_crashes_refuted. Print Assumptions close_unsaved_crashes_refuted. Print Assumptions stale_package_refuted. Print Assumptions recreated_file_unassigned_refuted.
