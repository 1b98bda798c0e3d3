(** Invariants of the workspace model. *)
From Coq Require Import String.
From Verif Require Import Base LineEndingsModel LineEndingsSpec LineEndingsProps AddressModel AddressProps FileSetModel FileSetProps WorkspaceModel.

(** * Association lists *)
Lemma aget_aset : forall A (l : list (path * A)) k v k', aget (aset l k v) k' = if text_eqb k k' then Some v else aget l k'.
Proof.
  intros A. induction l as [|[x w] l IH]; intros k v k'; cbn [aset aget]; [reflexivity|].
  destruct (text_eqb x k) eqn:E; cbn [aget].
  - apply text_eqb_spec in E. subst. destruct (text_eqb k k'); reflexivity.
  - rewrite IH. destruct (text_eqb x k') eqn:E2; auto. apply text_eqb_spec in E2. subst.
    destruct (text_eqb k k') eqn:E3; auto. apply text_eqb_spec in E3. subst. now rewrite text_eqb_refl in E.
Qed.
Lemma aget_adel : forall A (l : list (path * A)) k k', aget (adel l k) k' = if text_eqb k k' then None else aget l k'.
Proof.
  intros A. induction l as [|[x w] l IH]; intros k k'; unfold adel in *; cbn [filter aget fst]; [now destruct (text_eqb k k')|].
  destruct (text_eqb x k) eqn:E; cbn [negb aget].
  - apply text_eqb_spec in E. subst. rewrite IH. destruct (text_eqb k k') eqn:E; auto.
  - rewrite IH. destruct (text_eqb x k') eqn:E2; auto. apply text_eqb_spec in E2. subst.
    rewrite text_eqb_sym in E. now rewrite E.
Qed.
Lemma aset_keys : forall A (l : list (path * A)) k v x, In x (map fst (aset l k v)) <-> x = k \/ In x (map fst l).
Proof.
  intros A. induction l as [|[y w] l IH]; intros k v x; cbn; [intuition|].
  destruct (text_eqb y k) eqn:E; cbn; [|rewrite IH; intuition]. apply text_eqb_spec in E. subst. intuition.
Qed.
Lemma aset_nodup : forall A (l : list (path * A)) k v, NoDup (map fst l) -> NoDup (map fst (aset l k v)).
Proof.
  intros A. induction l as [|[y w] l IH]; intros k v H; cbn; [repeat constructor; intros []|].
  cbn in H. inversion H; subst. destruct (text_eqb y k) eqn:E; cbn.
  - apply text_eqb_spec in E. subst. now constructor.
  - constructor; auto. rewrite aset_keys. intros [->|K]; [now rewrite text_eqb_refl in E|auto].
Qed.
Lemma aget_in : forall A (l : list (path * A)) k v, aget l k = Some v -> In (k, v) l.
Proof.
  intros A. induction l as [|[x w] l IH]; intros k v H; cbn in *; [discriminate|].
  destruct (text_eqb x k) eqn:E; [apply text_eqb_spec in E; subst; left; congruence|right; auto].
Qed.
Lemma aget_nodup : forall A (l : list (path * A)) k v, NoDup (map fst l) -> In (k, v) l -> aget l k = Some v.
Proof.
  intros A. induction l as [|[x w] l IH]; intros k v HN H; cbn in *; [destruct H|]. inversion HN; subst.
  destruct H as [H|H].
  - injection H as -> ->. now rewrite text_eqb_refl.
  - destruct (text_eqb x k) eqn:E; auto. apply text_eqb_spec in E. subst. exfalso. apply H2. apply (in_map fst) in H. exact H.
Qed.
Lemma aget_none : forall A (l : list (path * A)) k, aget l k = None <-> ~ In k (map fst l).
Proof.
  intros A. induction l as [|[x w] l IH]; intros k; cbn; [tauto|]. destruct (text_eqb x k) eqn:E.
  - apply text_eqb_spec in E. subst. split; [discriminate|tauto].
  - rewrite IH. assert (x <> k) by (intros ->; now rewrite text_eqb_refl in E). tauto.
Qed.

(** * Texts *)
Definition shown (b : text) : text := if utf8_valid b then drop_cr_before_lf b else [].
Lemma normalize_text_spec : forall b, normalize_text b = drop_cr_before_lf b.
Proof. intros b. unfold normalize_text. destruct (normalize_exact b) as (e & H & _). now rewrite H by lia. Qed.
Lemma change_text_shown : forall b, match text_of_bytes b with Some t => t | None => [] end = shown b.
Proof. intros b. unfold text_of_bytes, shown. destruct (utf8_valid b); auto using normalize_text_spec. Qed.

(** * The virtual file system *)
Definition content_of_change (c : change) : option text := match c with Create b | Modify b => Some b | Delete => None end.

Record vfs_ok (v : vfs) (db : list (path * text)) : Prop := {
  vo_data : NoDup (map fst (v_data v));
  vo_changes : NoDup (map fst (v_changes v));
  vo_change : forall p c, aget (v_changes v) p = Some c -> v_content v p = content_of_change c;
  vo_db : forall p b, aget (v_changes v) p = None -> v_content v p = Some b -> aget db p = Some (shown b)
}.

Lemma sfc_content : forall v p c q, v_content (set_file_contents v p c) q = if text_eqb p q then c else v_content v q.
Proof.
  intros v p c q. unfold set_file_contents.
  assert (K : forall cs, v_content (mkVfs (aset (v_data v) p c) cs) q = if text_eqb p q then c else v_content v q).
  { intros cs. unfold v_content. cbn [v_data]. rewrite aget_aset. destruct (text_eqb p q); [now destruct c|reflexivity]. }
  assert (N : v_content v p = c -> forall cs, v_content (mkVfs (match aget (v_data v) p with Some _ => v_data v | None => aset (v_data v) p None end) cs) q = if text_eqb p q then c else v_content v q).
  { intros E cs. unfold v_content in *. cbn [v_data]. destruct (text_eqb p q) eqn:Q.
    - apply text_eqb_spec in Q. subst q. destruct (aget (v_data v) p) as [x|] eqn:G; [now rewrite G|]. now rewrite aget_aset, text_eqb_refl.
    - destruct (aget (v_data v) p) eqn:G; [reflexivity|]. now rewrite aget_aset, Q. }
  destruct (v_content v p) as [old|] eqn:E, c as [b|]; try apply K.
  - destruct (text_eqb old b) eqn:Q; [|apply K]. apply text_eqb_spec in Q. subst. now apply N.
  - now apply N.
Qed.

Lemma merge_content : forall old new, content_of_change (merge_change old new) = content_of_change new.
Proof. intros [] []; reflexivity. Qed.

Lemma sfc_ok : forall v db p c, vfs_ok v db -> vfs_ok (set_file_contents v p c) db.
Proof.
  intros v db p c [A B C D].
  assert (Same : forall dat, NoDup (map fst dat) -> v_content v p = c ->
                 (forall q, v_content (mkVfs dat (v_changes v)) q = v_content v q) -> vfs_ok (mkVfs dat (v_changes v)) db).
  { intros dat HN E H. constructor; cbn [v_data v_changes]; auto; intros q; rewrite H; auto. }
  assert (Ch : forall ch, content_of_change ch = c ->
     vfs_ok (mkVfs (aset (v_data v) p c) (aset (v_changes v) p (match aget (v_changes v) p with Some old => merge_change old ch | None => ch end))) db).
  { intros ch E. constructor; cbn [v_data v_changes].
    - now apply aset_nodup.
    - now apply aset_nodup.
    - intros q ch'. rewrite aget_aset. unfold v_content. cbn [v_data]. rewrite aget_aset. destruct (text_eqb p q) eqn:Q.
      + intros K. injection K as <-. rewrite <- E. destruct (aget (v_changes v) p); rewrite ?merge_content; now destruct (content_of_change ch).
      + apply C.
    - intros q b. rewrite aget_aset. unfold v_content. cbn [v_data]. rewrite aget_aset. destruct (text_eqb p q) eqn:Q; [discriminate|]. apply D. }
  unfold set_file_contents. destruct (v_content v p) as [old|] eqn:E, c as [b|]; try (apply Ch; reflexivity).
  - destruct (text_eqb old b) eqn:Q; [|apply Ch; reflexivity]. apply text_eqb_spec in Q. subst. apply Same; auto.
    + destruct (aget (v_data v) p); auto. now apply aset_nodup.
    + intros q. pose proof (sfc_content v p (Some b) q) as S. unfold set_file_contents in S. rewrite E, text_eqb_refl in S.
      rewrite S. destruct (text_eqb p q) eqn:Q; auto. apply text_eqb_spec in Q. now subst.
  - apply Same; auto.
    + destruct (aget (v_data v) p); auto. now apply aset_nodup.
    + intros q. pose proof (sfc_content v p None q) as S. unfold set_file_contents in S. rewrite E in S.
      rewrite S. destruct (text_eqb p q) eqn:Q; auto. apply text_eqb_spec in Q. now subst.
Qed.

Lemma v_files_spec : forall v p, NoDup (map fst (v_data v)) -> (In p (v_files v) <-> v_content v p <> None).
Proof.
  intros v p HN. unfold v_files, v_content. rewrite in_map_iff. split.
  - intros ([q c] & E & H). cbn in E. subst q. apply filter_In in H. destruct H as [H K]. rewrite (aget_nodup _ _ _ _ HN H).
    cbn in K. destruct c; discriminate.
  - intros H. destruct (aget (v_data v) p) as [[b|]|] eqn:E; try congruence. exists (p, Some b). split; auto.
    apply filter_In. split; auto. now apply aget_in.
Qed.

Lemma package_ids_spec : forall rs files p, aget (package_ids rs files) p = if in_dec text_eq_dec p files then Some (classify rs p) else None.
Proof.
  intros rs files p. unfold package_ids. induction files as [|q files IH]; [reflexivity|]. cbn [map aget].
  destruct (text_eqb q p) eqn:E.
  - apply text_eqb_spec in E. subst. destruct (in_dec text_eq_dec p (p :: files)) as [H|H]; [reflexivity|]. exfalso. apply H. now left.
  - rewrite IH. assert (q <> p) by (intros ->; now rewrite text_eqb_refl in E).
    destruct (in_dec text_eq_dec p files) as [H1|H1], (in_dec text_eq_dec p (q :: files)) as [H2|H2]; auto; exfalso; cbn in *; tauto.
Qed.

(** * Applying texts *)
Lemma apply_texts_ok : forall repl pkg cs db,
  (repl = true -> forall p c, In (p, c) cs -> aget pkg p <> None) -> exists db', apply_texts repl pkg cs db = Ok db'.
Proof.
  intros repl pkg. induction cs as [|[p c] cs IH]; intros db H; cbn [apply_texts]; [eauto|].
  destruct repl; cbn [andb].
  - specialize (H eq_refl). pose proof (H p c (or_introl eq_refl)). destruct (aget pkg p); [cbn [negb]|congruence].
    apply IH. intros _ q d Hq. apply (H q d). now right.
  - apply IH. discriminate.
Qed.
Lemma apply_texts_panic : forall pkg cs db p c, In (p, c) cs -> aget pkg p = None -> apply_texts true pkg cs db = Panic.
Proof.
  intros pkg. induction cs as [|[q d] cs IH]; intros db p c H E; [destruct H|]. cbn [apply_texts].
  destruct H as [H|H]; [injection H as -> ->; now rewrite E|]. destruct (aget pkg q); cbn; [eapply IH; eauto|reflexivity].
Qed.
Lemma apply_texts_get : forall repl pkg cs db db' p, NoDup (map fst cs) -> apply_texts repl pkg cs db = Ok db' ->
  aget db' p = match aget cs p with
               | Some c => Some (match content_of_change c with Some b => shown b | None => [] end)
               | None => aget db p
               end.
Proof.
  intros repl pkg. induction cs as [|[q c] cs IH]; intros db db' p HN H; cbn [apply_texts] in H; [injection H as <-; reflexivity|].
  cbn in HN. inversion HN as [|? ? H1 H2]; subst.
  assert (H' : apply_texts repl pkg cs (aset db q (match change_text c with Some t => t | None => [] end)) = Ok db').
  { destruct (repl && _); [discriminate|exact H]. }
  rewrite (IH _ _ p H2 H'). cbn [aget]. destruct (text_eqb q p) eqn:E.
  - apply text_eqb_spec in E. subst. rewrite (proj2 (aget_none _ cs p) H1). rewrite aget_aset, text_eqb_refl. f_equal.
    destruct c; cbn [change_text content_of_change]; rewrite ?change_text_shown; reflexivity.
  - destruct (aget cs p) eqn:G; auto. rewrite aget_aset, E. reflexivity.
Qed.

(** * Server invariants *)
Definition docs_ok (st : state) : Prop := forall p b, aget (opened st) p = Some b -> v_content (s_vfs st) p = Some b.
Definition queue_ok (st : state) : Prop := if q_running st then exists f, workers st = [f] else workers st = [].

(** The loader's protocol, as a reader of its messages sees it. *)
Definition scan1 (s : option (nat * option nat)) (m : vmsg) : option (nat * option nat) :=
  match s with
  | None => None
  | Some (k, cur) =>
      match m, cur with
      | Progress v Started, None => if Nat.eqb v (S k) then Some (k, Some v) else None
      | Progress v InProgress, Some c => if Nat.eqb v c then s else None
      | Progress v Finished, Some c => if Nat.eqb v c then Some (v, None) else None
      | Loaded _, Some _ => s
      | Changed _, _ => s
      | _, _ => None
      end
  end.
Definition scan (s : option (nat * option nat)) (ms : list vmsg) := fold_left scan1 ms s.
Definition inbox_versions (l : list lmsg) : list nat := flat_map (fun m => match m with LConfig v => [v] | _ => [] end) l.
Definition reached (k : nat) (cur : option nat) : nat := match cur with Some c => c | None => k end.

Definition pipe_ok (st : state) : Prop := exists k cur k',
  scan (Some (0, None)) (received st) = Some (k, cur) /\
  scan (Some (k, cur)) (channel st) = Some (k', l_current st) /\
  (match cur with Some c => c = S k | None => True end) /\ (match l_current st with Some c => c = S k' | None => True end) /\
  progress_version st = reached k cur /\ syncing st = (match cur with Some _ => true | None => false end) /\
  (synced_once st = true <-> 0 < k) /\
  reached k' (l_current st) <= version st /\
  inbox_versions (l_inbox st) = seq (S (reached k' (l_current st))) (version st - reached k' (l_current st)).

Definition core (st : state) : Prop := vfs_ok (s_vfs st) (db_text st) /\ docs_ok st /\ queue_ok st /\ pipe_ok st /\
  (version st = 0 -> packages st = [] /\ (q_running st = true \/ (scheduled st = true /\ q_last st <> None))).
Definition settled (st : state) : Prop :=
  (scheduled st = true -> syncing st = true) /\ (q_requested st <> None -> q_running st = true) /\
  (syncing st = false -> v_changes (s_vfs st) = []) /\ (version st = 0 -> q_running st = true).
Definition inv (st : state) : Prop := core st /\ settled st.

(** ** the reload queue *)
Lemma request_core : forall f st, core st -> core (request_op f st).
Proof. intros f st H. exact H. Qed.
Lemma start_core : forall st, core st -> core (start_op st).
Proof.
  intros st (A & B & C & D & E). unfold start_op. destruct (q_running st) eqn:R; [unfold core; rewrite R; auto 8|].
  unfold queue_ok in C. rewrite R in C.
  destruct (q_requested st) as [f|]; split; auto; split; auto; (split; [|split]); auto.
  - unfold queue_ok. cbn. rewrite C. now exists f.
  - cbn. intros V. destruct (E V) as [E1 _]. auto.
Qed.

(** ** switching *)
Lemma seq_snoc : forall a n, seq a n ++ [a + n] = seq a (S n).
Proof. intros a n. rewrite seq_S. reflexivity. Qed.
Lemma inbox_app : forall a b, inbox_versions (a ++ b) = inbox_versions a ++ inbox_versions b.
Proof. intros. apply flat_map_app. Qed.

Lemma switch_core : forall st, core st -> core (switch_workspaces (set_scheduled false st)).
Proof.
  intros st (A & B & C & D & E). unfold switch_workspaces. cbn [q_last set_scheduled packages version].
  destruct (q_last st) as [[r f]|] eqn:L.
  - destruct (lr_error r && negb match packages st with [] => true | _ => false end) eqn:G.
    + split; auto. split; auto. split; auto. split; auto. cbn. intros V. destruct (E V) as [E1 _]. rewrite E1 in G. rewrite andb_false_r in G. discriminate.
    + split; auto. split; auto. split; auto. split; [|cbn; discriminate].
      destruct D as (k & cur & k' & D1 & D2 & D3 & D4 & D5 & D6 & D7 & D8 & D9).
      exists k, cur, k'. unfold set_loader, set_roots, set_scheduled.
      cbn [received channel l_current l_inbox version progress_version syncing synced_once].
      repeat split; auto; try apply D7; try lia.
      rewrite inbox_app, D9. cbn [inbox_versions flat_map app].
      replace (S (version st) - reached k' (l_current st)) with (S (version st - reached k' (l_current st))) by lia.
      rewrite <- seq_snoc. f_equal. f_equal. lia.
  - split; auto. split; auto. split; auto. split; auto. cbn. intros V'. destruct (E V') as [E1 [K|[_ K]]]; [auto|congruence].
Qed.

Lemma scan_app : forall a b s, scan s (a ++ b) = scan (scan s a) b.
Proof. intros. apply fold_left_app. Qed.
Lemma scan_none : forall ms, scan None ms = None.
Proof. induction ms; auto. Qed.
Lemma scan_wf : forall ms k cur k' cur', scan (Some (k, cur)) ms = Some (k', cur') -> match cur with Some c => c = S k | None => True end ->
  match cur' with Some c => c = S k' | None => True end /\ reached k cur <= reached k' cur' /\ k <= k'.
Proof.
  induction ms as [|m ms IH]; intros k cur k' cur' H W; cbn in H; [injection H as -> ->; auto|]. pose proof scan_none as N. unfold scan in *.
  destruct m as [fs|fs|v [| |]], cur as [c|]; cbn in H; rewrite ?N in H; try discriminate;
    try match type of H with context [?a =? ?b] => destruct (Nat.eqb_spec a b) as [->|] end; rewrite ?N in H; try discriminate;
    apply IH in H; cbn in *; intuition lia.
Qed.

Lemma pipe_version0 : forall st, pipe_ok st -> version st = 0 -> syncing st = false.
Proof.
  intros st (k & cur & k' & D1 & D2 & D3 & D4 & D5 & D6 & D7 & D8 & D9) V. rewrite D6. destruct cur as [c|]; auto. exfalso.
  destruct (scan_wf _ _ _ _ _ D2 D3) as (_ & K & _).
  cbn in K. lia.
Qed.

(** ** pending changes *)
Lemma process_ok : forall st st', core st -> process_pending_file_changes st = Ok st' ->
  core st' /\ v_changes (s_vfs st') = [] /\ scheduled st' = scheduled st /\ q_running st' = q_running st /\ syncing st' = syncing st /\
  version st' = version st /\ roots st' = roots st /\ (forall p, v_content (s_vfs st') p = v_content (s_vfs st) p) /\ opened st' = opened st.
Proof.
  intros st st' (A & B & C & D & E) H. unfold process_pending_file_changes in H.
  destruct (v_changes (s_vfs st)) as [|x xs] eqn:G; [injection H as <-; unfold core; auto 12|].
  rewrite <- G in *. clear G x xs.
  destruct (apply_texts _ _ _ _) as [db|] eqn:T; cbn [bind] in H; [|discriminate]. destruct A as [A1 A2 A3 A4].
  assert (K : vfs_ok (mkVfs (v_data (s_vfs st)) []) db).
  { constructor; cbn [v_data v_changes]; auto; [constructor|discriminate|]. intros p b _ Hc.
    rewrite (apply_texts_get _ _ _ _ _ p A2 T). destruct (aget (v_changes (s_vfs st)) p) as [c|] eqn:Q.
    - apply A3 in Q. unfold v_content in *. cbn [v_data] in Hc. rewrite Hc in Q. now rewrite <- Q.
    - now apply A4. }
  destruct (existsb is_structural (v_changes (s_vfs st))); injection H as <-; unfold core; cbn;
    (split; [split; [|split; [|split; [|split]]]|repeat split]); auto.
Qed.

Lemma start_settles : forall st, (q_requested (start_op st) <> None -> q_running (start_op st) = true).
Proof. intros st. unfold start_op. destruct (q_running st) eqn:R; auto. destruct (q_requested st); cbn; auto. Qed.
Lemma start_frame : forall st, s_vfs (start_op st) = s_vfs st /\ scheduled (start_op st) = scheduled st /\ syncing (start_op st) = syncing st /\
  version (start_op st) = version st /\ (q_running st = true -> q_running (start_op st) = true) /\ opened (start_op st) = opened st /\ db_text (start_op st) = db_text st /\
  roots (start_op st) = roots st /\ db_package (start_op st) = db_package st.
Proof. intros st. unfold start_op. destruct (q_running st) eqn:R; [auto 12|]. destruct (q_requested st); cbn; repeat split; auto; congruence. Qed.
Lemma switch_frame : forall st, s_vfs (switch_workspaces st) = s_vfs st /\ scheduled (switch_workspaces st) = scheduled st /\ syncing (switch_workspaces st) = syncing st /\
  q_running (switch_workspaces st) = q_running st /\ version st <= version (switch_workspaces st) /\ opened (switch_workspaces st) = opened st /\
  db_text (switch_workspaces st) = db_text st /\ db_package (switch_workspaces st) = db_package st.
Proof. intros st. unfold switch_workspaces. destruct (q_last st) as [[r f]|]; [|auto 12]. destruct (_ && _); cbn; auto 12. Qed.

Lemma after_inv : forall st st', core st -> after_handle_event st = Ok st' -> inv st'.
Proof.
  intros st st' H R. unfold after_handle_event in R.
  destruct (syncing st) eqn:S.
  - cbn [bind] in R. injection R as <-. split; [now apply start_core|].
    destruct (start_frame st) as (F1 & F2 & F3 & F4 & F5 & F6 & F7 & F8 & F9). split; [|split; [apply start_settles|split]].
    + congruence.
    + congruence.
    + intros V. rewrite F4 in V. destruct H as (_ & _ & _ & P & _). rewrite (pipe_version0 _ P V) in S. discriminate.
  - set (st0 := if scheduled st then switch_workspaces (set_scheduled false st) else st) in *.
    assert (C0 : core st0 /\ scheduled st0 = false /\ syncing st0 = false /\ (version st0 = 0 -> q_running st0 = true)).
    { unfold st0. destruct (scheduled st) eqn:Q.
      - pose proof (switch_core st H) as K. destruct (switch_frame (set_scheduled false st)) as (F1 & F2 & F3 & F4 & F5 & _).
        split; auto. split; [now rewrite F2|]. split; [now rewrite F3|]. intros V. destruct K as (_ & _ & _ & _ & K).
        destruct (K V) as [_ [?|[K1 _]]]; auto. rewrite F2 in K1. discriminate.
      - split; auto. split; auto. split; auto. intros V. destruct H as (_ & _ & _ & _ & K). destruct (K V) as [_ [?|[K1 _]]]; auto. congruence. }
    clearbody st0. destruct C0 as (C1 & C2 & C3 & C4).
    destruct (process_pending_file_changes st0) as [st1|] eqn:P; cbn [bind] in R; [|discriminate]. injection R as <-.
    destruct (process_ok _ _ C1 P) as (Q1 & Q2 & Q3 & Q4 & Q5 & Q6 & _).
    destruct (start_frame st1) as (F1 & F2 & F3 & F4 & F5 & _). split; [now apply start_core|]. split; [|split; [apply start_settles|split]].
    + congruence.
    + congruence.
    + rewrite F4, Q6. intros V. apply F5. rewrite Q4. auto.
Qed.

(** ** handlers keep the core *)
Lemma set_file_core : forall st p b, core st -> core (set_vfs (set_file_contents (s_vfs st) p (Some b)) (set_opened (aset (opened st) p b) st)).
Proof.
  intros st p b (A & B & C & D & E). split; [now apply sfc_ok|]. split; [|auto].
  intros q c. cbn. rewrite aget_aset, sfc_content. destruct (text_eqb p q); [congruence|apply B].
Qed.
Lemma load_file_frame : forall ch st f, exists v, load_file ch st f = set_vfs v st.
Proof.
  intros ch st [p c]. unfold load_file. assert (exists v, st = set_vfs v st) by (exists (s_vfs st); now destruct st).
  destruct (aget (opened st) p); auto. destruct (_ || _); eauto.
Qed.
Lemma load_file_core : forall ch st f, core st -> core (load_file ch st f).
Proof.
  intros ch st [p c] (A & B & C & D & E). unfold load_file. destruct (aget (opened st) p) as [o|] eqn:O; [unfold core; auto 8|].
  destruct (_ || _); [|unfold core; auto 8]. split; [now apply sfc_ok|]. split; [|auto].
  intros q b. cbn. rewrite sfc_content. destruct (text_eqb p q) eqn:Q; [|apply B]. apply text_eqb_spec in Q. subst. congruence.
Qed.
Lemma load_files_core : forall ch fs st, core st -> core (fold_left (load_file ch) fs st).
Proof. intros ch. induction fs as [|f fs IH]; intros st H; cbn; auto. apply IH. now apply load_file_core. Qed.

(** the server takes one message: the boundary between received and channel moves *)
Lemma handle_vfs_msg_core : forall st m ch, core st -> channel st = m :: ch ->
  core (handle_vfs_msg (set_loader (l_inbox st) (l_current st) ch (received st) st) m).
Proof.
  intros st m ch (A & B & C & D & E) Hch. destruct D as (k & cur & k' & D1 & D2 & D3 & D4 & D5 & D6 & D7 & D8 & D9).
  rewrite Hch in D2. change (m :: ch) with ([m] ++ ch) in D2. rewrite scan_app in D2.
  destruct (scan (Some (k, cur)) [m]) as [[k1 cur1]|] eqn:S1; [|now rewrite scan_none in D2].
  destruct (scan_wf _ _ _ _ _ S1 D3) as (W1 & W2 & W3).
  unfold handle_vfs_msg. cbn [l_inbox l_current channel received set_loader].
  assert (P : scan (Some (0, None)) (received st ++ [m]) = Some (k1, cur1)) by (rewrite scan_app, D1; exact S1).
  destruct m as [fs|fs|v p].
  - apply load_files_core. split; auto. split; auto. split; auto. split; auto.
    assert ((k1, cur1) = (k, cur)) by (cbn in S1; destruct cur; congruence). injection H as -> ->.
    exists k, cur, k'. repeat split; auto; apply D7.
  - apply load_files_core. split; auto. split; auto. split; auto. split; auto.
    assert ((k1, cur1) = (k, cur)) by (cbn in S1; destruct cur; congruence). injection H as -> ->.
    exists k, cur, k'. repeat split; auto; apply D7.
  - split; auto. split; auto. split; auto. split; auto. exists k1, cur1, k'.
    unfold set_progress, set_loader. cbn [received channel l_current l_inbox version progress_version syncing synced_once].
    split; auto. split; auto. split; auto. split; auto.
    cbn in S1. destruct p, cur as [c|]; try discriminate.
    + destruct (Nat.eqb_spec v (S k)) as [->|]; [|discriminate]. injection S1 as <- <-. cbn. rewrite orb_false_r. auto.
    + destruct (Nat.eqb_spec v c) as [->|]; [|discriminate]. injection S1 as <- <-. cbn. rewrite orb_false_r. auto.
    + destruct (Nat.eqb_spec v c) as [->|]; [|discriminate]. injection S1 as <- <-. cbn. rewrite orb_true_r. cbn in *. repeat split; auto; lia.
Qed.
Lemma handle_vfs_msgs_core : forall n st, core st -> core (handle_vfs_msgs n st).
Proof.
  induction n as [|n IH]; intros st H; cbn [handle_vfs_msgs]; auto. destruct (channel st) as [|m ch] eqn:E; auto.
  apply IH. now apply handle_vfs_msg_core.
Qed.

Lemma handle_ends_core : forall rs st, core st -> exists st', handle_ends rs st = Ok st' /\ core st'.
Proof.
  induction rs as [|r rs IH]; intros st H; cbn [handle_ends]; [eauto|].
  destruct (workers st) as [|f wk] eqn:W; [eauto|]. destruct H as (A & B & C & D & E). unfold queue_ok in C. rewrite W in C.
  unfold op_completed. destruct (q_running st) eqn:R; [|discriminate]. cbn [bind]. destruct C as [f' C]. injection C as -> ->.
  apply IH. split; auto. split; auto. split; [reflexivity|]. split; auto. cbn. intros V. destruct (E V) as [E1 _]. split; auto. right. split; auto. discriminate.
Qed.

(** ** loader steps *)
Definition loader_frame (st st' : state) : Prop := exists ib cur ch, st' = set_loader ib cur ch (received st) st.
Lemma loader_inv : forall st ib cur ch, inv st -> pipe_ok (set_loader ib cur ch (received st) st) -> inv (set_loader ib cur ch (received st) st).
Proof. intros st ib cur ch [(A & B & C & D & E) S] P. split; [|exact S]. split; auto. Qed.

Ltac pj := unfold emit, set_loader; cbn [received channel l_current l_inbox version progress_version syncing synced_once].
Theorem step_inv : forall st e st', inv st -> step st e = Ok st' -> inv st'.
Proof.
  intros st e st' I H. pose proof (proj1 I) as Co. destruct e; cbn [step] in H.
  - eapply after_inv; [|exact H]. now apply set_file_core.
  - eapply after_inv; [|exact H]. destruct (aget (opened st) p); auto. destruct (text_eqb _ _); auto. now apply set_file_core.
  - eapply after_inv; [|exact H]. destruct Co as (A & B & C & D & E). split; auto. split; [|split; auto; split; auto].
    + intros q b. cbn. rewrite aget_adel. destruct (text_eqb p q); [discriminate|apply B].
    + destruct D as (k & cur & k' & D). exists k, cur, k'. pj. rewrite inbox_app. cbn. rewrite app_nil_r. exact D.
  - eapply after_inv; [|exact H]. destruct (is_manifest_file p); auto.
  - eapply after_inv; [|exact H]. destruct Co as (A & B & C & D & E). split; auto. split; auto. split; auto. split; auto.
    destruct D as (k & cur & k' & D). exists k, cur, k'. pj. rewrite inbox_app.
    replace (inbox_versions (map LInvalidate ps)) with (@nil nat) by (clear; induction ps; auto). rewrite app_nil_r. exact D.
  - eapply after_inv; [|exact H]. auto.
  - eapply after_inv; [|exact H]. auto.
  - destruct (handle_ends_core rs _ Co) as (s1 & H1 & H2). rewrite H1 in H. cbn [bind] in H. eapply after_inv; eauto.
  - eapply after_inv; [|exact H]. now apply handle_vfs_msgs_core.
  - destruct Co as (A & B & C & D & E). destruct (l_current st) eqn:L; [congruence|]. destruct (l_inbox st) as [|[v|q] ib] eqn:IB; try congruence.
    injection H as <-. apply (loader_inv st); auto.
    destruct D as (k & cur & k' & D1 & D2 & D3 & D4 & D5 & D6 & D7 & D8 & D9). rewrite L, IB in *. cbn in D9, D8.
    destruct (version st - k') as [|d] eqn:Q; [discriminate|]. cbn in D9. injection D9 as -> D9.
    exists k, cur, k'. pj. rewrite scan_app, D2. cbn. rewrite Nat.eqb_refl. repeat split; auto; try apply D7; try lia.
    replace (version st - S k') with d by lia. exact D9.
  - destruct Co as (A & B & C & D & E). destruct (l_current st) eqn:L; [congruence|]. destruct (l_inbox st) as [|[v|q] ib] eqn:IB; try congruence.
    injection H as <-. apply (loader_inv st); auto.
    destruct D as (k & cur & k' & D1 & D2 & D3 & D4 & D5 & D6 & D7 & D8 & D9). rewrite L, IB in *. cbn in D9, D8.
    exists k, cur, k'. pj. rewrite scan_app, D2. cbn. repeat split; auto; apply D7.
  - destruct Co as (A & B & C & D & E). destruct (l_current st) as [v|] eqn:L; [|congruence]. injection H as <-. apply (loader_inv st); auto.
    destruct D as (k & cur & k' & D1 & D2 & D3 & D4 & D5 & D6 & D7 & D8 & D9). rewrite L in *.
    exists k, cur, k'. pj. rewrite scan_app, D2. cbn. repeat split; auto; apply D7.
  - destruct Co as (A & B & C & D & E). destruct (l_current st) as [v|] eqn:L; [|congruence]. injection H as <-. apply (loader_inv st); auto.
    destruct D as (k & cur & k' & D1 & D2 & D3 & D4 & D5 & D6 & D7 & D8 & D9). rewrite L in *.
    exists k, cur, k'. pj. rewrite scan_app, D2. cbn. rewrite Nat.eqb_refl. repeat split; auto; apply D7.
  - destruct Co as (A & B & C & D & E). destruct (l_current st) as [v|] eqn:L; [|congruence]. injection H as <-. apply (loader_inv st); auto.
    destruct D as (k & cur & k' & D1 & D2 & D3 & D4 & D5 & D6 & D7 & D8 & D9). rewrite L in *.
    exists k, cur, v. pj. rewrite scan_app, D2. cbn. rewrite Nat.eqb_refl. repeat split; auto; apply D7.
  - destruct Co as (A & B & C & D & E). injection H as <-. apply (loader_inv st); auto.
    destruct D as (k & cur & k' & D1 & D2 & D3 & D4 & D5 & D6 & D7 & D8 & D9).
    exists k, cur, k'. pj. rewrite scan_app, D2. cbn. repeat split; auto; apply D7.
Qed.

Lemma initial_inv : inv initial.
Proof.
  split; [split; [|split; [|split; [|split]]]|]; cbn.
  - constructor; cbn; try constructor; discriminate.
  - intros p b H. discriminate.
  - now exists false.
  - exists 0, None, 0. cbn. repeat split; auto; try discriminate; lia.
  - auto.
  - repeat split; auto; cbn; try discriminate; congruence.
Qed.
Lemma run_inv : forall es st st', inv st -> run st es = Ok st' -> inv st'.
Proof.
  induction es as [|e es IH]; intros st st' I H; cbn in H; [injection H as <-; auto|].
  destruct (step st e) as [s1|] eqn:S; cbn in H; [|discriminate]. eapply IH; [|exact H]. eapply step_inv; eauto.
Qed.
Definition reachable (st : state) : Prop := exists es, run initial es = Ok st.
Lemma reachable_inv : forall st, reachable st -> inv st.
Proof. intros st [es H]. exact (run_inv es _ _ initial_inv H). Qed.
