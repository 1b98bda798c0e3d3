(** C29, C30: every request is answered exactly once; nothing is served after shutdown. *)
From Verif Require Import Base RequestsModel.

Local Arguments Nat.eq_dec : simpl never.

(** * Specification vocabulary over histories *)
Definition requests_of (es : list event) : list req_id :=
  flat_map (fun e => match e with ERequest r _ => [r_id r] | _ => [] end) es.
Definition cancels_of (es : list event) : list req_id :=
  flat_map (fun e => match e with ECancel id => [id] | _ => [] end) es.
Definition answers (st : state) (id : req_id) : nat := count_occ Nat.eq_dec (map fst (sent st)) id.
Definition asked (es : list event) (id : req_id) : nat := count_occ Nat.eq_dec (requests_of es) id.
Definition idle (st : state) : Prop := jobs st = [] /\ tasks st = [].

(** A handler that runs on the main thread is not cancelled. (Only the main thread writes to the database,
    so no write can be pending while it is inside a handler; salsa's cancellation is not modelled.) *)
Definition no_sync_cancel (e : event) : Prop :=
  match e with ERequest _ o | EDeliver _ o => o <> OutCancelled | _ => True end.

(** * Lemmas *)
Lemma is_pending_spec : forall st id, is_pending st id = true <-> In id (pending st).
Proof.
  intros st id. unfold is_pending. rewrite existsb_exists. split.
  - intros (x & Hx & E). apply Nat.eqb_eq in E. now subst.
  - intros H. exists id. split; auto. apply Nat.eqb_refl.
Qed.
Lemma drop_id_spec : forall id l x, In x (drop_id id l) <-> In x l /\ x <> id.
Proof.
  intros id l x. unfold drop_id. rewrite filter_In, negb_true_iff, Nat.eqb_neq. split; intros [A B]; split; auto.
Qed.

Definition b2n (b : bool) : nat := if b then 1 else 0.
Definition pend (st : state) (id : req_id) : nat := b2n (is_pending st id).
(** what is in flight for an id *)
Definition task_id (t : task) : req_id := match t with TResponse id _ => id | TRetry r => r_id r end.
Definition flight (st : state) (id : req_id) : nat :=
  count_occ Nat.eq_dec (map (fun j => r_id (fst j)) (jobs st)) id + count_occ Nat.eq_dec (map task_id (tasks st)) id.

(** Effect of one transition on an id, as seen from outside. *)
Lemma answers_app : forall l id r x, count_occ Nat.eq_dec (map fst (l ++ [(id, r)])) x =
  count_occ Nat.eq_dec (map (@fst req_id reply) l) x + b2n (Nat.eqb id x).
Proof.
  intros l id r x. rewrite map_app, count_occ_app. cbn. destruct (Nat.eq_dec id x) as [->|H].
  - rewrite Nat.eqb_refl. cbn. lia.
  - apply Nat.eqb_neq in H. rewrite H. cbn. lia.
Qed.

Lemma is_pending_drop : forall p j t s v se sa id x,
  is_pending (mkSt (drop_id id p) j t s v se sa) x = is_pending (mkSt p j t s v se sa) x && negb (Nat.eqb id x).
Proof.
  intros. apply eq_true_iff_eq. rewrite andb_true_iff, !is_pending_spec. cbn [pending].
  rewrite drop_id_spec, negb_true_iff, Nat.eqb_neq. intuition.
Qed.

(** Predicate: a transition conserves answers + pending, and never loses an id in flight except by answering. *)
Definition conserves (st st' : state) : Prop :=
  forall x, answers st' x + pend st' x = answers st x + pend st x /\
            flight st x <= flight st' x /\ pend st' x <= pend st x.

Lemma respond_effect : forall id r st x,
  answers (respond id r st) x = answers st x + (if Nat.eqb id x then pend st x else 0) /\
  pend (respond id r st) x = (if Nat.eqb id x then 0 else pend st x) /\
  flight (respond id r st) x = flight st x.
Proof.
  intros id r st x. unfold respond. destruct (is_pending st id) eqn:E.
  - unfold answers, pend, flight. cbn [sent jobs tasks]. rewrite answers_app.
    destruct st as [p j t s v se sa]. cbn [pending jobs tasks shutdown_requested vfs_ready sent started].
    rewrite is_pending_drop. 
    change (is_pending (mkSt p j t s v (se ++ [(id, r)]) sa) x) with (is_pending (mkSt p j t s v se sa) x).
    destruct (Nat.eqb_spec id x) as [->|H].
    + rewrite E. cbn. auto.
    + rewrite andb_true_r. cbn. auto.
  - unfold pend. destruct (Nat.eqb_spec id x) as [->|H]; [rewrite E|]; cbn; auto.
Qed.

Lemma respond_conserves : forall id r st, conserves st (respond id r st).
Proof.
  intros id r st x. destruct (respond_effect id r st x) as (A & B & C). rewrite A, B, C.
  destruct (Nat.eqb id x); lia.
Qed.
Lemma respond_done : forall id r st, pend (respond id r st) id = 0.
Proof. intros id r st. destruct (respond_effect id r st id) as (_ & B & _). now rewrite B, Nat.eqb_refl. Qed.

Lemma conserves_refl : forall st, conserves st st.
Proof. intros st x. lia. Qed.
Lemma conserves_trans : forall a b c, conserves a b -> conserves b c -> conserves a c.
Proof. intros a b c H1 H2 x. specialize (H1 x). specialize (H2 x). lia. Qed.

(** [settles id st st']: afterwards the id is answered or in flight. *)
Definition settles (id : req_id) (st' : state) : Prop := pend st' id = 0 \/ 0 < flight st' id.

Lemma spawn_conserves : forall r retry st, conserves st (spawn r retry st).
Proof.
  intros r retry st x. unfold spawn, note_started, answers, pend, flight, is_pending.
  cbn [pending jobs tasks shutdown_requested vfs_ready sent started]. rewrite map_app. rewrite count_occ_app. repeat split; lia.
Qed.
Lemma spawn_settles : forall r retry st, settles (r_id r) (spawn r retry st).
Proof.
  intros r retry st. right. unfold spawn, note_started, flight. cbn [jobs tasks]. rewrite map_app, count_occ_app. cbn.
  destruct (Nat.eq_dec (r_id r) (r_id r)); [lia|congruence].
Qed.
Lemma respond_settles : forall id r st, settles id (respond id r st).
Proof. intros. left. apply respond_done. Qed.

Lemma parsed_ok : forall r k st, (forall s, conserves s (k s)) -> conserves st (parsed r k st).
Proof. intros r k st H. unfold parsed. destruct (r_params r); [apply H|apply respond_conserves]. Qed.
Lemma parsed_settles : forall r k st, (forall s, settles (r_id r) (k s)) -> settles (r_id r) (parsed r k st).
Proof. intros r k st H. unfold parsed. destruct (r_params r); [apply H|apply respond_settles]. Qed.

Lemma note_started_conserves : forall id st, conserves st (note_started id st).
Proof. intros id st x. unfold note_started, answers, pend, flight, is_pending. cbn. lia. Qed.
Lemma set_shutdown_conserves : forall st, conserves st (set_shutdown st).
Proof. intros st x. unfold set_shutdown, answers, pend, flight, is_pending. cbn. lia. Qed.

Lemma run_dispatch_conserves : forall d r o st, conserves st (run_dispatch d r o st).
Proof.
  intros d r o st. destruct d; cbn [run_dispatch].
  - apply parsed_ok. intros s. eapply conserves_trans; [apply note_started_conserves|].
    destruct o; try apply respond_conserves. apply conserves_refl.
  - apply parsed_ok. intros; apply spawn_conserves.
  - destruct (vfs_ready st); [|apply respond_conserves]. apply parsed_ok. intros; apply spawn_conserves.
  - destruct (vfs_ready st); apply parsed_ok; intros; [apply spawn_conserves|apply respond_conserves].
Qed.
Lemma run_dispatch_settles : forall d r o st, o <> OutCancelled -> settles (r_id r) (run_dispatch d r o st).
Proof.
  intros d r o st Ho. destruct d; cbn [run_dispatch].
  - apply parsed_settles. intros s. destruct o; try apply respond_settles. congruence.
  - apply parsed_settles. intros; apply spawn_settles.
  - destruct (vfs_ready st); [|apply respond_settles]. apply parsed_settles. intros; apply spawn_settles.
  - destruct (vfs_ready st); apply parsed_settles; intros; [apply spawn_settles|apply respond_settles].
Qed.
Lemma run_chain_conserves : forall c r o st, conserves st (run_chain c r o st).
Proof.
  induction c as [|[m d] c IH]; intros r o st; cbn [run_chain]; [apply respond_conserves|].
  destruct (method_eq_dec _ _); [apply run_dispatch_conserves|apply IH].
Qed.
Lemma run_chain_settles : forall c r o st, o <> OutCancelled -> settles (r_id r) (run_chain c r o st).
Proof.
  induction c as [|[m d] c IH]; intros r o st Ho; cbn [run_chain]; [apply respond_settles|].
  destruct (method_eq_dec _ _); [now apply run_dispatch_settles|now apply IH].
Qed.
Lemma on_request_conserves : forall r o st, conserves st (on_request r o st).
Proof.
  intros r o st. unfold on_request. destruct (method_eq_dec _ _).
  - apply parsed_ok. intros s. eapply conserves_trans; [apply note_started_conserves|].
    eapply conserves_trans; [apply set_shutdown_conserves|apply respond_conserves].
  - destruct (shutdown_requested st); [apply respond_conserves|apply run_chain_conserves].
Qed.
Lemma on_request_settles : forall r o st, o <> OutCancelled -> settles (r_id r) (on_request r o st).
Proof.
  intros r o st Ho. unfold on_request. destruct (method_eq_dec _ _).
  - apply parsed_settles. intros s. apply respond_settles.
  - destruct (shutdown_requested st); [apply respond_settles|now apply run_chain_settles].
Qed.

Lemma take_split : forall A (l : list A) i a l', take i l = Some (a, l') -> exists l1 l2, l = l1 ++ a :: l2 /\ l' = l1 ++ l2.
Proof.
  intros A. induction l as [|b l IH]; intros i a l' H; destruct i; cbn [take] in H; try discriminate.
  - injection H as <- <-. exists [], l. auto.
  - destruct (take i l) as [[c l'']|] eqn:E; [|discriminate]. injection H as <- <-.
    destruct (IH i c l'' E) as (l1 & l2 & -> & ->). exists (b :: l1), l2. auto.
Qed.

Lemma register_pend : forall id st x, pend (register id st) x = if Nat.eqb id x then 1 else pend st x.
Proof.
  intros id st x. unfold pend, register. destruct st as [p j t s v se sa]; cbn [pending jobs tasks shutdown_requested vfs_ready sent started].
  assert (K : is_pending (mkSt (id :: drop_id id p) j t s v se sa) x = (Nat.eqb x id) || is_pending (mkSt (drop_id id p) j t s v se sa) x) by reflexivity.
  rewrite K, is_pending_drop, (Nat.eqb_sym x). destruct (Nat.eqb id x); cbn; [reflexivity|]. now rewrite andb_true_r.
Qed.

(** * C29, safety: no history makes the server answer more often than it was asked. *)
Lemma step_budget : forall st e x, answers (step st e) x + pend (step st e) x <=
  answers st x + pend st x + (match e with ERequest r _ => b2n (Nat.eqb (r_id r) x) | _ => 0 end).
Proof.
  intros st e x. destruct e as [r o|id|i o|i o|b]; cbn [step].
  - unfold on_new_request. destruct (on_request_conserves r o (register (r_id r) st) x) as [E _]. rewrite E.
    rewrite register_pend. change (answers (register (r_id r) st) x) with (answers st x). destruct (Nat.eqb (r_id r) x); cbn; lia.
  - destruct (respond_conserves id RRequestCanceled st x) as [E _]. unfold cancel. lia.
  - destruct (take i (jobs st)) as [[[r retry] js]|]; [|lia]. unfold answers, pend, is_pending. cbn. lia.
  - destruct (take i (tasks st)) as [[t ts]|]; [|lia].
    set (st0 := mkSt _ _ _ _ _ _ _). assert (A : answers st x + pend st x = answers st0 x + pend st0 x) by reflexivity.
    rewrite A. destruct t as [id r|r]; cbn [handle_task].
    + destruct (respond_conserves id r st0 x) as [E _]. lia.
    + destruct (is_pending st0 (r_id r)); [|lia]. destruct (on_request_conserves r o st0 x) as [E _]. lia.
  - unfold set_ready, answers, pend, is_pending. cbn. lia.
Qed.

Theorem at_most_one_answer : forall es id, answers (run initial es) id <= asked es id.
Proof.
  intros es id.
  assert (G : forall es st, answers (run st es) id + pend (run st es) id <= answers st id + pend st id + asked es id).
  { clear es. induction es as [|e es IH]; intros st; cbn [run fold_left]; [unfold asked; cbn; lia|].
    fold (run (step st e) es). specialize (IH (step st e)). pose proof (step_budget st e id).
    unfold asked in *. cbn [requests_of flat_map]. rewrite count_occ_app. fold (requests_of es).
    assert (K : count_occ Nat.eq_dec (match e with ERequest r _ => [r_id r] | _ => [] end) id =
                match e with ERequest r _ => b2n (Nat.eqb (r_id r) id) | _ => 0 end).
    { destruct e; try reflexivity. cbn. destruct (Nat.eq_dec (r_id r) id) as [->|Hn]; [now rewrite Nat.eqb_refl|].
      apply Nat.eqb_neq in Hn. now rewrite Hn. }
    lia. }
  specialize (G es initial). change (answers initial id) with 0 in G. change (pend initial id) with 0 in G. lia.
Qed.
Print Assumptions at_most_one_answer.

(** * C29, completeness *)
Definition settled_all (st : state) : Prop := forall id, pend st id = 0 \/ 0 < flight st id.

Lemma pend_le1 : forall st x, pend st x <= 1.
Proof. intros. unfold pend. destruct (is_pending st x); cbn; lia. Qed.

Lemma count_mid : forall l1 l2 (a x : req_id), count_occ Nat.eq_dec (l1 ++ a :: l2) x = count_occ Nat.eq_dec (l1 ++ l2) x + b2n (Nat.eqb a x).
Proof.
  intros l1 l2 a x. rewrite !count_occ_app. cbn. destruct (Nat.eq_dec a x) as [->|H].
  - rewrite Nat.eqb_refl. cbn. lia.
  - apply Nat.eqb_neq in H. rewrite H. cbn. lia.
Qed.

Lemma worker_result_id : forall r retry o, task_id (worker_result r retry o) = r_id r.
Proof. intros r retry o. destruct o; try reflexivity. destruct retry; reflexivity. Qed.

Lemma step_settled : forall st e, no_sync_cancel e -> settled_all st -> settled_all (step st e).
Proof.
  intros st e Hs H x. destruct e as [r o|id|i o|i o|b]; cbn [step no_sync_cancel] in *.
  - destruct (Nat.eq_dec (r_id r) x) as [<-|Hn]; [exact (on_request_settles r o (register (r_id r) st) Hs)|].
    unfold on_new_request. destruct (on_request_conserves r o (register (r_id r) st) x) as (E & F & G).
    rewrite register_pend in *. apply Nat.eqb_neq in Hn. rewrite Hn in *.
    change (flight (register (r_id r) st) x) with (flight st x) in F. specialize (H x). lia.
  - unfold cancel. destruct (respond_conserves id RRequestCanceled st x) as (E & F & G). specialize (H x). lia.
  - destruct (take i (jobs st)) as [[[r retry] js]|] eqn:E; [|apply H].
    apply take_split in E. destruct E as (l1 & l2 & Ej & ->).
    specialize (H x). unfold pend, flight, is_pending in *. cbn [pending jobs tasks] in *. rewrite Ej in H.
    rewrite !map_app in *. cbn [map fst] in *. rewrite !count_occ_app in *. cbn [count_occ] in *. rewrite worker_result_id.
    destruct (Nat.eq_dec (r_id r) x); lia.
  - destruct (take i (tasks st)) as [[t ts]|] eqn:E; [|apply H].
    apply take_split in E. destruct E as (l1 & l2 & Ej & ->).
    set (st0 := mkSt _ _ _ _ _ _ _).
    assert (H0 : pend st0 x = 0 \/ 0 < flight st0 x + b2n (Nat.eqb (task_id t) x)).
    { destruct (H x) as [K|K]; [now left|]. right. unfold flight in K. rewrite Ej, map_app in K. cbn [map] in K.
      rewrite count_mid in K. unfold flight, st0. cbn [jobs tasks]. rewrite map_app.
      revert K. match goal with |- context [count_occ _ (map task_id l1 ++ _) x] => generalize (count_occ Nat.eq_dec (map task_id l1 ++ map task_id l2) x) end.
      generalize (count_occ Nat.eq_dec (map (fun j : request * bool => r_id (fst j)) (jobs st)) x). intros; lia. }
    destruct t as [id r|r]; cbn [handle_task task_id] in *.
    + destruct (respond_effect id r st0 x) as (_ & B & C). destruct (respond_conserves id r st0 x) as (_ & _ & G).
      rewrite B, C. destruct (Nat.eqb id x); [auto|]. unfold b2n in H0. lia.
    + destruct (is_pending st0 (r_id r)) eqn:Ep.
      * destruct (on_request_conserves r o st0 x) as (_ & F & G).
        destruct (Nat.eqb_spec (r_id r) x) as [<-|Hn]; [exact (on_request_settles r o st0 Hs)|]. unfold b2n in H0. lia.
      * destruct (Nat.eqb_spec (r_id r) x) as [<-|Hn]; [left; unfold pend; now rewrite Ep|]. unfold b2n in H0. lia.
  - apply H.
Qed.

Lemma run_app : forall es1 es2 st, run st (es1 ++ es2) = run (run st es1) es2.
Proof. intros. unfold run. apply fold_left_app. Qed.
Lemma asked_app : forall a b id, asked (a ++ b) id = asked a id + asked b id.
Proof. intros. unfold asked, requests_of. now rewrite flat_map_app, count_occ_app. Qed.

Lemma run_settled : forall es, Forall no_sync_cancel es -> settled_all (run initial es).
Proof.
  induction es as [|e es IH] using rev_ind; intros HF.
  - intros x. now left.
  - apply Forall_app in HF. destruct HF as [HF He]. inversion He; subst. rewrite run_app. cbn [run fold_left]. apply step_settled; auto.
Qed.

Lemma NoDup_app_left : forall A (l1 l2 : list A), NoDup (l1 ++ l2) -> NoDup l1.
Proof.
  intros A l1 l2. induction l1 as [|a l1 IH]; intros H; [constructor|]. inversion H; subst. constructor; auto.
  intros K. apply H2. apply in_or_app. now left.
Qed.

Lemma run_exact : forall es, NoDup (requests_of es) -> forall id,
  answers (run initial es) id + pend (run initial es) id = asked es id.
Proof.
  induction es as [|e es IH] using rev_ind; intros HN id; [reflexivity|].
  unfold requests_of in HN. rewrite flat_map_app in HN. fold (requests_of es) in HN. cbn [flat_map] in HN. rewrite app_nil_r in HN.
  assert (HN' : NoDup (requests_of es)) by (eapply NoDup_app_left; exact HN).
  specialize (IH HN' id). rewrite asked_app, run_app. cbn [run fold_left]. fold (run initial es).
  remember (run initial es) as st eqn:Est.
  destruct e as [r o|i|i o|i o|b]; cbn [step].
  - unfold on_new_request. destruct (on_request_conserves r o (register (r_id r) st) id) as (E & _ & _). rewrite E, register_pend.
    change (answers (register (r_id r) st) id) with (answers st id).
    unfold asked at 2. cbn. destruct (Nat.eq_dec (r_id r) id) as [<-|Hn].
    + rewrite Nat.eqb_refl.
      assert (asked es (r_id r) = 0).
      { apply count_occ_not_In. apply NoDup_remove_2 in HN. now rewrite app_nil_r in HN. }
      pose proof (pend_le1 st (r_id r)). lia.
    + apply Nat.eqb_neq in Hn. rewrite Hn. lia.
  - destruct (respond_conserves i RRequestCanceled st id) as (E & _ & _). unfold cancel. rewrite E, IH. cbn. lia.
  - change (asked [EFinish i o] id) with 0. rewrite Nat.add_0_r, <- IH.
    destruct (take i (jobs st)) as [[[r retry] js]|]; reflexivity.
  - change (asked [EDeliver i o] id) with 0. rewrite Nat.add_0_r, <- IH.
    destruct (take i (tasks st)) as [[t ts]|]; [|reflexivity].
    set (st0 := mkSt _ _ _ _ _ _ _). change (answers st id + pend st id) with (answers st0 id + pend st0 id).
    destruct t as [j r|r]; cbn [handle_task].
    + destruct (respond_conserves j r st0 id) as (E & _ & _). exact E.
    + destruct (is_pending st0 (r_id r)); [|reflexivity]. destruct (on_request_conserves r o st0 id) as (E & _ & _). exact E.
  - change (asked [EVfs b] id) with 0. rewrite Nat.add_0_r, <- IH. reflexivity.
Qed.

(** If the client uses each id once, then whenever the server is idle every request received so far has been
    answered exactly once, and nothing else has been answered. *)
Theorem idle_all_answered_once : forall es, NoDup (requests_of es) -> Forall no_sync_cancel es ->
  idle (run initial es) -> forall id, answers (run initial es) id = if in_dec Nat.eq_dec id (requests_of es) then 1 else 0.
Proof.
  intros es HN HF [Hj Ht] id. pose proof (run_exact es HN id) as E. pose proof (run_settled es HF id) as S.
  unfold flight in S. rewrite Hj, Ht in S. cbn in S.
  assert (P : pend (run initial es) id = 0) by lia.
  rewrite P, Nat.add_0_r in E. rewrite E. unfold asked. destruct (in_dec Nat.eq_dec id (requests_of es)) as [Hi|Hi].
  - apply (proj1 (NoDup_count_occ' Nat.eq_dec _)); auto.
  - now apply count_occ_not_In.
Qed.
Print Assumptions idle_all_answered_once.

(** The server can always become idle: finishing the running jobs and delivering the messages is enough. *)
Definition weight_task (t : task) : nat := match t with TResponse _ _ => 1 | TRetry _ => 3 end.
Definition weight (st : state) : nat := 2 * length (jobs st) + list_sum (map weight_task (tasks st)).

Lemma respond_weight : forall id r st, weight (respond id r st) = weight st.
Proof. intros. unfold respond. destruct (is_pending st id); reflexivity. Qed.
Lemma parsed_weight : forall r k st n, (forall s, weight (k s) <= weight s + n) -> weight (parsed r k st) <= weight st + n.
Proof. intros r k st n H. unfold parsed. destruct (r_params r); [apply H|rewrite respond_weight; lia]. Qed.
Lemma spawn_weight : forall r retry s, weight (spawn r retry s) <= weight s + 2.
Proof. intros. unfold spawn, note_started, weight. cbn [jobs tasks]. rewrite app_length. cbn [length]. generalize (list_sum (map weight_task (tasks s))). intros; lia. Qed.
Lemma run_dispatch_weight : forall d r o st, weight (run_dispatch d r o st) <= weight st + 2.
Proof.
  intros d r o st. destruct d; cbn [run_dispatch]; unfold on_thread.
  - apply parsed_weight. intros s. assert (E : weight (note_started (r_id r) s) = weight s) by reflexivity.
    destruct o; rewrite ?respond_weight, E; lia.
  - apply parsed_weight. intros; apply spawn_weight.
  - destruct (vfs_ready st); [|rewrite respond_weight; lia]. apply parsed_weight. intros; apply spawn_weight.
  - destruct (vfs_ready st); apply parsed_weight; intros; [apply spawn_weight|rewrite respond_weight; lia].
Qed.
Lemma on_request_weight : forall r o st, weight (on_request r o st) <= weight st + 2.
Proof.
  intros r o st. unfold on_request. destruct (method_eq_dec _ _).
  - apply parsed_weight. intros s. rewrite respond_weight. change (weight (set_shutdown (note_started (r_id r) s))) with (weight s). lia.
  - destruct (shutdown_requested st); [rewrite respond_weight; lia|].
    induction chain as [|[m d] c IH]; cbn [run_chain]; [rewrite respond_weight; lia|].
    destruct (method_eq_dec _ _); [apply run_dispatch_weight|apply IH].
Qed.

Definition internal (e : event) : Prop := match e with EFinish _ o | EDeliver _ o => o <> OutCancelled | _ => False end.

Theorem can_always_drain : forall st, exists es, Forall internal es /\ idle (run st es).
Proof.
  intros st. remember (weight st) as n eqn:En. revert st En.
  induction n as [n IH] using lt_wf_ind. intros st En.
  destruct (jobs st) as [|[r retry] js] eqn:Ej.
  - destruct (tasks st) as [|t ts] eqn:Et; [exists []; split; [constructor|split; auto]|].
    pose (e := EDeliver 0 OutOk).
    assert (W : weight (step st e) < weight st).
    { unfold e. cbn [step]. rewrite Et. cbn [take].
      set (st0 := mkSt _ _ _ _ _ _ _).
      assert (W0 : weight st = weight st0 + weight_task t).
      { unfold weight, st0. cbn [jobs tasks]. rewrite Et. cbn [map list_sum fold_right]. unfold list_sum. cbn [fold_right]. lia. }
      destruct t as [id r|r]; cbn [handle_task weight_task] in *.
      - rewrite respond_weight. lia.
      - destruct (is_pending st0 (r_id r)); [|lia]. pose proof (on_request_weight r OutOk st0). lia. }
    destruct (IH (weight (step st e))) with (st := step st e) as (es & HF & Hi); [lia|reflexivity|].
    exists (e :: es). split; [constructor; [cbn; discriminate|auto]|exact Hi].
  - pose (e := EFinish 0 OutOk).
    assert (W : weight (step st e) < weight st).
    { unfold e. cbn [step]. rewrite Ej. cbn [take]. unfold weight. cbn [jobs tasks]. rewrite Ej. cbn [length].
      rewrite map_app. rewrite list_sum_app. cbn [map worker_result weight_task]. unfold list_sum. cbn [fold_right]. lia. }
    destruct (IH (weight (step st e))) with (st := step st e) as (es & HF & Hi); [lia|reflexivity|].
    exists (e :: es). split; [constructor; [cbn; discriminate|auto]|exact Hi].
Qed.
Print Assumptions can_always_drain.

(** * Every answer is justified by the history *)
Definition handled (m : lsp_method) : Prop := In m (map fst chain).
Definition justified (es : list event) (a : req_id * reply) : Prop :=
  let '(id, r) := a in
  match r with
  | RRequestCanceled => In id (cancels_of es)
  | RMethodNotFound => exists q o, In (ERequest q o) es /\ r_id q = id /\ r_method q <> Shutdown /\ ~ handled (r_method q)
  | RInvalidParams => exists q o, In (ERequest q o) es /\ r_id q = id /\ r_params q = false
  | RShutdownOk => exists q o, In (ERequest q o) es /\ r_id q = id /\ r_method q = Shutdown
  | RShutdownAlready => (exists q o, In (ERequest q o) es /\ r_id q = id /\ r_method q <> Shutdown) /\
      exists q o, In (ERequest q o) es /\ r_method q = Shutdown /\ r_params q = true
  | RDefault | RHandler _ => exists q o, In (ERequest q o) es /\ r_id q = id /\ handled (r_method q)
  end.

Lemma justified_mono : forall es e a, justified es a -> justified (es ++ [e]) a.
Proof.
  intros es e [id r] H.
  assert (M : forall x, In x es -> In x (es ++ [e])) by (intros; apply in_or_app; auto).
  destruct r; cbn [justified] in *;
    try (destruct H as (q & o' & H1 & H2); exists q, o'; auto).
  - destruct H as ((q & o' & H1 & H2) & q2 & o2 & H3 & H4). split; [exists q, o'|exists q2, o2]; auto.
  - unfold cancels_of. rewrite flat_map_app. apply in_or_app. now left.
Qed.

(** requests known from the history that are being worked on *)
Definition known (es : list event) (q : request) : Prop := exists o, In (ERequest q o) es.
Definition just_inv (es : list event) (st : state) : Prop :=
  Forall (justified es) (sent st) /\
  Forall (fun j => known es (fst j) /\ handled (r_method (fst j))) (jobs st) /\
  Forall (fun t => match t with TResponse id r => justified es (id, r) | TRetry q => known es q end) (tasks st) /\
  (shutdown_requested st = true -> exists q, known es q /\ r_method q = Shutdown /\ r_params q = true).

Lemma respond_just : forall es id r st, just_inv es st -> justified es (id, r) -> just_inv es (respond id r st).
Proof.
  intros es id r st (A & B & C & D) H. unfold respond. destruct (is_pending st id); [|repeat split; auto].
  split; [|split; [|split]]; auto. cbn [sent]. apply Forall_app. split; auto.
Qed.
Lemma parsed_just : forall es q k st, known es q -> just_inv es st -> (r_params q = true -> just_inv es (k st)) -> just_inv es (parsed q k st).
Proof.
  intros es q k st [o Hq] H Hk. unfold parsed. destruct (r_params q) eqn:E; [auto|]. apply respond_just; auto. exists q, o. auto.
Qed.
Lemma spawn_just : forall es q retry st, known es q -> handled (r_method q) -> just_inv es st -> just_inv es (spawn q retry st).
Proof.
  intros es q retry st Hq Hh (A & B & C & D). unfold spawn, note_started. split; [|split; [|split]]; auto.
  cbn [jobs]. apply Forall_app. split; auto.
Qed.
Lemma note_just : forall es id st, just_inv es st -> just_inv es (note_started id st).
Proof. intros es id st H. exact H. Qed.

Lemma run_dispatch_just : forall es d q o st, known es q -> handled (r_method q) -> just_inv es st -> just_inv es (run_dispatch d q o st).
Proof.
  intros es d q o st Hq Hh H. pose proof Hq as [o' Hi].
  assert (J : forall r, match r with RDefault | RHandler _ => True | _ => False end -> justified es (r_id q, r)).
  { intros r Hr. destruct r; try contradiction; exists q, o'; auto. }
  destruct d; cbn [run_dispatch]; unfold on_thread.
  - apply parsed_just; auto. intros _. destruct o; try (apply respond_just; [now apply note_just|apply J; exact I]). now apply note_just.
  - apply parsed_just; auto. intros _. now apply spawn_just.
  - destruct (vfs_ready st); [|apply respond_just; auto; apply J; exact I]. apply parsed_just; auto. intros _. now apply spawn_just.
  - destruct (vfs_ready st); apply parsed_just; auto; intros _; [now apply spawn_just|]. now apply respond_just; [|apply J; exact I].
Qed.

Lemma on_request_just : forall es q o st, known es q -> just_inv es st -> just_inv es (on_request q o st).
Proof.
  intros es q o st Hq H. pose proof Hq as [o' Hi]. unfold on_request. destruct (method_eq_dec (r_method q) Shutdown) as [Em|Em].
  - apply parsed_just; auto. intros Ep. apply respond_just; [|exists q, o'; auto].
    destruct H as (A & B & C & D). split; [|split; [|split]]; auto. cbn. intros _. exists q. auto.
  - destruct (shutdown_requested st) eqn:Es.
    + apply respond_just; auto. split; [exists q, o'; auto|]. destruct H as (_ & _ & _ & D).
      destruct (D Es) as (q2 & [o2 Hq2] & Hm & Hp). exists q2, o2. auto.
    + assert (G : forall c, (exists c0, chain = c0 ++ c /\ ~ In (r_method q) (map fst c0)) -> just_inv es (run_chain c q o st)).
      { induction c as [|[m d] c IH]; intros (c0 & Ec & Hn); cbn [run_chain].
        - apply respond_just; auto. exists q, o'. rewrite app_nil_r in Ec. unfold handled. rewrite Ec. auto.
        - destruct (method_eq_dec (r_method q) m) as [E|E].
          + apply run_dispatch_just; auto. unfold handled. rewrite Ec, map_app. apply in_or_app. right. left. auto.
          + apply IH. exists (c0 ++ [(m, d)]). rewrite <- app_assoc. split; [exact Ec|].
            rewrite map_app, in_app_iff. cbn. intros [K|[K|[]]]; auto. }
      apply G. exists []. split; [reflexivity|]. intros [].
Qed.

Lemma just_inv_mono : forall es e st, just_inv es st -> just_inv (es ++ [e]) st.
Proof.
  intros es e st (A & B & C & D).
  assert (M : forall q, known es q -> known (es ++ [e]) q) by (intros q [o H]; exists o; apply in_or_app; auto).
  split; [|split; [|split]].
  - eapply Forall_impl; [|exact A]. intros; now apply justified_mono.
  - eapply Forall_impl; [|exact B]. intros j [K1 K2]. auto.
  - eapply Forall_impl; [|exact C]. intros [id r|q] K; [now apply justified_mono|auto].
  - intros E. destruct (D E) as (q & K & K'). exists q. auto.
Qed.

Theorem answers_justified : forall es a, In a (sent (run initial es)) -> justified es a.
Proof.
  intros es. assert (G : just_inv es (run initial es)).
  { induction es as [|e es IH] using rev_ind.
    - split; [|split; [|split]]; try constructor. discriminate.
    - rewrite run_app. cbn [run fold_left]. apply (just_inv_mono _ e) in IH. remember (run initial es) as st eqn:Est. clear Est.
      assert (He : In e (es ++ [e])) by (apply in_or_app; right; now left).
      revert IH He. generalize (es ++ [e]) as h. intros h IH He. destruct e as [r o|id|i o|i o|b]; cbn [step].
      + unfold on_new_request. apply on_request_just; [exists o; auto|]. exact IH.
      + unfold cancel. apply respond_just; auto. cbn. unfold cancels_of. apply in_flat_map. exists (ECancel id). split; auto. now left.
      + destruct (take i (jobs st)) as [[[r retry] js]|] eqn:E; [|auto]. apply take_split in E. destruct E as (l1 & l2 & Ej & ->).
        destruct IH as (A & B & C & D). rewrite Ej in B. apply Forall_app in B. destruct B as [B1 B]. inversion B as [|? ? [K1 K2] B2]; subst.
        split; [|split; [|split]]; auto; cbn [jobs tasks].
        * apply Forall_app; auto.
        * apply Forall_app. split; auto. constructor; [|constructor]. destruct K1 as [o' Hq]. cbn [fst] in *.
          destruct o, retry; cbn [worker_result]; try (exists r, o'; auto). exists o'. auto.
      + destruct (take i (tasks st)) as [[t ts]|] eqn:E; [|auto]. apply take_split in E. destruct E as (l1 & l2 & Ej & ->).
        destruct IH as (A & B & C & D). rewrite Ej in C. apply Forall_app in C. destruct C as [C1 C]. inversion C as [|? ? K C2]; subst.
        set (st0 := mkSt _ _ _ _ _ _ _).
        assert (I0 : just_inv h st0) by (split; [|split; [|split]]; auto; cbn [tasks]; apply Forall_app; auto).
        destruct t as [id r|r]; cbn [handle_task]; [now apply respond_just|]. destruct (is_pending st0 (r_id r)); [|auto].
        now apply on_request_just.
      + exact IH. }
  destruct G as (A & _). now apply Forall_forall.
Qed.
Print Assumptions answers_justified.

(** * C30: shutdown *)
Lemma respond_shutdown : forall id r st, shutdown_requested (respond id r st) = shutdown_requested st /\ started (respond id r st) = started st.
Proof. intros. unfold respond. destruct (is_pending st id); auto. Qed.

Definition not_shutdown (e : event) : Prop := match e with ERequest r _ => r_method r <> Shutdown | _ => True end.
(** shutdown requests are answered at once, so they never sit in a queue *)
Definition no_shutdown_retry (st : state) : Prop :=
  Forall (fun j => r_method (fst j) <> Shutdown) (jobs st) /\
  Forall (fun t => match t with TRetry r => r_method r <> Shutdown | _ => True end) (tasks st).

Lemma respond_nsr : forall id r st, no_shutdown_retry st -> no_shutdown_retry (respond id r st).
Proof. intros id r st H. unfold respond. destruct (is_pending st id); exact H. Qed.
Lemma parsed_nsr : forall r k st, no_shutdown_retry st -> no_shutdown_retry (k st) -> no_shutdown_retry (parsed r k st).
Proof. intros r k st H Hk. unfold parsed. destruct (r_params r); auto. now apply respond_nsr. Qed.
Lemma on_request_nsr : forall r o st, no_shutdown_retry st -> no_shutdown_retry (on_request r o st).
Proof.
  intros r o st H. unfold on_request. destruct (method_eq_dec (r_method r) Shutdown) as [E|E].
  - apply parsed_nsr; auto. apply respond_nsr. exact H.
  - destruct (shutdown_requested st); [now apply respond_nsr|].
    assert (S : forall retry, no_shutdown_retry (spawn r retry st)).
    { intros retry. destruct H as [A B]. split; auto. unfold spawn, note_started. cbn [jobs]. apply Forall_app. split; auto. }
    induction chain as [|[m d] c IH]; cbn [run_chain]; [now apply respond_nsr|].
    destruct (method_eq_dec _ _); [|apply IH]. destruct d; cbn [run_dispatch]; unfold on_thread.
    + apply parsed_nsr; auto. destruct o; try apply respond_nsr; exact H.
    + apply parsed_nsr; auto.
    + destruct (vfs_ready st); [apply parsed_nsr|apply respond_nsr]; auto.
    + destruct (vfs_ready st); apply parsed_nsr; auto. now apply respond_nsr.
Qed.
Lemma step_nsr : forall st e, no_shutdown_retry st -> no_shutdown_retry (step st e).
Proof.
  intros st e H. destruct e as [r o|id|i o|i o|b]; cbn [step].
  - unfold on_new_request. apply on_request_nsr. exact H.
  - unfold cancel. now apply respond_nsr.
  - destruct (take i (jobs st)) as [[[r retry] js]|] eqn:E; [|auto]. apply take_split in E. destruct E as (l1 & l2 & Ej & ->).
    destruct H as [A B]. rewrite Ej in A. apply Forall_app in A. destruct A as [A1 A]. inversion A; subst.
    split; cbn [jobs tasks]; apply Forall_app; split; auto. constructor; [|constructor]. destruct o, retry; cbn; auto.
  - destruct (take i (tasks st)) as [[t ts]|] eqn:E; [|auto]. apply take_split in E. destruct E as (l1 & l2 & Ej & ->).
    destruct H as [A B]. rewrite Ej in B. apply Forall_app in B. destruct B as [B1 B]. inversion B; subst.
    set (st0 := mkSt _ _ _ _ _ _ _). assert (H0 : no_shutdown_retry st0) by (split; auto; cbn [tasks]; apply Forall_app; auto).
    destruct t as [id r|r]; cbn [handle_task]; [now apply respond_nsr|]. destruct (is_pending st0 (r_id r)); auto. now apply on_request_nsr.
  - exact H.
Qed.

(** Once a shutdown was accepted it stays in force, no handler is started for any later request or retry, and a
    request other than shutdown is answered at once with the invalid-request error. *)
Theorem shutdown_refuses : forall es1 es2, let st1 := run initial es1 in let st2 := run st1 es2 in
  shutdown_requested st1 = true -> Forall not_shutdown es2 ->
  shutdown_requested st2 = true /\ started st2 = started st1 /\ length (jobs st2) <= length (jobs st1) /\
  (forall r o, r_method r <> Shutdown -> exists st3, step st2 (ERequest r o) = st3 /\
     sent st3 = sent st2 ++ [(r_id r, RShutdownAlready)] /\ started st3 = started st2 /\ jobs st3 = jobs st2).
Proof.
  intros es1 es2 st1 st2 Hs HF.
  assert (N1 : no_shutdown_retry st1).
  { unfold st1. clear. induction es1 as [|e es IH] using rev_ind; [split; constructor|]. rewrite run_app. now apply step_nsr. }
  assert (G : shutdown_requested st2 = true /\ started st2 = started st1 /\ length (jobs st2) <= length (jobs st1) /\ no_shutdown_retry st2).
  { unfold st2. revert Hs N1 HF. generalize st1. clear. induction es2 as [|e es IH]; intros st Hs N HF; cbn [run fold_left]; [auto|].
    inversion HF as [|? ? He HF']; subst. fold (run (step st e) es).
    assert (S : shutdown_requested (step st e) = true /\ started (step st e) = started st /\ length (jobs (step st e)) <= length (jobs st)).
    { assert (R : forall r o s, r_method r <> Shutdown -> shutdown_requested s = true ->
                  shutdown_requested (on_request r o s) = true /\ started (on_request r o s) = started s /\ jobs (on_request r o s) = jobs s).
      { intros r o s Hm Hss. unfold on_request. destruct (method_eq_dec _ _); [contradiction|]. rewrite Hss.
        unfold respond. destruct (is_pending s (r_id r)); auto. }
      destruct e as [r o|id|i o|i o|b]; cbn [step not_shutdown] in *.
      - destruct (R r o (register (r_id r) st) He Hs) as (A & B & C). unfold on_new_request. rewrite A, B, C. auto.
      - unfold cancel, respond. destruct (is_pending st id); auto.
      - destruct (take i (jobs st)) as [[[r retry] js]|] eqn:E; [|auto]. apply take_split in E. destruct E as (l1 & l2 & Ej & ->).
        cbn. rewrite Ej, !app_length. cbn. auto with arith.
      - destruct (take i (tasks st)) as [[t ts]|] eqn:E; [|auto]. apply take_split in E. destruct E as (l1 & l2 & Ej & ->).
        destruct N as [_ B]. rewrite Ej in B. apply Forall_app in B. destruct B as [_ B]. inversion B as [|? ? K _]; subst.
        set (st0 := mkSt _ _ _ _ _ _ _). destruct t as [id r|r]; cbn [handle_task].
        + unfold respond. destruct (is_pending st0 id); auto.
        + destruct (is_pending st0 (r_id r)); [|auto]. destruct (R r o st0 K Hs) as (X & Y & Z). rewrite X, Y, Z. auto.
      - auto. }
    destruct S as (S1 & S2 & S3). destruct (IH (step st e) S1 (step_nsr _ _ N) HF') as (A & B & C & D).
    rewrite B, S2. repeat split; auto; try apply D. lia. }
  destruct G as (A & B & C & _). repeat split; auto.
  intros r o Hm. eexists. split; [reflexivity|]. cbn [step]. unfold on_new_request, on_request.
  destruct (method_eq_dec _ _); [contradiction|]. replace (shutdown_requested (register (r_id r) st2)) with true by (symmetry; exact A).
  unfold respond. assert (P : is_pending (register (r_id r) st2) (r_id r) = true).
  { apply is_pending_spec. now left. }
  rewrite P. auto.
Qed.
Print Assumptions shutdown_refuses.

(** A repeated shutdown request is not refused: its handler runs again and it is answered with success. *)
Theorem second_shutdown_refuted : exists es r, shutdown_requested (run initial es) = true /\
  let st := step (run initial es) (ERequest r OutOk) in
  In (r_id r, RShutdownOk) (sent st) /\ In (r_id r) (started st) /\ ~ In (r_id r, RShutdownAlready) (sent st).
Proof.
  exists [ERequest (mkReq 0 Shutdown true) OutOk], (mkReq 1 Shutdown true).
  split; [reflexivity|]. cbn. split; [auto|]. split; [auto|]. intros [H|[H|[]]]; discriminate.
Qed.
Print Assumptions second_shutdown_refuted.

(** Why the hypotheses are needed. A synchronous handler that is cancelled leaves its request unanswered. *)
Theorem sync_cancel_unanswered_refuted : exists es, NoDup (requests_of es) /\ idle (run initial es) /\
  exists id, In id (requests_of es) /\ answers (run initial es) id = 0.
Proof.
  exists [ERequest (mkReq 7 SelectionRange true) OutCancelled].
  split; [repeat constructor; intros []|]. split; [split; reflexivity|]. exists 7. split; [now left|reflexivity].
Qed.
Print Assumptions sync_cancel_unanswered_refuted.

(** An id reused after its first request was cancelled receives the stale answer of the first request. *)
Theorem reused_id_stale_answer_refuted : exists es, Forall no_sync_cancel es /\ idle (run initial es) /\
  requests_of es = [3; 3] /\
  sent (run initial es) = [(3, RRequestCanceled); (3, RHandler OutError)] /\
  (* the job of the second request succeeded *) In (EFinish 0 OutOk) es.
Proof.
  exists [EVfs true; ERequest (mkReq 3 Hover true) OutOk; ECancel 3; EFinish 0 OutError; ERequest (mkReq 3 References true) OutOk;
          EDeliver 0 OutOk; EFinish 0 OutOk; EDeliver 0 OutOk].
  split; [repeat constructor; discriminate|]. split; [split; reflexivity|]. repeat split. cbn. tauto.
Qed.
Print Assumptions reused_id_stale_answer_refuted.

(** A non-trivial history: a retried completion, a cancelled hover, an unknown method, a shutdown in between. *)
Example ex_history : list event :=
  [EVfs true; ERequest (mkReq 1 Completion true) OutOk; ERequest (mkReq 2 Hover true) OutOk; ERequest (mkReq 3 (OtherMethod 9) true) OutOk;
   ECancel 2; EFinish 0 OutCancelled; EDeliver 0 OutOk; EFinish 1 OutOk; ERequest (mkReq 4 Shutdown true) OutOk;
   EFinish 0 OutPanic; ERequest (mkReq 5 Rename false) OutOk; EDeliver 1 OutOk; EDeliver 0 OutOk].
Example ex_history_hyps : NoDup (requests_of ex_history) /\ Forall no_sync_cancel ex_history /\ idle (run initial ex_history).
Proof.
  split; [cbn; repeat constructor; cbn; intuition discriminate|]. split; [repeat constructor; discriminate|]. split; reflexivity.
Qed.
Example ex_history_sent : sent (run initial ex_history) =
  [(3, RMethodNotFound); (2, RRequestCanceled); (4, RShutdownOk); (5, RShutdownAlready); (1, RHandler OutOk)].
Proof. reflexivity. Qed.
Example ex_shutdown_hyps : shutdown_requested (run initial (firstn 9 ex_history)) = true /\ Forall not_shutdown (skipn 9 ex_history).
Proof. split; [reflexivity|]. repeat constructor. discriminate. Qed.
