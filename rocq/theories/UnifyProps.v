(** The unification table: variable classes and their values (C22), snapshots (C23). *)
From Coq Require Import Relations.
From Verif Require Import Base UnifyModel.

Section Props.
Variables (V T : Type) (veq : forall a b : V, {a = b} + {a <> b}) (teq : forall a b : T, {a = b} + {a <> b}).
Notation mapping := (mapping V T).
Notation get := (get V T veq).
Notation root_var := (root_var V T veq).
Notation ty_value := (ty_value V T veq).
Notation unify_var_var := (unify_var_var V T veq teq).
Notation unify_var_value := (unify_var_value V T veq teq).
Notation insert := (insert V T).

(** * Specification: what was asked for *)
Inductive op := VarVar (a b : V) | VarValue (a : V) (t : T).
Definition step (r : out mapping) (o : op) : out mapping :=
  obind r (fun m => match o with VarVar a b => unify_var_var m a b | VarValue a t => unify_var_value m a t end).
Definition run (ops : list op) : out mapping := fold_left step ops (Done []).
(** connected by the variable-variable unifications *)
Definition conn (ops : list op) : V -> V -> Prop := clos_refl_sym_trans V (fun a b => In (VarVar a b) ops).
(** two different values were asked for in one class *)
Definition conflict (ops : list op) : Prop := exists a b t u, t <> u /\ In (VarValue a t) ops /\ In (VarValue b u) ops /\ conn ops a b.

(** * Chains of variables *)
Inductive leads (m : mapping) : V -> V -> Prop :=
| leads_here : forall v, (forall w, get v m <> Some (TVar w)) -> leads m v v
| leads_next : forall v w r, get v m = Some (TVar w) -> leads m w r -> leads m v r.
Lemma leads_det : forall m v r, leads m v r -> forall s, leads m v s -> r = s.
Proof.
  intros m v r H. induction H as [v N|v w r G H IH]; intros s HS; inversion HS; subst; auto; try congruence; try (exfalso; eapply N; eauto; fail); try (exfalso; match goal with X : forall w, _ <> _ |- _ => eapply X; eauto end; fail).
  assert (w0 = w) by congruence. subst. auto.
Qed.
Lemma leads_root : forall m v r, leads m v r -> forall w, get r m <> Some (TVar w).
Proof. intros m v r H. induction H; auto. Qed.
Lemma leads_self : forall m v r, leads m v r -> leads m r r.
Proof. intros m v r H. apply leads_here. eapply leads_root; eauto. Qed.
Lemma get_keys : forall m v x, get v m = Some x -> In v (map fst m).
Proof. induction m as [|[k y] m IH]; cbn; intros v x H; [discriminate|]. destruct (veq v k); [subst; auto|right; eauto]. Qed.
(** the variables passed are distinct keys *)
Inductive path (m : mapping) : V -> list V -> V -> Prop :=
| path_nil : forall v, (forall w, get v m <> Some (TVar w)) -> path m v [] v
| path_cons : forall v w r p, get v m = Some (TVar w) -> path m w p r -> path m v (v :: p) r.
Lemma leads_path : forall m v r, leads m v r -> exists p, path m v p r.
Proof. intros m v r H. induction H as [v N|v w r G H [p IH]]; [exists []; now constructor|exists (v :: p); econstructor; eauto]. Qed.
Lemma path_suffix : forall m v p r x, path m v p r -> In x p -> exists q, path m x q r /\ length q <= length p.
Proof.
  intros m v p r x H. induction H as [v N|v w r p G H IH]; intros I; [destruct I|]. destruct I as [<-|I]; [exists (v :: p); split; [econstructor; eauto|lia]|]. destruct (IH I) as (q & Q & L). exists q. split; auto. cbn. lia.
Qed.
Lemma path_det : forall m v p r, path m v p r -> forall q s, path m v q s -> p = q.
Proof.
  intros m v p r H. induction H as [v N|v w r p G H IH]; intros q s Q; inversion Q; subst; auto; try (exfalso; eapply N; eauto; fail); try (exfalso; match goal with X : forall w, _ <> _ |- _ => eapply X; eauto end; fail).
  assert (w0 = w) by congruence. subst. f_equal. eauto.
Qed.
Lemma path_nodup : forall m v p r, path m v p r -> NoDup p.
Proof.
  intros m v p r H. induction H as [v N|v w r p G H IH]; constructor; auto. intros I. destruct (path_suffix _ _ _ _ _ H I) as (q & Q & L). assert (E : v :: p = q) by (eapply path_det; [econstructor; eauto|exact Q]). subst q. cbn in L. lia.
Qed.
Lemma path_keys : forall m v p r, path m v p r -> incl p (map fst m).
Proof. intros m v p r H. induction H as [v N|v w r p G H IH]; intros x I; [destruct I|]. destruct I as [<-|I]; auto. eapply get_keys; eauto. Qed.
Lemma root_loop_path : forall m v p r, path m v p r -> forall fuel, length p < fuel -> root_loop V T veq fuel m v = Some r.
Proof.
  intros m v p r H. induction H as [v N|v w r p G H IH]; intros fuel L; destruct fuel as [|f]; cbn in L; try lia; cbn.
  - destruct (get v m) as [[w|t]|] eqn:E; auto. exfalso. eapply N; eauto.
  - rewrite G. apply IH. lia.
Qed.
Lemma root_loop_sound : forall fuel m v r, root_loop V T veq fuel m v = Some r -> leads m v r.
Proof.
  induction fuel as [|f IH]; intros m v r H; cbn in H; [discriminate|]. destruct (get v m) as [[w|t]|] eqn:E.
  - eapply leads_next; eauto.
  - injection H as <-. apply leads_here. intros w. congruence.
  - injection H as <-. apply leads_here. intros w. congruence.
Qed.
(** the loop stops within the fuel exactly when it stops at all *)
Theorem root_var_exact : forall m v r, root_var m v = Done r <-> leads m v r.
Proof.
  intros m v r. unfold UnifyModel.root_var. split.
  - destruct (root_loop _ _ _ _ _ _) eqn:E; [|discriminate]. intros H. injection H as <-. eapply root_loop_sound; eauto.
  - intros H. destruct (leads_path _ _ _ H) as [p P]. rewrite (root_loop_path _ _ _ _ P); auto. pose proof (NoDup_incl_length (path_nodup _ _ _ _ P) (path_keys _ _ _ _ P)). rewrite map_length in H0. lia.
Qed.
Lemma root_var_not_crash : forall m v, root_var m v <> Crash.
Proof. intros m v. unfold UnifyModel.root_var. destruct (root_loop _ _ _ _ _ _); discriminate. Qed.

(** every variable has a representative *)
Definition wf (m : mapping) : Prop := forall v, exists r, leads m v r.
Definition val (m : mapping) (v : V) (t : T) : Prop := exists r, leads m v r /\ get r m = Some (TValue (Some t)).
Lemma ty_value_exact : forall m v, wf m -> forall o, ty_value m v = Done o <-> (forall t, o = Some t <-> val m v t).
Proof.
  intros m v W o. destruct (W v) as [r L]. unfold UnifyModel.ty_value. rewrite (proj2 (root_var_exact m v r) L). cbn [obind]. split.
  - intros H. injection H as <-. intros t. split.
    + intros E. exists r. split; auto. destruct (get r m) as [[w|o]|]; try discriminate. congruence.
    + intros (s & L2 & G). rewrite (leads_det _ _ _ L _ L2), G. reflexivity.
  - intros H. f_equal. destruct (get r m) as [[w|[t|]]|] eqn:G.
    + exfalso. eapply leads_root; eauto.
    + symmetry. apply H. exists r. auto.
    + destruct o as [t|]; auto. exfalso. destruct (proj1 (H t) eq_refl) as (s & L2 & G2). rewrite <- (leads_det _ _ _ L _ L2), G in G2. discriminate.
    + destruct o as [t|]; auto. exfalso. destruct (proj1 (H t) eq_refl) as (s & L2 & G2). rewrite <- (leads_det _ _ _ L _ L2), G in G2. discriminate.
Qed.
Lemma ty_value_total : forall m v, wf m -> exists o, ty_value m v = Done o.
Proof. intros m v W. destruct (W v) as [r L]. unfold UnifyModel.ty_value. rewrite (proj2 (root_var_exact m v r) L). cbn. eauto. Qed.
Lemma val_det : forall m v t u, val m v t -> val m v u -> t = u.
Proof. intros m v t u (r & L & G) (s & L2 & G2). rewrite (leads_det _ _ _ L _ L2) in G. congruence. Qed.

(** * One operation *)
(** joining the classes of [lr] and [rr] *)
Lemma leads_join : forall m lr rr x v r, leads m lr lr -> leads m rr rr -> lr <> rr -> leads m v r ->
  leads (insert rr (TValue x) (insert lr (TVar rr) m)) v (if veq r lr then rr else r).
Proof.
  intros m lr rr x v r HL HR NE H. set (m' := insert rr (TValue x) (insert lr (TVar rr) m)).
  assert (Grr : get rr m' = Some (TValue x)) by (unfold m', UnifyModel.insert; cbn; destruct (veq rr rr); congruence).
  assert (Glr : get lr m' = Some (TVar rr)) by (unfold m', UnifyModel.insert; cbn; destruct (veq lr rr); [congruence|]; destruct (veq lr lr); congruence).
  assert (GO : forall v, v <> rr -> v <> lr -> get v m' = get v m) by (intros u N1 N2; unfold m', UnifyModel.insert; cbn; destruct (veq u rr); [congruence|]; destruct (veq u lr); congruence).
  assert (Lrr : leads m' rr rr) by (apply leads_here; intros w; rewrite Grr; discriminate).
  induction H as [v N|v w r G H IH].
  - destruct (veq v lr) as [->|N1]; [eapply leads_next; eauto|]. destruct (veq v rr) as [->|N2]; auto. apply leads_here. intros w. rewrite GO; auto.
  - eapply leads_next; [|exact IH]. rewrite GO; auto; intros ->; [eapply (leads_root _ _ _ HR)|eapply (leads_root _ _ _ HL)]; eauto.
Qed.
Lemma leads_set : forall m rr x v r, leads m rr rr -> leads m v r -> leads (insert rr (TValue x) m) v r.
Proof.
  intros m rr x v r HR H. set (m' := insert rr (TValue x) m).
  assert (Grr : get rr m' = Some (TValue x)) by (unfold m', UnifyModel.insert; cbn; destruct (veq rr rr); congruence).
  assert (GO : forall v, v <> rr -> get v m' = get v m) by (intros u N1; unfold m', UnifyModel.insert; cbn; destruct (veq u rr); congruence).
  induction H as [v N|v w r G H IH].
  - apply leads_here. intros w. destruct (veq v rr) as [->|N2]; [rewrite Grr; discriminate|rewrite GO; auto].
  - eapply leads_next; [|exact IH]. rewrite GO; auto. intros ->. eapply (leads_root _ _ _ HR); eauto.
Qed.

(** Effect of the two operations on a well-formed table, in terms of classes and values. *)
Lemma var_var_effect : forall m a b, wf m ->
  (unify_var_var m a b = Crash /\ exists t u, t <> u /\ val m a t /\ val m b u) \/
  exists m', unify_var_var m a b = Done m' /\ wf m' /\
    (forall x y, (exists r, leads m' x r /\ leads m' y r) <->
       (exists r, leads m x r /\ leads m y r) \/
       ((exists r, leads m x r /\ leads m a r) /\ (exists r, leads m b r /\ leads m y r)) \/
       ((exists r, leads m x r /\ leads m b r) /\ (exists r, leads m a r /\ leads m y r))) /\
    (forall x t, val m' x t <-> val m x t \/ ((exists r, leads m x r /\ leads m a r) /\ val m b t) \/ ((exists r, leads m x r /\ leads m b r) /\ val m a t)) /\
    (forall t u, val m a t -> val m b u -> t = u).
Proof.
  intros m a b W. destruct (W a) as [lr La]. destruct (W b) as [rr Lb].
  unfold UnifyModel.unify_var_var. rewrite (proj2 (root_var_exact m a lr) La), (proj2 (root_var_exact m b rr) Lb). cbn [obind].
  assert (D : forall v r s, leads m v r -> leads m v s -> r = s) by (intros; eapply leads_det; eauto).
  destruct (veq lr rr) as [->|NE].
  - right. exists m. split; auto. split; auto. split; [|split].
    + intros x y. split; [intros H; auto|]. intros [H|[[(r & H1 & H2) (s & H3 & H4)]|[(r & H1 & H2) (s & H3 & H4)]]]; auto; exists rr; split.
      * rewrite (D _ _ _ La H2). exact H1. * rewrite (D _ _ _ Lb H3). exact H4.
      * rewrite (D _ _ _ Lb H2). exact H1. * rewrite (D _ _ _ La H3). exact H4.
    + intros x t. split; [auto|]. intros [H|[[(r & H1 & H2) (s & H3 & H4)]|[(r & H1 & H2) (s & H3 & H4)]]]; auto.
      * exists rr. split; [rewrite (D _ _ _ La H2); exact H1|rewrite (D _ _ _ Lb H3); exact H4].
      * exists rr. split; [rewrite (D _ _ _ Lb H2); exact H1|rewrite (D _ _ _ La H3); exact H4].
    + intros t u (r & H1 & H2) (s & H3 & H4). rewrite <- (D _ _ _ La H1) in H2. rewrite <- (D _ _ _ Lb H3) in H4. congruence.
  - pose proof (leads_self _ _ _ La) as Sl. pose proof (leads_self _ _ _ Lb) as Sr.
    destruct (ty_value_total m lr W) as [lt Elt]. destruct (ty_value_total m rr W) as [rt Ert]. rewrite Elt, Ert. cbn [obind].
    pose proof (proj1 (ty_value_exact m lr W lt) Elt) as Vl. pose proof (proj1 (ty_value_exact m rr W rt) Ert) as Vr.
    assert (VA : forall t, lt = Some t <-> val m a t) by (intros t; rewrite Vl; split; intros (r & L & G); exists lr; split; auto; [rewrite (D _ _ _ Sl L)|rewrite (D _ _ _ La L)]; exact G).
    assert (VB : forall t, rt = Some t <-> val m b t) by (intros t; rewrite Vr; split; intros (r & L & G); exists rr; split; auto; [rewrite (D _ _ _ Sr L)|rewrite (D _ _ _ Lb L)]; exact G).
    assert (MAIN : forall nv, (forall t, nv = Some t <-> lt = Some t \/ rt = Some t) -> (forall t u, lt = Some t -> rt = Some u -> t = u) ->
       (Done (insert rr (TValue nv) (insert lr (TVar rr) m)) = Crash /\ exists t u, t <> u /\ val m a t /\ val m b u) \/
       exists m', Done (insert rr (TValue nv) (insert lr (TVar rr) m)) = Done m' /\ wf m' /\
    (forall x y, (exists r, leads m' x r /\ leads m' y r) <->
       (exists r, leads m x r /\ leads m y r) \/
       ((exists r, leads m x r /\ leads m a r) /\ (exists r, leads m b r /\ leads m y r)) \/
       ((exists r, leads m x r /\ leads m b r) /\ (exists r, leads m a r /\ leads m y r))) /\
    (forall x t, val m' x t <-> val m x t \/ ((exists r, leads m x r /\ leads m a r) /\ val m b t) \/ ((exists r, leads m x r /\ leads m b r) /\ val m a t)) /\
    (forall t u, val m a t -> val m b u -> t = u)).
    { intros nv HN HC. right. set (m' := insert rr (TValue nv) (insert lr (TVar rr) m)). exists m'. split; auto.
      assert (J : forall v r, leads m v r -> leads m' v (if veq r lr then rr else r)) by (intros; now apply leads_join).
      assert (JI : forall v r, leads m' v r -> exists r0, leads m v r0 /\ r = if veq r0 lr then rr else r0).
      { intros v r H. destruct (W v) as [r0 H0]. exists r0. split; auto. eapply leads_det; eauto. }
      assert (Grr : get rr m' = Some (TValue nv)) by (unfold m', UnifyModel.insert; cbn; destruct (veq rr rr); congruence).
      assert (GO : forall v, v <> rr -> v <> lr -> get v m' = get v m) by (intros u N1 N2; unfold m', UnifyModel.insert; cbn; destruct (veq u rr); [congruence|]; destruct (veq u lr); congruence).
      split; [intros v; destruct (W v) as [r H]; eauto|]. split; [|split].
      - intros x y. split.
        + intros (r & H1 & H2). destruct (JI _ _ H1) as (r1 & L1 & E1). destruct (JI _ _ H2) as (r2 & L2 & E2). subst r. destruct (veq r1 lr) as [->|N1], (veq r2 lr) as [->|N2]; subst; eauto.
          * right. left. split; eauto.
          * right. right. split; eauto.
        + intros [(r & H1 & H2)|[[(r & H1 & H2) (s & H3 & H4)]|[(r & H1 & H2) (s & H3 & H4)]]]; [eauto| |]; exists rr.
          * rewrite (D _ _ _ H2 La) in H1. rewrite (D _ _ _ H3 Lb) in H4. apply J in H1. apply J in H4. destruct (veq lr lr); [|congruence]. destruct (veq rr lr); [congruence|]. auto.
          * rewrite (D _ _ _ H2 Lb) in H1. rewrite (D _ _ _ H3 La) in H4. apply J in H1. apply J in H4. destruct (veq lr lr); [|congruence]. destruct (veq rr lr); [congruence|]. auto.
      - intros x t. split.
        + intros (r & H1 & G). destruct (JI _ _ H1) as (r1 & L1 & E1). subst r. destruct (veq r1 lr) as [->|N1].
          * rewrite Grr in G. injection G as G. apply HN in G. destruct G as [G|G]; [left; exists lr; split; auto|right; left; split; [eauto|now apply VB]].
            apply Vl in G. destruct G as (s & L & G). rewrite (D _ _ _ Sl L). exact G.
          * destruct (veq r1 rr) as [->|N2].
            -- rewrite Grr in G. injection G as G. apply HN in G. destruct G as [G|G]; [right; right; split; [eauto|now apply VA]|left; exists rr; split; auto]. apply Vr in G. destruct G as (s & L & G). rewrite (D _ _ _ Sr L). exact G.
            -- left. exists r1. split; auto. rewrite <- (GO r1); auto.
        + intros [(r & L & G)|[[(r & H1 & H2) HV]|[(r & H1 & H2) HV]]].
          * pose proof (J _ _ L) as J1. destruct (veq r lr) as [->|N1].
            -- exists rr. split; auto. rewrite Grr. do 2 f_equal. apply HN. left. apply Vl. exists lr. auto.
            -- exists r. split; auto. destruct (veq r rr) as [->|N2]; [rewrite Grr; do 2 f_equal; apply HN; right; apply Vr; exists rr; auto|rewrite GO; auto].
          * rewrite (D _ _ _ H2 La) in H1. apply J in H1. destruct (veq lr lr); [|congruence]. exists rr. split; auto. rewrite Grr. do 2 f_equal. apply HN. right. now apply VB.
          * rewrite (D _ _ _ H2 Lb) in H1. apply J in H1. destruct (veq rr lr); [congruence|]. exists rr. split; auto. rewrite Grr. do 2 f_equal. apply HN. left. now apply VA.
      - intros t u HT HU. apply VA in HT. apply VB in HU. eauto. }
    destruct lt as [t|], rt as [u|].
    + destruct (teq t u) as [->|NT].
      * apply MAIN; [intros x; split; [auto|intros [H|H]; exact H]|intros x y H1 H2; congruence].
      * left. split; auto. exists t, u. split; auto. split; [now apply VA|now apply VB].
    + apply MAIN; [intros x; split; [auto|intros [H|H]; [exact H|discriminate]]|intros; discriminate].
    + apply MAIN; [intros x; split; [auto|intros [H|H]; [discriminate|exact H]]|intros; discriminate].
    + apply MAIN; [intros x; split; [auto|intros [H|H]; discriminate]|intros; discriminate].
Qed.
Lemma var_value_effect : forall m a t, wf m ->
  (unify_var_value m a t = Crash /\ exists u, t <> u /\ val m a u) \/
  exists m', unify_var_value m a t = Done m' /\ wf m' /\ (forall x r, leads m' x r <-> leads m x r) /\
    (forall x u, val m' x u <-> val m x u \/ ((exists r, leads m x r /\ leads m a r) /\ u = t)) /\ (forall u, val m a u -> u = t).
Proof.
  intros m a t W. destruct (W a) as [r La]. assert (D : forall v r s, leads m v r -> leads m v s -> r = s) by (intros; eapply leads_det; eauto).
  unfold UnifyModel.unify_var_value. destruct (ty_value_total m a W) as [o Eo]. rewrite Eo. cbn [obind]. pose proof (proj1 (ty_value_exact m a W o) Eo) as Vo.
  destruct o as [u|].
  - assert (Vu : val m a u) by now apply Vo. destruct (teq u t) as [->|N].
    + right. exists m. split; auto. split; auto. split; [tauto|]. split.
      * intros x u. split; auto. intros [H|[(s & H1 & H2) ->]]; auto. destruct Vu as (q & H3 & G). exists q. split; auto. rewrite (D _ _ _ H3 H2). exact H1.
      * intros u H. eapply val_det; eauto.
    + left. split; auto. exists u. auto.
  - right. rewrite (proj2 (root_var_exact m a r) La). cbn [obind]. set (m' := insert r (TValue (Some t)) m). exists m'. split; auto. pose proof (leads_self _ _ _ La) as SR.
    assert (J : forall v s, leads m v s -> leads m' v s) by (intros; now apply leads_set).
    assert (JI : forall v s, leads m' v s <-> leads m v s) by (intros v s; split; auto; intros H; destruct (W v) as [s0 H0]; rewrite (leads_det _ _ _ H _ (J _ _ H0)); exact H0).
    assert (Gr : get r m' = Some (TValue (Some t))) by (unfold m', UnifyModel.insert; cbn; destruct (veq r r); congruence).
    assert (GO : forall v, v <> r -> get v m' = get v m) by (intros u N1; unfold m', UnifyModel.insert; cbn; destruct (veq u r); congruence).
    split; [intros v; destruct (W v) as [s H]; eauto|]. split; auto. split.
    + intros x u. split.
      * intros (s & L & G). apply JI in L. destruct (veq s r) as [->|N]; [right; rewrite Gr in G; split; [eauto|congruence]|left; exists s; split; auto; rewrite <- (GO s); auto].
      * intros [(s & L & G)|[(s & H1 & H2) ->]].
        -- exists s. split; [now apply JI|]. rewrite GO; auto. intros ->. assert (E : None = Some u) by (apply Vo; exists r; auto). discriminate.
        -- exists r. split; auto. apply JI. rewrite (D _ _ _ La H2). exact H1.
    + intros u H. apply Vo in H. discriminate.
Qed.

(** * All sequences of operations *)
Lemma conn_snoc_value : forall ops a t x y, conn (ops ++ [VarValue a t]) x y <-> conn ops x y.
Proof.
  intros ops a t x y. split; intros H; induction H as [x y H|x|x y H IH|x y z H1 IH1 H2 IH2].
  - apply rst_step. apply in_app_iff in H. destruct H as [H|[H|[]]]; auto. discriminate.
  - apply rst_refl.
  - apply rst_sym; auto.
  - eapply rst_trans; eauto.
  - apply rst_step. apply in_app_iff. auto.
  - apply rst_refl.
  - apply rst_sym; auto.
  - eapply rst_trans; eauto.
Qed.
Lemma conn_mono : forall ops more x y, conn ops x y -> conn (ops ++ more) x y.
Proof. intros ops more x y H. induction H as [x y H|x|x y H IH|x y z H1 IH1 H2 IH2]; [apply rst_step; apply in_app_iff; auto|apply rst_refl|apply rst_sym; auto|eapply rst_trans; eauto]. Qed.
Lemma conn_snoc : forall ops a b x y, conn (ops ++ [VarVar a b]) x y <-> conn ops x y \/ (conn ops x a /\ conn ops b y) \/ (conn ops x b /\ conn ops a y).
Proof.
  intros ops a b x y. split.
  - intros H. assert (S : forall u v, conn ops u v -> conn ops v u) by (intros; now apply rst_sym). assert (TR : forall u v w, conn ops u v -> conn ops v w -> conn ops u w) by (intros; eapply rst_trans; eauto).
    induction H as [x y H|x|x y H IH|x y z H1 IH1 H2 IH2].
    + apply in_app_iff in H. destruct H as [H|[H|[]]]; [left; now apply rst_step|]. injection H as -> ->. right. left. split; apply rst_refl.
    + left. apply rst_refl.
    + destruct IH as [H1|[[H1 H2]|[H1 H2]]]; [left|right; right|right; left]; auto.
    + destruct IH1 as [P|[[P1 P2]|[P1 P2]]], IH2 as [Q|[[Q1 Q2]|[Q1 Q2]]]; eauto 8.
  - assert (AB : conn (ops ++ [VarVar a b]) a b) by (apply rst_step; apply in_app_iff; right; now left).
    intros [H|[[H1 H2]|[H1 H2]]].
    + now apply conn_mono.
    + eapply rst_trans; [apply conn_mono; exact H1|]. eapply rst_trans; [exact AB|]. now apply conn_mono.
    + eapply rst_trans; [apply conn_mono; exact H1|]. eapply rst_trans; [apply rst_sym; exact AB|]. now apply conn_mono.
Qed.
Definition inv (m : mapping) (ops : list op) : Prop :=
  wf m /\ (forall x y, (exists r, leads m x r /\ leads m y r) <-> conn ops x y) /\ (forall x t, val m x t <-> exists b, conn ops x b /\ In (VarValue b t) ops).
Lemma conflict_mono : forall ops o, conflict ops -> conflict (ops ++ [o]).
Proof. intros ops o (a & b & t & u & N & A & B & C). exists a, b, t, u. split; auto. split; [apply in_app_iff; auto|]. split; [apply in_app_iff; auto|]. now apply conn_mono. Qed.
Lemma run_spec : forall ops, (run ops = Crash /\ conflict ops) \/ exists m, run ops = Done m /\ inv m ops /\ ~ conflict ops.
Proof.
  induction ops as [|o ops IH] using rev_ind.
  - right. exists []. split; auto. assert (L : forall v, leads [] v v) by (intros v; apply leads_here; intros w; discriminate). split; [|intros (a & b & t & u & _ & [] & _)]. split; [intros v; eauto|]. split.
    + intros x y. split.
      * intros (r & H1 & H2). rewrite <- (leads_det _ _ _ (L x) _ H1) in H2. rewrite (leads_det _ _ _ H2 _ (L y)). apply rst_refl.
      * intros H. assert (E : x = y) by (induction H as [x y []|x|x y H IH|x y z H1 IH1 H2 IH2]; congruence). subst. exists y. auto.
    + intros x t. split; [intros (r & H1 & H2); discriminate|intros (b & _ & [])].
  - unfold run in *. rewrite fold_left_app. cbn [fold_left]. destruct IH as [[E C]|(m & E & (W & CL & VL) & NC)]; rewrite E; cbn [step obind].
    + left. split; auto. now apply conflict_mono.
    + assert (CS : forall x y, conn ops x y -> conn ops y x) by (intros; now apply rst_sym). assert (CT : forall x y z, conn ops x y -> conn ops y z -> conn ops x z) by (intros; eapply rst_trans; eauto).
      assert (VC : forall x y t, conn ops x y -> val m y t -> val m x t) by (intros x y t H HV; apply VL in HV; destruct HV as (c & H1 & H2); apply VL; exists c; split; auto; eapply CT; eauto).
      destruct o as [a b|a t].
      * destruct (var_var_effect m a b W) as [[E2 (t & u & N & HT & HU)]|(m' & E2 & W' & CL' & VL' & NC')]; rewrite E2.
        -- left. split; auto. apply VL in HT. apply VL in HU. destruct HT as (p & P1 & P2), HU as (q & Q1 & Q2). exists p, q, t, u. split; auto. split; [apply in_app_iff; auto|]. split; [apply in_app_iff; auto|]. apply conn_snoc. right. left. split; auto.
        -- right. exists m'. split; auto.
           assert (CL2 : forall x y, (exists r, leads m' x r /\ leads m' y r) <-> conn (ops ++ [VarVar a b]) x y) by (intros x y; rewrite CL', !CL, conn_snoc; tauto).
           assert (VL2 : forall x t, val m' x t <-> exists c, conn (ops ++ [VarVar a b]) x c /\ In (VarValue c t) (ops ++ [VarVar a b])).
           { intros x t. rewrite VL', !CL, !VL. split.
             - intros [(c & H1 & H2)|[[H (c & H1 & H2)]|[H (c & H1 & H2)]]]; exists c; (split; [rewrite conn_snoc; auto|apply in_app_iff; auto]).
             - intros (c & H1 & H2). apply in_app_iff in H2. destruct H2 as [H2|[H2|[]]]; [|discriminate]. apply conn_snoc in H1. destruct H1 as [H1|[[H1 H3]|[H1 H3]]]; eauto 7. }
           split; [split; auto|]. intros (p & q & t & u & N & P & Q & PQ).
           assert (VP : val m' p t) by (apply VL2; exists p; split; auto; apply rst_refl). assert (VQ : val m' p u) by (apply VL2; exists q; auto). apply N. eapply val_det; eauto.
      * destruct (var_value_effect m a t W) as [[E2 (u & N & HU)]|(m' & E2 & W' & CL' & VL' & NC')]; rewrite E2.
        -- left. split; auto. apply VL in HU. destruct HU as (q & Q1 & Q2). exists a, q, t, u. split; auto. split; [apply in_app_iff; right; now left|]. split; [apply in_app_iff; auto|]. now apply conn_mono.
        -- right. exists m'. split; auto.
           assert (CL2 : forall x y, (exists r, leads m' x r /\ leads m' y r) <-> conn (ops ++ [VarValue a t]) x y) by (intros x y; rewrite conn_snoc_value, <- CL; split; intros (r & H1 & H2); exists r; split; apply CL'; auto).
           assert (VL2 : forall x u, val m' x u <-> exists c, conn (ops ++ [VarValue a t]) x c /\ In (VarValue c u) (ops ++ [VarValue a t])).
           { intros x u. rewrite VL', CL, VL. split.
             - intros [(c & H1 & H2)|[H ->]]; [exists c|exists a]; (split; [now apply conn_snoc_value|apply in_app_iff; cbn; auto]).
             - intros (c & H1 & H2). apply conn_snoc_value in H1. apply in_app_iff in H2. destruct H2 as [H2|[H2|[]]]; [eauto|]. injection H2 as -> ->. right. auto. }
           split; [split; auto|]. intros (p & q & t1 & u & N & P & Q & PQ).
           assert (VP : val m' p t1) by (apply VL2; exists p; split; auto; apply rst_refl). assert (VQ : val m' p u) by (apply VL2; exists q; auto). apply N. eapply val_det; eauto.
Qed.

(** C22.  Two variables have the same representative iff they were connected. *)
Theorem classes_exact : forall ops m a b, run ops = Done m -> (root_var m a = root_var m b <-> conn ops a b).
Proof.
  intros ops m a b H. destruct (run_spec ops) as [[E _]|(m' & E & (W & CL & _) & _)]; [congruence|]. assert (m' = m) by congruence. subst m'. rewrite <- CL. destruct (W a) as [r La]. destruct (W b) as [s Lb].
  rewrite (proj2 (root_var_exact m a r) La), (proj2 (root_var_exact m b s) Lb). split; [intros E2; injection E2 as <-; eauto|]. intros (q & H1 & H2). rewrite (leads_det _ _ _ La _ H1), (leads_det _ _ _ Lb _ H2). reflexivity.
Qed.
(** A variable has exactly the value given to a variable of its class. *)
Theorem value_exact : forall ops m a t, run ops = Done m -> (ty_value m a = Done (Some t) <-> exists b, conn ops a b /\ In (VarValue b t) ops).
Proof.
  intros ops m a t H. destruct (run_spec ops) as [[E _]|(m' & E & (W & _ & VL) & _)]; [congruence|]. assert (m' = m) by congruence. subst m'. rewrite <- VL. rewrite (ty_value_exact m a W). split; [intros HH; now apply HH|]. intros HV u. split; [intros E2; injection E2 as <-; auto|]. intros HU. f_equal. eapply val_det; eauto.
Qed.
Theorem unbound_exact : forall ops m a, run ops = Done m -> (ty_value m a = Done None <-> forall b t, conn ops a b -> ~ In (VarValue b t) ops).
Proof.
  intros ops m a H. destruct (run_spec ops) as [[E _]|(m' & E & (W & _ & VL) & _)]; [congruence|]. assert (m' = m) by congruence. subst m'. rewrite (ty_value_exact m a W). split.
  - intros HH b t C I. assert (HV : val m a t) by (apply VL; eauto). apply HH in HV. discriminate.
  - intros HH t. split; [discriminate|]. intros HV. exfalso. apply VL in HV. destruct HV as (b & C & I). eapply HH; eauto.
Qed.
(** The table panics exactly when two different values meet, and never loops. *)
Theorem table_panics_iff : forall ops, run ops = Crash <-> conflict ops.
Proof. intros ops. destruct (run_spec ops) as [[E C]|(m & E & _ & NC)]; rewrite E; split; intros H; auto; try discriminate; contradiction. Qed.
Theorem table_never_loops : forall ops, run ops <> Loop /\ forall m a, run ops = Done m -> root_var m a <> Loop /\ ty_value m a <> Loop.
Proof.
  intros ops. destruct (run_spec ops) as [[E C]|(m' & E & (W & _ & _) & _)]; rewrite E; (split; [discriminate|]); intros m a H; [discriminate|]. injection H as ->. destruct (W a) as [r La]. rewrite (proj2 (root_var_exact m a r) La). split; [discriminate|]. destruct (ty_value_total m a W) as [o ->]. discriminate.
Qed.
End Props.

(** * Snapshots (C23), table part *)
Section Snap.
Variables (V T : Type).
(** whatever happened in between, as long as it left the older snapshots alone *)
Theorem rollback_restores : forall (t t' : table V T), t_snaps t' = t_snaps (snapshot V T t) -> rollback V T t' = Done t.
Proof. intros [m s] [m' s'] H. cbn in H. subst s'. reflexivity. Qed.
End Snap.

(** concrete run: ?1 ~ ?2, ?3 ~ ?4, ?2 := 7, ?4 ~ ?1 *)
Definition ops_ex : list (op nat nat) := [VarVar _ _ 1 2; VarVar _ _ 3 4; VarValue _ _ 2 7; VarVar _ _ 4 1].
Example run_example : exists m, run nat nat Nat.eq_dec Nat.eq_dec ops_ex = Done m /\ ty_value nat nat Nat.eq_dec m 3 = Done (Some 7) /\ root_var nat nat Nat.eq_dec m 3 = root_var nat nat Nat.eq_dec m 1 /\ ty_value nat nat Nat.eq_dec m 5 = Done None.
Proof. eexists. split; [reflexivity|]. vm_compute. auto. Qed.
Example conflict_example : run nat nat Nat.eq_dec Nat.eq_dec [VarValue _ _ 1 7; VarValue _ _ 2 8; VarVar _ _ 1 2] = Crash.
Proof. reflexivity. Qed.

Print Assumptions classes_exact.
Print Assumptions value_exact.
Print Assumptions unbound_exact.
Print Assumptions table_panics_iff.
Print Assumptions table_never_loops.
Print Assumptions rollback_restores.
