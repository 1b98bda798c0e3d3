(** The event list always replays to the trees built so far, and snapshots can be restored. *)
From Coq Require Import Permutation.
From Verif Require Import Base SyntaxKind ParserModel ParserSpec ParserProofs.

Lemma kind_eqb_reflect : forall a b, reflect (a = b) (kind_eqb a b).
Proof. intros a b. apply iff_reflect. symmetry. apply kind_eqb_spec. Qed.

Inductive stt := SNode (k : kind) (used : bool) | SGone | SLive.
Inductive fo := FS (m : nat) (s : stt) | FO (c : call).
Fixpoint flat_item (i : item) : list fo :=
  match i with
  | INode m u k ch => FS m (SNode k u) :: flat_map flat_item ch ++ [FO CFinish]
  | IGone m => [FS m SGone]
  | ITok k n => [FO (CToken k n)]
  | IErr m => [FO (CError m)]
  end.
Definition flat_items := flat_map flat_item.
Definition mark_list (f : frame) : list nat := match f_mark f with Some m => [m] | None => [] end.
Definition flat_frame (f : frame) : list fo := map (fun m => FS m SLive) (mark_list f) ++ flat_items (f_items f).
Fixpoint flat_stack (stk : list frame) : list fo := match stk with [] => [] | f :: r => flat_stack r ++ flat_frame f end.
Definition strip (x : fo) : lout := match x with FS m _ => LS m | FO c => LO c end.
Definition labs (l : list fo) : list nat := flat_map (fun x => match x with FS m _ => [m] | FO _ => [] end) l.
Definition umarks (stk : list frame) : list nat := flat_map (fun f => if f_prec f then [] else mark_list f) stk.
Fixpoint toks_of (es : list event) : nat := match es with [] => 0 | EToken _ n :: r => n + toks_of r | _ :: r => toks_of r end.

Lemma toks_of_app : forall a b, toks_of (a ++ b) = toks_of a + toks_of b.
Proof. induction a as [|[k fp| |k n|m] a IH]; intros b; cbn in *; auto. rewrite IH. lia. Qed.
Lemma toks_of_replace : forall es i k fp k' fp', nth_error es i = Some (EStart k fp) -> toks_of (replace_at es i (EStart k' fp')) = toks_of es.
Proof.
  induction es as [|e es IH]; intros [|i] k fp k' fp' H; cbn in *; try discriminate; [injection H as ->; reflexivity|].
  destruct e; erewrite IH; eauto.
Qed.
Lemma labs_app : forall a b, labs (a ++ b) = labs a ++ labs b.
Proof. intros. apply flat_map_app. Qed.
Lemma labs_strip : forall l x, In x (labs l) <-> In (LS x) (map strip l).
Proof. induction l as [|[m s|c] l IH]; intros x; cbn; [tauto| |]; rewrite IH; [split; intros [H|H]; auto; left; congruence|]. split; auto. intros [H|H]; [discriminate|auto]. Qed.
Lemma labs_in : forall l x, In x (labs l) <-> exists s, In (FS x s) l.
Proof.
  induction l as [|[m s|c] l IH]; intros x; cbn.
  - split; [tauto|intros (s & [])].
  - rewrite IH. split; [intros [->|(t & H)]; eauto|]. intros (t & [H|H]); [left; congruence|eauto].
  - rewrite IH. split; [intros (t & H); eauto|]. intros (t & [H|H]); [discriminate|eauto].
Qed.

Definition lab_ok (es : list event) (x : fo) : Prop :=
  match x with
  | FS m (SNode k u) => exists fp, nth_error es m = Some (EStart k fp) /\ k <> TOMBSTONE /\ (u = false -> fp = None)
  | FS m SGone => exists fp, nth_error es m = Some (EStart TOMBSTONE fp)
  | FS m SLive => nth_error es m = Some tombstone
  | FO _ => True
  end.
Record Main (p : parser) (fl : list fo) (um : list nat) : Prop := mkMain {
  mn_eof : Forall (fun t => rt_kind (fst t) <> EOF) (p_toks p);
  mn_pos : p_pos p = toks_of (p_events p);
  mn_le : p_pos p <= length (p_toks p);
  mn_wf : wf_links (map skel (p_events p));
  mn_flat : procL (map skel (p_events p)) = map strip fl;
  mn_lab : Forall (lab_ok (p_events p)) fl;
  mn_nodup : NoDup (labs fl);
  mn_um : forall i m, In m um -> link (map skel (p_events p)) i <> Some m
}.

Lemma Main_um : forall p fl um um', Main p fl um -> (forall x, In x um' -> In x um) -> Main p fl um'.
Proof. intros p fl um um' [A B C D E F G H] S. constructor; auto. Qed.
Lemma lab_lt : forall p fl um x, Main p fl um -> In x (labs fl) -> x < length (p_events p).
Proof.
  intros p fl um x M H. apply labs_in in H. destruct H as [s H]. pose proof (proj1 (Forall_forall _ _) (mn_lab _ _ _ M) _ H) as L.
  destruct s as [k u| |]; cbn in L; [destruct L as (fp & L & _)|destruct L as (fp & L)|]; apply nth_error_Some; congruence.
Qed.
Lemma lab_ok_app : forall es e x, lab_ok es x -> lab_ok (es ++ [e]) x.
Proof.
  intros es e [m [k u| |]|c] H; cbn in *; auto.
  - destruct H as (fp & H & R). exists fp. split; auto. rewrite nth_error_app1; auto. apply nth_error_Some. congruence.
  - destruct H as (fp & H). exists fp. rewrite nth_error_app1; auto. apply nth_error_Some. congruence.
  - rewrite nth_error_app1; auto. apply nth_error_Some. congruence.
Qed.
Lemma lab_ok_replace : forall es i e fl, ~ In i (labs fl) -> Forall (lab_ok es) fl -> Forall (lab_ok (replace_at es i e)) fl.
Proof.
  intros es i e fl N H. rewrite Forall_forall in *. intros x Hx. specialize (H x Hx).
  destruct x as [m s|c]; [|exact I]. assert (i <> m) by (intros ->; apply N; apply labs_in; eauto).
  destruct s as [k u| |]; cbn in *; rewrite replace_at_other by auto; exact H.
Qed.
Lemma skel_tomb : skel tombstone = KS None. Proof. reflexivity. Qed.

(** ** other events *)
Lemma main_push : forall p fl um e c p', Main p fl um -> skel e = KO c ->
  p_toks p' = p_toks p -> p_events p' = p_events p -> p_pos p' = p_pos p + toks_of [e] -> p_pos p' <= length (p_toks p) ->
  Main (push_event e p') (fl ++ [FO c]) um.
Proof.
  intros p fl um e c p' [A B C D E F G H] S T V P L. unfold push_event, set_events. constructor; cbn [p_toks p_events p_pos]; rewrite ?T, ?V; auto.
  - rewrite toks_of_app, P, B. reflexivity.
  - rewrite map_app. cbn [map]. apply wf_push; auto. rewrite S. discriminate.
  - rewrite map_app. cbn [map]. rewrite S. rewrite procL_push_other by auto. now rewrite E, map_app.
  - apply Forall_app. split; [|constructor; [exact I|constructor]]. eapply Forall_impl; [|exact F]. intros; now apply lab_ok_app.
  - rewrite labs_app. cbn. now rewrite app_nil_r.
  - intros i m Hm Hl. rewrite map_app in Hl. cbn [map] in Hl. destruct (lt_dec i (length (map skel (p_events p)))) as [Li|Li].
    + rewrite link_app in Hl by auto. now apply (H i m).
    + unfold link in Hl. rewrite nth_error_app2 in Hl by lia. destruct (i - _) as [|[|z]]; cbn in Hl; try discriminate. rewrite S in Hl. discriminate.
Qed.
(** ** a new marker *)
Lemma main_start : forall p fl um, Main p fl um -> Main (push_event tombstone p) (fl ++ [FS (length (p_events p)) SLive]) (length (p_events p) :: um).
Proof.
  intros p fl um M. pose proof M as [A B C D E F G H]. unfold push_event, set_events. constructor; cbn [p_toks p_events p_pos]; auto.
  - rewrite toks_of_app. cbn. lia.
  - rewrite map_app. apply wf_push; auto. discriminate.
  - rewrite map_app. cbn [map skel tombstone]. rewrite procL_push_start by auto. now rewrite E, map_app, map_length.
  - apply Forall_app. split; [eapply Forall_impl; [|exact F]; intros; now apply lab_ok_app|]. constructor; [|constructor]. cbn. now rewrite nth_error_app2, Nat.sub_diag by lia.
  - rewrite labs_app. cbn. apply NoDup_rev in G. rewrite <- (rev_involutive (labs fl)). rewrite <- (rev_involutive (rev (rev (labs fl)) ++ _)). apply NoDup_rev. rewrite rev_app_distr, rev_involutive. cbn. constructor; auto.
    rewrite <- in_rev. intros K. apply (lab_lt _ _ _ _ M) in K. lia.
  - intros i m Hm Hl. rewrite map_app in Hl. cbn [map skel tombstone] in Hl. destruct (lt_dec i (length (map skel (p_events p)))) as [Li|Li].
    + rewrite link_app in Hl by auto. destruct Hm as [<-|Hm]; [|now apply (H i m)]. destruct (D _ _ Hl) as (_ & X & _). rewrite map_length in X. lia.
    + unfold link in Hl. rewrite nth_error_app2 in Hl by lia. destruct (i - _) as [|[|z]]; cbn in Hl; discriminate.
Qed.
Lemma main_drop_status : forall p A m B um, Main p (A ++ FS m SLive :: B) um -> Main p (A ++ FS m SGone :: B) um.
Proof.
  intros p A m B um [a b c d e f g h]. constructor; auto.
  - rewrite e, !map_app. reflexivity.
  - rewrite Forall_app in *. destruct f as [f1 f2]. inversion f2 as [|? ? f3 f4]; subst. split; auto. constructor; auto. cbn in *. unfold tombstone in f3. eauto.
  - rewrite labs_app in *. exact g.
Qed.
Lemma replace_fp_skel : forall es m k fp k', nth_error es m = Some (EStart k fp) -> map skel (replace_at es m (EStart k' fp)) = map skel es.
Proof.
  intros es m k fp k' H. rewrite map_replace_at. apply replace_at_id. rewrite nth_error_map, H. reflexivity.
Qed.
Lemma NoDup_mid : forall (A B : list nat) x, NoDup (A ++ x :: B) -> ~ In x A /\ ~ In x B.
Proof. intros A B x H. apply NoDup_remove in H. destruct H as [_ H]. rewrite in_app_iff in H. tauto. Qed.

(** ** completing *)
Lemma main_complete : forall p A m B um k, Main p (A ++ FS m SLive :: B) um -> k <> TOMBSTONE ->
  exists p', complete m k p = Ok p' /\ p_toks p' = p_toks p /\ p_events p' = replace_at (p_events p) m (EStart k None) ++ [EFinish] /\ Main p' (A ++ FS m (SNode k false) :: B ++ [FO CFinish]) um.
Proof.
  intros p A m B um k M K. pose proof M as [a b c d e f g h]. rewrite Forall_app in f. destruct f as [f1 f2]. inversion f2 as [|? ? f3 f4]; subst. cbn in f3.
  unfold complete. rewrite f3. cbn [tombstone]. eexists. split; [reflexivity|]. split; [reflexivity|]. split; [reflexivity|].
  set (p1 := set_events (replace_at (p_events p) m (EStart k None)) p).
  replace (A ++ FS m (SNode k false) :: B ++ [FO CFinish]) with ((A ++ FS m (SNode k false) :: B) ++ [FO CFinish]) by (rewrite <- app_assoc; reflexivity).
  assert (M1 : Main p1 (A ++ FS m (SNode k false) :: B) um).
  { pose proof (replace_fp_skel _ _ _ _ k f3) as SK. rewrite labs_app in g. cbn in g. destruct (NoDup_mid _ _ _ g) as [g1 g2].
    unfold p1, set_events. constructor; cbn [p_toks p_events p_pos]; rewrite ?SK; auto.
    - unfold tombstone in f3. now rewrite (toks_of_replace _ _ _ _ _ _ f3).
    - rewrite e, !map_app. reflexivity.
    - apply Forall_app. split; [now apply lab_ok_replace|]. constructor; [|now apply lab_ok_replace]. cbn. exists None. split; auto. apply replace_at_same. apply nth_error_Some. congruence.
    - rewrite labs_app. exact g. }
  apply (main_push p1 _ um EFinish CFinish p1 M1); auto.
Qed.
(** ** an unused marker disappears *)
Lemma split_last_app : forall A (l : list A) x, split_last (l ++ [x]) = Some (l, x).
Proof. intros. unfold split_last. rewrite rev_app_distr. cbn. now rewrite rev_involutive. Qed.
Lemma snoc_cases : forall A (l : list A), l = [] \/ exists a x, l = a ++ [x].
Proof. intros A l. destruct (rev l) as [|x r] eqn:E; [left; rewrite <- (rev_involutive l), E; reflexivity|right]. exists (rev r), x. rewrite <- (rev_involutive l), E. reflexivity. Qed.

Lemma main_pop : forall p A m B um, Main p (A ++ FS m SLive :: B) um -> In m um -> S m = length (p_events p) ->
  exists es, p_events p = es ++ [tombstone] /\ m = length es /\ B = [] /\ Main (set_events es p) A um.
Proof.
  intros p A m B um M U L. pose proof M as [a b c d e f g h]. rewrite Forall_app in f. destruct f as [f1 f2]. inversion f2 as [|? ? f3 f4]; subst. cbn in f3.
  destruct (snoc_cases _ (p_events p)) as [E|(es & x & E)]; [rewrite E in L; discriminate|]. exists es. rewrite E in L. rewrite app_length in L. cbn in L.
  assert (m = length es) by lia. subst m. rewrite E, nth_error_app2, Nat.sub_diag in f3 by lia. cbn in f3. injection f3 as ->.
  split; auto. split; auto. rewrite E, map_app in *. cbn [map] in *. rewrite skel_tomb in *.
  assert (W : wf_links (map skel es)). { apply (wf_pop _ (KS None)); auto. intros i. rewrite map_length. now apply h. }
  rewrite procL_push_start in e by auto. rewrite map_length in e. rewrite labs_app in g. cbn in g.
  assert (B = []).
  { destruct (snoc_cases _ B) as [->|(B' & y & ->)]; auto. exfalso. rewrite map_app in e. cbn in e. rewrite map_app in e. cbn in e.
    change (LS (length es) :: map strip B' ++ [strip y]) with ((LS (length es) :: map strip B') ++ [strip y]) in e. rewrite app_assoc in e. apply app_inj_tail in e. destruct e as [_ e].
    apply NoDup_mid in g. destruct g as [_ g]. apply g. rewrite labs_app. apply in_or_app. right. destruct y as [q ?|]; cbn in e; [|discriminate]. injection e as ->. now left. }
  subst B. split; auto. rewrite map_app in e. cbn in e. apply app_inj_tail in e. destruct e as [e _].
  unfold set_events. constructor; cbn [p_toks p_events p_pos]; auto.
  - rewrite b, ?E, toks_of_app. cbn. lia.
  - rewrite Forall_forall in *. intros y Hy. specialize (f1 y Hy). destruct y as [q s|]; [|exact I]. try rewrite E in f1.
    assert (q <> length es) by (intros ->; apply NoDup_mid in g; apply (proj1 g); apply labs_in; eauto).
    assert (NE : forall z, nth_error (es ++ [tombstone]) q = Some z -> nth_error es q = Some z).
    { intros z Hz. assert (q < length (es ++ [tombstone])) by (apply nth_error_Some; congruence). rewrite app_length in H0. cbn in H0. rewrite nth_error_app1 in Hz by lia. exact Hz. }
    destruct s as [k u| |]; cbn in *; [destruct f1 as (fp & X & Y); exists fp; split; auto|destruct f1 as (fp & X); exists fp; auto|auto].
  - apply NoDup_remove_1 in g. now rewrite app_nil_r in g.
  - intros i m Hm Hl. apply (h i m Hm). rewrite link_app; auto. destruct (lt_dec i (length (map skel es))); auto. unfold link in Hl. rewrite (proj2 (nth_error_None _ i)) in Hl by lia. discriminate.
Qed.
(** ** wrapping *)
Lemma flat_map_ins_strip : forall n c l, ~ In c (labs l) -> flat_map (ins_before n c) (map strip l) = map strip l.
Proof. intros n c l H. apply ins_before_none. now rewrite <- labs_strip. Qed.
Lemma main_precede : forall p A c k B um, Main p (A ++ FS c (SNode k false) :: B) um -> let n := length (p_events p) in ~ In n um ->
  exists p', precede c p = Ok (n, p') /\ p_toks p' = p_toks p /\ p_events p' = replace_at (p_events p ++ [tombstone]) c (EStart k (Some (n - c))) /\
    Main p' (A ++ FS n SLive :: FS c (SNode k true) :: B) um.
Proof.
  intros p A c k B um M n Nu. pose proof M as [a b cc d e f g h]. rewrite Forall_app in f. destruct f as [f1 f2]. inversion f2 as [|? ? f3 f4]; subst. cbn in f3.
  destruct f3 as (fp & X & Kn & U). rewrite (U eq_refl) in X. clear fp U. assert (Lc : c < length (p_events p)) by (apply nth_error_Some; congruence).
  unfold precede, start, push_event. cbn [p_events set_events]. rewrite nth_error_app1, X by auto. eexists. split; [reflexivity|]. cbn [p_toks p_events set_events]. split; [reflexivity|]. split; [reflexivity|].
  rewrite labs_app in g. cbn in g. destruct (NoDup_mid _ _ _ g) as [g1 g2].
  assert (SX : nth_error (map skel (p_events p)) c = Some (KS None)) by (rewrite nth_error_map, X; reflexivity).
  assert (SK : map skel (replace_at (p_events p ++ [tombstone]) c (EStart k (Some (n - c)))) = replace_at (map skel (p_events p) ++ [KS None]) c (KS (Some (length (map skel (p_events p)) - c)))).
  { rewrite map_replace_at, map_app, map_length. reflexivity. }
  assert (Ln : forall l, In n (labs l) -> (forall x, In x (labs l) -> In x (labs (A ++ FS c (SNode k false) :: B))) -> False).
  { intros l H1 H2. apply H2 in H1. apply (lab_lt _ _ _ _ M) in H1. unfold n in H1. lia. }
  unfold set_events. fold n. constructor; cbn [p_toks p_events p_pos]; auto.
  - rewrite b. rewrite (toks_of_replace _ c k None); [rewrite toks_of_app; cbn; lia|]. now rewrite nth_error_app1.
  - rewrite SK. apply wf_link; auto.
  - rewrite SK, procL_link by auto. rewrite e, !map_app, flat_map_app. cbn [map strip flat_map ins_before]. rewrite Nat.eqb_refl, map_length.
    rewrite !flat_map_ins_strip by auto. reflexivity.
  - apply Forall_app. split; [|constructor; [|constructor]].
    + apply lab_ok_replace; auto. eapply Forall_impl; [|exact f1]. intros; now apply lab_ok_app.
    + cbn. rewrite replace_at_other by (unfold n; lia). unfold n. now rewrite nth_error_app2, Nat.sub_diag by lia.
    + cbn. exists (Some (n - c)). split; [|split; [auto|discriminate]]. apply replace_at_same. rewrite app_length. lia.
    + apply lab_ok_replace; auto. eapply Forall_impl; [|exact f4]. intros; now apply lab_ok_app.
  - rewrite labs_app. cbn. assert (Q : NoDup (n :: labs A ++ c :: labs B)).
    { constructor; auto. intros K. apply (Ln (A ++ FS c (SNode k false) :: B)); auto. rewrite labs_app. exact K. }
    clear -Q. change (labs A ++ n :: c :: labs B) with (labs A ++ [n] ++ (c :: labs B)). 
    eapply Permutation_NoDup; [|exact Q]. apply Permutation_middle.
  - intros i m Hm Hl. rewrite SK in Hl. unfold link in Hl. rewrite replace_at_nth in Hl. destruct (Nat.eqb_spec c i) as [->|Ne].
    + destruct (_ <? _); [|discriminate]. injection Hl as Hl. rewrite map_length in Hl. assert (EQ : m = n) by (unfold n; lia). apply Nu. rewrite <- EQ. exact Hm.
    + destruct (lt_dec i (length (map skel (p_events p)))) as [Li|Li]; [rewrite nth_error_app1 in Hl by auto; now apply (h i m)|].
      rewrite nth_error_app2 in Hl by lia. destruct (i - _) as [|[|z]]; cbn in Hl; discriminate.
Qed.
(** ** widening *)
Lemma move_strip : forall t m l, ~ In t (labs l) -> ~ In m (labs l) -> flat_map (move_before t m) (map strip l) = map strip l.
Proof. intros t m l H H'. apply move_before_none; now rewrite <- labs_strip. Qed.
Lemma main_extend : forall p A m B c k D um, Main p (A ++ FS m SLive :: B ++ FS c (SNode k false) :: D) um -> m < c -> ~ In c um ->
  exists p', extend_to c m p = Ok p' /\ p_toks p' = p_toks p /\ p_events p' = replace_at (p_events p) m (EStart TOMBSTONE (Some (c - m))) /\
    Main p' (A ++ FS c (SNode k false) :: FS m SGone :: B ++ D) um.
Proof.
  intros p A m B c k D um M Lt Nu. pose proof M as [a b cc d e f g h].
  rewrite Forall_app in f. destruct f as [f1 f2]. inversion f2 as [|? ? f3 f4]; subst. cbn in f3. rewrite Forall_app in f4. destruct f4 as [f4 f5]. inversion f5 as [|? ? f6 f7]; subst. cbn in f6.
  destruct f6 as (fp & X & Kn & U). rewrite (U eq_refl) in X. clear fp U. unfold tombstone in f3.
  unfold extend_to. rewrite f3. rewrite (proj2 (Nat.leb_le m c)) by lia. eexists. split; [reflexivity|]. cbn [p_toks p_events p_pos set_events]. split; [reflexivity|]. split; [reflexivity|].
  rewrite !labs_app in g. cbn in g. rewrite labs_app in g. cbn in g. destruct (NoDup_mid _ _ _ g) as [g1 g2]. rewrite app_comm_cons, app_assoc in g. destruct (NoDup_mid _ _ _ g) as [g3 g4].
  rewrite in_app_iff in g2, g3. cbn [In] in g2, g3.
  assert (SM : nth_error (map skel (p_events p)) m = Some (KS None)) by (rewrite nth_error_map, f3; reflexivity).
  assert (SC : nth_error (map skel (p_events p)) c = Some (KS None)) by (rewrite nth_error_map, X; reflexivity).
  assert (Lm : m < length (p_events p)) by (apply nth_error_Some; congruence).
  assert (SK : map skel (replace_at (p_events p) m (EStart TOMBSTONE (Some (c - m)))) = replace_at (map skel (p_events p)) m (KS (Some (c - m)))) by (rewrite map_replace_at; reflexivity).
  unfold set_events. constructor; cbn [p_toks p_events p_pos]; auto.
  - rewrite b. now rewrite (toks_of_replace _ m TOMBSTONE None).
  - rewrite SK. apply wf_extend; auto.
  - rewrite SK, procL_extend; auto.
    + rewrite e, !map_app, flat_map_app. cbn [map strip flat_map move_before]. rewrite Nat.eqb_refl. rewrite !map_app, flat_map_app. cbn [map strip flat_map move_before].
      rewrite Nat.eqb_refl. replace (c =? m) with false by (symmetry; apply Nat.eqb_neq; lia). rewrite !move_strip by tauto. reflexivity.
    + rewrite e, !map_app, first_of_app, first_of_none by (rewrite <- labs_strip; tauto). cbn [map strip first_of]. now rewrite Nat.eqb_refl.
  - apply Forall_app. split; [now apply lab_ok_replace|]. constructor; [|constructor].
    + cbn. exists None. rewrite replace_at_other by lia. auto.
    + cbn. exists (Some (c - m)). now apply replace_at_same.
    + apply Forall_app. split; apply lab_ok_replace; auto; tauto.
  - rewrite labs_app. cbn. rewrite labs_app. eapply Permutation_NoDup; [|exact g].
    change (labs A ++ c :: m :: labs B ++ labs D) with (labs A ++ c :: (m :: labs B ++ labs D)).
    rewrite <- app_assoc. apply Permutation_app_head. cbn [app]. symmetry. change (m :: labs B ++ c :: labs D) with ((m :: labs B) ++ c :: labs D). apply (Permutation_middle (m :: labs B) (labs D) c).
  - intros i x Hx Hl. rewrite SK in Hl. unfold link in Hl. rewrite replace_at_nth in Hl. destruct (Nat.eqb_spec m i) as [->|Ne]; [|now apply (h i x)].
    destruct (_ <? _); [|discriminate]. injection Hl as Hl. assert (EQ : x = c) by lia. apply Nu. rewrite <- EQ. exact Hx.
Qed.

(** * Snapshots *)
Definition ext (s p : parser) : Prop := p_toks s = p_toks p /\ exists E, p_events p = p_events s ++ E.
Definition MainS (p : parser) (stk : list frame) : Prop := Main p (flat_stack stk) (umarks stk).
Fixpoint snaps (p : parser) (full : list fo) (stk : list frame) : Prop :=
  match stk with
  | [] => True
  | f :: rest =>
      (match f_snap f with
       | Some s => ext s p /\ MainS s rest /\ snaps s (flat_stack rest) rest /\
           (match f_mark f with Some m => m = length (p_events s) | None => 0 < length (p_events s) end) /\
           exists F, full = flat_stack rest ++ F /\ (forall x, In x (labs F) -> length (p_events s) <= x)
       | None => f_mark f = None \/ f_prec f = true
       end) /\
      (f_prec f = true -> f_snap f = None) /\
      snaps p full rest
  end.
Definition Inv (p : parser) (stk : list frame) : Prop := MainS p stk /\ snaps p (flat_stack stk) stk.

(** what a change of the parser must respect: only events that belong to the part above a snapshot change *)
Lemma snaps_change : forall stk p p' T T', snaps p (flat_stack stk ++ T) stk ->
  (forall s, ext s p -> (forall x, In x (labs T) -> length (p_events s) <= x) -> ext s p') ->
  (forall x, In x (labs T') -> In x (labs T) \/ length (p_events p) <= x) ->
  snaps p' (flat_stack stk ++ T') stk.
Proof.
  induction stk as [|f rest IH]; intros p p' T T' S C L; [exact I|]. cbn [snaps flat_stack] in *. destruct S as (S1 & S2 & S3). split; [|split; auto].
  - destruct (f_snap f) as [s|]; auto. destruct S1 as (E & M & R & K & F & Q & HF).
    assert (QF : F = flat_frame f ++ T) by (rewrite <- app_assoc in Q; now apply app_inv_head in Q). subst F.
    assert (Lp : length (p_events s) <= length (p_events p)) by (destruct E as (_ & E & ->); rewrite app_length; lia).
    split; [|split; [auto|split; [auto|split; [auto|]]]].
    + apply C; auto. intros x Hx. apply HF. rewrite labs_app. apply in_or_app. auto.
    + exists (flat_frame f ++ T'). split; [now rewrite app_assoc|]. intros x Hx. rewrite labs_app in Hx. apply in_app_or in Hx.
      destruct Hx as [Hx|Hx]; [apply HF; rewrite labs_app; apply in_or_app; auto|]. apply L in Hx. destruct Hx as [Hx|Hx]; [apply HF; rewrite labs_app; apply in_or_app; auto|lia].
  - rewrite <- app_assoc in *. apply (IH p p' (flat_frame f ++ T) (flat_frame f ++ T')); auto.
    + intros s Es Hs. apply C; auto. intros x Hx. apply Hs. rewrite labs_app. apply in_or_app. auto.
    + intros x Hx. rewrite labs_app in *. apply in_app_or in Hx. rewrite in_app_iff. destruct Hx as [Hx|Hx]; auto. apply L in Hx. tauto.
Qed.
(** the same for a stack whose top frame gets other items *)
Lemma snaps_top : forall p p' f f' rest, snaps p (flat_stack (f :: rest)) (f :: rest) ->
  f_mark f' = f_mark f -> f_prec f' = f_prec f -> f_snap f' = f_snap f -> forall T',
  (forall s, ext s p -> (forall x, In x (labs (flat_frame f)) -> length (p_events s) <= x) -> ext s p') ->
  (forall x, In x (labs T') -> In x (labs (flat_frame f)) \/ length (p_events p) <= x) ->
  snaps p' (flat_stack rest ++ T') (f' :: rest).
Proof.
  intros p p' f f' rest S Hm Hp Hs T' C L. cbn [snaps flat_stack] in *. destruct S as (S1 & S2 & S3). rewrite Hm, Hp, Hs. split; [|split; auto].
  - destruct (f_snap f) as [s|]; auto. destruct S1 as (E & M & R & K & F & Q & HF). apply app_inv_head in Q. subst F.
    split; [now apply C|]. split; auto. split; auto. split; auto. exists T'. split; auto. intros x Hx.
    assert (Lp : length (p_events s) <= length (p_events p)) by (destruct E as (_ & E & ->); rewrite app_length; lia).
    apply L in Hx. destruct Hx as [Hx|Hx]; [auto|lia].
  - now apply (snaps_change rest p p' (flat_frame f) T').
Qed.

Lemma ext_push : forall s p p', ext s p -> p_toks p' = p_toks p -> (exists E, p_events p' = p_events p ++ E) -> ext s p'.
Proof. intros s p p' [T (E & H)] T' (E' & H'). split; [congruence|]. exists (E ++ E'). now rewrite H', H, app_assoc. Qed.
Lemma ext_replace : forall s p p' i e E', ext s p -> p_toks p' = p_toks p -> length (p_events s) <= i -> p_events p' = replace_at (p_events p) i e ++ E' -> ext s p'.
Proof. intros s p p' i e E' [T (E & H)] T' L H'. split; [congruence|]. rewrite H', H. rewrite replace_at_app by auto. eexists. now rewrite <- app_assoc. Qed.
Lemma ext_replace2 : forall s p p' i e e', ext s p -> p_toks p' = p_toks p -> length (p_events s) <= i -> p_events p' = replace_at (p_events p ++ [e']) i e -> ext s p'.
Proof. intros s p p' i e e' [T (E & H)] T' L H'. split; [congruence|]. rewrite H', H. rewrite <- app_assoc, replace_at_app by auto. eauto. Qed.

Lemma flat_items_app : forall a b, flat_items (a ++ b) = flat_items a ++ flat_items b.
Proof. intros. apply flat_map_app. Qed.
Lemma flat_frame_add : forall l f, flat_frame (add_items l f) = flat_frame f ++ flat_items l.
Proof. intros l f. unfold flat_frame, add_items, mark_list. cbn. rewrite flat_items_app. now rewrite app_assoc. Qed.
Lemma flat_node : forall m u k ch, flat_items [INode m u k ch] = FS m (SNode k u) :: flat_items ch ++ [FO CFinish].
Proof. intros. unfold flat_items. cbn. now rewrite app_nil_r. Qed.
Lemma umarks_live : forall stk x, In x (umarks stk) -> In (FS x SLive) (flat_stack stk).
Proof.
  induction stk as [|f r IH]; intros x H; [destruct H|]. cbn in *. apply in_app_or in H. apply in_or_app. destruct H as [H|H]; [|auto].
  right. unfold flat_frame. apply in_or_app. left. destruct (f_prec f); [destruct H|]. apply in_map_iff. eauto.
Qed.
Lemma find_node_spec : forall c l a k ch b, find_node c l = Some (a, (k, ch), b) -> l = a ++ INode c false k ch :: b.
Proof.
  intros c. induction l as [|i l IH]; intros a k ch b H; [discriminate|]. cbn in H.
  assert (R : forall i, option_map (fun '(a, x, b) => (i :: a, x, b)) (find_node c l) = Some (a, (k, ch), b) -> i :: l = a ++ INode c false k ch :: b).
  { intros j Hj. destruct (find_node c l) as [[[a0 [k0 ch0]] b0]|]; [|discriminate]. cbn in Hj. injection Hj as <- <- <- <-. cbn. f_equal. now apply IH. }
  destruct i as [h [|] k0 ch0|h|k0 n0|msg]; auto. destruct (Nat.eqb_spec h c) as [->|]; auto. injection H as <- <- <- <-. reflexivity.
Qed.

(** * Rolling back *)
Lemma pop_n_ok : forall n p, n <= p_pos p -> pop_n n p = Ok (mkParser (p_toks p) (p_pos p - n) (p_events p)).
Proof.
  induction n as [|n IH]; intros p H; cbn [pop_n]; [rewrite Nat.sub_0_r; now destruct p|]. unfold pop_position. destruct (p_pos p) as [|q] eqn:E; [lia|]. cbn [bind].
  rewrite IH by (cbn; lia). cbn. reflexivity.
Qed.
Lemma pop_events_spec : forall n E s q, length E = n -> toks_of E <= q -> pop_events n (mkParser (p_toks s) q (p_events s ++ E)) = Ok (mkParser (p_toks s) (q - toks_of E) (p_events s)).
Proof.
  induction n as [|n IH]; intros E s q L H.
  - destruct E; [|discriminate]. cbn. now rewrite app_nil_r, Nat.sub_0_r.
  - destruct (snoc_cases _ E) as [->|(E' & e & ->)]; [discriminate|]. rewrite app_length in L. cbn in L. assert (L' : length E' = n) by lia.
    rewrite toks_of_app in *. cbn [pop_events]. unfold pop_event. cbn [p_events]. rewrite app_assoc, split_last_app. unfold set_events. cbn [p_toks p_pos].
    destruct e as [k fp| |k m|m]; cbn [bind toks_of] in *; try (rewrite Nat.add_0_r in *; now apply IH).
    rewrite pop_n_ok by (cbn; lia). cbn [bind p_toks p_pos p_events]. rewrite IH by (auto; lia). f_equal. f_equal. lia.
Qed.
Lemma rollback_restores : forall s p E fl fl' um um', Main s fl um -> Main p fl' um' -> p_toks s = p_toks p -> p_events p = p_events s ++ E ->
  pop_events (length E) p = Ok s.
Proof.
  intros s p E fl fl' um um' Ms Mp T H. destruct p as [pt pp pe]. cbn in *. subst pe pt. pose proof (mn_pos _ _ _ Mp) as P. cbn in P. rewrite toks_of_app, <- (mn_pos _ _ _ Ms) in P.
  rewrite pop_events_spec by (auto; lia). rewrite P. replace (p_pos s + toks_of E - toks_of E) with (p_pos s) by lia. now destruct s.
Qed.

(** * One step *)
Lemma bump_n_ok : forall n p, Forall (fun t => rt_kind (fst t) <> EOF) (p_toks p) -> p_pos p + n <= length (p_toks p) -> bump_n n p = mkParser (p_toks p) (p_pos p + n) (p_events p).
Proof.
  induction n as [|n IH]; intros p F H; cbn [bump_n]; [rewrite Nat.add_0_r; now destruct p|].
  assert (B : bump1 p = mkParser (p_toks p) (S (p_pos p)) (p_events p)).
  { unfold bump1, token_at_pos. destruct (nth_error (p_toks p) (p_pos p)) as [[t off]|] eqn:N; [|apply nth_error_None in N; lia]. cbn [t_kind].
    destruct (kind_eqb_reflect (rt_kind t) EOF) as [E|_]; auto. exfalso. apply nth_error_In in N. rewrite Forall_forall in F. now apply (F _ N). }
  rewrite B, IH; auto; cbn; [f_equal; lia|lia].
Qed.

Theorem step_inv : forall p stk o r, Inv p stk -> step (p, stk) o = Some r -> exists p' stk', r = Ok (p', stk') /\ Inv p' stk'.
Proof.
  intros p stk o r [M SN] H. unfold step in H. destruct o as [|m k|m|m|c|c m| | | |k n|msg].
  - (* start *)
    cbn in H. injection H as <-. eexists _, _. split; [reflexivity|].
    pose proof (main_start _ _ _ M) as M'. split.
    + unfold MainS. cbn [flat_stack umarks flat_map]. unfold flat_frame, mark_list. cbn. exact M'.
    + cbn [snaps f_snap f_mark f_prec flat_stack]. split; [|split; [discriminate|]].
      * split; [split; auto; exists [tombstone]; reflexivity|]. split; [exact M|]. split; [exact SN|]. split; auto. eexists. split; [reflexivity|]. unfold flat_frame, mark_list. cbn. intros x [<-|[]]. lia.
      * apply (snaps_change stk p _ [] _); auto; [now rewrite app_nil_r| |].
        -- intros s E _. eapply ext_push; eauto. exists [tombstone]. reflexivity.
        -- unfold flat_frame, mark_list. cbn. intros x [<-|[]]. right. lia.
  - (* complete *)
    destruct stk as [|f [|g rest]]; try discriminate. destruct (is_mark m f && negb (kind_eqb k TOMBSTONE)) eqn:C; [|discriminate]. apply andb_prop in C. destruct C as [C K].
    unfold is_mark in C. destruct (f_mark f) as [m'|] eqn:Fm; [|discriminate]. apply Nat.eqb_eq in C. subst m'. apply negb_true_iff in K. destruct (kind_eqb_reflect k TOMBSTONE) as [|Kn]; [discriminate|].
    unfold MainS in M. cbn [flat_stack] in M. unfold flat_frame at 2 in M. unfold mark_list in M. rewrite Fm in M. cbn [map app] in M.
    destruct (main_complete _ _ _ _ _ k M Kn) as (p' & E & Tk & Ev & M'). rewrite E in H. cbn [bind] in H. injection H as <-. eexists _, _. split; [reflexivity|]. split.
    + unfold MainS. cbn [flat_stack]. rewrite flat_frame_add, flat_node, app_assoc. eapply Main_um; [exact M'|]. intros x Hx. cbn in *. apply in_or_app. now right.
    + cbn [flat_stack]. rewrite flat_frame_add, flat_node. cbn [snaps] in SN. destruct SN as (S1 & S2 & S3).
      assert (FF : flat_frame f = FS m SLive :: flat_items (f_items f)) by (unfold flat_frame, mark_list; now rewrite Fm).
      cbn [snaps flat_stack] in S3 |- *. destruct S3 as (G1 & G2 & G3). rewrite FF in G1, G3.
      assert (CE : forall s, ext s p -> length (p_events s) <= m -> ext s p') by (intros s Es Ls; eapply ext_replace; eauto).
      assert (LL : forall x, In x (labs (FS m (SNode k false) :: flat_items (f_items f) ++ [FO CFinish])) -> In x (labs (FS m SLive :: flat_items (f_items f)))).
      { intros x Hx. cbn in *. rewrite labs_app in Hx. cbn in Hx. rewrite app_nil_r in Hx. exact Hx. }
      split; [|split; [exact G2|]].
      * cbn [f_snap f_mark f_prec add_items]. destruct (f_snap g) as [s|]; auto. destruct G1 as (A1 & A2 & A3 & A4 & F & A5 & A6). rewrite <- app_assoc in A5. apply app_inv_head in A5. subst F.
        split; [apply CE; auto; apply A6; rewrite labs_app; apply in_or_app; right; now left|]. split; auto. split; auto. split; auto. eexists. split; [reflexivity|].
        intros x Hx. rewrite labs_app in Hx. apply in_app_or in Hx. apply A6. rewrite labs_app. apply in_or_app. destruct Hx as [Hx|Hx]; auto.
      * rewrite <- app_assoc in G3. eapply (snaps_change rest p p'); [exact G3| |].
        -- intros s Es Hs. apply CE; auto. apply Hs. rewrite labs_app. apply in_or_app. right. now left.
        -- intros x Hx. left. rewrite labs_app in *. apply in_app_or in Hx. apply in_or_app. destruct Hx; auto.
  - (* abandon *)
    destruct stk as [|f [|g rest]]; try discriminate. destruct (is_mark m f && _) eqn:C; [|discriminate]. apply andb_prop in C. destruct C as [C K].
    unfold is_mark in C. destruct (f_mark f) as [m'|] eqn:Fm; [|discriminate]. apply Nat.eqb_eq in C. subst m'.
    assert (FF : flat_frame f = FS m SLive :: flat_items (f_items f)) by (unfold flat_frame, mark_list; now rewrite Fm).
    assert (M0 := M). unfold MainS in M. cbn [flat_stack] in M. rewrite FF in M.
    assert (Lm : m < length (p_events p)). { eapply lab_lt; [exact M|]. rewrite labs_app. apply in_or_app. right. now left. }
    unfold abandon in H. destruct (snoc_cases _ (p_events p)) as [E0|(es0 & e0 & E0)]; [rewrite E0 in Lm; cbn in Lm; lia|]. rewrite E0, split_last_app in H. rewrite E0 in K. rewrite app_length in H, K. cbn [length] in H, K. replace (length es0 + 1) with (S (length es0)) in H, K by lia. cbn [Nat.eqb] in H, K.
    destruct (Nat.eqb_spec m (length es0)) as [Em|Em].
    + rewrite andb_true_r in K. apply negb_true_iff in K.
      destruct (main_pop _ _ _ _ _ M) as (es & E1 & E2 & E3 & M'); [cbn; rewrite K; unfold mark_list; rewrite Fm; now left|rewrite E0, app_length; cbn; lia|].
      rewrite E0 in E1. apply app_inj_tail in E1. destruct E1 as [<- ->]. cbn [bind tombstone] in H. injection H as <-. eexists _, _. split; [reflexivity|].
      assert (IT : f_items f = []). { destruct (f_items f) as [|i l]; auto. exfalso. unfold flat_items in E3. cbn in E3. destruct i; discriminate. }
      rewrite IT. cbn [app]. assert (FG : flat_frame (add_items [] g) = flat_frame g) by (rewrite flat_frame_add; apply app_nil_r). split.
      * unfold MainS. cbn [flat_stack]. rewrite FG. eapply Main_um; [exact M'|]. intros x Hx. cbn in *. apply in_or_app. now right.
      * cbn [snaps] in SN. destruct SN as (_ & _ & S3). cbn [flat_stack]. rewrite FG. cbn [snaps flat_stack] in S3 |- *. rewrite FF in S3. destruct S3 as (G1 & G2 & G3).
        assert (CE : forall s, ext s p -> length (p_events s) <= m -> ext s (set_events es0 p)).
        { intros s [T (E & Q)] Ls. split; auto. cbn. rewrite E0 in Q. destruct (snoc_cases _ E) as [->|(E' & e' & ->)].
          - exfalso. rewrite app_nil_r in Q. apply (f_equal (@length event)) in Q. rewrite app_length in Q. cbn in Q. lia.
          - rewrite app_assoc in Q. apply app_inj_tail in Q. destruct Q as [Q _]. eauto. }
        split; [|split; [exact G2|]].
        -- cbn [f_snap f_mark f_prec add_items]. destruct (f_snap g) as [s|]; auto. destruct G1 as (A1 & A2 & A3 & A4 & F & A5 & A6). rewrite <- app_assoc in A5. apply app_inv_head in A5. subst F.
           split; [apply CE; auto; apply A6; rewrite labs_app; apply in_or_app; right; now left|]. split; auto. split; auto. split; auto. eexists. split; [reflexivity|].
           intros x Hx. apply A6. rewrite labs_app. apply in_or_app. auto.
        -- rewrite <- app_assoc in G3. eapply (snaps_change rest p _); [exact G3| |].
           ++ intros s Es Hs. apply CE; auto. apply Hs. rewrite labs_app. apply in_or_app. right. now left.
           ++ intros x Hx. left. rewrite labs_app. apply in_or_app. auto.
    + cbn [bind] in H. injection H as <-. eexists _, _. split; [reflexivity|]. apply main_drop_status in M. cbn [app].
      assert (FG : flat_frame (add_items (IGone m :: f_items f) g) = flat_frame g ++ FS m SGone :: flat_items (f_items f)) by (rewrite flat_frame_add; reflexivity). split.
      * unfold MainS. cbn [flat_stack]. rewrite FG, app_assoc. eapply Main_um; [exact M|]. intros x Hx. cbn in *. apply in_or_app. now right.
      * cbn [snaps] in SN. destruct SN as (_ & _ & S3). cbn [flat_stack]. rewrite FG. cbn [snaps flat_stack] in S3 |- *. rewrite FF in S3. destruct S3 as (G1 & G2 & G3).
        split; [|split; [exact G2|]].
        -- cbn [f_snap f_mark f_prec add_items]. destruct (f_snap g) as [s|]; auto. destruct G1 as (A1 & A2 & A3 & A4 & F & A5 & A6). rewrite <- app_assoc in A5. apply app_inv_head in A5. subst F.
           split; auto. split; auto. split; auto. split; auto. eexists. split; [reflexivity|].
           intros x Hx. apply A6. rewrite labs_app in *. exact Hx.
        -- rewrite <- app_assoc in G3. eapply (snaps_change rest p _); [exact G3| |]; auto.
           intros x Hx. left. rewrite labs_app in *. exact Hx.
  - (* rollback *)
    destruct stk as [|f [|g rest]]; try discriminate. destruct (is_mark m f && _) eqn:C; [|discriminate]. apply andb_prop in C. destruct C as [C K]. apply negb_true_iff in K.
    unfold is_mark in C. destruct (f_mark f) as [m'|] eqn:Fm; [|discriminate]. apply Nat.eqb_eq in C. subst m'.
    assert (FF : flat_frame f = FS m SLive :: flat_items (f_items f)) by (unfold flat_frame, mark_list; now rewrite Fm).
    unfold MainS in M. cbn [flat_stack] in M. rewrite FF in M.
    cbn [snaps] in SN. destruct SN as (S1 & _ & _). rewrite Fm in S1. destruct (f_snap f) as [s|]; [|destruct S1; congruence].
    destruct S1 as ((Tk & E & HE) & Ms & Ss & -> & _).
    assert (R : rollback (length (p_events s)) p = Ok s).
    { assert (LS0 : nth_error (p_events p) (length (p_events s)) = Some tombstone).
      { pose proof (mn_lab _ _ _ M) as F. rewrite Forall_app in F. destruct F as [_ F]. inversion F; subst. assumption. }
      unfold rollback. destruct (snoc_cases _ E) as [->|(E' & e & ->)].
      - exfalso. rewrite app_nil_r in HE. rewrite HE in LS0. assert (length (p_events s) < length (p_events s)) by (apply nth_error_Some; congruence). lia.
      - rewrite HE, app_assoc, split_last_app. rewrite app_length. destruct (Nat.eqb_spec (length (p_events s)) (length (p_events s) + length E')) as [EE|EE].
        + assert (E' = []) by (destruct E'; auto; cbn in EE; lia). subst E'. rewrite HE in LS0. cbn [app] in LS0. rewrite nth_error_app2, Nat.sub_diag in LS0 by lia. cbn in LS0. injection LS0 as ->.
          cbn [tombstone]. rewrite app_nil_r. f_equal. unfold set_events. pose proof (mn_pos _ _ _ M) as P. rewrite HE, toks_of_app in P. cbn in P. rewrite Nat.add_0_r in P. rewrite <- Tk, P, <- (mn_pos _ _ _ Ms). now destruct s.
        + replace (length ((p_events s ++ E') ++ [e]) - length (p_events s)) with (length (E' ++ [e])) by (rewrite <- app_assoc, !app_length; lia).
          eapply rollback_restores; eauto. }
    rewrite R in H. cbn [bind] in H. injection H as <-. eexists _, _. split; [reflexivity|]. split; auto.
  - (* precede *)
    destruct stk as [|f rest]; [discriminate|]. destruct (find_node c (f_items f)) as [[[a [k ch]] b]|] eqn:Fn; [|discriminate]. apply find_node_spec in Fn.
    assert (FF : flat_frame f = (map (fun m => FS m SLive) (mark_list f) ++ flat_items a) ++ FS c (SNode k false) :: flat_items ch ++ FO CFinish :: flat_items b).
    { unfold flat_frame. rewrite Fn, flat_items_app. rewrite <- app_assoc. f_equal. f_equal. unfold flat_items. cbn. now rewrite <- app_assoc. }
    assert (M1 := M). unfold MainS in M1. cbn [flat_stack] in M1. rewrite FF in M1. rewrite app_assoc in M1.
    destruct (main_precede _ _ _ _ _ _ M1) as (p' & E & Tk & Ev & M').
    { intros Hn. apply umarks_live in Hn. assert (In (length (p_events p)) (labs (flat_stack (f :: rest)))) by (apply labs_in; eauto). apply (lab_lt _ _ _ _ M) in H0. lia. }
    rewrite E in H. cbn [bind fst snd] in H. injection H as <-. eexists _, _. split; [reflexivity|].
    set (n := length (p_events p)) in *.
    assert (F1 : flat_frame (set_items a f) = map (fun m => FS m SLive) (mark_list f) ++ flat_items a) by reflexivity.
    assert (F2 : flat_frame (mkFrame (Some n) true (INode c true k ch :: b) None) = FS n SLive :: FS c (SNode k true) :: flat_items ch ++ FO CFinish :: flat_items b).
    { unfold flat_frame, mark_list. cbn. unfold flat_items. cbn. now rewrite <- app_assoc. }
    split.
    + unfold MainS. cbn [flat_stack]. rewrite F1, F2. exact M'.
    + cbn [flat_stack]. rewrite F1, F2. split; [cbn; now right|]. split; [reflexivity|]. rewrite <- app_assoc.
      eapply (snaps_top p p' f (set_items a f)); auto.
      * intros s Es Hs. eapply ext_replace2; [exact Es|exact Tk| |exact Ev]. apply Hs. rewrite FF, labs_app. apply in_or_app. right. now left.
      * intros x Hx. rewrite FF. rewrite labs_app in *. apply in_app_or in Hx. rewrite in_app_iff. destruct Hx as [Hx|Hx]; auto. cbn in Hx |- *. destruct Hx as [<-|Hx]; [right; unfold n; lia|left; right; exact Hx].
  - (* extend *)
    destruct stk as [|f [|g rest]]; try discriminate. destruct (is_mark m f && _) eqn:C; [|discriminate]. apply andb_prop in C. destruct C as [C K]. apply negb_true_iff in K.
    unfold is_mark in C. destruct (f_mark f) as [m'|] eqn:Fm; [|discriminate]. apply Nat.eqb_eq in C. subst m'.
    destruct (find_node c (f_items f)) as [[[a [k ch]] b]|] eqn:Fn; [|discriminate]. apply find_node_spec in Fn.
    assert (FF : flat_frame f = FS m SLive :: flat_items a ++ FS c (SNode k false) :: flat_items ch ++ FO CFinish :: flat_items b).
    { unfold flat_frame, mark_list. rewrite Fm, Fn, flat_items_app. cbn. f_equal. f_equal. f_equal. unfold flat_items. now rewrite <- app_assoc. }
    assert (M1 := M). unfold MainS in M1. cbn [flat_stack] in M1. rewrite FF in M1.
    cbn [snaps] in SN. destruct SN as (S1 & _ & S3). rewrite Fm in S1. destruct (f_snap f) as [s|] eqn:Fs; [|destruct S1; congruence]. destruct S1 as (_ & _ & _ & A4 & F & A5 & A6). cbn [flat_stack] in A5. apply app_inv_head in A5. subst F.
    destruct (main_extend _ _ _ _ _ _ _ _ M1) as (p' & E & Tk & Ev & M').
    { assert (m <= c). { rewrite A4. apply A6. rewrite FF. cbn. right. rewrite labs_app. apply in_or_app. right. now left. }
      assert (m <> c). { intros ->. pose proof (mn_nodup _ _ _ M1) as N. rewrite labs_app in N. cbn in N. apply NoDup_mid in N. apply (proj2 N). rewrite labs_app. apply in_or_app. right. now left. }
      lia. }
    { intros Hn. apply umarks_live in Hn. pose proof (mn_lab _ _ _ M1) as FL. pose proof (mn_lab _ _ _ M) as FL'. rewrite Forall_forall in FL, FL'. specialize (FL' _ Hn). cbn in FL'.
      specialize (FL (FS c (SNode k false))). cbn in FL. destruct FL as (fp & X & Y & _); [apply in_or_app; right; right; apply in_or_app; right; now left|]. rewrite FL' in X. injection X as <- <-. congruence. }
    rewrite E in H. cbn [bind] in H. injection H as <-. eexists _, _. split; [reflexivity|].
    assert (FG : flat_frame (add_items (INode c false k (IGone m :: a ++ ch) :: b) g) = flat_frame g ++ FS c (SNode k false) :: FS m SGone :: flat_items a ++ flat_items ch ++ FO CFinish :: flat_items b).
    { rewrite flat_frame_add. f_equal. unfold flat_items. cbn. rewrite flat_map_app. now rewrite <- !app_assoc. }
    assert (CE : forall s0, ext s0 p -> length (p_events s0) <= m -> ext s0 p') by (intros s0 Es Ls; eapply (ext_replace s0 p p' _ _ []); eauto; rewrite app_nil_r; exact Ev).
    assert (LL : forall x, In x (labs (FS c (SNode k false) :: FS m SGone :: flat_items a ++ flat_items ch ++ FO CFinish :: flat_items b)) -> In x (labs (flat_frame f))).
    { intros x Hx. rewrite FF. cbn in *. rewrite labs_app in *. cbn in *. rewrite in_app_iff in *. cbn in *. tauto. }
    cbn [flat_stack] in S3. rewrite FF in S3.
    split.
    + unfold MainS. cbn [flat_stack]. rewrite FG. rewrite app_assoc. eapply Main_um; [exact M'|]. intros x Hx. cbn in *. apply in_or_app. now right.
    + cbn [flat_stack]. rewrite FG. cbn [snaps flat_stack] in S3 |- *. destruct S3 as (G1 & G2 & G3). split; [|split; [exact G2|]].
      * cbn [f_snap f_mark f_prec add_items]. destruct (f_snap g) as [s0|]; auto. destruct G1 as (B1 & B2 & B3 & B4 & F & B5 & B6). rewrite <- app_assoc in B5. apply app_inv_head in B5. subst F. rewrite <- FF in B6.
        split; [apply CE; auto; apply B6; rewrite labs_app; apply in_or_app; right; rewrite FF; now left|]. split; auto. split; auto. split; auto. eexists. split; [reflexivity|].
        intros x Hx. apply B6. rewrite labs_app in *. apply in_app_or in Hx. apply in_or_app. destruct Hx as [Hx|Hx]; auto.
      * rewrite <- app_assoc in G3. rewrite <- FF in G3. eapply (snaps_change rest p _); [exact G3| |].
        -- intros s0 Es Hs. apply CE; auto. apply Hs. rewrite labs_app. apply in_or_app. right. rewrite FF. now left.
        -- intros x Hx. left. rewrite labs_app in *. apply in_app_or in Hx. apply in_or_app. destruct Hx as [Hx|Hx]; auto.
  - (* checkpoint *)
    destruct stk as [|f rest]; [discriminate|]. destruct (existsb _ (f :: rest)) eqn:X; [|discriminate].
    assert (NE : 0 < length (p_events p)).
    { apply existsb_exists in X. destruct X as (h & Hh & Xh). destruct (f_mark h) as [m|] eqn:Fh; [|discriminate].
      assert (In m (labs (flat_stack (f :: rest)))).
      { apply labs_in. exists SLive. clear -Hh Fh. revert Hh. generalize (f :: rest) as l. induction l as [|y l IH]; intros Hh; [destruct Hh|]. cbn. apply in_or_app. destruct Hh as [->|Hh]; auto. right. unfold flat_frame, mark_list. rewrite Fh. now left. }
      apply (lab_lt _ _ _ _ M) in H0. lia. }
    unfold event_pos in H. destruct (length (p_events p)) as [|z] eqn:Lz; [lia|]. cbn [bind] in H. injection H as <-. eexists _, _. split; [reflexivity|].
    assert (FN : flat_frame (mkFrame None false [] (Some p)) = []) by reflexivity. split.
    + unfold MainS. cbn [flat_stack]. rewrite FN, app_nil_r. exact M.
    + cbn [snaps f_snap f_mark f_prec]. split; [|split; [discriminate|]].
      * split; [split; auto; exists []; now rewrite app_nil_r|]. split; [exact M|]. split; [exact SN|]. split; [lia|]. exists []. split; [cbn [flat_stack]; now rewrite FN|]. intros x [].
      * change (flat_stack (mkFrame None false [] (Some p) :: f :: rest)) with (flat_stack (f :: rest) ++ flat_frame (mkFrame None false [] (Some p))). rewrite FN, app_nil_r. exact SN.
  - (* commit *)
    destruct stk as [|f [|g rest]]; try discriminate. destruct (f_mark f) as [m'|] eqn:Fm; [discriminate|]. injection H as <-. eexists _, _. split; [reflexivity|].
    assert (FF : flat_frame f = flat_items (f_items f)) by (unfold flat_frame, mark_list; now rewrite Fm).
    assert (Q : flat_stack (add_items (f_items f) g :: rest) = flat_stack (f :: g :: rest)) by (cbn [flat_stack]; rewrite flat_frame_add, FF; apply app_assoc).
    split.
    + unfold MainS. rewrite Q. eapply Main_um; [exact M|]. intros x Hx. cbn in *. apply in_or_app. now right.
    + rewrite Q. cbn [snaps] in SN. destruct SN as (_ & _ & S3). exact S3.
  - (* restore *)
    destruct stk as [|f [|g rest]]; try discriminate. destruct (f_mark f) as [m'|] eqn:Fm; [discriminate|]. destruct (f_snap f) as [s|] eqn:Fs; [|discriminate].
    cbn [snaps] in SN. destruct SN as (S1 & _ & _). rewrite Fm, Fs in S1. destruct S1 as ((Tk & E & HE) & Ms & Ss & Ls & _).
    assert (LE : length (p_events p) = length (p_events s) + length E) by (rewrite HE, app_length; lia).
    assert (R : bind (event_pos s) (fun q => rollback_to q p) = Ok s).
    { unfold event_pos. destruct (length (p_events s)) as [|z] eqn:Lz; [lia|]. cbn [bind]. unfold rollback_to. 
      destruct (Nat.ltb_spec (length (p_events p)) (S z)); [lia|]. replace (length (p_events p) - S z) with (length E) by lia. eapply rollback_restores; eauto. }
    unfold event_pos in *. destruct (length (p_events s)) as [|z] eqn:Lz; [lia|]. cbn [bind] in *. rewrite R in H. cbn [bind] in H. injection H as <-. eexists _, _. split; [reflexivity|]. split; auto.
  - (* bump *)
    destruct stk as [|f rest]; [discriminate|]. destruct (Nat.leb_spec (p_pos p + n) (length (p_toks p))) as [L|]; [|discriminate]. injection H as <-. eexists _, _. split; [reflexivity|].
    unfold do_bump. rewrite bump_n_ok by (auto; apply (mn_eof _ _ _ M)).
    assert (M' := main_push p _ _ (EToken k n) (CToken k n) (mkParser (p_toks p) (p_pos p + n) (p_events p)) M eq_refl eq_refl eq_refl). cbn [p_pos toks_of] in M'. rewrite Nat.add_0_r in M'. specialize (M' eq_refl L).
    assert (FG : flat_frame (add_items [ITok k n] f) = flat_frame f ++ [FO (CToken k n)]) by (rewrite flat_frame_add; reflexivity). split.
    + unfold MainS. cbn [flat_stack]. rewrite FG, app_assoc. exact M'.
    + cbn [flat_stack]. rewrite FG. apply (snaps_top p _ f); auto.
      * intros s Es _. eapply ext_push; eauto. cbn. eexists. reflexivity.
      * intros x Hx. left. rewrite labs_app in Hx. cbn in Hx. now rewrite app_nil_r in Hx.
  - (* error *)
    destruct stk as [|f rest]; [discriminate|]. injection H as <-. eexists _, _. split; [reflexivity|]. unfold push_error.
    assert (M' := main_push p _ _ (EError msg) (CError msg) p M eq_refl eq_refl eq_refl). cbn [p_pos toks_of] in M'. rewrite Nat.add_0_r in M'. specialize (M' eq_refl (mn_le _ _ _ M)).
    assert (FG : flat_frame (add_items [IErr msg] f) = flat_frame f ++ [FO (CError msg)]) by (rewrite flat_frame_add; reflexivity). split.
    + unfold MainS. cbn [flat_stack]. rewrite FG, app_assoc. exact M'.
    + cbn [flat_stack]. rewrite FG. apply (snaps_top p _ f); auto.
      * intros s Es _. eapply ext_push; eauto. cbn. eexists. reflexivity.
      * intros x Hx. left. rewrite labs_app in Hx. cbn in Hx. now rewrite app_nil_r in Hx.
Qed.
