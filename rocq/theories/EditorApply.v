(** Proofs about the syntax tree editor: every change that is made brings the tree one step closer to the
    requested one. *)
From Coq Require Import Permutation Sorted.
From Verif Require Import Base SyntaxKind TextEditModel ParserModel TreeSinkModel TreeSinkSpec TreeDiffModel TreeDiffSpec TreeDiffProofs EditorModel EditorSpec EditorProofs EditorOrder.
Close Scope N_scope.
Open Scope nat_scope.

(** * What is cut out *)
Fixpoint nested (m : mtree) : Prop :=
  match m with
  | MNode l _ ch => match l with Some p => Forall (prefix p) (flat_map labels ch) | None => True end /\ fold_right (fun c a => nested c /\ a) True ch
  | MTok _ _ _ => True
  end.
Definition nested_all (l : list mtree) : Prop := fold_right (fun c a => nested c /\ a) True l.
Lemma nested_app : forall a b, nested_all (a ++ b) <-> nested_all a /\ nested_all b.
Proof. intros a b. induction a as [|m a IH]; cbn; [tauto|]. unfold nested_all in *. rewrite IH. tauto. Qed.
Lemma nested_in : forall l m, nested_all l -> In m l -> nested m.
Proof. intros l m H I. induction l as [|x l IH]; [destruct I|]. destruct H as [H1 H2]. destruct I as [<-|I]; auto. Qed.
Lemma nested_fresh : forall t, nested (fresh t).
Proof. intros t. induction t as [k ch IH|k x] using tree_ind2; [|exact I]. cbn. split; auto. induction IH as [|c r H _ IHr]; cbn; auto. Qed.
Lemma nested_freshes : forall l, nested_all (map fresh l).
Proof. induction l as [|t l IH]; cbn; auto. split; auto. apply nested_fresh. Qed.
Lemma nested_medit : forall pl t p, nested_all (medit pl p t).
Proof.
  intros pl t. induction t as [k ch IH|k x] using tree_ind2; intros p.
  - rewrite medit_node. apply nested_app. split; [|apply nested_freshes]. destruct (instead_of pl p) as [es|]; [apply nested_freshes|]. cbn. split; auto. split.
    + rewrite Forall_forall. intros q Q. rewrite flat_map_app, labels_freshes in Q. cbn in Q. apply labels_mkids in Q as (j & r & _ & _ & ->). now exists (j :: r).
    + fold (nested_all (map fresh (first_of pl p) ++ mkids pl p 0 ch)). apply nested_app. split; [apply nested_freshes|]. generalize 0. induction IH as [|c r H _ IHr]; intros i; cbn; auto. apply nested_app. auto.
  - cbn. apply nested_app. split; [|apply nested_freshes]. destruct (instead_of pl p); [apply nested_freshes|]. cbn. auto.
Qed.
Lemma nested_top : forall m p, nested m -> label m = Some p -> Forall (prefix p) (labels m).
Proof.
  intros m p H E. destruct m as [l k ch|l k x]; cbn in E; subst l; cbn.
  - constructor; [apply prefix_refl|]. apply H.
  - constructor; [apply prefix_refl|constructor].
Qed.
Lemma position_spec : forall {A} (f : A -> bool) l, existsb f l = true -> exists a x b, l = a ++ x :: b /\ position f l = Some (length a) /\ f x = true.
Proof.
  intros A f l. induction l as [|y l IH]; intros H; [discriminate|]. cbn in *. destruct (f y) eqn:E; [exists [], y, l; auto|]. cbn in H. destruct (IH H) as (a & x & b & -> & P & X). exists (y :: a), x, b. rewrite P. auto.
Qed.
Lemma cut_own : forall p ch, existsb (has_label p) ch = true -> exists a x b, ch = a ++ x :: b /\ cut (fst (own p ch)) (snd (own p ch)) ch = [x] /\ label x = Some p.
Proof.
  intros p ch H. apply position_spec in H as (a & x & b & E & P & X). exists a, x, b. split; auto. unfold own, index_in, cut. rewrite P. cbn [fst snd]. rewrite Nat.sub_succ_l by lia. rewrite Nat.sub_diag. rewrite E.
  rewrite skipn_app, skipn_all, Nat.sub_diag. cbn. split; auto. now apply has_label_spec.
Qed.
Lemma collect_own : forall p m x, nested m -> In x (collect p (fun ch => cut (fst (own p ch)) (snd (own p ch)) ch) m) -> Forall (prefix p) (labels x).
Proof.
  intros p m. induction m as [l k ch IH|l k t] using mtree_ind2; intros x NM I; [|destruct I]. cbn [collect] in I. destruct NM as [_ NM]. fold (nested_all ch) in NM. destruct (existsb (has_label p) ch) eqn:E.
  - destruct (cut_own p ch E) as (a & y & b & Ech & C & L). rewrite C in I. destruct I as [<-|[]]. apply nested_top; auto. apply (nested_in ch); auto. rewrite Ech. apply in_or_app. right. now left.
  - apply in_flat_map in I as (c & I & J). rewrite Forall_forall in IH. eapply IH; eauto. eapply nested_in; eauto.
Qed.
Lemma collect_absent : forall p g m, ~ In p (labels m) -> collect p g m = [].
Proof.
  intros p g m. induction m as [l k ch IH|l k x] using mtree_ind2; intros H; [|reflexivity]. cbn in *. assert (H' : ~ In p (flat_map labels ch)) by (intros X; apply H, in_or_app; auto).
  rewrite existsb_label by auto. clear H. induction IH as [|c r Hc Hr IHr]; [reflexivity|]. cbn in *. rewrite Hc by (intros X; apply H', in_or_app; auto). apply IHr. intros X. apply H', in_or_app. auto.
Qed.
Lemma collect_none : forall p g, (forall ch, g ch = []) -> forall m, collect p g m = [].
Proof.
  intros p g G m. induction m as [l k ch IH|l k x] using mtree_ind2; [|reflexivity]. cbn. destruct (existsb (has_label p) ch); [apply G|]. induction IH as [|c r H _ IHr]; [reflexivity|]. cbn. now rewrite H, IHr.
Qed.

(** * The plan of a list of changes *)
Lemma flat_map_none : forall {A B} (f : A -> list B) l, Forall (fun x => f x = []) l -> flat_map f l = [].
Proof. intros A B f l H. induction H as [|x l E _ IH]; [reflexivity|]. cbn. now rewrite E, IH. Qed.
Lemma first_some_app : forall {A B} (f : A -> option B) a b, first_some f (a ++ b) = match first_some f a with Some y => Some y | None => first_some f b end.
Proof. intros A B f a b. induction a as [|x a IH]; [reflexivity|]. cbn. destruct (f x); auto. Qed.
Lemma first_some_none : forall {A B} (f : A -> option B) l, Forall (fun x => f x = None) l -> first_some f l = None.
Proof. intros A B f l H. induction H as [|x l E _ IH]; [reflexivity|]. cbn. now rewrite E. Qed.
Lemma substituted_some : forall p c es, substituted p c = Some es -> removed c = Some p.
Proof. intros p c es. destruct c; cbn; try discriminate; destruct (list_eq_dec _ _ _); try discriminate; subst; auto. Qed.
Lemma substituted_none : forall p c, removed c <> Some p -> substituted p c = None.
Proof. intros p c H. destruct (substituted p c) eqn:E; auto. apply substituted_some in E. contradiction. Qed.
Lemma inserted_none : forall a c, spot c <> Some a -> inserted a c = [].
Proof. intros a c H. destruct c; cbn in *; auto; destruct (place_eq_dec _ _); auto; subst; contradiction. Qed.
Lemma instead_none : forall p l, Forall (fun c => removed c <> Some p) l -> instead_of (requested l) p = None.
Proof. intros p l H. apply first_some_none. eapply Forall_impl; [|exact H]. intros c. apply substituted_none. Qed.
Lemma inserts_none : forall a l, Forall (fun c => spot c <> Some a) l -> flat_map (inserted a) l = [].
Proof. intros a l H. apply flat_map_none. eapply Forall_impl; [|exact H]. intros c. apply inserted_none. Qed.

(** * One step *)
Definition gone (done : list change) (q : place_path) : Prop := exists c p, In c done /\ removed c = Some p /\ prefix p q.
Definition reached (t : tree) (done : list change) (s : state) : Prop :=
  medit (requested done) [] t = [fst s] /\ Forall (gone done) (flat_map labels (snd s)).
Lemma gone_more : forall done c q, gone done q -> gone (done ++ [c]) q.
Proof. intros done c q (d & p & I & R & P). exists d, p. split; [apply in_or_app; auto|auto]. Qed.
Lemma not_gone_labels : forall done (s : state) p, Forall (gone done) (flat_map labels (snd s)) -> ~ gone done p -> ~ In p (flat_map labels (snd s)).
Proof. intros done s p F N I. rewrite Forall_forall in F. apply N, F, I. Qed.
Lemma prefix_trans : forall a b c, prefix a b -> prefix b c -> prefix a c.
Proof. intros a b c [x ->] [y ->]. exists (x ++ y). now rewrite app_assoc. Qed.
Lemma not_gone_instead : forall done p q, ~ gone done p -> prefix q p -> instead_of (requested done) q = None.
Proof.
  intros done p q N P. apply instead_none. rewrite Forall_forall. intros c I R. apply N. exists c, q. auto.
Qed.
Lemma root_label : forall t done (s : state), reached t done s -> ~ gone done [] -> label (fst s) = Some [] .
Proof.
  intros t done s [E _] N. pose proof (not_gone_instead done [] [] N (prefix_refl [])) as I. destruct t as [k ch|k x]; [rewrite medit_node in E|cbn in E]; change (first_some (substituted []) done) with (instead_of (requested done) []) in *; rewrite I in E; injection E as <- _; reflexivity.
Qed.
Lemma not_top : forall t done s p, reached t done s -> ~ gone done p -> p <> [] -> is_top p s = false.
Proof.
  intros t done s p R N Np. unfold is_top. cbn [existsb]. assert (N0 : ~ gone done []) by (intros (c & q & I & E & [r X]); destruct q; [|discriminate]; apply N; exists c, []; split; auto; split; auto; now exists p).
  destruct (has_label p (fst s)) eqn:H; [apply has_label_spec in H; rewrite (root_label t done s R N0) in H; congruence|]. cbn. apply existsb_label. eapply not_gone_labels; eauto. apply R.
Qed.
Lemma splice_own : forall p A x B es, ~ In p (flat_map labels A) -> label x = Some p -> splice (fst (own p (A ++ x :: B))) (snd (own p (A ++ x :: B))) es (A ++ x :: B) = A ++ es ++ B.
Proof.
  intros p A x B es NA L. assert (P : position (has_label p) (A ++ x :: B) = Some (length A)).
  { induction A as [|a A IH]; cbn. { apply has_label_spec in L. now rewrite L. } rewrite IH by (intros X; apply NA; cbn; apply in_or_app; auto). destruct (has_label p a) eqn:E; auto. exfalso. apply NA. cbn. apply in_or_app. left. now apply has_label_in. }
  unfold own, splice, index_in. rewrite P. cbn [fst snd]. rewrite Nat.max_r by lia. rewrite firstn_app, firstn_all, Nat.sub_diag. cbn [firstn]. rewrite app_nil_r.
  replace (S (length A)) with (length (A ++ [x])) by (rewrite app_length; cbn; lia). replace (A ++ x :: B) with ((A ++ [x]) ++ B) by now rewrite <- app_assoc. rewrite skipn_app, skipn_all, Nat.sub_diag. reflexivity.
Qed.
Lemma splice_after : forall p A x B es, ~ In p (flat_map labels A) -> label x = Some p -> splice (fst (just_after p (A ++ x :: B))) (snd (just_after p (A ++ x :: B))) es (A ++ x :: B) = A ++ x :: es ++ B.
Proof.
  intros p A x B es NA L. assert (P : position (has_label p) (A ++ x :: B) = Some (length A)).
  { induction A as [|a A IH]; cbn. { apply has_label_spec in L. now rewrite L. } rewrite IH by (intros X; apply NA; cbn; apply in_or_app; auto). destruct (has_label p a) eqn:E; auto. exfalso. apply NA. cbn. apply in_or_app. left. now apply has_label_in. }
  unfold just_after, splice, index_in. rewrite P. cbn [fst snd]. rewrite Nat.max_id.
  replace (S (length A)) with (length (A ++ [x])) by (rewrite app_length; cbn; lia). replace (A ++ x :: B) with ((A ++ [x]) ++ B) by now rewrite <- app_assoc. rewrite firstn_app, firstn_all, Nat.sub_diag, skipn_app, skipn_all, Nat.sub_diag. cbn [firstn skipn app]. rewrite app_nil_r, <- app_assoc. reflexivity.
Qed.
(** an element that stays is one element, with its label *)
Definition core (pl : plan) (p : place_path) (t : tree) : mtree :=
  match t with TTok k x => MTok (Some p) k x | TNode k ch => MNode (Some p) k (map fresh (first_of pl p) ++ mkids pl p 0 ch) end.
Lemma medit_core : forall pl p t, medit pl p t = match instead_of pl p with Some es => map fresh es | None => [core pl p t] end ++ map fresh (after_of pl p).
Proof. intros pl p t. destruct t as [k ch|k x]; [apply medit_node|reflexivity]. Qed.
Lemma core_label : forall pl p t, label (core pl p t) = Some p.
Proof. intros pl p [|]; reflexivity. Qed.
Lemma core_ext : forall pl pl' p t, first_of pl p = first_of pl' p -> differ_at p pl pl' -> core pl p t = core pl' p t.
Proof.
  intros pl pl' p t F D. destruct t as [k ch|]; [|reflexivity]. cbn. rewrite F. do 2 f_equal. apply (kids_other p ch 0 p); auto. intros j r E. exfalso. revert E. apply app_ne_self.
Qed.
Lemma path_split : forall p : place_path, p <> [] -> exists j r, p = j :: r.
Proof. intros [|j r] H; [contradiction|eauto]. Qed.
Lemma map_one : forall {A B} (f : A -> B) l x y, l = [x] -> map f l = [y] -> f x = y.
Proof. intros A B f l x y -> [= H]. exact H. Qed.

Lemma requested_app : forall done c p, first_of (requested (done ++ [c])) p = first_of (requested done) p ++ inserted (FirstChild p) c /\
  after_of (requested (done ++ [c])) p = after_of (requested done) p ++ inserted (AfterElement p) c /\
  instead_of (requested (done ++ [c])) p = match instead_of (requested done) p with Some es => Some es | None => substituted p c end.
Proof.
  intros done c p. cbn. rewrite !flat_map_app, first_some_app. cbn. rewrite !app_nil_r. repeat split. destruct (first_some (substituted p) done); auto. now destruct (substituted p c).
Qed.

Section Step.
Variable t : tree.
Variable done : list change.
Variable c : change.
Variable s : state.
Hypothesis R : reached t done s.
Let pl := requested done.
Let pl' := requested (done ++ [c]).
(** an insertion *)
Lemma step_insert : forall a es, spot c = Some a -> removed c = None -> (forall b, inserted b c = if place_eq_dec b a then es else []) ->
  Forall (fun d => spot d <> Some a) done -> ~ gone done (match a with FirstChild p | AfterElement p => p end) ->
  (match a with FirstChild p => exists k ch, element_at t p = Some (TNode k ch) | AfterElement p => element_at t p <> None /\ p <> [] end) ->
  exists s', insert_at a (map fresh es) s = Some s' /\ reached t (done ++ [c]) s'.
Proof.
  intros a es Sp Rm Ins Ds NG HE. pose proof R as [RE RD].
  assert (SN : forall q, substituted q c = None) by (intros q; apply substituted_none; congruence).
  assert (NI : forall q, prefix q (match a with FirstChild p | AfterElement p => p end) -> instead_of pl q = None) by (intros q P; eapply not_gone_instead; eauto).
  assert (I0 : flat_map (inserted a) done = []) by (apply inserts_none; auto).
  assert (More : forall l, Forall (gone done) l -> Forall (gone (done ++ [c])) l) by (intros l F; eapply Forall_impl; [|exact F]; intros; now apply gone_more).
  destruct a as [p|p]; cbn [insert_at].
  - destruct HE as (k & ch & HE). eexists. split; [reflexivity|]. unfold on_all. split.
    + cbn [fst]. assert (X : map (at_node p (fun ch0 => splice 0 0 (map fresh es) ch0)) (medit pl [] t) = medit pl' [] t).
      { apply (at_node_medit pl pl' _ p t [] k ch HE).
        - intros q Nq. destruct (requested_app done c q) as (E1 & E2 & E3). unfold pl, pl'. rewrite E1, E2, E3, !Ins, SN. destruct (place_eq_dec (FirstChild q) (FirstChild p)) as [X|X]; [injection X as ->; contradiction|]. destruct (place_eq_dec (AfterElement q) (FirstChild p)) as [Y|Y]; [discriminate|].
          rewrite !app_nil_r. repeat split. now destruct (instead_of (requested done) q).
        - intros r' (x & ->). apply NI. now exists x.
        - cbn [app]. rewrite medit_core. destruct (requested_app done c p) as (E1 & E2 & E3). fold pl pl' in E1, E2, E3. rewrite E3, (NI p (prefix_refl p)), SN, E2, Ins. destruct (place_eq_dec (AfterElement p) (FirstChild p)) as [Y|Y]; [discriminate|]. rewrite app_nil_r. cbn [app]. f_equal. cbn [core]. f_equal.
          rewrite E1, Ins. destruct (place_eq_dec (FirstChild p) (FirstChild p)) as [Y'|Y']; [|contradiction]. replace (first_of pl p) with (@nil tree) by (symmetry; exact I0). cbn [app map]. unfold splice. cbn [firstn skipn Nat.max app]. f_equal.
          apply (kids_other p ch 0 p); [|intros j r E; exfalso; revert E; apply app_ne_self]. intros q Nq. destruct (requested_app done c q) as (F1 & F2 & F3). fold pl pl' in F1, F2, F3. rewrite F1, F2, F3, !Ins, SN. destruct (place_eq_dec (FirstChild q) (FirstChild p)) as [X|X]; [injection X as ->; contradiction|]. destruct (place_eq_dec (AfterElement q) (FirstChild p)) as [Z|Z]; [discriminate|]. rewrite !app_nil_r. repeat split. now destruct (instead_of pl q). }
      unfold pl in X. rewrite RE in X. cbn [map] in X. symmetry. exact X.
    + cbn [snd]. rewrite at_nodes_absent by (eapply not_gone_labels; eauto). auto.
  - destruct HE as [HE Np]. unfold splice_at. rewrite (not_top t done s p R NG Np). eexists. split; [reflexivity|].
    destruct (element_at t p) as [e|] eqn:Ee; [|contradiction]. destruct (path_split p Np) as (j & r & Ep). split.
    + cbn [fst on_all]. assert (D : differ_at p pl pl').
      { intros q Nq. destruct (requested_app done c q) as (F1 & F2 & F3). fold pl pl' in F1, F2, F3. rewrite F1, F2, F3, !Ins, SN. destruct (place_eq_dec (FirstChild q) (AfterElement p)) as [X|X]; [discriminate|]. destruct (place_eq_dec (AfterElement q) (AfterElement p)) as [Z|Z]; [injection Z as ->; contradiction|]. rewrite !app_nil_r. repeat split. now destruct (instead_of pl q). }
      assert (X : map (at_parent p (fun ch => splice (fst (just_after p ch)) (snd (just_after p ch)) (map fresh es) ch)) (medit pl [] t) = medit pl' [] t).
      { rewrite Ep. apply (at_parent_medit pl pl' _ r j t [] e); cbn [app]; rewrite <- Ep; auto.
        - intros r' (x & E & _). apply NI. exists x. congruence.
        - intros A B NA NB. destruct (requested_app done c p) as (E1 & E2 & E3). fold pl pl' in E1, E2, E3.
          assert (C : core pl p e = core pl' p e). { apply core_ext; auto. rewrite E1, Ins. destruct (place_eq_dec (FirstChild p) (AfterElement p)); [discriminate|]. now rewrite app_nil_r. }
          rewrite (medit_core pl' p e), E3, SN, (medit_core pl p e), (NI p (prefix_refl p)), E2, Ins. destruct (place_eq_dec (AfterElement p) (AfterElement p)) as [Y'|Y']; [|contradiction]. replace (after_of pl p) with (@nil tree) by (symmetry; exact I0). cbn [app map]. rewrite <- C. split.
          + rewrite existsb_app. cbn [existsb]. replace (has_label p (core pl p e)) with true by (symmetry; apply has_label_spec, core_label). cbn. apply orb_true_r.
          + rewrite splice_after; auto. apply core_label. }
      unfold pl in X. rewrite RE in X. cbn [map] in X. symmetry. exact X.
    + cbn [snd on_all]. rewrite at_parents_absent by (eapply not_gone_labels; eauto). rewrite flat_map_app. apply Forall_app. split; [auto|].
      replace (flat_map (collect p (fun ch => cut (fst (just_after p ch)) (snd (just_after p ch)) ch)) (fst s :: snd s)) with (@nil mtree); [constructor|].
      symmetry. apply flat_map_none. rewrite Forall_forall. intros m _. apply collect_none. intros ch. unfold cut, just_after. cbn [fst snd]. now rewrite Nat.sub_diag.
Qed.
(** a replacement or a deletion *)
Lemma step_remove : forall p es, removed c = Some p -> spot c = None -> (forall q, substituted q c = if list_eq_dec Nat.eq_dec q p then Some es else None) ->
  Forall (fun d => spot d <> Some (AfterElement p)) done -> ~ gone done p -> element_at t p <> None -> p <> [] ->
  exists s', splice_at p (own p) (map fresh es) s = Some s' /\ reached t (done ++ [c]) s'.
Proof.
  intros p es Rm Sp Sub Ds NG HE Np. pose proof R as [RE RD].
  assert (IN : forall b, inserted b c = []) by (intros b; apply inserted_none; congruence).
  assert (NI : forall q, prefix q p -> instead_of pl q = None) by (intros q P; eapply not_gone_instead; eauto).
  assert (More : forall l, Forall (gone done) l -> Forall (gone (done ++ [c])) l) by (intros l F; eapply Forall_impl; [|exact F]; intros; now apply gone_more).
  unfold splice_at. rewrite (not_top t done s p R NG Np). eexists. split; [reflexivity|].
  destruct (element_at t p) as [e|] eqn:Ee; [|contradiction]. destruct (path_split p Np) as (j & r & Ep). split.
  - cbn [fst on_all]. assert (X : map (at_parent p (fun ch => splice (fst (own p ch)) (snd (own p ch)) (map fresh es) ch)) (medit pl [] t) = medit pl' [] t).
    { rewrite Ep. apply (at_parent_medit pl pl' _ r j t [] e); cbn [app]; rewrite <- Ep; auto.
      - intros q Nq. destruct (requested_app done c q) as (F1 & F2 & F3). fold pl pl' in F1, F2, F3. rewrite F1, F2, F3, !IN, Sub, !app_nil_r. destruct (list_eq_dec Nat.eq_dec q p); [contradiction|]. repeat split. now destruct (instead_of pl q).
      - intros r' (x & E & _). apply NI. exists x. congruence.
      - intros A B NA NB. destruct (requested_app done c p) as (E1 & E2 & E3). fold pl pl' in E1, E2, E3.
        rewrite (medit_core pl' p e), E3, Sub, (medit_core pl p e), (NI p (prefix_refl p)), E2, IN. destruct (list_eq_dec Nat.eq_dec p p) as [Y'|Y']; [|contradiction]. replace (after_of pl p) with (@nil tree) by (symmetry; apply inserts_none; auto). cbn [app map]. rewrite app_nil_r. split.
        + rewrite existsb_app. cbn [existsb]. replace (has_label p (core pl p e)) with true by (symmetry; apply has_label_spec, core_label). cbn. apply orb_true_r.
        + rewrite splice_own; auto. apply core_label. }
    unfold pl in X. rewrite RE in X. cbn [map] in X. symmetry. exact X.
  - cbn [snd on_all]. rewrite at_parents_absent by (eapply not_gone_labels; eauto). rewrite flat_map_app. apply Forall_app. split; [auto|]. cbn [flat_map]. rewrite flat_map_app. apply Forall_app. split.
    + rewrite Forall_forall. intros q Q. apply in_flat_map in Q as (m & I & J). apply collect_own in I; [|apply (nested_in [fst s]); [rewrite <- RE; apply nested_medit|now left]]. rewrite Forall_forall in I. exists c, p. split; [apply in_or_app; right; now left|auto].
    + rewrite (flat_map_none (collect p _)); [constructor|]. rewrite Forall_forall. intros m I. apply collect_absent. intros J. apply (not_gone_labels done s p RD NG). apply in_flat_map. eauto.
Qed.
End Step.
