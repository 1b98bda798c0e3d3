(** Resolving types: what the result is, and how it fits with substitution and compatibility. *)
From Verif Require Import Base TyModel TyProps UnifyModel UnifyProps InferModel InferProofs.

Lemma resolves1_done : forall c t u, good c -> (resolves1 c t u <-> resolve_infer c t = Done u).
Proof.
  intros c t u G. split.
  - intros R. destruct (resolve_infer_spec c t G) as (w & E & R2). rewrite E. f_equal.
    inversion R; subst; inversion R2; subst; try discriminate; auto;
      repeat match goal with
      | H1 : ival c ?i ?a, H2 : ival c ?i ?b |- _ => pose proof (ival_det _ _ _ _ H1 H2); clear H2
      | H1 : vval c ?i ?a, H2 : vval c ?i ?b |- _ => pose proof (vval_det _ _ _ _ H1 H2); clear H2
      | H : IntVar _ = IntVar _ |- _ => injection H as ->
      | H1 : ival c ?i ?a, H2 : forall t, ~ ival c ?i t |- _ => exfalso; eapply H2; eauto
      | H1 : vval c ?i ?a, H2 : forall t, ~ vval c ?i t |- _ => exfalso; eapply H2; eauto
      end; subst; auto; try congruence; exfalso; eauto.
  - intros E. destruct (resolve_infer_spec c t G) as (w & E2 & R2). congruence.
Qed.
Lemma map_opt_spec : forall f l m, map_opt f l = Some m <-> Forall2 (fun x y => f x = Some y) l m.
Proof.
  intros f l. induction l as [|x l IH]; intros m; cbn; split; intros H.
  - injection H as <-. constructor.
  - inversion H. auto.
  - destruct (f x) as [y|] eqn:E; [|discriminate]. destruct (map_opt f l) as [ys|] eqn:E2; [|discriminate]. injection H as <-. constructor; auto. now apply IH.
  - inversion H; subst. rewrite H2. apply IH in H4. now rewrite H4.
Qed.
Lemma F2_app : forall (R : ty -> ty -> Prop) a b a' b', length a = length a' -> Forall2 R (a ++ b) (a' ++ b') -> Forall2 R a a' /\ Forall2 R b b'.
Proof.
  intros R a. induction a as [|x a IH]; intros b [|y a'] b' L H; cbn in *; try discriminate; auto. inversion H; subst. destruct (IH b a' b') as [A B]; auto.
Qed.
Lemma F2_len : forall (A B : Type) (R : A -> B -> Prop) a b, Forall2 R a b -> length a = length b.
Proof. intros A B R a b H. induction H; cbn; auto. Qed.
Lemma map_unknown : forall (l m : list ty), length l = length m -> map (fun _ => Unknown) l = map (fun _ => Unknown) m.
Proof. induction l as [|x l IH]; intros [|y m] L; cbn in *; try discriminate; auto. f_equal; auto. Qed.
Lemma deep_fold_opt_spec : forall f t w, deep_fold_opt f t = Some w <-> head t = head w /\ Forall2 (fun x y => f x = Some y) (children t) (children w).
Proof.
  intros f t w. split.
  - intros H. destruct t; cbn in H; try (injection H as <-; split; [reflexivity|constructor]).
    + destruct (f t) eqn:E; [|discriminate]. injection H as <-. split; [reflexivity|]. repeat constructor. auto.
    + destruct (f t) eqn:E; [|discriminate]. injection H as <-. split; [reflexivity|]. repeat constructor. auto.
    + destruct (map_opt f vals) as [v|] eqn:E1; [|discriminate]. destruct (map_opt f args) as [a|] eqn:E2; [|discriminate]. injection H as <-. apply map_opt_spec in E1, E2. unfold head. cbn. split; [f_equal; apply map_unknown; eapply F2_len; eauto|now apply Forall2_app].
    + destruct (map_opt f params) as [p|] eqn:E1; [|discriminate]. destruct (f t) as [r|] eqn:E2; [|discriminate]. destruct (map_opt f vals) as [v|] eqn:E3; [|discriminate]. injection H as <-. apply map_opt_spec in E1, E3. unfold head. cbn. split; [f_equal; apply map_unknown; eapply F2_len; eauto|apply Forall2_app; auto].
    + destruct (map_opt f ts) as [v|] eqn:E1; [|discriminate]. injection H as <-. apply map_opt_spec in E1. unfold head. cbn. split; [f_equal; apply map_unknown; eapply F2_len; eauto|auto].
    + destruct (map_opt f vals) as [v|] eqn:E1; [|discriminate]. destruct (map_opt f args) as [a|] eqn:E2; [|discriminate]. injection H as <-. apply map_opt_spec in E1, E2. unfold head. cbn. split; [f_equal; apply map_unknown; eapply F2_len; eauto|now apply Forall2_app].
  - intros [H F]. destruct t, w; cbn in H; try discriminate; cbn in F |- *; auto; try (inversion F as [|? ? ? ? HH ?]; subst; rewrite HH; cbn; injection H as <-; reflexivity); try congruence.
    + injection H as -> -> H1 H2. destruct (F2_app _ _ _ _ _ (map_const_len _ _ H1) F) as [F1 F2]. apply map_opt_spec in F1, F2. now rewrite F1, F2.
    + injection H as H1 -> -> H2. destruct (F2_app _ _ _ _ _ (map_const_len _ _ H1) F) as [F1 F2]. inversion F2 as [|? ? ? ? HR F3]; subst. apply map_opt_spec in F1, F3. now rewrite F1, HR, F3.
    + apply map_opt_spec in F. now rewrite F.
    + injection H as -> -> H1 H2. destruct (F2_app _ _ _ _ _ (map_const_len _ _ H1) F) as [F1 F2]. apply map_opt_spec in F1, F2. now rewrite F1, F2.
Qed.

(** * Full resolution as a relation *)
Definition rsl (c : ctx) (t w : ty) : Prop := exists f, resolve f c t = Some w.
Lemma resolve_step : forall f c t w, resolve (S f) c t = Some w <->
  exists u, resolve_infer c t = Done u /\ head u = head w /\ Forall2 (fun x y => resolve f c x = Some y) (children u) (children w).
Proof.
  intros f c t w. cbn [resolve]. split.
  - intros H. destruct (resolve_infer c t) as [u| |]; try discriminate. exists u. split; auto. now apply deep_fold_opt_spec.
  - intros (u & -> & H). now apply deep_fold_opt_spec.
Qed.
Lemma F2_impl : forall (A B : Type) (R Q : A -> B -> Prop) l m, (forall x y, In x l -> R x y -> Q x y) -> Forall2 R l m -> Forall2 Q l m.
Proof. intros A B R Q l m H F. induction F; constructor; [apply H; auto; now left|]. apply IHF. intros; apply H; auto. now right. Qed.
Lemma resolve_mono : forall f g c t w, f <= g -> resolve f c t = Some w -> resolve g c t = Some w.
Proof.
  induction f as [|f IH]; intros g c t w L H; [discriminate|]. destruct g as [|g]; [lia|]. apply resolve_step in H. destruct H as (u & E & HH & F). apply resolve_step. exists u. split; auto. split; auto. eapply F2_impl; [|exact F]. intros x y _. apply IH. lia.
Qed.
Lemma rsl_list : forall c l m, Forall2 (rsl c) l m -> exists f, Forall2 (fun x y => resolve f c x = Some y) l m.
Proof.
  intros c l m H. induction H as [|x y l m [f F] H [g IH]]; [exists 0; constructor|]. exists (f + g). constructor; [eapply resolve_mono; [|exact F]; lia|]. eapply F2_impl; [|exact IH]. intros a b _. apply resolve_mono. lia.
Qed.
Lemma rsl_iff : forall c t w, good c -> (rsl c t w <-> exists u, resolves1 c t u /\ head u = head w /\ Forall2 (rsl c) (children u) (children w)).
Proof.
  intros c t w G. split.
  - intros [[|f] H]; [discriminate|]. apply resolve_step in H. destruct H as (u & E & HH & F). exists u. split; [now apply resolves1_done|]. split; auto. eapply F2_impl; [|exact F]. intros x y _ Q. exists f. auto.
  - intros (u & E & HH & F). apply rsl_list in F. destruct F as [f F]. exists (S f). apply resolve_step. exists u. split; auto. now apply resolves1_done.
Qed.
Lemma rsl_det : forall c t u w, rsl c t u -> rsl c t w -> u = w.
Proof. intros c t u w [f F] [g H]. apply (resolve_mono f (f + g)) in F; [|lia]. apply (resolve_mono g (f + g)) in H; [|lia]. congruence. Qed.
Lemma F2_rsl_det : forall c l m n, Forall2 (rsl c) l m -> Forall2 (rsl c) l n -> m = n.
Proof. intros c l m n H. revert n. induction H; intros n Q; inversion Q; subst; auto. f_equal; auto. eapply rsl_det; eauto. Qed.
Lemma rsl_node : forall c t w, is_infer t = false -> (rsl c t w <-> head t = head w /\ Forall2 (rsl c) (children t) (children w)).
Proof.
  intros c t w I. assert (R : resolve_infer c t = Done t) by (destruct t; auto; discriminate). split.
  - intros [[|f] H]; [discriminate|]. apply resolve_step in H. destruct H as (u & E & HH & F). assert (u = t) by congruence. subst u. split; auto. eapply F2_impl; [|exact F]. intros x y _ Q. exists f. auto.
  - intros (HH & F). apply rsl_list in F. destruct F as [f F]. exists (S f). apply resolve_step. exists t. auto.
Qed.
Lemma rsl_leaf : forall c t w, is_infer t = false -> children t = [] -> rsl c t w -> w = t.
Proof. intros c t w I C H. apply rsl_node in H; auto. destruct H as [H F]. rewrite C in F. inversion F. symmetry. apply head_children_inj; auto. congruence. Qed.
Lemma rsl_seq : forall c k t w, rsl c (Seq k t) w -> exists u, w = Seq k u /\ rsl c t u.
Proof. intros c k t w H. apply rsl_node in H; auto. destruct H as [H F]. destruct w; cbn in H; try discriminate. injection H as <-. cbn in F. inversion F; subst. eauto. Qed.
Lemma rsl_ref : forall c m t w, rsl c (Reference m t) w -> exists u, w = Reference m u /\ rsl c t u.
Proof. intros c k t w H. apply rsl_node in H; auto. destruct H as [H F]. destruct w; cbn in H; try discriminate. injection H as <-. cbn in F. inversion F; subst. eauto. Qed.
Lemma rsl_tuple : forall c ts w, rsl c (Tuple ts) w -> exists us, w = Tuple us /\ Forall2 (rsl c) ts us.
Proof. intros c ts w H. apply rsl_node in H; auto. destruct H as [H F]. destruct w; cbn in H; try discriminate. cbn in F. eauto. Qed.
Lemma rsl_adt : forall c l k v x w, rsl c (Adt l k v x) w -> exists v' x', w = Adt l k v' x' /\ Forall2 (rsl c) v v' /\ Forall2 (rsl c) x x'.
Proof. intros c l k v x w H. apply rsl_node in H; auto. destruct H as [H F]. destruct w; cbn in H; try discriminate. injection H as <- <- H1 H2. cbn in F. exists vals, args. split; auto. apply F2_app; auto. now apply map_const_len. Qed.
Lemma rsl_schema : forall c l k v x w, rsl c (Schema l k v x) w -> exists v' x', w = Schema l k v' x' /\ Forall2 (rsl c) v v' /\ Forall2 (rsl c) x x'.
Proof. intros c l k v x w H. apply rsl_node in H; auto. destruct H as [H F]. destruct w; cbn in H; try discriminate. injection H as <- <- H1 H2. cbn in F. exists vals, args. split; auto. apply F2_app; auto. now apply map_const_len. Qed.
Lemma rsl_callable : forall c p r k ks v w, rsl c (Callable p r k ks v) w -> exists p' r' v', w = Callable p' r' k ks v' /\ Forall2 (rsl c) p p' /\ rsl c r r' /\ Forall2 (rsl c) v v'.
Proof. intros c p r k ks v w H. apply rsl_node in H; auto. destruct H as [H F]. destruct w; cbn in H; try discriminate. injection H as H1 <- <- H2. cbn in F. apply F2_app in F; [|now apply map_const_len]. destruct F as [F1 F2]. inversion F2; subst. exists params, w, vals. auto. Qed.

(** * What is left in a resolved type *)
Definition free (c : ctx) (x : ty) : Prop := match x with Var v => forall t, ~ vval c v t | IntVar i => forall t, ~ ival c i t | _ => True end.
Definition no_bound (c : ctx) (t : ty) : Prop := forall x, part x t -> free c x.
Lemma resolves1_free : forall c t u, good c -> resolves1 c t u -> free c u.
Proof.
  intros c t u G R. destruct u; cbn; auto.
  - apply resolves1_var in R; auto. apply R.
  - eapply resolves1_int; eauto.
Qed.
Lemma head_infer : forall u w, head u = head w -> is_infer u = true -> u = w.
Proof. intros u w H I. destruct u; try discriminate; destruct w; cbn in H; try discriminate; auto. Qed.
Lemma head_free : forall c u w, head u = head w -> free c u -> free c w.
Proof. intros c u w H F. destruct u; destruct w; cbn in *; try discriminate; auto; injection H as <-; auto. Qed.
Lemma F2_in_r : forall (A B : Type) (R : A -> B -> Prop) l m y, Forall2 R l m -> In y m -> exists x, In x l /\ R x y.
Proof. intros A B R l m y F. induction F as [|a b l m H F IH]; intros I; [destruct I|]. destruct I as [<-|I]; [exists a; split; auto; now left|]. destruct (IH I) as (x & I2 & Q). exists x. split; auto. now right. Qed.
Lemma F2_in_l : forall (A B : Type) (R : A -> B -> Prop) l m x, Forall2 R l m -> In x l -> exists y, In y m /\ R x y.
Proof. intros A B R l m y F. induction F as [|a b l m H F IH]; intros I; [destruct I|]. destruct I as [<-|I]; [exists b; split; auto; now left|]. destruct (IH I) as (x & I2 & Q). exists x. split; auto. now right. Qed.
Lemma resolved_no_bound : forall f c t w, good c -> resolve f c t = Some w -> no_bound c w.
Proof.
  induction f as [|f IH]; intros c t w G H; [discriminate|]. apply resolve_step in H. destruct H as (u & E & HH & F). apply resolves1_done in E; auto. intros x P. inversion P as [|? ? y I P2]; subst; [eapply head_free; eauto; eapply resolves1_free; eauto|].
  destruct (F2_in_r _ _ _ _ _ _ F I) as (z & I2 & Q). eapply IH; eauto.
Qed.
Lemma F2_self : forall (R : ty -> ty -> Prop) l, (forall x, In x l -> R x x) -> Forall2 R l l.
Proof. intros R l H. induction l; constructor; [apply H; now left|]. apply IHl. intros; apply H; now right. Qed.
Lemma no_bound_self : forall c t, good c -> no_bound c t -> rsl c t t.
Proof.
  intros c t G. induction t as [t IH] using ty_ind'. intros N. apply rsl_iff; auto. exists t. split; [|split; auto].
  - assert (F : free c t) by (apply N; constructor). destruct t; try (now apply r1_other); cbn in F; [now apply r1_var_free|now apply r1_int_free].
  - apply F2_self. intros x I. apply IH; auto. intros y P. apply N. eapply part_in; eauto.
Qed.
(** type parameters come from the type or from the table *)
Lemma resolved_params : forall f c t w p, good c -> resolve f c t = Some w -> part (TypeParam p) w ->
  part (TypeParam p) t \/ exists v u, vval c v u /\ part (TypeParam p) u.
Proof.
  induction f as [|f IH]; intros c t w p G H P; [discriminate|]. apply resolve_step in H. destruct H as (u & E & HH & F). apply resolves1_done in E; auto.
  assert (Q : part (TypeParam p) u \/ exists v u, vval c v u /\ part (TypeParam p) u).
  { inversion P as [|? ? y I P2]; subst; [left; destruct u; cbn in HH; try discriminate; injection HH as ->; constructor|]. destruct (F2_in_r _ _ _ _ _ _ F I) as (z & I2 & Q). destruct (IH _ _ _ p G Q P2) as [X|X]; auto. left. eapply part_in; eauto. }
  destruct Q as [Q|Q]; auto. inversion E; subst; auto.
  - apply (g_ival _ G) in H. destruct H as [k ->]. inversion Q; subst. destruct H.
  - apply (g_ival _ G) in H0. destruct H0 as [k ->]. inversion Q; subst. destruct H0.
  - inversion Q; subst. destruct H1.
  - right. eauto.
Qed.

(** * Substitution and resolution commute *)
Lemma assoc_F2 : forall (R : ty -> ty -> Prop) p keys vals vals', Forall2 R vals vals' ->
  (exists x y, assoc p keys vals = Some x /\ assoc p keys vals' = Some y /\ R x y) \/ (assoc p keys vals = None /\ assoc p keys vals' = None).
Proof.
  intros R p keys. induction keys as [|k keys IH]; intros vals vals' F; [right; auto|]. inversion F as [|x y l m H F2]; subst; [right; auto|]. cbn. destruct (k =? p); [left; eauto|]. auto.
Qed.
Lemma head_subst : forall s t, (forall p, t <> TypeParam p) -> head (substitute s t) = head t /\ children (substitute s t) = map (substitute s) (children t).
Proof. intros s t N. unfold substitute. rewrite fold_params_eq. destruct t; try (exfalso; eapply N; eauto; fail); rewrite head_deep_fold, children_deep_fold; auto. Qed.
Lemma subst_infer : forall s t, is_infer t = true -> substitute s t = t.
Proof. intros s t H. destruct t; try discriminate; reflexivity. Qed.
Lemma F2_map2 : forall (R Q : ty -> ty -> Prop) f g l m, (forall x y, In x l -> R x y -> Q (f x) (g y)) -> Forall2 R l m -> Forall2 Q (map f l) (map g m).
Proof. intros R Q f g l m H F. induction F; cbn; constructor; [apply H; auto; now left|]. apply IHF. intros; apply H; auto. now right. Qed.
Lemma resolve_substitute_gen : forall c keys vals vals' f t w, good c -> Forall2 (rsl c) vals vals' ->
  (has_infer t = false \/ forall v u p, vval c v u -> part (TypeParam p) u -> assoc p keys vals = None) ->
  resolve f c t = Some w -> rsl c (substitute (mkSubst keys vals) t) (substitute (mkSubst keys vals') w).
Proof.
  intros c keys vals vals' f. induction f as [|f IH]; intros t w G FV HC H; [discriminate|].
  destruct (is_infer t) eqn:I.
  - destruct HC as [HC|HC]; [destruct t; discriminate|]. rewrite (subst_infer _ t I).
    assert (E : substitute (mkSubst keys vals') w = w); [|rewrite E; eexists; eauto].
    unfold substitute. rewrite (fold_params_ext _ TypeParam); [apply fold_params_id|]. intros p P. destruct (resolved_params _ _ _ _ p G H P) as [Q|(v & u & V & Q)].
    + destruct t; try discriminate; inversion Q; subst; destruct H0.
    + pose proof (HC v u p V Q) as N. unfold get_ty. cbn. destruct (assoc_F2 _ p keys _ _ FV) as [(x & y & A & _)|[_ A]]; [congruence|]. now rewrite A.
  - assert (R : rsl c t w) by (eexists; eauto). apply rsl_node in R; auto. destruct R as [HH FF]. apply resolve_step in H. destruct H as (u & E & HH2 & F). assert (u = t) by (destruct t; cbn in E; try congruence; discriminate). subst u.
    assert (NP : (forall p, t <> TypeParam p) -> rsl c (substitute (mkSubst keys vals) t) (substitute (mkSubst keys vals') w)).
    { intros NP. assert (NP2 : forall p, w <> TypeParam p) by (intros p ->; destruct t; cbn in HH; try discriminate; eapply NP; eauto).
      destruct (head_subst (mkSubst keys vals) t NP) as [A1 A2]. destruct (head_subst (mkSubst keys vals') w NP2) as [B1 B2].
      apply rsl_node; [destruct t; cbn in *; try discriminate; auto; exfalso; eapply NP; eauto|]. rewrite A1, B1, A2, B2. split; auto.
      eapply F2_map2; [|exact F]. intros x y IX R. apply IH; auto. destruct HC as [HC|HC]; [left|right; auto]. unfold has_infer in *. eapply visit_child; eauto. }
    destruct t; try (apply NP; intros; discriminate). assert (w = TypeParam p) by (apply (rsl_leaf c (TypeParam p)); auto; eexists; apply resolve_step; eauto). subst w. clear NP.
    unfold substitute. cbn. unfold get_ty. cbn. destruct (assoc_F2 _ p keys _ _ FV) as [(x & y & A & B & R)|[A B]]; rewrite A, B; auto.
    apply rsl_node; auto.
Qed.
(** C27, last clause: resolving a substituted type is substituting into the resolved type, when the
    variables do not stand for types with mapped parameters *)
Theorem substitute_resolve_commute : forall c keys vals vals' t w, good c ->
  (forall v u p, vval c v u -> part (TypeParam p) u -> ~ In p keys) ->
  Forall2 (rsl c) vals vals' -> rsl c t w -> rsl c (substitute (mkSubst keys vals) t) (substitute (mkSubst keys vals') w).
Proof.
  intros c keys vals vals' t w G HC F [f H]. eapply resolve_substitute_gen; eauto. right. intros v u p V P. specialize (HC v u p V P). clear -HC. revert vals. induction keys as [|k keys IH]; intros [|x vals]; cbn; auto. destruct (Nat.eqb_spec k p) as [->|N]; [exfalso; apply HC; now left|]. apply IH. intros I. apply HC. now right.
Qed.

(** * Compatibility of resolved types *)
Section WithDb.
Variable d : db.
Definition closed_db : Prop := forall l lam, wrapped_lambda d l = Some lam -> has_infer lam = false.
Lemma no_infer_no_bound : forall c t, has_infer t = false -> no_bound c t.
Proof. intros c t H x P. unfold has_infer in H. rewrite visit_false_iff in H. specialize (H x P). destruct x; cbn; auto; discriminate. Qed.
Lemma rsl_resolves1 : forall c t u w, good c -> resolves1 c t u -> is_infer u = false -> rsl c t w -> rsl c u w.
Proof.
  intros c t u w G R I H. apply rsl_iff in H; auto. destruct H as (u2 & R2 & HH & F). apply resolves1_done in R, R2; auto. assert (u2 = u) by congruence. subst u2. apply rsl_node; auto.
Qed.
Lemma rsl_same : forall c t u w, good c -> resolve_infer c t = resolve_infer c u -> rsl c t w -> rsl c u w.
Proof. intros c t u w G E H. destruct H as [[|f] H]; [discriminate|]. exists (S f). cbn in *. now rewrite <- E. Qed.
Lemma rsl_var_val : forall c v t w, good c -> vval c v t -> rsl c (Var v) w -> rsl c t w.
Proof.
  intros c v t w G V H. apply (rsl_same c (Var v) t); auto. cbn. destruct (vvalue_total c v G) as [o E]. rewrite E. cbn. pose proof (proj1 (vvalue_spec c v _ G) E) as E0; clear E; rename E0 into E. apply E in V. subst o. pose proof (proj1 (E t) eq_refl) as V. destruct t; auto. exfalso. eapply (g_vval _ G); eauto. eexists; eauto.
Qed.
Lemma rsl_int_val : forall c v t w, good c -> ival c v t -> rsl c (IntVar v) w -> rsl c t w.
Proof.
  intros c v t w G V H. apply (rsl_same c (IntVar v) t); auto. cbn. destruct (ivalue_total c v G) as [o E]. rewrite E. cbn. pose proof (proj1 (ivalue_spec c v _ G) E) as E0; clear E; rename E0 into E. apply E in V. subst o. pose proof (proj1 (E t) eq_refl) as V. destruct (g_ival _ G _ _ V) as [k ->]. auto.
Qed.
Lemma rsl_strips : forall c r x r1, strips r x -> rsl c r r1 -> exists x1, strips r1 x1 /\ rsl c x x1.
Proof. intros c r x r1 H. revert r1. induction H; intros r1 R; [exists r1; split; auto; constructor|]. apply rsl_ref in R. destruct R as (w & -> & R). destruct (IHstrips _ R) as (x1 & S1 & R1). exists x1. split; auto. now constructor. Qed.
Lemma vval_dec : forall c v, good c -> (exists t, vval c v t) \/ (forall t, ~ vval c v t).
Proof. intros c v G. destruct (vvalue_total c v G) as [o E]. pose proof (proj1 (vvalue_spec c v _ G) E) as E0; clear E; rename E0 into E. destruct o as [t|]; [left; exists t; now apply E|right]. intros t V. apply E in V. discriminate. Qed.
Lemma ival_dec : forall c v, good c -> (exists t, ival c v t) \/ (forall t, ~ ival c v t).
Proof. intros c v G. destruct (ivalue_total c v G) as [o E]. pose proof (proj1 (ivalue_spec c v _ G) E) as E0; clear E; rename E0 into E. destruct o as [t|]; [left; exists t; now apply E|right]. intros t V. apply E in V. discriminate. Qed.
Lemma rsl_free_var : forall c v w, good c -> (forall t, ~ vval c v t) -> rsl c (Var v) w -> w = Var v.
Proof. intros c v w G N H. apply rsl_iff in H; auto. destruct H as (u & R & HH & F). inversion R; subst; try (exfalso; eapply N; eauto; fail); try discriminate. symmetry. apply head_infer; auto. Qed.
Lemma rsl_free_int : forall c v w, good c -> (forall t, ~ ival c v t) -> rsl c (IntVar v) w -> w = IntVar v.
Proof. intros c v w G N H. apply rsl_iff in H; auto. destruct H as (u & R & HH & F). inversion R; subst; try (exfalso; eapply N; eauto; fail); try discriminate. symmetry. apply head_infer; auto. Qed.
Lemma compat_resolved_both : forall c, good c -> closed_db ->
  (forall e a, compat d c e a -> forall e1 a1, rsl c e e1 -> rsl c a a1 -> compat d c e1 a1) /\
  (forall l r, compats d c l r -> forall l1 r1, Forall2 (rsl c) l l1 -> Forall2 (rsl c) r r1 -> compats d c l1 r1).
Proof.
  intros c G CD.
  apply (compat_both d c (fun e a _ => forall e1 a1, rsl c e e1 -> rsl c a a1 -> compat d c e1 a1) (fun l r _ => forall l1 r1, Forall2 (rsl c) l l1 -> Forall2 (rsl c) r r1 -> compats d c l1 r1)).
  - intros a e1 a1 R1 R2. apply rsl_leaf in R1; auto. subst. constructor.
  - intros a e1 a1 R1 R2. apply rsl_leaf in R2; auto. subst. constructor.
  - intros a e1 a1 R1 R2. apply rsl_leaf in R1; auto. subst. constructor.
  - intros a e1 a1 R1 R2. apply rsl_leaf in R2; auto. subst. constructor.
  - intros t e1 a1 R1 R2. rewrite (rsl_det _ _ _ _ R1 R2). apply co_refl.
  - intros k l H e1 a1 R1 R2. apply rsl_leaf in R1; auto. apply rsl_leaf in R2; auto. subst. now apply co_int.
  - intros k l t u C IH e1 a1 R1 R2. apply rsl_seq in R1. destruct R1 as (t1 & -> & R1). apply rsl_seq in R2. destruct R2 as (u1 & -> & R2). apply co_seq. auto.
  - intros m n t u M C IH e1 a1 R1 R2. apply rsl_ref in R1. destruct R1 as (t1 & -> & R1). apply rsl_ref in R2. destruct R2 as (u1 & -> & R2). apply co_ref; auto.
  - intros l k v x k' v' x' C IH e1 a1 R1 R2. apply rsl_adt in R1. destruct R1 as (v1 & x1 & -> & _ & R1). apply rsl_adt in R2. destruct R2 as (v2 & x2 & -> & _ & R2). apply co_adt. auto.
  - intros x x' L C IH e1 a1 R1 R2. apply rsl_tuple in R1. destruct R1 as (x1 & -> & R1). apply rsl_tuple in R2. destruct R2 as (x2 & -> & R2). apply co_tuple; auto. rewrite <- (F2_len _ _ _ _ _ R1), <- (F2_len _ _ _ _ _ R2). auto.
  - intros ps r k ks vs ps' r' k' ks' vs' x x' CS IHS S1 S2 C IH e1 a1 R1 R2. apply rsl_callable in R1. destruct R1 as (p1 & r1 & v1 & -> & F1 & R1 & _). apply rsl_callable in R2. destruct R2 as (p2 & r2 & v2 & -> & F2 & R2 & _).
    destruct (rsl_strips _ _ _ _ S1 R1) as (y1 & T1 & Q1). destruct (rsl_strips _ _ _ _ S2 R2) as (y2 & T2 & Q2). eapply co_callable; eauto.
  - intros l keys vals args lam a WL C IH e1 a1 R1 R2. apply rsl_adt in R1. destruct R1 as (v1 & x1 & -> & F1 & _). eapply co_wrapped; [exact WL|]. apply IH; auto.
    assert (RL : rsl c lam lam) by (apply no_bound_self; auto; apply no_infer_no_bound; eapply CD; eauto). destruct RL as [f RL]. eapply resolve_substitute_gen; eauto.
  - intros e x C IH e1 a1 R1 R2. apply rsl_tuple in R2. destruct R2 as (us & -> & F). inversion F as [|? ? ? ? H1 F2]; subst. inversion F2; subst. apply co_single. auto.
  - intros v t a V C IH e1 a1 R1 R2. apply IH; auto. eapply rsl_var_val; eauto.
  - intros v t e V C IH e1 a1 R1 R2. apply IH; auto. eapply rsl_var_val; eauto.
  - intros v w SM e1 a1 R1 R2. destruct (vval_dec c v G) as [[t V]|N].
    + assert (V2 : vval c w t) by (eapply vsame_val; eauto). pose proof (rsl_var_val _ _ _ _ G V R1) as Q1. pose proof (rsl_var_val _ _ _ _ G V2 R2) as Q2. rewrite (rsl_det _ _ _ _ Q1 Q2). apply co_refl.
    + assert (N2 : forall t, ~ vval c w t) by (intros t V; apply (N t); eapply vsame_val; [apply vsame_sym|]; eauto). rewrite (rsl_free_var _ _ _ G N R1), (rsl_free_var _ _ _ G N2 R2). now apply co_class.
  - intros v t a V C IH e1 a1 R1 R2. apply IH; auto. eapply rsl_int_val; eauto.
  - intros v t e V C IH e1 a1 R1 R2. apply IH; auto. eapply rsl_int_val; eauto.
  - intros v w SM e1 a1 R1 R2. destruct (ival_dec c v G) as [[t V]|N].
    + assert (V2 : ival c w t) by (eapply isame_val; eauto). pose proof (rsl_int_val _ _ _ _ G V R1) as Q1. pose proof (rsl_int_val _ _ _ _ G V2 R2) as Q2. rewrite (rsl_det _ _ _ _ Q1 Q2). apply co_refl.
    + assert (N2 : forall t, ~ ival c w t) by (intros t V; apply (N t); eapply isame_val; [apply isame_sym|]; eauto). rewrite (rsl_free_int _ _ _ G N R1), (rsl_free_int _ _ _ G N2 R2). now apply co_int_class.
  - intros m t a M C IH e1 a1 R1 R2. apply rsl_ref in R1. destruct R1 as (t1 & -> & R1). apply co_msl_ref_l; auto.
  - intros m t a M C IH e1 a1 R1 R2. apply rsl_ref in R2. destruct R2 as (t1 & -> & R2). apply co_msl_ref_r; auto.
  - intros k a M C IH e1 a1 R1 R2. apply rsl_leaf in R1; auto. subst. apply co_msl_int_l; auto. apply IH; auto. apply no_bound_self; auto. now apply no_infer_no_bound.
  - intros k a M C IH e1 a1 R1 R2. apply rsl_leaf in R2; auto. subst. apply co_msl_int_r; auto. apply IH; auto. apply no_bound_self; auto. now apply no_infer_no_bound.
  - intros i a M C IH e1 a1 R1 R2. assert (NN : compat d c Num a1) by (apply IH; auto; apply no_bound_self; auto; now apply no_infer_no_bound). destruct (ival_dec c i G) as [[t V]|N].
    + pose proof (rsl_int_val _ _ _ _ G V R1) as Q. destruct (g_ival _ G _ _ V) as [k ->]. apply rsl_leaf in Q; auto. subst. now apply co_msl_int_l.
    + rewrite (rsl_free_int _ _ _ G N R1). now apply co_msl_var_l.
  - intros i a M C IH e1 a1 R1 R2. assert (NN : compat d c e1 Num) by (apply IH; auto; apply no_bound_self; auto; now apply no_infer_no_bound). destruct (ival_dec c i G) as [[t V]|N].
    + pose proof (rsl_int_val _ _ _ _ G V R2) as Q. destruct (g_ival _ G _ _ V) as [k ->]. apply rsl_leaf in Q; auto. subst. now apply co_msl_int_r.
    + rewrite (rsl_free_int _ _ _ G N R2). now apply co_msl_var_r.
  - intros r l1 r1 F1 F2. inversion F1. constructor.
  - intros r l1 r1 F1 F2. inversion F2. constructor.
  - intros x y l r C IH CS IHS l1 r1 F1 F2. inversion F1; subst. inversion F2; subst. constructor; auto.
Qed.

(** * Compatibility without variables *)
(** the same rules without those about variables and tables *)
Inductive fits (m : bool) : ty -> ty -> Prop :=
| fi_unknown_l : forall a, fits m Unknown a
| fi_unknown_r : forall e, fits m e Unknown
| fi_never_l : forall a, fits m Never a
| fi_never_r : forall e, fits m e Never
| fi_refl : forall t, fits m t t
| fi_int : forall k l, k = KInteger \/ l = KInteger -> fits m (Integer k) (Integer l)
| fi_seq : forall k l t u, fits m t u -> fits m (Seq k t) (Seq l u)
| fi_ref : forall x y t u, (x = true -> y = true) -> fits m t u -> fits m (Reference x t) (Reference y u)
| fi_adt : forall l k v x k' v' x', fits_all m x x' -> fits m (Adt l k v x) (Adt l k' v' x')
| fi_tuple : forall x x', length x = length x' -> fits_all m x x' -> fits m (Tuple x) (Tuple x')
| fi_callable : forall ps r k ks vs ps' r' k' ks' vs' x x', fits_all m ps ps' -> strips r x -> strips r' x' -> fits m x x' -> fits m (Callable ps r k ks vs) (Callable ps' r' k' ks' vs')
| fi_wrapped : forall l keys vals args lam a, wrapped_lambda d l = Some lam -> fits m (substitute (mkSubst keys vals) lam) a -> fits m (Adt l keys vals args) a
| fi_single : forall e x, fits m e x -> fits m e (Tuple [x])
| fi_msl_ref_l : forall x t a, m = true -> fits m t a -> fits m (Reference x t) a
| fi_msl_ref_r : forall x t e, m = true -> fits m e t -> fits m e (Reference x t)
| fi_msl_int_l : forall k a, m = true -> fits m Num a -> fits m (Integer k) a
| fi_msl_int_r : forall k e, m = true -> fits m e Num -> fits m e (Integer k)
with fits_all (m : bool) : list ty -> list ty -> Prop :=
| fa_nil_l : forall r, fits_all m [] r
| fa_nil_r : forall l, fits_all m l []
| fa_cons : forall x y l r, fits m x y -> fits_all m l r -> fits_all m (x :: l) (y :: r).
Lemma no_infer_child : forall t x, has_infer t = false -> In x (children t) -> has_infer x = false.
Proof. intros t x H I. unfold has_infer in *. eapply visit_child; eauto. Qed.
Lemma no_infer_subst : forall keys vals t, has_infer t = false -> (forall x, In x vals -> has_infer x = false) -> has_infer (substitute (mkSubst keys vals) t) = false.
Proof.
  intros keys vals t. induction t as [t IH] using ty_ind'. intros H V.
  destruct (match t with TypeParam p => true | _ => false end) eqn:TP.
  - destruct t; try discriminate. unfold substitute, get_ty. cbn. destruct (assoc p keys vals) as [x|] eqn:E; [|reflexivity]. apply V. clear -E. revert vals E. induction keys as [|k keys IHk]; intros [|v vals] E; cbn in E; try discriminate. destruct (k =? p); [injection E as ->; now left|right; auto].
  - assert (NP : forall p, t <> TypeParam p) by (intros p ->; discriminate). destruct (head_subst (mkSubst keys vals) t NP) as [A1 A2]. unfold has_infer. rewrite visit_eq. apply orb_false_iff. split.
    + unfold has_infer in H. rewrite visit_eq in H. apply orb_false_iff in H. destruct H as [H _]. destruct t; try discriminate; reflexivity.
    + rewrite A2. destruct (existsb _ _) eqn:E; auto. apply existsb_exists in E. destruct E as (y & I & Q). apply in_map_iff in I. destruct I as (z & <- & I). assert (Q2 : has_infer (substitute (mkSubst keys vals) z) = false) by (apply IH; auto; eapply no_infer_child; eauto). unfold has_infer in Q2. congruence.
Qed.
Lemma strips_no_infer : forall r x, strips r x -> has_infer r = false -> has_infer x = false.
Proof. intros r x H. induction H; auto. Qed.
Lemma compat_fits_both : forall c, closed_db ->
  (forall e a, compat d c e a -> has_infer e = false -> has_infer a = false -> fits (msl c) e a) /\
  (forall l r, compats d c l r -> (forall x, In x l -> has_infer x = false) -> (forall x, In x r -> has_infer x = false) -> fits_all (msl c) l r).
Proof.
  intros c CD.
  apply (compat_both d c (fun e a _ => has_infer e = false -> has_infer a = false -> fits (msl c) e a) (fun l r _ => (forall x, In x l -> has_infer x = false) -> (forall x, In x r -> has_infer x = false) -> fits_all (msl c) l r)); intros; try discriminate; try (constructor; auto; fail).
  - apply fi_adt. apply H; intros y I; [apply (no_infer_child _ _ H0)|apply (no_infer_child _ _ H1)]; cbn; apply in_app_iff; auto.
  - apply fi_tuple; auto. apply H; intros y I; [apply (no_infer_child _ _ H0)|apply (no_infer_child _ _ H1)]; auto.
  - eapply fi_callable; eauto; [apply H; intros y I; [apply (no_infer_child _ _ H1)|apply (no_infer_child _ _ H2)]; cbn; apply in_app_iff; auto|apply H0].
    + eapply strips_no_infer; eauto. apply (no_infer_child _ _ H1). cbn. apply in_app_iff. right. now left.
    + eapply strips_no_infer; eauto. apply (no_infer_child _ _ H2). cbn. apply in_app_iff. right. now left.
  - eapply fi_wrapped; eauto. apply H; auto. apply no_infer_subst; [eapply CD; eauto|]. intros x I. apply (no_infer_child _ _ H0). cbn. apply in_app_iff. auto.
  - apply fi_single. apply H; auto. apply (no_infer_child _ _ H1). cbn. auto.
  - constructor; [apply H|apply H0]; auto; intros; [apply H1|apply H2| |]; try (now left); [apply H1|apply H2]; now right.
Qed.
End WithDb.
