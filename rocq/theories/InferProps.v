(** Type inference contexts (C23, C24, C25, C26, C28). *)
From Verif Require Import Base TyModel TyProps UnifyModel UnifyProps InferModel InferProofs InferResolve InferTotal.

(** * Contexts of the examples *)
Definition va : tyvar := mkVar None 0.
Definition vb : tyvar := mkVar None 1.
Definition ex_db : db := mkDb (fun _ => Some [ACopy; ADrop; AStore]) (fun _ => Some [ACopy])
  (fun l => if l =? 7 then Some (Callable [TypeParam 3] TBool (CLambda None) [] []) else None).
Definition empty_ctx (m : bool) : ctx := mkCtx m new_table new_table.
Lemma empty_good : forall m, good (empty_ctx m).
Proof.
  intros m. constructor.
  - intros v. exists v. apply leads_here. cbn. intros w. discriminate.
  - intros v. exists v. apply leads_here. cbn. intros w. discriminate.
  - intros v t (r & _ & H). discriminate.
  - intros v t (r & _ & H). discriminate.
Qed.

(** * C23: frozen computations *)
(** computations over a context: reading it, unifying, combining, freezing, entering specifications *)
Inductive prog :=
| Ret
| Read (k : ctx -> prog)
| Comb (fuel : nat) (e a : ty) (k : cres -> prog)
| UVar (v : tyvar) (t : ty) (k : cres -> prog)
| UInt (i : nat) (t : ty) (k : cres -> prog)
| Frozen (p k : prog)
| Spec (p k : prog).
Fixpoint exec (d : db) (p : prog) (c : ctx) : out (ctx * unit) :=
  match p with
  | Ret => Done (c, tt)
  | Read k => exec d (k c) c
  | Comb f e a k => obind (combine d f c e a) (fun '(c', r) => exec d (k r) c')
  | UVar v t k => obind (unify_ty_var d c v t) (fun '(c', r) => exec d (k r) c')
  | UInt i t k => obind (unify_int_var c i t) (fun '(c', r) => exec d (k r) c')
  | Frozen p k => obind (freeze (exec d p) c) (fun '(c', _) => exec d k c')
  | Spec p k => obind (msl_scope (exec d p) c) (fun '(c', _) => exec d k c')
  end.
Definition keeps (c c' : ctx) : Prop := msl c' = msl c /\ t_snaps (vt c') = t_snaps (vt c) /\ t_snaps (it c') = t_snaps (it c).
Lemma keeps_refl : forall c, keeps c c.
Proof. repeat split. Qed.
Lemma keeps_trans : forall a b c, keeps a b -> keeps b c -> keeps a c.
Proof. intros a b c (A & B & C) (D & E & F). repeat split; congruence. Qed.
Definition keeping {A} (f : ctx -> out (ctx * A)) : Prop := forall c c' r, f c = Done (c', r) -> keeps c c'.
Theorem freeze_restores : forall A (f : ctx -> out (ctx * A)) c, keeping f ->
  freeze f c = match f (mkCtx (msl c) (snapshot _ _ (vt c)) (snapshot _ _ (it c))) with Done (_, r) => Done (c, r) | Crash => Crash | Loop => Loop end.
Proof.
  intros A f c K. unfold freeze. destruct (f _) as [[c1 r]| |] eqn:E; cbn [obind]; auto. destruct (K _ _ _ E) as (M & V & I). cbn in M, V, I.
  rewrite (rollback_restores tyvar ty (vt c) (vt c1) V). cbn [obind]. rewrite (rollback_restores nat ty (it c) (it c1) I). cbn [obind]. rewrite M. destruct c; reflexivity.
Qed.
Lemma freeze_keeps : forall A (f : ctx -> out (ctx * A)), keeping f -> keeping (freeze f).
Proof. intros A f K c c' r H. rewrite freeze_restores in H; auto. destruct (f _) as [[c1 r1]| |]; try discriminate. injection H as <- <-. apply keeps_refl. Qed.
Theorem msl_scope_restores : forall A (f : ctx -> out (ctx * A)) c c' r, keeping f -> msl c = false -> msl_scope f c = Done (c', r) -> c' = c.
Proof.
  intros A f c c' r K M H. unfold msl_scope in H. rewrite M in H. rewrite freeze_restores in H; auto. cbn [msl vt it] in H. destruct (f _) as [[c1 r1]| |]; cbn [obind] in H; try discriminate. injection H as <- <-. destruct c; cbn in *; congruence.
Qed.
Lemma msl_scope_keeps : forall A (f : ctx -> out (ctx * A)), keeping f -> keeping (msl_scope f).
Proof. intros A f K c c' r H. destruct (msl c) eqn:M; [unfold msl_scope in H; rewrite M in H; eapply K; eauto|]. rewrite (msl_scope_restores _ _ _ _ _ K M H). apply keeps_refl. Qed.
Lemma unify_ty_var_keeps : forall d v t, keeping (fun c => unify_ty_var d c v t).
Proof.
  intros d v t c c' r H. unfold unify_ty_var, set_value in H.
  assert (B : obind (vroot c v) (fun r0 => obind (contains_var c t r0) (fun b => if b then obind (set_value c r0 Unknown) (fun c' => Done (c', COk)) else obind (set_value c r0 t) (fun c' => Done (c', ability_check d c v t)))) = Done (c', r) -> keeps c c').
  { intros H2. unfold set_value in H2. destruct (vroot c v) as [r0| |]; cbn in H2; try discriminate. destruct (contains_var c t r0) as [[|]| |]; cbn in H2; try discriminate; destruct (unify_var_value _ _ _ _ _ _ _) as [m| |]; cbn in H2; try discriminate; injection H2 as <- <-; repeat split. }
  destruct t; try (apply B; exact H).
  - destruct (unify_var_var _ _ _ _ _ _ _) as [m| |]; cbn in H; try discriminate. injection H as <- <-. repeat split.
  - destruct (v_origin v); [injection H as <- <-; apply keeps_refl|apply B; exact H].
Qed.
Lemma unify_int_var_keeps : forall i t, keeping (fun c => unify_int_var c i t).
Proof. intros i t c c' r H. destruct t; cbn in H; try (injection H as <- <-; apply keeps_refl); destruct (unify_var_value _ _ _ _ _ _ _) as [m| |] || destruct (unify_var_var _ _ _ _ _ _ _) as [m| |]; cbn in H; try discriminate; injection H as <- <-; repeat split. Qed.
Lemma unify_with_unknown_keeps : forall d vs c c', unify_with_unknown d c vs = Done c' -> keeps c c'.
Proof.
  intros d vs. induction vs as [|v vs IH]; intros c c' H; cbn [unify_with_unknown] in H; [injection H as <-; apply keeps_refl|]. destruct (unify_ty_var d c v Unknown) as [[c1 r]| |] eqn:E; cbn [obind] in H; try discriminate. eapply keeps_trans; [eapply unify_ty_var_keeps; eauto|eauto].
Qed.
Lemma pairs_keeps : forall comb, (forall e a, keeping (fun c => comb c e a)) -> forall l r acc, keeping (fun c => combine_pairs comb c acc l r).
Proof.
  intros comb K l. induction l as [|x l IH]; intros [|y r] acc c c' res H; cbn in H; try (injection H as <- <-; apply keeps_refl). destruct (comb c x y) as [[c1 r1]| |] eqn:E; cbn in H; try discriminate. eapply keeps_trans; [eapply K; exact E|eapply IH; exact H].
Qed.
Lemma callables_keeps : forall comb, (forall e a, keeping (fun c => comb c e a)) -> forall ps r ps' r', keeping (fun c => combine_callables comb c ps r ps' r').
Proof.
  intros comb K ps r ps' r' c c' res H. unfold combine_callables in H. destruct (combine_pairs comb c COk ps ps') as [[c1 r1]| |] eqn:E; cbn in H; try discriminate. pose proof (pairs_keeps comb K _ _ _ _ _ _ E) as K1. destruct r1; [eapply keeps_trans; [exact K1|eapply K; exact H]|injection H as <- <-; auto].
Qed.
Lemma combine_keeps : forall d f e a, keeping (fun c => combine d f c e a).
Proof.
  intros d f. induction f as [|f IH]; intros e a c c' r H; [discriminate|]. cbn [combine] in H. destruct (prepare c e a) as [e0 a0]. destruct (resolve_infer c e0) as [e1| |]; cbn [obind] in H; try discriminate. destruct (resolve_infer c a0) as [a1| |]; cbn [obind] in H; try discriminate.
  assert (NV : combine_no_vars d (combine d f) c e1 a1 = Done (c', r) -> keeps c c').
  { clear H. intros H. pose proof (no_vars_cases d (combine d f) c e1 a1) as NC; remember (combine_no_vars d (combine d f) c e1 a1) as res; destruct NC as [Q0|Q0|Q0|k l Z Z2|k t l u0 Z Z2|m t n u0 Z Z2|l keys vals args ps rt k ks vs eps er Z Z2 EL|ps rt k ks vs ps' r' k' ks' vs' Z Z2|l k v x k' v' x' Z Z2|x x' Z Z2 LL|]; try subst e1; try subst a1; clear Heqres; try (injection H as <- <-; apply keeps_refl).
    - destruct (unify_with_unknown d c _) as [c1| |] eqn:E; cbn in H; try discriminate. injection H as <- <-. eapply unify_with_unknown_keeps; eauto.
    - eapply IH; exact H.
    - destruct (negb m || n); [eapply IH; exact H|]. destruct (combine d f c t u0) as [[c1 r1]| |] eqn:E; cbn in H; try discriminate. injection H as <- <-. eapply IH; exact E.
    - eapply callables_keeps; [exact IH|exact H].
    - eapply callables_keeps; [exact IH|exact H].
    - eapply pairs_keeps; [exact IH|exact H].
    - eapply pairs_keeps; [exact IH|exact H]. }
  destruct (dispatch_cases d (combine d f) c e1 a1) as [v Z|v Z|v Z|v Z|I1 I2]; auto; first [eapply unify_ty_var_keeps; exact H|eapply unify_int_var_keeps; exact H].
Qed.
Lemma exec_keeps : forall d p, keeping (exec d p).
Proof.
  intros d p. induction p as [|k IH|f e a k IH|v t k IH|i t k IH|p IHp k IHk|p IHp k IHk]; intros c c' r H; cbn in H.
  - injection H as <- <-. apply keeps_refl.
  - eapply IH; eauto.
  - destruct (combine d f c e a) as [[c1 r1]| |] eqn:E; cbn in H; try discriminate. eapply keeps_trans; [eapply combine_keeps; exact E|eapply IH; eauto].
  - destruct (unify_ty_var d c v t) as [[c1 r1]| |] eqn:E; cbn in H; try discriminate. eapply keeps_trans; [eapply unify_ty_var_keeps; exact E|eapply IH; eauto].
  - destruct (unify_int_var c i t) as [[c1 r1]| |] eqn:E; cbn in H; try discriminate. eapply keeps_trans; [eapply unify_int_var_keeps; exact E|eapply IH; eauto].
  - destruct (freeze (exec d p) c) as [[c1 r1]| |] eqn:E; cbn in H; try discriminate. eapply keeps_trans; [eapply freeze_keeps; [exact IHp|exact E]|eapply IHk; eauto].
  - destruct (msl_scope (exec d p) c) as [[c1 r1]| |] eqn:E; cbn in H; try discriminate. eapply keeps_trans; [eapply msl_scope_keeps; [exact IHp|exact E]|eapply IHk; eauto].
Qed.
(** whatever runs inside, and however deeply frozen parts are nested *)
Theorem frozen_program_pure : forall d p c c' r, freeze (exec d p) c = Done (c', r) -> c' = c.
Proof. intros d p c c' r H. rewrite freeze_restores in H; [|apply exec_keeps]. destruct (exec d p _) as [[c1 r1]| |]; try discriminate. now injection H as <- <-. Qed.
Theorem spec_program_pure : forall d p c c' r, msl c = false -> msl_scope (exec d p) c = Done (c', r) -> c' = c.
Proof. intros d p c c' r M H. eapply msl_scope_restores; eauto. apply exec_keeps. Qed.
(** freezing adds no panic of its own *)
Theorem freeze_adds_no_panic : forall d p c, freeze (exec d p) c = Crash <-> exec d p (mkCtx (msl c) (snapshot _ _ (vt c)) (snapshot _ _ (it c))) = Crash.
Proof. intros d p c. rewrite freeze_restores; [|apply exec_keeps]. destruct (exec d p _) as [[c1 r1]| |]; split; congruence. Qed.
Lemma compatible_keeps : forall d f t u, keeping (fun c => obind (combine d f c t u) (fun '(c', r) => Done (c', is_ok r))).
Proof. intros d f t u c c' r H. cbn beta in H. destruct (combine d f c t u) as [[c1 r1]| |] eqn:E; cbn in H; try discriminate. injection H as <- <-. eapply combine_keeps; exact E. Qed.
Theorem compatible_pure : forall d f c t into c' b, is_tys_compatible d f c t into = Done (c', b) -> c' = c.
Proof.
  intros d f c t into c' b H. unfold is_tys_compatible in H.
  assert (F : freeze (fun c => obind (combine d f c t into) (fun '(c', r) => Done (c', is_ok r))) c = Done (c', b) -> c' = c).
  { intros H2. rewrite freeze_restores in H2; [|apply compatible_keeps]. destruct (obind _ _) as [[c1 r1]| |]; try discriminate. now injection H2 as <- <-. }
  destruct into; auto. destruct ts; auto. now injection H as <- <-.
Qed.
Theorem autoborrow_pure : forall d f c t into c' b, is_tys_compatible_with_autoborrow d f c t into = Done (c', b) -> c' = c.
Proof. intros d f c t into c' b H. unfold is_tys_compatible_with_autoborrow in H. destruct (autoborrow t into); [eapply compatible_pure; eauto|now injection H as <- <-]. Qed.
Theorem coerce_any_pure : forall d f c t es c' b, coerce_to_any_type d f c t es = Done (c', b) -> c' = c.
Proof.
  intros d f c t es c' b H. unfold coerce_to_any_type in H. destruct (resolve_out f c t) as [a| |]; cbn [obind] in H; try discriminate. revert c H. induction es as [|e es IH]; intros c H; cbn in H; [now injection H as <- <-|].
  destruct (resolve_out f c e) as [e1| |]; cbn [obind] in H; try discriminate. destruct (ty_eqb a e1); [now injection H as <- <-|]. destruct (is_tys_compatible d f c a e1) as [[c1 b1]| |] eqn:E; cbn [obind] in H; try discriminate. pose proof (compatible_pure _ _ _ _ _ _ _ E) as ->. destruct b1; [now injection H as <- <-|auto].
Qed.
(** ?a := u8 in a frozen part inside a frozen part, after which ?a is still free *)
Definition nested : prog := Comb 5 (Var va) (Integer U8) (fun _ => Frozen (Comb 5 (Var vb) (Var va) (fun _ => Frozen (UInt 0 (Integer U16) (fun _ => Ret)) Ret)) (Read (fun c => UVar vb TBool (fun _ => Ret)))).
Example frozen_example : let d := ex_db in exists c1, exec d nested (empty_ctx false) = Done (c1, tt) /\ vvalue c1 va = Done (Some (Integer U8)) /\ vvalue c1 vb = Done (Some TBool)
  /\ freeze (exec d nested) (empty_ctx false) = Done (empty_ctx false, tt).
Proof. cbn zeta. eexists. split; [reflexivity|]. split; [reflexivity|]. split; reflexivity. Qed.

(** * C24: success means compatible *)
Section WithDb.
Variable d : db.
Theorem combine_ok_compat : forall f c e a c', good c -> combine d f c e a = Done (c', COk) -> compat d c' e a.
Proof. intros f c e a c' G H. destruct (combine_sound d f c e a c' COk G H) as (_ & _ & C). auto. Qed.
(** earlier solutions are kept *)
Theorem combine_keeps_solutions : forall f c e a c' r, good c -> combine d f c e a = Done (c', r) -> good c' /\
  (forall v t, vval c v t -> vval c' v t) /\ (forall i t, ival c i t -> ival c' i t) /\ (forall v w, vsame c v w -> vsame c' v w) /\ (forall i j, isame c i j -> isame c' i j).
Proof. intros f c e a c' r G H. destruct (combine_sound d f c e a c' r G H) as (G' & GR & _). destruct GR. auto. Qed.
Theorem combine_ok_resolved : forall f c e a c' g h e1 a1, good c -> closed_db d -> combine d f c e a = Done (c', COk) ->
  resolve g c' e = Some e1 -> resolve h c' a = Some a1 -> compat d c' e1 a1 /\ no_bound c' e1 /\ no_bound c' a1.
Proof.
  intros f c e a c' g h e1 a1 G CD H R1 R2. destruct (combine_sound d f c e a c' COk G H) as (G' & _ & C). split; [|split; eapply resolved_no_bound; eauto].
  eapply compat_resolved_both; eauto; eexists; eauto.
Qed.
Theorem combine_ok_fits : forall f c e a c' g h e1 a1, good c -> closed_db d -> combine d f c e a = Done (c', COk) ->
  resolve g c' e = Some e1 -> resolve h c' a = Some a1 -> has_infer e1 = false -> has_infer a1 = false -> fits d (msl c) e1 a1.
Proof.
  intros f c e a c' g h e1 a1 G CD H R1 R2 N1 N2. destruct (combine_ok_resolved _ _ _ _ _ _ _ _ _ G CD H R1 R2) as (C & _ & _).
  destruct (combine_sound d f c e a c' COk G H) as (_ & GR & _). rewrite <- (gr_msl _ _ GR). eapply compat_fits_both; eauto.
Qed.
(** types without variables: combining decides [fits] *)
Theorem combine_known_exact : forall f c e a, good c -> lambda_db d -> has_infer e = false -> has_infer a = false -> no_single a -> size a <= f ->
  exists r, combine d f c e a = Done (c, r) /\ (r = COk <-> fits d (msl c) e a).
Proof.
  intros f c e a G LD HE HA NS L. destruct (ground_total d LD f c e a HE HA L) as [r E]. exists r. split; auto. split.
  - intros ->. assert (CD : closed_db d) by (intros l lam WL; apply (LD l lam WL)). destruct (combine_sound d f c e a c COk G E) as (_ & _ & C). eapply compat_fits_both; eauto.
  - intros F. rewrite (fits_combine d LD f c e a F HE HA NS L) in E. now injection E as <-.
Qed.

(** * C25: termination and panics *)
Theorem combine_total_actual_known : forall f c e a, good c -> has_infer a = false -> has_unknown a = false -> size a <= f -> exists c' r, combine d f c e a = Done (c', r).
Proof. intros f c e a G H1 H2 L. destruct (combine_total_actual_aux d f c e a G H1 H2 L) as (c' & r & E & _). eauto. Qed.
Theorem combine_total_expected_known : forall f c e a, good c -> (forall l, wrapped_lambda d l = None) -> has_infer e = false -> has_unknown e = false -> size e <= f -> exists c' r, combine d f c e a = Done (c', r).
Proof. intros f c e a G NW H1 H2 L. destruct (combine_total_expected_aux d NW f c e a G H1 H2 L) as (c' & r & E & _). eauto. Qed.
(** no variable stands for a type that contains it *)
Definition acyclic (c : ctx) : Prop := exists rk : tyvar -> nat, forall v t w, vval c v t -> part (Var w) t -> rk w < rk v.
Theorem resolve_terminates : forall c t, good c -> acyclic c -> exists f w, resolve f c t = Some w.
Proof.
  intros c t G (rk & RK).
  assert (H : forall n t, (forall w, part (Var w) t -> rk w < n) -> exists u, rsl c t u).
  { induction n as [n IHn] using lt_wf_ind. intros u. induction u as [u IH] using ty_ind'. intros B.
    assert (NODE : is_infer u = false -> exists w, rsl c u w).
    { intros I. assert (L : exists l, Forall2 (rsl c) (children u) l).
      { assert (A : forall x, In x (children u) -> exists w, rsl c x w) by (intros x IX; apply IH; auto; intros w P; apply B; eapply part_in; eauto). clear -A. induction (children u) as [|x l IHl]; [exists []; constructor|]. destruct (A x) as [w W]; [now left|]. destruct IHl as [m F]; [intros; apply A; now right|]. exists (w :: m). now constructor. }
      destruct L as [l F]. apply rsl_list in F. destruct F as [f F]. assert (D : deep_fold_opt (resolve f c) u <> None).
      { assert (MO : forall a b, Forall2 (fun x y => resolve f c x = Some y) a b -> map_opt (resolve f c) a = Some b) by (intros; now apply map_opt_spec).
        destruct u; cbn [children] in F; cbn; try discriminate.
        - inversion F as [|? ? ? ? E _]; subst. now rewrite E.
        - inversion F as [|? ? ? ? E _]; subst. now rewrite E.
        - apply Forall2_app_inv_l in F. destruct F as (l1 & l2 & F1 & F2 & ->). now rewrite (MO _ _ F1), (MO _ _ F2).
        - apply Forall2_app_inv_l in F. destruct F as (l1 & l2 & F1 & F2 & ->). inversion F2 as [|? ? ? ? E F3]; subst. now rewrite (MO _ _ F1), E, (MO _ _ F3).
        - now rewrite (MO _ _ F).
        - apply Forall2_app_inv_l in F. destruct F as (l1 & l2 & F1 & F2 & ->). now rewrite (MO _ _ F1), (MO _ _ F2). }
      destruct (deep_fold_opt (resolve f c) u) as [w|] eqn:E; [|congruence]. exists w. exists (S f). cbn. rewrite (resolve_infer_ground c u I). exact E. }
    destruct u; try (apply NODE; reflexivity).
    - destruct (vval_dec c v G) as [[t' V]|N].
      + destruct (IHn (rk v)) with (t := t') as [u U]; [apply B; constructor|intros w P; eapply RK; eauto|]. exists u. apply (rsl_same c t' (Var v)); auto. cbn. destruct (vvalue_total c v G) as [o E]. rewrite E. cbn. pose proof (proj1 (vvalue_spec c v o G) E) as S. apply S in V. subst o. pose proof (proj1 (S t') eq_refl) as V. destruct t'; auto. exfalso. eapply (g_vval _ G); eauto. eexists; eauto.
      + exists (Var v). apply no_bound_self; auto. intros x P. inversion P as [|? ? ? I]; subst; [exact N|destruct I].
    - destruct (resolve_infer_spec c (IntVar i) G) as (u & E & R). inversion R; subst; try discriminate.
      + destruct (g_ival _ G _ _ H0) as [k ->]. exists (Integer k). exists 1. cbn [resolve]. rewrite E. reflexivity.
      + exists (IntVar i). exists 1. cbn [resolve]. rewrite E. reflexivity. }
  destruct (H (S (list_max (map rk (ty_vars t)))) t) as (u & f & E); [|eauto].
  intros w P. apply ty_vars_part in P. assert (LM : Forall (fun k => k <= list_max (map rk (ty_vars t))) (map rk (ty_vars t))) by (apply list_max_le; lia). rewrite Forall_forall in LM. specialize (LM (rk w)). apply (in_map rk) in P. specialize (LM P). lia.
Qed.
(** combining with a known type adds only known values *)
Lemma var_value_known : forall c v t c' r, good c -> has_infer t = false -> unify_ty_var d c v t = Done (c', r) -> forall w u, vval c' w u -> vval c w u \/ has_infer u = false.
Proof.
  intros c v t c' r G HT H w u V. unfold unify_ty_var in H.
  assert (B : obind (vroot c v) (fun r0 => obind (contains_var c t r0) (fun b => if b then obind (set_value c r0 Unknown) (fun c' => Done (c', COk)) else obind (set_value c r0 t) (fun c' => Done (c', ability_check d c v t)))) = Done (c', r) -> vval c w u \/ has_infer u = false).
  { intros H2. destruct (vroot c v) as [r0| |]; cbn [obind] in H2; try discriminate. rewrite contains_ground in H2; auto. cbn [obind] in H2. destruct (set_value c r0 t) as [c1| |] eqn:S; cbn [obind] in H2; try discriminate. injection H2 as <- <-.
    destruct (set_value_effect c r0 t c1 G) as (_ & _ & _ & VV & _); auto; [intros [z ->]; discriminate|]. destruct (VV _ _ V) as [X|[_ ->]]; auto. }
  destruct t; try (apply B; exact H); try discriminate. destruct (v_origin v); [injection H as <- <-; auto|apply B; exact H].
Qed.
Lemma unknown_values_known : forall vs c c', good c -> unify_with_unknown d c vs = Done c' -> forall w u, vval c' w u -> vval c w u \/ has_infer u = false.
Proof.
  induction vs as [|v vs IH]; intros c c' G H w u V; cbn [unify_with_unknown] in H; [injection H as <-; auto|]. destruct (unify_ty_var d c v Unknown) as [[c1 r]| |] eqn:E; cbn [obind] in H; try discriminate. destruct (unify_ty_var_effect d _ _ _ _ _ G E) as (G1 & _ & _).
  destruct (IH c1 c' G1 H w u V) as [X|X]; auto. apply (var_value_known c v Unknown c1 r G eq_refl E w u X).
Qed.
Lemma pairs_known : forall comb, comb_ok d comb -> (forall c e a c' r, good c -> has_infer a = false -> comb c e a = Done (c', r) -> forall w u, vval c' w u -> vval c w u \/ has_infer u = false) ->
  forall l r c acc c' res, good c -> (forall x, In x r -> has_infer x = false) -> combine_pairs comb c acc l r = Done (c', res) -> forall w u, vval c' w u -> vval c w u \/ has_infer u = false.
Proof.
  intros comb OK K l. induction l as [|x l IH]; intros [|y r] c acc c' res G HR H w u V; cbn in H; try (injection H as <- <-; auto; fail). destruct (comb c x y) as [[c1 r1]| |] eqn:E; cbn [obind] in H; try discriminate. destruct (OK _ _ _ _ _ G E) as (G1 & _ & _).
  destruct (IH r c1 _ c' res G1 (fun z I => HR z (or_intror I)) H w u V) as [X|X]; auto. eapply K; eauto. apply HR. now left.
Qed.
Lemma callables_known : forall comb, comb_ok d comb -> (forall c e a c' r, good c -> has_infer a = false -> comb c e a = Done (c', r) -> forall w u, vval c' w u -> vval c w u \/ has_infer u = false) ->
  forall c ps r ps' r' c' res, good c -> (forall x, In x ps' -> has_infer x = false) -> has_infer r' = false -> combine_callables comb c ps r ps' r' = Done (c', res) -> forall w u, vval c' w u -> vval c w u \/ has_infer u = false.
Proof.
  intros comb OK K c ps r ps' r' c' res G HP HR H w u V. unfold combine_callables in H. destruct (combine_pairs comb c COk ps ps') as [[c1 r1]| |] eqn:E; cbn [obind] in H; try discriminate. destruct (pairs_effect d comb OK _ _ _ _ _ _ G E) as (G1 & _ & _). pose proof (pairs_known comb OK K _ _ _ _ _ _ G HP E) as KP.
  destruct r1 as [|er]; [|injection H as <- <-; auto]. destruct (K _ _ _ _ _ G1 (proj1 (proj2 (below_unwrap r')) HR) H w u V) as [X|X]; auto.
Qed.
Lemma combine_values_known : forall f c e a c' r, good c -> has_infer a = false -> combine d f c e a = Done (c', r) -> forall w u, vval c' w u -> vval c w u \/ has_infer u = false.
Proof.
  intros f. induction f as [|f IH]; intros c e a c' r G HA H w u V; [discriminate|]. cbn [combine] in H. destruct (prepare c e a) as [e0 a0] eqn:P. apply below_prepare in P. destruct P as [_ (_ & BI & _)]. specialize (BI HA). clear HA.
  destruct (resolve_infer c e0) as [e1| |]; cbn [obind] in H; try discriminate. rewrite (resolve_infer_ground c a0 (ground_not_infer _ BI)) in H. cbn [obind] in H.
  pose proof (combine_sound d f) as OK.
  assert (NV : combine_no_vars d (combine d f) c e1 a0 = Done (c', r) -> vval c w u \/ has_infer u = false).
  { clear H. intros H. pose proof (no_vars_cases d (combine d f) c e1 a0) as NC; remember (combine_no_vars d (combine d f) c e1 a0) as res; destruct NC as [Q0|Q0|Q0|k l Z Z2|k t l u0 Z Z2|m t n u0 Z Z2|l keys vals args ps rt k ks vs eps er Z Z2 EL|ps rt k ks vs ps' r' k' ks' vs' Z Z2|l k v x k' v' x' Z Z2|x x' Z Z2 LL|]; try subst e1; try subst a0; clear Heqres; try (injection H as <- <-; auto; fail).
    - destruct (unify_with_unknown d c _) as [c1| |] eqn:E; cbn in H; try discriminate. injection H as <- <-. eapply unknown_values_known; eauto.
    - eapply IH; [exact G| |exact H|exact V]. apply (no_infer_child _ _ BI). now left.
    - assert (BC : has_infer u0 = false) by (apply (no_infer_child _ _ BI); now left). destruct (negb m || n); [eapply IH; eauto|]. destruct (combine d f c t u0) as [[c1 r1]| |] eqn:E; cbn in H; try discriminate. injection H as <- <-. eapply IH; eauto.
    - eapply callables_known; [exact OK|exact IH|exact G| | |exact H|exact V]; [intros z I|]; apply (no_infer_child _ _ BI); cbn; apply in_app_iff; [auto|right; now left].
    - eapply callables_known; [exact OK|exact IH|exact G| | |exact H|exact V]; [intros z I|]; apply (no_infer_child _ _ BI); cbn; apply in_app_iff; [auto|right; now left].
    - eapply pairs_known; [exact OK|exact IH|exact G| |exact H|exact V]. intros z I. apply (no_infer_child _ _ BI). cbn. apply in_app_iff. auto.
    - eapply pairs_known; [exact OK|exact IH|exact G| |exact H|exact V]. intros z I. apply (no_infer_child _ _ BI). auto. }
  assert (UI : forall i, unify_int_var c i a0 = Done (c', r) -> vval c w u \/ has_infer u = false).
  { intros i H2. left. destruct a0; cbn in H2; try (injection H2 as <- <-; auto; fail); try discriminate. destruct (unify_var_value _ _ _ _ _ _ _) as [m| |]; cbn in H2; try discriminate. injection H2 as <- <-. exact V. }
  destruct (dispatch_cases d (combine d f) c e1 a0) as [v Z|v Z|v Z|v Z|I1 I2]; try subst a0; try discriminate; eauto.
  eapply var_value_known; eauto.
Qed.
Theorem known_keeps_acyclic : forall f c e a c' r, good c -> acyclic c -> has_infer a = false -> combine d f c e a = Done (c', r) -> acyclic c'.
Proof.
  intros f c e a c' r G (rk & RK) HA H. exists rk. intros v t w V P. destruct (combine_values_known f c e a c' r G HA H v t V) as [X|X]; [eauto|]. unfold has_infer in X. rewrite visit_false_iff in X. specialize (X _ P). discriminate.
Qed.
(** binding a free variable to a type whose variables are free keeps the solution free of cycles *)
Theorem bind_fresh_acyclic : forall c v t c' r, good c -> acyclic c -> (forall u, ~ vval c v u) -> (forall w, part (Var w) t -> forall u, ~ vval c w u) -> unify_ty_var d c v t = Done (c', r) -> acyclic c'.
Proof.
  intros c v t c' r G (rk & RK) FV FT H. unfold unify_ty_var in H.
  assert (B : ~ is_var t -> obind (vroot c v) (fun r0 => obind (contains_var c t r0) (fun b => if b then obind (set_value c r0 Unknown) (fun c' => Done (c', COk)) else obind (set_value c r0 t) (fun c' => Done (c', ability_check d c v t)))) = Done (c', r) -> acyclic c').
  { intros NV H2. destruct (vroot_total c v G) as (rt & E & L). rewrite E in H2. cbn [obind] in H2. destruct (contains_var c t rt) as [b| |] eqn:CV; cbn [obind] in H2; try discriminate. destruct b.
    - destruct (set_value c rt Unknown) as [c1| |] eqn:S; cbn [obind] in H2; try discriminate. injection H2 as <- <-. destruct (set_value_effect c rt Unknown c1 G) as (_ & _ & _ & VV & _); auto; [intros [z Z]; discriminate|]. exists rk. intros x u w V P. destruct (VV _ _ V) as [X|[_ ->]]; [eauto|]. inversion P as [|? ? ? I]; destruct I.
    - destruct (set_value c rt t) as [c1| |] eqn:S; cbn [obind] in H2; try discriminate. injection H2 as <- <-. destruct (set_value_effect c rt t c1 G) as (_ & _ & _ & VV & _); auto.
      set (rk' := fun x => match vvalue c x with Done (Some _) => rk x + 2 | _ => match vroot c x with Done y => if tyvar_eq_dec y rt then 1 else 0 | _ => 0 end end).
      assert (BD : forall x u, vval c x u -> rk' x = rk x + 2).
      { intros x u V. unfold rk'. destruct (vvalue_total c x G) as [o EO]. rewrite EO. pose proof (proj1 (vvalue_spec c x o G) EO) as SO. apply SO in V. now subst o. }
      assert (FR : forall x, (forall u, ~ vval c x u) -> rk' x = match vroot c x with Done y => if tyvar_eq_dec y rt then 1 else 0 | _ => 0 end).
      { intros x N. unfold rk'. destruct (vvalue_total c x G) as [o EO]. rewrite EO. pose proof (proj1 (vvalue_spec c x o G) EO) as SO. destruct o as [u|]; auto. exfalso. apply (N u). now apply SO. }
      exists rk'. intros x u w V P. destruct (VV _ _ V) as [X|[SM ->]].
      + rewrite (BD _ _ X). destruct (vval_dec c w G) as [[y Y]|N]; [rewrite (BD _ _ Y); specialize (RK _ _ _ X P); lia|]. rewrite (FR _ N). destruct (vroot c w) as [y| |]; try lia. destruct (tyvar_eq_dec y rt); lia.
      + assert (FX : forall u, ~ vval c x u) by (intros u X; eapply free_root; [exact L|exact FV|]; eapply vsame_val; eauto).
        rewrite (FR _ FX), (FR _ (FT w P)). destruct SM as (z & L1 & L2). assert (z = rt) by (eapply leads_det; [exact L2|]; eapply leads_self; eauto). subst z. apply vroot_spec in L1. rewrite L1. destruct (tyvar_eq_dec rt rt); [|congruence].
        destruct (vroot_total c w G) as (rw & EW & LW). rewrite EW. destruct (tyvar_eq_dec rw rt) as [->|]; [|lia]. exfalso.
        unfold contains_var in CV. apply ty_vars_part in P. revert CV P. generalize (ty_vars t). induction l as [|q l IHl]; cbn; intros CV I; [destruct I|destruct I as [->|I]].
        * rewrite EW in CV. cbn in CV. destruct (tyvar_eq_dec rt rt); congruence.
        * destruct (vroot c q) as [rq| |]; cbn in CV; try discriminate. destruct (tyvar_eq_dec rq rt); [discriminate|auto]. }
  destruct t; try (apply B; [intros [z Z]; discriminate|exact H]).
  - destruct (unify_var_var _ _ _ _ _ v v0) as [m| |] eqn:E; cbn [obind] in H; try discriminate. injection H as <- <-. destruct (var_var_ctx c v v0 m G E) as (_ & _ & _ & VV & _). exists rk. intros x u w V P. apply VV in V. destruct V as [V|[[_ V]|[_ V]]]; [eauto| |].
    + exfalso. eapply (FT v0); [constructor|exact V].
    + exfalso. eapply FV; exact V.
  - destruct (v_origin v); [injection H as <- <-; exists rk; auto|]. apply B; [intros [z Z]; discriminate|exact H].
Qed.
End WithDb.

(** S<?a, vector<?b>> against S<u8, vector<&mut bool>>, resolved afterwards *)
Definition ex_e : ty := Adt 5 [1; 2] [Var va; Seq SVector (Var vb)] [Var va; Seq SVector (Reference false (Var vb))].
Definition ex_a : ty := Adt 5 [1; 2] [Integer U8; Seq SVector TBool] [Integer U8; Seq SVector (Reference true TBool)].
Example combine_example : exists c', combine ex_db 10 (empty_ctx false) ex_e ex_a = Done (c', COk) /\
  resolve 10 c' ex_e = Some (Adt 5 [1; 2] [Integer U8; Seq SVector TBool] [Integer U8; Seq SVector (Reference false TBool)]) /\ resolve 10 c' ex_a = Some ex_a.
Proof. eexists. split; [reflexivity|]. split; reflexivity. Qed.
Lemma ex_db_lambda : lambda_db ex_db.
Proof. intros l lam H. cbn in H. destruct (l =? 7); [|discriminate]. injection H as <-. split; [reflexivity|]. repeat eexists. Qed.
Lemma ex_db_closed : closed_db ex_db.
Proof. intros l lam H. apply (ex_db_lambda l lam H). Qed.
(** a wrapper struct S7<T>(|T| bool) expected, a function |&u8| &bool given: the parameter does not fit *)
Definition wrap_e : ty := Adt 7 [3] [Integer U8] [Integer U8].
Example known_example_ok : fits ex_db false wrap_e (Callable [Integer U8] (Reference true TBool) (CNamed (Some 1)) [] []).
Proof. eapply fi_wrapped; [reflexivity|]. cbn. eapply fi_callable; [repeat constructor|apply st_here|apply st_ref; apply st_here|apply fi_refl]. Qed.
Example known_example_bad : combine ex_db 10 (empty_ctx false) wrap_e (Callable [Reference false (Integer U8)] TBool (CNamed (Some 1)) [] []) = Done (empty_ctx false, CErr EMismatch).
Proof. reflexivity. Qed.
(** the relation is not everything: distinct base types do not fit, nor does & where &mut is expected *)
Example fits_sanity : forall d, ~ fits d false TBool Address /\ ~ fits d false (Reference true TBool) (Reference false TBool) /\ ~ fits d false (Tuple [TBool; TBool]) (Tuple [TBool]) /\ ~ fits d true (Seq SVector TBool) (Seq SVector Num).
Proof.
  intros d. repeat split; intros H; inversion H; subst; try discriminate.
  - match goal with X : true = true -> _ |- _ => specialize (X eq_refl) end. discriminate.
  - match goal with X : fits _ _ (Tuple _) TBool |- _ => inversion X end.
  - match goal with X : fits _ _ TBool Num |- _ => inversion X end.
Qed.
Example total_example : good (empty_ctx false) /\ has_infer ex_a = false /\ has_unknown ex_a = false /\ exists rk : tyvar -> nat, forall v t w, vval (empty_ctx false) v t -> part (Var w) t -> rk w < rk v.
Proof. repeat split; try reflexivity; try apply empty_good. exists (fun _ => 0). intros v t w (r & _ & H). discriminate. Qed.

(** the occurs check looks one level deep only: (?a, ?b) against (vector<?b>, vector<?a>) succeeds with a
    cyclic solution, resolving it does not stop, and combining ?a with ?b does not stop either *)
Definition cyc_e : ty := Tuple [Var va; Var vb].
Definition cyc_a : ty := Tuple [Seq SVector (Var vb); Seq SVector (Var va)].
Theorem cyclic_solution_refuted : exists c e a c', good c /\ combine ex_db 5 c e a = Done (c', COk) /\ ~ acyclic c' /\ (forall f, resolve f c' e = None) /\ (forall f, combine ex_db f c' (Var va) (Var vb) = Loop).
Proof.
  exists (empty_ctx false), cyc_e, cyc_a. eexists. split; [apply empty_good|]. split; [reflexivity|].
  match goal with |- ~ acyclic ?c /\ _ => set (c' := c) end.
  assert (VA : vval c' va (Seq SVector (Var vb))) by (exists va; split; [apply leads_here; cbn; intros w; discriminate|reflexivity]).
  assert (VB : vval c' vb (Seq SVector (Var va))) by (exists vb; split; [apply leads_here; cbn; intros w; discriminate|reflexivity]).
  split; [|split].
  - intros (rk & RK). assert (P : forall w, part (Var w) (Seq SVector (Var w))) by (intros w; eapply part_in; [now left|constructor]). pose proof (RK _ _ _ VA (P vb)). pose proof (RK _ _ _ VB (P va)). lia.
  - assert (R : forall f, resolve f c' (Var va) = None /\ resolve f c' (Var vb) = None).
    { induction f as [|f [IHa IHb]]; [split; reflexivity|]. split.
      - change (resolve (S f) c' (Var va)) with (omap (resolve f c' (Var vb)) (Seq SVector)). now rewrite IHb.
      - change (resolve (S f) c' (Var vb)) with (omap (resolve f c' (Var va)) (Seq SVector)). now rewrite IHa. }
    intros [|f]; [reflexivity|]. unfold cyc_e. cbn. destruct (R f) as [-> _]. reflexivity.
  - assert (L : forall f, combine ex_db f c' (Var va) (Var vb) = Loop /\ combine ex_db f c' (Var vb) (Var va) = Loop).
    { induction f as [|f [IHa IHb]]; [split; reflexivity|]. split.
      - change (combine ex_db (S f) c' (Var va) (Var vb)) with (combine ex_db f c' (Var vb) (Var va)). exact IHb.
      - change (combine ex_db (S f) c' (Var vb) (Var va)) with (combine ex_db f c' (Var va) (Var vb)). exact IHa. }
    intros f. apply L.
Qed.
(** S<?a, vector<?a>> against S<bool, Unknown>: ?a gets a second value, which panics *)
Theorem second_value_refuted : exists c e a, good c /\ combine ex_db 5 c e a = Crash.
Proof.
  exists (empty_ctx false), (Adt 5 [] [] [Var va; Seq SVector (Var va)]), (Adt 5 [] [] [TBool; Unknown]). split; [apply empty_good|reflexivity].
Qed.

(** * C26: the direction of references *)
Section Refs.
Variable d : db.
Lemma combine_refs : forall f c m n t u, msl c = false -> combine d (S f) c (Reference m t) (Reference n u) =
  if ty_eqb (Reference m t) (Reference n u) then Done (c, COk)
  else if negb m || n then combine d f c t u else obind (combine d f c t u) (fun '(c', _) => Done (c', CErr EMismatch)).
Proof. intros f c m n t u M. cbn [combine prepare]. unfold prepare, refine_for_specs. rewrite M. reflexivity. Qed.
Theorem combine_rejects_immutable : forall f c t u c' r, msl c = false -> combine d f c (Reference true t) (Reference false u) = Done (c', r) -> r <> COk.
Proof.
  intros [|f] c t u c' r M H; [discriminate|]. rewrite combine_refs in H; auto. cbn [ty_eqb Bool.eqb andb negb orb] in H. destruct (combine d f c t u) as [[c1 r1]| |]; cbn in H; try discriminate. injection H as <- <-. discriminate.
Qed.
Theorem combine_accepts_mutable : forall f c t u, msl c = false -> combine d (S f) c (Reference false t) (Reference true u) = combine d f c t u.
Proof. intros f c t u M. rewrite combine_refs; auto. Qed.
Theorem combine_same_mutability : forall f c m t u, msl c = false -> t <> u -> combine d (S f) c (Reference m t) (Reference m u) = combine d f c t u.
Proof.
  intros f c m t u M N. rewrite combine_refs; auto. destruct (ty_eqb (Reference m t) (Reference m u)) eqn:E; [apply ty_eqb_iff in E; congruence|]. destruct m; reflexivity.
Qed.
(** the checked coercion: an immutable reference where a mutable one is expected is an error *)
Theorem coerce_rejects_immutable : forall f c t u c' b, msl c = false -> coerce_types d f c (Reference false u) (Reference true t) = Done (c', b) -> b = false.
Proof.
  intros f c t u c' b M H. unfold coerce_types, resolve_out in H. destruct (resolve f c (Reference false u)) as [a1|] eqn:EA; cbn [obind] in H; [|discriminate]. destruct (resolve f c (Reference true t)) as [e1|] eqn:EE; cbn [obind] in H; [|discriminate].
  destruct (rsl_ref c false u a1) as (u1 & -> & _); [eexists; eauto|]. destruct (rsl_ref c true t e1) as (t1 & -> & _); [eexists; eauto|]. cbn [ty_eqb Bool.eqb andb] in H.
  destruct (combine d f c (Reference true t1) (Reference false u1)) as [[c1 r1]| |] eqn:E; cbn [obind] in H; try discriminate. injection H as <- <-. apply combine_rejects_immutable in E; auto. destruct r1; [congruence|reflexivity].
Qed.
(** and a mutable one where an immutable one is expected is decided by what they refer to *)
Theorem coerce_accepts_mutable : forall f c t u t1 u1, msl c = false -> resolve (S f) c (Reference true u) = Some (Reference true u1) -> resolve (S f) c (Reference false t) = Some (Reference false t1) ->
  coerce_types d (S f) c (Reference true u) (Reference false t) = obind (combine d f c t1 u1) (fun '(c', r) => Done (c', is_ok r)).
Proof. intros f c t u t1 u1 M R1 R2. unfold coerce_types, resolve_out. rewrite R1, R2. cbn [obind ty_eqb Bool.eqb andb]. rewrite combine_accepts_mutable; auto. Qed.
(** passing a receiver: the borrow that is inserted has the expected mutability, and & never becomes &mut *)
Theorem autoborrow_direction : forall f c u t,
  is_tys_compatible_with_autoborrow d f c (Reference false u) (Reference true t) = Done (c, false) /\
  is_tys_compatible_with_autoborrow d f c (Reference true u) (Reference false t) = is_tys_compatible d f c (Reference false u) (Reference false t) /\
  (forall m, is_tys_compatible_with_autoborrow d f c (Reference m u) (Reference m t) = is_tys_compatible d f c (Reference m u) (Reference m t)) /\
  (forall m x, (forall n y, x <> Reference n y) -> is_tys_compatible_with_autoborrow d f c x (Reference m t) = is_tys_compatible d f c (Reference m x) (Reference m t)) /\
  (forall x y, (forall n z, y <> Reference n z) -> is_tys_compatible_with_autoborrow d f c x y = is_tys_compatible d f c x y).
Proof.
  intros f c u t. unfold is_tys_compatible_with_autoborrow. split; [reflexivity|]. split; [reflexivity|]. split; [intros []; reflexivity|]. split.
  - intros m x N. destruct x; try reflexivity. exfalso. eapply N; eauto.
  - intros x y N. destruct y; try reflexivity. exfalso. eapply N; eauto.
Qed.
(** the compatibility query compares in the opposite direction *)
Theorem query_rejects_mutable : forall f c t u c' b, msl c = false -> is_tys_compatible d f c (Reference true u) (Reference false t) = Done (c', b) -> b = false.
Proof.
  intros f c t u c' b M H. unfold is_tys_compatible in H. rewrite freeze_restores in H; [|apply compatible_keeps]. cbn beta in H.
  destruct (combine d f _ (Reference true u) (Reference false t)) as [[c1 r1]| |] eqn:E; cbn [obind] in H; try discriminate. injection H as <- <-. apply combine_rejects_immutable in E; auto. destruct r1; [congruence|reflexivity].
Qed.
End Refs.
Theorem query_direction_refuted : exists c t, msl c = false /\ good c /\
  is_tys_compatible ex_db 5 c (Reference true t) (Reference false t) = Done (c, false) /\
  is_tys_compatible ex_db 5 c (Reference false t) (Reference true t) = Done (c, true) /\
  coerce_types ex_db 5 c (Reference true t) (Reference false t) = Done (c, true) /\
  coerce_types ex_db 5 c (Reference false t) (Reference true t) = Done (c, false) /\
  coerce_to_any_type ex_db 5 c (Reference true t) [Reference false t] = Done (c, false).
Proof. exists (empty_ctx false), TBool. split; [reflexivity|]. split; [apply empty_good|]. repeat split; reflexivity. Qed.

(** * C28: what is left in resolved types *)
Theorem resolved_exact : forall f c t w, good c -> resolve f c t = Some w -> forall x, part x w ->
  (forall v, x = Var v -> forall u, ~ vval c v u) /\ (forall i, x = IntVar i -> forall u, ~ ival c i u).
Proof. intros f c t w G H x P. pose proof (resolved_no_bound f c t w G H x P) as F. split; [intros v ->|intros i ->]; exact F. Qed.
Theorem resolved_again : forall f c t w, good c -> resolve f c t = Some w -> exists g, resolve g c w = Some w.
Proof. intros f c t w G H. apply no_bound_self; auto. eapply resolved_no_bound; eauto. Qed.
(** [x] occurs in [t] or in what its variables stand for *)
Inductive reach (c : ctx) : ty -> ty -> Prop :=
| reach_part : forall t x, part x t -> reach c t x
| reach_val : forall t v u x, part (Var v) t -> vval c v u -> reach c u x -> reach c t x.
Lemma reach_child : forall c t y x, In y (children t) -> reach c y x -> reach c t x.
Proof. intros c t y x I R. inversion R; subst; [apply reach_part; eapply part_in; eauto|]. eapply reach_val; eauto. eapply part_in; eauto. Qed.
Lemma fully_step : forall f fb c t w, good c -> fully_resolve (S f) fb c t = Some w -> exists u, resolves1 c t u /\ head (if is_infer t then fall fb u else t) = head w /\
  Forall2 (fun x y => fully_resolve f fb c x = Some y) (children (if is_infer t then fall fb u else t)) (children w).
Proof.
  intros f fb c t w G H. cbn [fully_resolve] in H. destruct (resolve_infer c t) as [u| |] eqn:E; try discriminate. exists u. split; [now apply resolves1_done|]. now apply deep_fold_opt_spec.
Qed.
Theorem fully_resolved_exact : forall f fb c t w, good c -> fully_resolve f fb c t = Some w -> forall x, part x w ->
  (forall v, x <> Var v) /\ (forall i, x = IntVar i -> reach c t (IntVar i) /\ forall u, ~ ival c i u).
Proof.
  induction f as [|f IH]; intros fb c t w G H x P; [discriminate|]. destruct (fully_step _ _ _ _ _ G H) as (u & R & HH & F).
  set (u' := if is_infer t then fall fb u else t) in *.
  assert (HU : (forall v, u' <> Var v) /\ (forall i, u' = IntVar i -> reach c t (IntVar i) /\ forall y, ~ ival c i y)).
  { unfold u'. destruct (is_infer t) eqn:I; [|split; [intros v ->; discriminate|intros i ->; discriminate]]. split.
    - intros v. destruct u; cbn; try discriminate. destruct fb; try discriminate. destruct (v_origin v0); discriminate.
    - intros i E. assert (u = IntVar i) by (destruct u; cbn in E; try discriminate; auto; destruct fb; try discriminate; destruct (v_origin v); discriminate). subst u. split; [|eapply resolves1_int; eauto].
      inversion R; subst; try (destruct (g_ival _ G _ _ H0); discriminate); try (destruct (g_ival _ G _ _ H1); discriminate).
      + apply reach_part. constructor.
      + eapply reach_val; [constructor|eauto|apply reach_part; constructor].
      + exfalso. eapply H1; eauto.
      + discriminate. }
  assert (RC : forall y z, In y (children u') -> reach c y z -> reach c t z).
  { intros y z IY RY. unfold u' in IY. destruct (is_infer t) eqn:I; [|eapply reach_child; eauto].
    assert (IU : In y (children u)) by (destruct u; cbn in *; auto; destruct fb; cbn in IY; auto; destruct (v_origin v); auto).
    inversion R; subst; try (destruct (g_ival _ G _ _ H0) as [k ->]; destruct IU; fail); try (destruct (g_ival _ G _ _ H1) as [k ->]; destruct IU; fail); try (destruct IU; fail).
    - eapply reach_val; [constructor|eauto|]. eapply reach_child; eauto.
    - congruence. }
  inversion P as [|? ? y I P2]; subst.
  - destruct HU as [H1 H2]. split.
    + intros v ->. destruct u'; cbn in HH; try discriminate. eapply H1; eauto.
    + intros i ->. destruct u'; cbn in HH; try discriminate. injection HH as ->. auto.
  - destruct (F2_in_r _ _ _ _ _ _ F I) as (z & IZ & Q). destruct (IH fb c z y G Q x P2) as [A B]. split; auto. intros i ->. destruct (B i eq_refl) as [B1 B2]. split; auto. eapply RC; eauto.
Qed.
Lemma default_effect : forall vs c c', good c -> default_int_vars c vs = Done c' -> good c' /\ vt c' = vt c /\ (forall i t, ival c i t -> ival c' i t) /\ (forall i j, isame c i j -> isame c' i j) /\ (forall i, In (IntVar i) vs -> exists t, ival c' i t).
Proof.
  induction vs as [|x vs IH]; intros c c' G H; cbn [default_int_vars] in H; [injection H as <-; repeat split; auto; try apply G; intros i []|].
  assert (O : (forall i, x <> IntVar i) -> default_int_vars c vs = Done c' -> good c' /\ vt c' = vt c /\ (forall i t, ival c i t -> ival c' i t) /\ (forall i j, isame c i j -> isame c' i j) /\ (forall i, In (IntVar i) (x :: vs) -> exists t, ival c' i t)).
  { intros N H2. destruct (IH c c' G H2) as (A & B & C & D & E). repeat (split; auto). intros i [I|I]; [exfalso; eapply N; eauto|auto]. }
  destruct x; try (apply O; [intros; discriminate|exact H]). clear O.
  destruct (unify_int_var c i (Integer KInteger)) as [[c1 r]| |] eqn:E; cbn [obind] in H; try discriminate. cbn [unify_int_var] in E. destruct (unify_var_value _ _ _ _ _ i (Integer KInteger)) as [m| |] eqn:EM; cbn [obind] in E; try discriminate. injection E as <- <-.
  destruct (int_value_ctx c i (Integer KInteger) m G) as (G1 & GR & V & _); auto; [eexists; eauto|]. destruct (IH _ _ G1 H) as (A & B & C & D & F). split; auto. split; [exact B|]. split; [intros j t IV; apply C; now apply (gr_ival _ _ GR)|]. split; [intros j k S; apply D; now apply (gr_isame _ _ GR)|].
  intros j [J|J]; [injection J as ->; eexists; apply C; exact V|auto].
Qed.
Lemma resolve_infers_in : forall c vs l, good c -> resolve_infers c vs = Done l -> forall x u, In x vs -> resolves1 c x u -> In u l.
Proof.
  intros c vs. induction vs as [|v vs IH]; intros l G H x u I R; [destruct I|]. cbn in H. destruct (resolve_infer c v) as [t| |] eqn:E; cbn in H; try discriminate. destruct (resolve_infers c vs) as [l1| |] eqn:E2; cbn in H; try discriminate. injection H as <-. destruct I as [->|I]; [|right; eapply IH; eauto]. left. apply resolves1_done in R; auto. congruence.
Qed.
Lemma ty_infers_part : forall t x, In x (ty_infers t) <-> part x t /\ is_infer x = true.
Proof.
  intros t x. assert (EQ : ty_infers t = match t with Var v => [Var v] | IntVar i => [IntVar i] | _ => flat_map ty_infers (children t) end) by (destruct t; cbn [ty_infers children]; rewrite ?flat_map_app; cbn; rewrite ?app_nil_r; auto).
  revert EQ. induction t as [t IH] using ty_ind'. intros EQ. rewrite EQ.
  assert (EQ' : forall t, ty_infers t = match t with Var v => [Var v] | IntVar i => [IntVar i] | _ => flat_map ty_infers (children t) end) by (clear; intros t; destruct t; cbn [ty_infers children]; rewrite ?flat_map_app; cbn; rewrite ?app_nil_r; auto).
  assert (M : is_infer t = false -> (In x (flat_map ty_infers (children t)) <-> part x t /\ is_infer x = true)).
  { intros NV. rewrite in_flat_map. split.
    - intros (y & I & P). apply IH in P; auto. destruct P as [P Q]. split; auto. eapply part_in; eauto.
    - intros [P Q]. inversion P as [|? ? y I P2]; subst; [congruence|]. exists y. split; auto. apply IH; auto. }
  destruct t; try (apply M; reflexivity); cbn; (split; [intros [<-|[]]; split; [constructor|reflexivity]|intros [P Q]; inversion P as [|? ? y I P2]; subst; auto]).
Qed.
(** the finished result mentions no variable, provided that every integer variable that the types lead to
    is itself the resolution of a variable occurring in one of the types (every literal's own type is
    recorded); without the proviso it is false, see below *)
Theorem finished_no_variables_partial : forall f c types l, good c ->
  (forall t i, In t types -> reach c t (IntVar i) -> (exists u, ival c i u) \/ exists t' x j, In t' types /\ part x t' /\ is_infer x = true /\ resolves1 c x (IntVar j) /\ isame c j i) ->
  final_types f c types = Done l -> forall w, In w l -> has_infer w = false.
Proof.
  intros f c types l G HR H w I. unfold final_types, unify_remaining in H. destruct (resolve_infers c (flat_map ty_infers types)) as [vs| |] eqn:EV; cbn [obind] in H; try discriminate. destruct (default_int_vars c vs) as [c'| |] eqn:ED; cbn [obind] in H; try discriminate.
  destruct (map_opt _ types) as [l1|] eqn:EM; [|discriminate]. injection H as <-. apply map_opt_spec in EM. destruct (F2_in_r _ _ _ _ _ _ EM I) as (t & IT & FR).
  destruct (default_effect _ _ _ G ED) as (G' & VT & IV & IS & DF). unfold has_infer. rewrite visit_false_iff. intros x P. destruct (fully_resolved_exact _ _ _ _ _ G' FR x P) as [A B].
  destruct x; auto; [exfalso; eapply A; eauto|]. exfalso. destruct (B i eq_refl) as [RC N].
  assert (RC' : reach c t (IntVar i)).
  { clear -RC VT. assert (VV : forall v u, vval c' v u -> vval c v u) by (intros v u V; unfold vval in *; rewrite <- VT; exact V). induction RC; [now apply reach_part|]. eapply reach_val; eauto. }
  destruct (HR t i IT RC') as [[u U]|(t' & x & j & IT' & PX & IX & R & S)]; [eapply N; eauto|].
  assert (IN : In (IntVar j) vs). { eapply resolve_infers_in; [exact G|exact EV| |exact R]. apply in_flat_map. exists t'. split; auto. apply ty_infers_part. auto. }
  destruct (DF j IN) as [u U]. eapply (N u). eapply isame_val; [apply IS; exact S|exact U].
Qed.
(** a table with ?a := vector<?0> *)
Definition ctx_vec : ctx := with_vt (empty_ctx false) [(va, TValue (Some (Seq SVector (IntVar 0))))].
Lemma ctx_vec_val : forall v t, vval ctx_vec v t -> v = va /\ t = Seq SVector (IntVar 0).
Proof.
  intros v t (r & L & Gt). unfold ctx_vec in *. cbn in L, Gt. destruct (tyvar_eq_dec r va) as [E|E]; [|discriminate]. injection Gt as <-. split; auto. inversion L; subst; auto. cbn in H. destruct (tyvar_eq_dec v va); discriminate.
Qed.
Lemma ctx_vec_good : good ctx_vec.
Proof.
  constructor.
  - intros v. exists v. apply leads_here. cbn. intros w. destruct (tyvar_eq_dec v va); discriminate.
  - intros v. exists v. apply leads_here. cbn. intros w. discriminate.
  - intros v t V [w ->]. apply ctx_vec_val in V. destruct V. discriminate.
  - intros v t (r & _ & H). discriminate.
Qed.
Theorem finished_no_variables_refuted : exists c types l w, good c /\ final_types 5 c types = Done l /\ In w l /\ has_infer w = true.
Proof. exists ctx_vec, [Var va]. eexists. eexists. split; [apply ctx_vec_good|]. split; [reflexivity|]. split; [now left|reflexivity]. Qed.
(** with the literal's own type recorded the proviso holds *)
Example finished_example : (forall t i, In t [Var va; IntVar 0] -> reach ctx_vec t (IntVar i) -> (exists u, ival ctx_vec i u) \/ exists t' x j, In t' [Var va; IntVar 0] /\ part x t' /\ is_infer x = true /\ resolves1 ctx_vec x (IntVar j) /\ isame ctx_vec j i) /\
  final_types 5 ctx_vec [Var va; IntVar 0] = Done [Seq SVector (Integer KInteger); Integer KInteger].
Proof.
  split; [|reflexivity]. intros t i I R.
  assert (PI : forall x y, part x (IntVar y) -> x = IntVar y) by (intros x y P; inversion P as [|? ? ? J]; subst; auto; destruct J).
  assert (PV : forall x y, part x (Var y) -> x = Var y) by (intros x y P; inversion P as [|? ? ? J]; subst; auto; destruct J).
  assert (RI : forall k x, reach ctx_vec (IntVar k) x -> x = IntVar k) by (intros k x RR; inversion RR; subst; [now apply PI|apply PI in H; discriminate]).
  assert (E : i = 0).
  { destruct I as [<-|[<-|[]]].
    - inversion R; subst; [apply PV in H; discriminate|]. apply PV in H. injection H as ->. apply ctx_vec_val in H0. destruct H0 as [_ ->]. inversion H1; subst.
      + inversion H as [|? ? q I1 P1]; subst. destruct I1 as [<-|[]]. apply PI in P1. now injection P1.
      + inversion H as [|? ? q I1 P1]; subst. destruct I1 as [<-|[]]. apply PI in P1. discriminate.
    - apply RI in R. now injection R. }
  subst i. right. exists (IntVar 0), (IntVar 0), 0. split; [right; now left|]. split; [constructor|]. split; [reflexivity|]. split; [apply r1_int_free; intros u (r & _ & H); discriminate|]. apply isame_refl. apply ctx_vec_good.
Qed.

(** * Branches *)
(** The type of two branches: a branch that does not return says nothing; two references give a mutable one
    exactly if both are mutable; otherwise the first branch or [Unknown]. *)
Theorem intersect_never : forall d fuel c t, intersect_types d fuel c Never t = Done (c, t) /\ intersect_types d fuel c t Never = Done (c, t).
Proof. intros d fuel c t. split; [reflexivity|]. destruct t; reflexivity. Qed.
Theorem intersect_mutability : forall d fuel c m n a b c' t, intersect_types d fuel c (Reference m a) (Reference n b) = Done (c', t) ->
  t = Unknown \/ exists k u, t = Reference k u /\ (k = true <-> m = true /\ n = true).
Proof.
  intros d fuel c m n a b c' t H. unfold intersect_types in H. destruct (combine d fuel c (Reference m a) (Reference n b)) as [[c1 r1]| |]; try discriminate. cbn [obind] in H.
  destruct (if is_ok r1 then _ else _) as [[c2 ok]| |]; try discriminate. cbn [obind] in H. injection H as _ <-. destruct ok; [right|now left]. do 2 eexists. split; [reflexivity|]. apply andb_true_iff.
Qed.
Theorem intersect_first_or_unknown : forall d fuel c l r c' t, intersect_types d fuel c l r = Done (c', t) -> l <> Never -> l <> Unknown -> (forall m a, l <> Reference m a) -> t = l \/ t = Unknown.
Proof.
  intros d fuel c l r c' t H NN NU NR. unfold intersect_types in H. destruct l; try congruence; try (now edestruct NR; reflexivity); destruct r; try (injection H as _ <-; now left);
  match type of H with obind ?x _ = _ => destruct x as [[c1 r1]| |]; try discriminate end; cbn [obind] in H; destruct (if is_ok r1 then _ else _) as [[c2 ok]| |]; try discriminate; cbn [obind] in H; injection H as _ <-; destruct ok; auto.
Qed.
Example intersect_example : intersect_types ex_db 5 (empty_ctx false) (Reference true TBool) (Reference false TBool) = Done (empty_ctx false, Reference false TBool) /\
  intersect_types ex_db 5 (empty_ctx false) TBool (Integer U8) = Done (empty_ctx false, Unknown).
Proof. split; reflexivity. Qed.

Print Assumptions frozen_program_pure.
Print Assumptions spec_program_pure.
Print Assumptions compatible_pure.
Print Assumptions coerce_any_pure.
Print Assumptions combine_ok_compat.
Print Assumptions combine_ok_resolved.
Print Assumptions combine_ok_fits.
Print Assumptions combine_known_exact.
Print Assumptions combine_total_actual_known.
Print Assumptions combine_total_expected_known.
Print Assumptions resolve_terminates.
Print Assumptions known_keeps_acyclic.
Print Assumptions bind_fresh_acyclic.
Print Assumptions cyclic_solution_refuted.
Print Assumptions second_value_refuted.
Print Assumptions coerce_rejects_immutable.
Print Assumptions autoborrow_direction.
Print Assumptions query_direction_refuted.
Print Assumptions fully_resolved_exact.
Print Assumptions finished_no_variables_partial.
Print Assumptions finished_no_variables_refuted.
Print Assumptions substitute_resolve_commute.
Print Assumptions intersect_mutability.
Print Assumptions intersect_first_or_unknown.
