(** Proofs about the inference context: growth of the tables, what success means. *)
From Verif Require Import Base TyModel TyProps UnifyModel UnifyProps InferModel.

(** * Classes and values of a context *)
Definition vleads (c : ctx) : tyvar -> tyvar -> Prop := leads tyvar ty tyvar_eq_dec (t_map (vt c)).
Definition ileads (c : ctx) : nat -> nat -> Prop := leads nat ty Nat.eq_dec (t_map (it c)).
Definition vval (c : ctx) : tyvar -> ty -> Prop := val tyvar ty tyvar_eq_dec (t_map (vt c)).
Definition ival (c : ctx) : nat -> ty -> Prop := val nat ty Nat.eq_dec (t_map (it c)).
Definition vsame (c : ctx) (v w : tyvar) : Prop := exists r, vleads c v r /\ vleads c w r.
Definition isame (c : ctx) (i j : nat) : Prop := exists r, ileads c i r /\ ileads c j r.
Definition is_var (t : ty) : Prop := exists v, t = Var v.
Definition is_integer (t : ty) : Prop := exists k, t = Integer k.
(** contexts that inference builds: representatives exist, the value of a type variable is not a type
    variable, the value of an integer variable is an integer type *)
Record good (c : ctx) : Prop := mkGood {
  g_vwf : wf tyvar ty tyvar_eq_dec (t_map (vt c));
  g_iwf : wf nat ty Nat.eq_dec (t_map (it c));
  g_vval : forall v t, vval c v t -> ~ is_var t;
  g_ival : forall i t, ival c i t -> is_integer t
}.
Record grows (c c' : ctx) : Prop := mkGrows {
  gr_msl : msl c' = msl c;
  gr_vsnaps : t_snaps (vt c') = t_snaps (vt c);
  gr_isnaps : t_snaps (it c') = t_snaps (it c);
  gr_vsame : forall v w, vsame c v w -> vsame c' v w;
  gr_isame : forall i j, isame c i j -> isame c' i j;
  gr_vval : forall v t, vval c v t -> vval c' v t;
  gr_ival : forall i t, ival c i t -> ival c' i t
}.
Lemma grows_refl : forall c, grows c c.
Proof. intros c. constructor; auto. Qed.
Lemma grows_trans : forall a b c, grows a b -> grows b c -> grows a c.
Proof. intros a b c H1 H2. destruct H1, H2. constructor; auto; congruence. Qed.
Lemma vval_det : forall c v t u, vval c v t -> vval c v u -> t = u.
Proof. intros. eapply val_det; eauto. Qed.
Lemma ival_det : forall c v t u, ival c v t -> ival c v u -> t = u.
Proof. intros. eapply val_det; eauto. Qed.
Lemma vsame_val : forall c v w t, vsame c v w -> vval c v t -> vval c w t.
Proof. intros c v w t (r & H1 & H2) (s & H3 & G). exists r. split; auto. rewrite (leads_det _ _ _ _ _ _ H1 _ H3). exact G. Qed.
Lemma isame_val : forall c v w t, isame c v w -> ival c v t -> ival c w t.
Proof. intros c v w t (r & H1 & H2) (s & H3 & G). exists r. split; auto. rewrite (leads_det _ _ _ _ _ _ H1 _ H3). exact G. Qed.
Lemma vsame_sym : forall c v w, vsame c v w -> vsame c w v.
Proof. intros c v w (r & A & B). exists r. auto. Qed.
Lemma isame_sym : forall c v w, isame c v w -> isame c w v.
Proof. intros c v w (r & A & B). exists r. auto. Qed.
Lemma vvalue_spec : forall c v o, good c -> (vvalue c v = Done o <-> (forall t, o = Some t <-> vval c v t)).
Proof. intros c v o G. apply ty_value_exact. apply G. Qed.
Lemma ivalue_spec : forall c v o, good c -> (ivalue c v = Done o <-> (forall t, o = Some t <-> ival c v t)).
Proof. intros c v o G. apply ty_value_exact. apply G. Qed.
Lemma vvalue_total : forall c v, good c -> exists o, vvalue c v = Done o.
Proof. intros c v G. apply ty_value_total. apply G. Qed.
Lemma ivalue_total : forall c v, good c -> exists o, ivalue c v = Done o.
Proof. intros c v G. apply ty_value_total. apply G. Qed.
Lemma vroot_spec : forall c v r, vroot c v = Done r <-> vleads c v r.
Proof. intros. apply root_var_exact. Qed.
Lemma vroot_total : forall c v, good c -> exists r, vroot c v = Done r /\ vleads c v r.
Proof. intros c v G. destruct (g_vwf _ G v) as [r L]. exists r. split; auto. now apply vroot_spec. Qed.

(** * Resolving one variable *)
Inductive resolves1 (c : ctx) : ty -> ty -> Prop :=
| r1_int : forall i t, ival c i t -> resolves1 c (IntVar i) t
| r1_int_free : forall i, (forall t, ~ ival c i t) -> resolves1 c (IntVar i) (IntVar i)
| r1_var_free : forall v, (forall t, ~ vval c v t) -> resolves1 c (Var v) (Var v)
| r1_var_int : forall v j t, vval c v (IntVar j) -> ival c j t -> resolves1 c (Var v) t
| r1_var_int_free : forall v j, vval c v (IntVar j) -> (forall t, ~ ival c j t) -> resolves1 c (Var v) (IntVar j)
| r1_var : forall v t, vval c v t -> (forall j, t <> IntVar j) -> resolves1 c (Var v) t
| r1_other : forall t, is_infer t = false -> resolves1 c t t.
Lemma resolve_infer_spec : forall c t, good c -> exists u, resolve_infer c t = Done u /\ resolves1 c t u.
Proof.
  intros c t G. destruct t; try (eexists; split; [reflexivity|]; now constructor).
  - cbn. destruct (vvalue_total c v G) as [o E]. rewrite E. cbn. pose proof (proj1 (vvalue_spec c v o G) E) as S. destruct o as [t|].
    + assert (HV : vval c v t) by now apply S. destruct t; try (eexists; split; [reflexivity|]; apply r1_var; auto; intros; discriminate).
      destruct (ivalue_total c i G) as [o2 E2]. rewrite E2. cbn. pose proof (proj1 (ivalue_spec c i o2 G) E2) as S2. eexists. split; [reflexivity|]. destruct o2 as [t|]; [eapply r1_var_int; eauto; now apply S2|apply r1_var_int_free; auto]. intros t HT. apply S2 in HT. discriminate.
    + eexists. split; [reflexivity|]. apply r1_var_free. intros t HT. apply S in HT. discriminate.
  - cbn. destruct (ivalue_total c i G) as [o E]. rewrite E. cbn. pose proof (proj1 (ivalue_spec c i o G) E) as S. eexists. split; [reflexivity|]. destruct o as [t|]; [apply r1_int; now apply S|apply r1_int_free; intros t HT; apply S in HT; discriminate].
Qed.
(** a variable that is left is free *)
Lemma resolves1_var : forall c t v, good c -> resolves1 c t (Var v) -> t = Var v /\ forall u, ~ vval c v u.
Proof.
  intros c t v G H. inversion H; subst; auto.
  - apply (g_ival _ G) in H0. destruct H0. discriminate.
  - apply (g_ival _ G) in H1. destruct H1. discriminate.
  - exfalso. eapply (g_vval _ G); eauto. eexists; eauto.
  - discriminate.
Qed.
Lemma resolves1_int : forall c t i, good c -> resolves1 c t (IntVar i) -> forall u, ~ ival c i u.
Proof.
  intros c t i G H. inversion H; subst; auto.
  - apply (g_ival _ G) in H0. destruct H0. discriminate.
  - apply (g_ival _ G) in H1. destruct H1. discriminate.
  - exfalso. eapply H1; eauto.
  - discriminate.
Qed.

(** * Effects of the unifications *)
Lemma with_vt_leads : forall c m, vleads (with_vt c m) = leads tyvar ty tyvar_eq_dec m.
Proof. reflexivity. Qed.
Lemma set_value_effect : forall c v t c', good c -> ~ is_var t -> set_value c v t = Done c' -> good c' /\ grows c c' /\ vval c' v t /\
  (forall w u, vval c' w u -> vval c w u \/ (vsame c w v /\ u = t)) /\ (forall w x, vsame c' w x -> vsame c w x) /\ it c' = it c.
Proof.
  intros c v t c' G NV H. unfold set_value in H.
  destruct (var_value_effect tyvar ty tyvar_eq_dec ty_eq_dec (t_map (vt c)) v t (g_vwf _ G)) as [[E _]|(m' & E & W & L & VL & _)]; rewrite E in H; cbn [obind] in H; [discriminate|]. injection H as <-.
  assert (VV : forall w u, vval (with_vt c m') w u <-> vval c w u \/ (vsame c w v /\ u = t)) by (intros w u; apply VL).
  assert (SS : forall w x, vsame (with_vt c m') w x <-> vsame c w x) by (intros w x; split; intros (r & A & B); exists r; split; apply L; auto).
  split; [constructor|split; [constructor|split; [|split; [|split]]]]; auto; try (intros; now apply SS); try (intros; now apply VV).
  - apply G.
  - intros w u H. apply VV in H. destruct H as [H|[_ ->]]; auto. eapply (g_vval _ G); eauto.
  - apply G.
  - intros w u H. apply VV. auto.
  - apply VV. right. split; auto. destruct (g_vwf _ G v) as [r A]. exists r. auto.
Qed.
Lemma vsame_refl : forall c v, good c -> vsame c v v.
Proof. intros c v G. destruct (g_vwf _ G v) as [r A]. exists r. auto. Qed.
Lemma var_var_ctx : forall c v w m, good c -> unify_var_var tyvar ty tyvar_eq_dec ty_eq_dec (t_map (vt c)) v w = Done m ->
  good (with_vt c m) /\ grows c (with_vt c m) /\ vsame (with_vt c m) v w /\
  (forall x t, vval (with_vt c m) x t <-> vval c x t \/ (vsame c x v /\ vval c w t) \/ (vsame c x w /\ vval c v t)) /\
  (forall x y, vsame (with_vt c m) x y <-> vsame c x y \/ (vsame c x v /\ vsame c w y) \/ (vsame c x w /\ vsame c v y)).
Proof.
  intros c v w m G H. destruct (var_var_effect tyvar ty tyvar_eq_dec ty_eq_dec (t_map (vt c)) v w (g_vwf _ G)) as [[E _]|(m' & E & W & CL & VL & _)]; [congruence|]. assert (m' = m) by congruence. subst m'.
  assert (VV : forall x t, vval (with_vt c m) x t <-> vval c x t \/ (vsame c x v /\ vval c w t) \/ (vsame c x w /\ vval c v t)) by (intros; apply VL).
  assert (SS : forall x y, vsame (with_vt c m) x y <-> vsame c x y \/ (vsame c x v /\ vsame c w y) \/ (vsame c x w /\ vsame c v y)) by (intros; apply CL).
  split; [|split; [|split; [|split]]]; auto.
  - constructor; auto; [apply G| |apply G]. intros x t HV. apply VV in HV. destruct HV as [HV|[[_ HV]|[_ HV]]]; eapply (g_vval _ G); eauto.
  - constructor; auto; [intros x y HS; apply SS; auto|intros x t HV; apply VV; auto].
  - apply SS. right. left. split; now apply vsame_refl.
Qed.
Lemma isame_refl : forall c v, good c -> isame c v v.
Proof. intros c v G. destruct (g_iwf _ G v) as [r A]. exists r. auto. Qed.
Lemma int_var_var_ctx : forall c v w m, good c -> unify_var_var nat ty Nat.eq_dec ty_eq_dec (t_map (it c)) v w = Done m ->
  good (with_it c m) /\ grows c (with_it c m) /\ isame (with_it c m) v w.
Proof.
  intros c v w m G H. destruct (var_var_effect nat ty Nat.eq_dec ty_eq_dec (t_map (it c)) v w (g_iwf _ G)) as [[E _]|(m' & E & W & CL & VL & _)]; [congruence|]. assert (m' = m) by congruence. subst m'.
  assert (VV : forall x t, ival (with_it c m) x t <-> ival c x t \/ (isame c x v /\ ival c w t) \/ (isame c x w /\ ival c v t)) by (intros; apply VL).
  assert (SS : forall x y, isame (with_it c m) x y <-> isame c x y \/ (isame c x v /\ isame c w y) \/ (isame c x w /\ isame c v y)) by (intros; apply CL).
  split; [|split]; auto.
  - constructor; auto; [apply G|apply G|]. intros x t HV. apply VV in HV. destruct HV as [HV|[[_ HV]|[_ HV]]]; eapply (g_ival _ G); eauto.
  - constructor; auto; [intros x y HS; apply SS; auto|intros x t HV; apply VV; auto].
  - apply SS. right. left. split; now apply isame_refl.
Qed.
Lemma int_value_ctx : forall c v t m, good c -> is_integer t -> unify_var_value nat ty Nat.eq_dec ty_eq_dec (t_map (it c)) v t = Done m ->
  good (with_it c m) /\ grows c (with_it c m) /\ ival (with_it c m) v t /\ (forall w u, ival (with_it c m) w u -> ival c w u \/ (isame c w v /\ u = t)) /\ (forall w x, isame (with_it c m) w x <-> isame c w x).
Proof.
  intros c v t m G HI H. destruct (var_value_effect nat ty Nat.eq_dec ty_eq_dec (t_map (it c)) v t (g_iwf _ G)) as [[E _]|(m' & E & W & L & VL & _)]; [congruence|]. assert (m' = m) by congruence. subst m'.
  assert (VV : forall w u, ival (with_it c m) w u <-> ival c w u \/ (isame c w v /\ u = t)) by (intros w u; apply VL).
  assert (SS : forall w x, isame (with_it c m) w x <-> isame c w x) by (intros w x; split; intros (r & A & B); exists r; split; apply L; auto).
  split; [|split; [|split; [|split]]]; auto.
  - constructor; auto; [apply G|apply G|]. intros w u HV. apply VV in HV. destruct HV as [HV|[_ ->]]; auto. eapply (g_ival _ G); eauto.
  - constructor; auto; [intros x y HS; apply SS; auto|intros x u HV; apply VV; auto].
  - apply VV. right. split; auto. now apply isame_refl.
  - intros; now apply VV.
Qed.

Section WithDb.
Variable d : db.
Definition bound_to (c : ctx) (v : tyvar) (t : ty) : Prop := vval c v t \/ vval c v Unknown.
Lemma unify_ty_var_effect : forall c v t c' r, good c -> unify_ty_var d c v t = Done (c', r) ->
  good c' /\ grows c c' /\ (r = COk -> (exists w, t = Var w /\ vsame c' v w) \/ (vval c' v t \/ vval c' v Unknown)).
Proof.
  intros c v t c' r G H. unfold unify_ty_var in H.
  assert (B : ~ is_var t -> obind (vroot c v) (fun r0 => obind (contains_var c t r0) (fun b => if b then obind (set_value c r0 Unknown) (fun c' => Done (c', COk)) else obind (set_value c r0 t) (fun c' => Done (c', ability_check d c v t)))) = Done (c', r) ->
    good c' /\ grows c c' /\ (r = COk -> (exists w, t = Var w /\ vsame c' v w) \/ (vval c' v t \/ vval c' v Unknown))).
  { intros NV H2. destruct (vroot_total c v G) as (rt & E & L). rewrite E in H2. cbn [obind] in H2. destruct (contains_var c t rt) as [b| |]; cbn [obind] in H2; try discriminate.
    assert (SM : vsame c rt v) by (exists rt; split; auto; eapply leads_self; eauto).
    destruct b.
    - destruct (set_value c rt Unknown) as [c2| |] eqn:S; cbn [obind] in H2; try discriminate. injection H2 as <- <-. destruct (set_value_effect c rt Unknown c2 G) as (G2 & GR & V & _); auto; [intros [w W]; discriminate|]. split; auto. split; auto. intros _. right. right. eapply vsame_val; [|exact V]. now apply (gr_vsame _ _ GR).
    - destruct (set_value c rt t) as [c2| |] eqn:S; cbn [obind] in H2; try discriminate. injection H2 as <- <-. destruct (set_value_effect c rt t c2 G) as (G2 & GR & V & _); auto. split; auto. split; auto. intros _. right. left. eapply vsame_val; [|exact V]. now apply (gr_vsame _ _ GR). }
  destruct t; try (apply B; [intros [w W]; discriminate|exact H]).
  - destruct (unify_var_var _ _ _ _ _ v v0) as [m| |] eqn:E; cbn [obind] in H; try discriminate. injection H as <- <-. destruct (var_var_ctx c v v0 m G E) as (G2 & GR & S & _). split; auto. split; auto. intros _. left. exists v0. auto.
  - destruct (v_origin v); [injection H as <- <-; split; auto; split; [apply grows_refl|discriminate]|]. apply B; [intros [w W]; discriminate|exact H].
Qed.
Lemma unify_int_var_effect : forall c i t c' r, good c -> unify_int_var c i t = Done (c', r) ->
  good c' /\ grows c c' /\ (r = COk -> t = Unknown \/ (exists j, t = IntVar j /\ isame c' i j) \/ (is_integer t /\ ival c' i t)).
Proof.
  intros c i t c' r G H. destruct t; cbn in H; try (injection H as <- <-; split; auto; split; [apply grows_refl|auto; discriminate]).
  - destruct (unify_var_value _ _ _ _ _ i (Integer k)) as [m| |] eqn:E; cbn [obind] in H; try discriminate. injection H as <- <-. destruct (int_value_ctx c i (Integer k) m G) as (G2 & GR & V & _); auto; [eexists; eauto|]. split; auto. split; auto. intros _. right. right. split; auto. eexists; eauto.
  - destruct (unify_var_var _ _ _ _ _ i i0) as [m| |] eqn:E; cbn [obind] in H; try discriminate. injection H as <- <-. destruct (int_var_var_ctx c i i0 m G E) as (G2 & GR & S). split; auto. split; auto. intros _. right. left. exists i0. auto.
Qed.
Lemma unify_with_unknown_effect : forall vs c c', good c -> unify_with_unknown d c vs = Done c' -> good c' /\ grows c c'.
Proof.
  induction vs as [|v vs IH]; intros c c' G H; cbn [unify_with_unknown] in H; [injection H as <-; split; auto; apply grows_refl|].
  destruct (unify_ty_var d c v Unknown) as [[c1 r]| |] eqn:E; cbn [obind] in H; try discriminate. destruct (unify_ty_var_effect _ _ _ _ _ G E) as (G1 & GR & _). destruct (IH _ _ G1 H) as [G2 GR2]. split; auto. eapply grows_trans; eauto.
Qed.

(** * What success means *)
(** [t] without some of its outer references *)
Inductive strips : ty -> ty -> Prop :=
| st_here : forall t, strips t t
| st_ref : forall m t u, strips t u -> strips (Reference m t) u.
Inductive compat (c : ctx) : ty -> ty -> Prop :=
| co_unknown_l : forall a, compat c Unknown a
| co_unknown_r : forall e, compat c e Unknown
| co_never_l : forall a, compat c Never a
| co_never_r : forall e, compat c e Never
| co_refl : forall t, compat c t t
| co_int : forall k l, k = KInteger \/ l = KInteger -> compat c (Integer k) (Integer l)
| co_seq : forall k l t u, compat c t u -> compat c (Seq k t) (Seq l u)
| co_ref : forall m n t u, (m = true -> n = true) -> compat c t u -> compat c (Reference m t) (Reference n u)
| co_adt : forall l k v x k' v' x', compats c x x' -> compat c (Adt l k v x) (Adt l k' v' x')
| co_tuple : forall x x', length x = length x' -> compats c x x' -> compat c (Tuple x) (Tuple x')
| co_callable : forall ps r k ks vs ps' r' k' ks' vs' x x', compats c ps ps' -> strips r x -> strips r' x' -> compat c x x' -> compat c (Callable ps r k ks vs) (Callable ps' r' k' ks' vs')
| co_wrapped : forall l keys vals args lam a, wrapped_lambda d l = Some lam -> compat c (substitute (mkSubst keys vals) lam) a -> compat c (Adt l keys vals args) a
| co_single : forall e x, compat c e x -> compat c e (Tuple [x])
| co_var_l : forall v t a, vval c v t -> compat c t a -> compat c (Var v) a
| co_var_r : forall v t e, vval c v t -> compat c e t -> compat c e (Var v)
| co_class : forall v w, vsame c v w -> compat c (Var v) (Var w)
| co_int_l : forall v t a, ival c v t -> compat c t a -> compat c (IntVar v) a
| co_int_r : forall v t e, ival c v t -> compat c e t -> compat c e (IntVar v)
| co_int_class : forall v w, isame c v w -> compat c (IntVar v) (IntVar w)
| co_msl_ref_l : forall m t a, msl c = true -> compat c t a -> compat c (Reference m t) a
| co_msl_ref_r : forall m t e, msl c = true -> compat c e t -> compat c e (Reference m t)
| co_msl_int_l : forall k a, msl c = true -> compat c Num a -> compat c (Integer k) a
| co_msl_int_r : forall k e, msl c = true -> compat c e Num -> compat c e (Integer k)
| co_msl_var_l : forall i a, msl c = true -> compat c Num a -> compat c (IntVar i) a
| co_msl_var_r : forall i e, msl c = true -> compat c e Num -> compat c e (IntVar i)
with compats (c : ctx) : list ty -> list ty -> Prop :=
| cs_nil_l : forall r, compats c [] r
| cs_nil_r : forall l, compats c l []
| cs_cons : forall x y l r, compat c x y -> compats c l r -> compats c (x :: l) (y :: r).
Scheme compat_mut := Induction for compat Sort Prop with compats_mut := Induction for compats Sort Prop.
Combined Scheme compat_both from compat_mut, compats_mut.

Lemma compat_grows_both : forall c c', grows c c' -> (forall e a, compat c e a -> compat c' e a) /\ (forall l r, compats c l r -> compats c' l r).
Proof.
  intros c c' GR. destruct GR as [M _ _ VS IS VV IV].
  apply (compat_both c (fun e a _ => compat c' e a) (fun l r _ => compats c' l r)); intros; try (econstructor; eauto; fail).
Qed.
Lemma compat_grows : forall c c' e a, grows c c' -> compat c e a -> compat c' e a.
Proof. intros c c' e a G. apply (proj1 (compat_grows_both c c' G)). Qed.
Lemma compats_grows : forall c c' e a, grows c c' -> compats c e a -> compats c' e a.
Proof. intros c c' e a G. apply (proj2 (compat_grows_both c c' G)). Qed.
Lemma resolves1_compat_l : forall c t u a, resolves1 c t u -> compat c u a -> compat c t a.
Proof.
  intros c t u a H C. inversion H; subst; auto.
  - eapply co_int_l; eauto.
  - eapply co_var_l; eauto. eapply co_int_l; eauto.
  - eapply co_var_l; eauto.
  - eapply co_var_l; eauto.
Qed.
Lemma resolves1_compat_r : forall c t u a, resolves1 c t u -> compat c a u -> compat c a t.
Proof.
  intros c t u a H C. inversion H; subst; auto.
  - eapply co_int_r; eauto.
  - eapply co_var_r; eauto. eapply co_int_r; eauto.
  - eapply co_var_r; eauto.
  - eapply co_var_r; eauto.
Qed.
Lemma resolves1_grows_l : forall c c' t u a, grows c c' -> resolves1 c t u -> compat c' u a -> compat c' t a.
Proof.
  intros c c' t u a GR H C. pose proof (gr_vval _ _ GR) as VV. pose proof (gr_ival _ _ GR) as IV. inversion H; subst; auto.
  - eapply co_int_l; eauto.
  - eapply co_var_l; eauto. eapply co_int_l; eauto.
  - eapply co_var_l; eauto.
  - eapply co_var_l; eauto.
Qed.
Lemma resolves1_grows_r : forall c c' t u a, grows c c' -> resolves1 c t u -> compat c' a u -> compat c' a t.
Proof.
  intros c c' t u a GR H C. pose proof (gr_vval _ _ GR) as VV. pose proof (gr_ival _ _ GR) as IV. inversion H; subst; auto.
  - eapply co_int_r; eauto.
  - eapply co_var_r; eauto. eapply co_int_r; eauto.
  - eapply co_var_r; eauto.
  - eapply co_var_r; eauto.
Qed.
Lemma unwrap_msl_l : forall c t a, msl c = true -> compat c (unwrap_all_refs t) a -> compat c t a.
Proof. intros c t. induction t; intros a M C; cbn in C; auto. apply co_msl_ref_l; auto. Qed.
Lemma unwrap_msl_r : forall c t a, msl c = true -> compat c a (unwrap_all_refs t) -> compat c a t.
Proof. intros c t. induction t; intros a M C; cbn in C; auto. apply co_msl_ref_r; auto. Qed.
Lemma refine_l : forall c t a, compat c (refine_for_specs (msl c) t) a -> compat c t a.
Proof.
  intros c t a H. unfold refine_for_specs in H. destruct (msl c) eqn:M; auto.
  assert (N : forall u, compat c (match u with Integer _ | IntVar _ => Num | t => t end) a -> compat c u a) by (intros u HU; destruct u; auto; [apply co_msl_int_l|apply co_msl_var_l]; auto).
  destruct t; try (apply N; exact H). apply unwrap_msl_l; auto.
Qed.
Lemma refine_r : forall c t a, compat c a (refine_for_specs (msl c) t) -> compat c a t.
Proof.
  intros c t a H. unfold refine_for_specs in H. destruct (msl c) eqn:M; auto.
  assert (N : forall u, compat c a (match u with Integer _ | IntVar _ => Num | t => t end) -> compat c a u) by (intros u HU; destruct u; auto; [apply co_msl_int_r|apply co_msl_var_r]; auto).
  destruct t; try (apply N; exact H). apply unwrap_msl_r; auto.
Qed.
Lemma prepare_compat : forall c e a e' a', prepare c e a = (e', a') -> compat c e' a' -> compat c e a.
Proof.
  intros c e a e' a' P C. unfold prepare in P. injection P as <- <-. apply refine_l. apply refine_r. destruct (single_element_tuple_ty (refine_for_specs (msl c) a)) as [x|] eqn:S; auto. destruct (is_tuple _); auto.
  unfold single_element_tuple_ty in S. destruct (refine_for_specs (msl c) a); try discriminate. destruct ts as [|y [|z ts]]; try discriminate. injection S as ->. now apply co_single.
Qed.
Lemma strips_unwrap : forall t, strips t (unwrap_all_refs t).
Proof. induction t; cbn; constructor; auto. Qed.

Definition comb_ok (comb : ctx -> ty -> ty -> out (ctx * cres)) : Prop :=
  forall c e a c' r, good c -> comb c e a = Done (c', r) -> good c' /\ grows c c' /\ (r = COk -> compat c' e a).
Lemma pairs_effect : forall comb, comb_ok comb -> forall l r c acc c' res, good c -> combine_pairs comb c acc l r = Done (c', res) ->
  good c' /\ grows c c' /\ (res = COk -> acc = COk /\ compats c' l r).
Proof.
  intros comb OK l. induction l as [|x l IH]; intros [|y r] c acc c' res G H; cbn in H; try (injection H as <- <-; split; auto; split; [apply grows_refl|]; intros ->; split; auto; constructor).
  destruct (comb c x y) as [[c1 r1]| |] eqn:E; cbn [obind] in H; try discriminate. destruct (OK _ _ _ _ _ G E) as (G1 & GR1 & C1). destruct (IH _ _ _ _ _ G1 H) as (G2 & GR2 & C2). split; auto. split; [eapply grows_trans; eauto|].
  intros ->. destruct (C2 eq_refl) as [A CS]. destruct acc; [|discriminate]. cbn in A. subst r1. split; auto. constructor; auto. eapply compat_grows; eauto.
Qed.
Lemma callables_effect : forall comb, comb_ok comb -> forall c ps r ps' r' c' res, good c -> combine_callables comb c ps r ps' r' = Done (c', res) ->
  good c' /\ grows c c' /\ (res = COk -> forall k ks vs k' ks' vs', compat c' (Callable ps r k ks vs) (Callable ps' r' k' ks' vs')).
Proof.
  intros comb OK c ps r ps' r' c' res G H. unfold combine_callables in H. destruct (combine_pairs comb c COk ps ps') as [[c1 r1]| |] eqn:E; cbn [obind] in H; try discriminate.
  destruct (pairs_effect comb OK _ _ _ _ _ _ G E) as (G1 & GR1 & C1). destruct r1 as [|er]; [|injection H as <- <-; split; auto; split; auto; discriminate].
  destruct (OK _ _ _ _ _ G1 H) as (G2 & GR2 & C2). split; auto. split; [eapply grows_trans; eauto|]. intros -> *. destruct (C1 eq_refl) as [_ CS]. eapply co_callable; [eapply compats_grows; eauto|apply strips_unwrap|apply strips_unwrap|auto].
Qed.
(** the cases of combine_no_vars and of the choice at the end of combine *)
Inductive nv (comb : ctx -> ty -> ty -> out (ctx * cres)) (c : ctx) (e a : ty) : out (ctx * cres) -> Prop :=
| nv_unknown : e = Unknown \/ a = Unknown -> nv comb c e a (obind (unify_with_unknown d c (ty_vars e ++ ty_vars a)) (fun c' => Done (c', COk)))
| nv_never : e = Never \/ a = Never -> nv comb c e a (Done (c, COk))
| nv_eq : e = a -> nv comb c e a (Done (c, COk))
| nv_int : forall k l, e = Integer k -> a = Integer l -> nv comb c e a (Done (c, if is_default k || is_default l then COk else CErr EMismatch))
| nv_seq : forall k t l u, e = Seq k t -> a = Seq l u -> nv comb c e a (comb c t u)
| nv_ref : forall m t n u, e = Reference m t -> a = Reference n u -> nv comb c e a (if negb m || n then comb c t u else obind (comb c t u) (fun '(c', _) => Done (c', CErr EMismatch)))
| nv_wrap : forall l keys vals args ps r k ks vs eps er, e = Adt l keys vals args -> a = Callable ps r k ks vs -> expected_lambda d l keys vals = Some (eps, er) -> nv comb c e a (combine_callables comb c eps er ps r)
| nv_call : forall ps r k ks vs ps' r' k' ks' vs', e = Callable ps r k ks vs -> a = Callable ps' r' k' ks' vs' -> nv comb c e a (combine_callables comb c ps r ps' r')
| nv_adt : forall l k v x k' v' x', e = Adt l k v x -> a = Adt l k' v' x' -> nv comb c e a (combine_pairs comb c COk x x')
| nv_tuple : forall x x', e = Tuple x -> a = Tuple x' -> length x = length x' -> nv comb c e a (combine_pairs comb c COk x x')
| nv_bad : nv comb c e a (Done (c, CErr EMismatch)).
Lemma no_vars_cases : forall comb c e a, nv comb c e a (combine_no_vars d comb c e a).
Proof.
  intros comb c e a. unfold combine_no_vars. destruct (ty_eqb e a) eqn:EQ.
  { apply ty_eqb_iff in EQ. subst a. destruct e; now apply nv_eq. }
  clear EQ. destruct e; try (apply nv_unknown; now left); destruct a; try (apply nv_unknown; now right); try (apply nv_never; auto; fail); try apply nv_bad.
  - eapply nv_int; reflexivity.
  - eapply nv_seq; reflexivity.
  - eapply nv_ref; reflexivity.
  - destruct (l =? l0) eqn:E; [apply Nat.eqb_eq in E; subst|apply nv_bad]. eapply nv_adt; reflexivity.
  - destruct (expected_lambda d l keys vals) as [[eps er]|] eqn:E; [|apply nv_bad]. eapply nv_wrap; eauto.
  - eapply nv_call; reflexivity.
  - destruct (length ts =? length ts0) eqn:E; [apply Nat.eqb_eq in E|apply nv_bad]. eapply nv_tuple; eauto.
Qed.
Lemma no_vars_same : forall comb c e, combine_no_vars d comb c e e = Done (c, COk).
Proof. intros comb c e. unfold combine_no_vars. rewrite (proj2 (ty_eqb_iff e e) eq_refl). destruct e; reflexivity. Qed.
Inductive dp (comb : ctx -> ty -> ty -> out (ctx * cres)) (c : ctx) (e a : ty) : out (ctx * cres) -> Prop :=
| dp_var_l : forall v, e = Var v -> dp comb c e a (unify_ty_var d c v a)
| dp_var_r : forall v, a = Var v -> dp comb c e a (unify_ty_var d c v e)
| dp_int_l : forall i, e = IntVar i -> dp comb c e a (unify_int_var c i a)
| dp_int_r : forall i, a = IntVar i -> dp comb c e a (unify_int_var c i e)
| dp_rest : is_infer e = false -> is_infer a = false -> dp comb c e a (combine_no_vars d comb c e a).
Lemma dispatch_cases : forall comb c e a, dp comb c e a
  (match e, a with
   | Var v, r => unify_ty_var d c v r
   | l, Var v => unify_ty_var d c v l
   | IntVar i, r => unify_int_var c i r
   | l, IntVar i => unify_int_var c i l
   | e, a => combine_no_vars d comb c e a
   end).
Proof. intros comb c e a. destruct e; try (eapply dp_var_l; reflexivity); destruct a; try (eapply dp_var_r; reflexivity); try (eapply dp_int_l; reflexivity); try (eapply dp_int_r; reflexivity); apply dp_rest; reflexivity. Qed.
Lemma no_vars_effect : forall comb, comb_ok comb -> forall c e a c' r, good c -> combine_no_vars d comb c e a = Done (c', r) ->
  good c' /\ grows c c' /\ (r = COk -> compat c' e a).
Proof.
  intros comb OK c e a c' r G H.
  destruct (no_vars_cases comb c e a) as [Q|Q|Q|k l -> ->|k t l u -> ->|m t n u -> ->|l keys vals args ps rt k ks vs eps er -> -> EL|ps rt k ks vs ps' r' k' ks' vs' -> ->|l k v x k' v' x' -> ->|x x' -> -> L|].
  - destruct (unify_with_unknown d c (ty_vars e ++ ty_vars a)) as [c1| |] eqn:E; cbn [obind] in H; try discriminate. injection H as <- <-. destruct (unify_with_unknown_effect _ _ _ G E) as [G1 GR]. split; auto. split; auto. intros _. destruct Q as [->| ->]; constructor.
  - injection H as <- <-. split; auto. split; [apply grows_refl|]. intros _. destruct Q as [->| ->]; constructor.
  - injection H as <- <-. split; auto. split; [apply grows_refl|]. intros _. subst. apply co_refl.
  - injection H as <- <-. split; auto. split; [apply grows_refl|]. destruct (is_default k || is_default l) eqn:D; [|discriminate]. intros _. apply co_int. apply orb_true_iff in D. destruct D as [D|D]; [left; destruct k|right; destruct l]; auto; discriminate.
  - destruct (OK _ _ _ _ _ G H) as (G1 & GR & C). split; auto. split; auto. intros R. apply co_seq. auto.
  - destruct (negb m || n) eqn:M.
    + destruct (OK _ _ _ _ _ G H) as (G1 & GR & C). split; auto. split; auto. intros R. apply co_ref; auto. intros ->. cbn in M. exact M.
    + destruct (comb c t u) as [[c1 r1]| |] eqn:E; cbn [obind] in H; try discriminate. injection H as <- <-. destruct (OK _ _ _ _ _ G E) as (G1 & GR & C). split; auto. split; auto. discriminate.
  - destruct (callables_effect comb OK _ _ _ _ _ _ _ G H) as (G1 & GR & C). split; auto. split; auto. intros R.
    unfold expected_lambda in EL. destruct (wrapped_lambda d l) as [lam|] eqn:WL; [|discriminate]. destruct lam; try discriminate. cbn [substitute fold_params] in EL. eapply co_wrapped; [exact WL|]. unfold substitute in *. cbn [fold_params] in *. injection EL as <- <-. now apply C.
  - destruct (callables_effect comb OK _ _ _ _ _ _ _ G H) as (G1 & GR & C). split; auto.
  - destruct (pairs_effect comb OK _ _ _ _ _ _ G H) as (G1 & GR & C). split; auto. split; auto. intros R. apply co_adt. now apply C.
  - destruct (pairs_effect comb OK _ _ _ _ _ _ G H) as (G1 & GR & C). split; auto. split; auto. intros R. apply co_tuple; auto. now apply C.
  - injection H as <- <-. split; auto. split; [apply grows_refl|discriminate].
Qed.
Theorem combine_sound : forall fuel, comb_ok (combine d fuel).
Proof.
  induction fuel as [|f IH]; intros c e a c' r G H; cbn [combine] in H; [discriminate|].
  destruct (prepare c e a) as [e0 a0] eqn:P. destruct (resolve_infer_spec c e0 G) as (e1 & E1 & R1). destruct (resolve_infer_spec c a0 G) as (a1 & E2 & R2). rewrite E1, E2 in H. cbn [obind] in H.
  assert (FIN : good c' /\ grows c c' /\ (r = COk -> compat c' e1 a1) -> good c' /\ grows c c' /\ (r = COk -> compat c' e a)).
  { intros (G1 & GR & C). split; auto. split; auto. intros R. apply (prepare_compat c' e a e0 a0); [unfold prepare in *; rewrite (gr_msl _ _ GR); exact P|]. eapply resolves1_grows_l; eauto. eapply resolves1_grows_r; eauto. }
  apply FIN. clear FIN.
  destruct (dispatch_cases (combine d f) c e1 a1) as [v Z|v Z|v Z|v Z|I1 I2]; try subst e1; try subst a1.
  - destruct (unify_ty_var_effect _ _ _ _ _ G H) as (G1 & GR & C). split; auto. split; auto. intros R. destruct (C R) as [(w & -> & S)|[V|V]]; [now apply co_class|eapply co_var_l; eauto; apply co_refl|eapply co_var_l; eauto; apply co_unknown_l].
  - destruct (unify_ty_var_effect _ _ _ _ _ G H) as (G1 & GR & C). split; auto. split; auto. intros R. destruct (C R) as [(w & -> & S)|[V|V]]; [apply co_class; now apply vsame_sym|eapply co_var_r; eauto; apply co_refl|eapply co_var_r; eauto; apply co_unknown_r].
  - destruct (unify_int_var_effect _ _ _ _ _ G H) as (G1 & GR & C). split; auto. split; auto. intros R. destruct (C R) as [->|[(w & -> & S)|[V V2]]]; [apply co_unknown_r|now apply co_int_class|eapply co_int_l; eauto; apply co_refl].
  - destruct (unify_int_var_effect _ _ _ _ _ G H) as (G1 & GR & C). split; auto. split; auto. intros R. destruct (C R) as [->|[(w & -> & S)|[V V2]]]; [apply co_unknown_l|apply co_int_class; now apply isame_sym|eapply co_int_r; eauto; apply co_refl].
  - now apply (no_vars_effect _ IH).
Qed.
End WithDb.
