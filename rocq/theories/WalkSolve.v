(** Inferred types that stand for declared types, and what combining such types does. *)
From Verif Require Import Base TyModel TyProps UnifyModel UnifyProps InferModel InferProofs InferResolve InferTotal InferProps WalkModel WalkTyping.

(** * What the variables stand for *)
Record sol := mkSol { si : nat -> ikind; sv : nat -> ty }.
(** [means s t u]: the inferred type [t] stands for the declared type [u] *)
Section Means.
Context {d : db}.
Inductive means (s : sol) : ty -> ty -> Prop :=
| m_int : forall k, means s (Integer KInteger) (Integer k)
| m_ivar : forall i, means s (IntVar i) (Integer (si s i))
| m_var : forall v, proper (sv s (v_index v)) -> (forall l, v_origin v = Some l -> allowed l (sv s (v_index v))) -> means s (Var v) (sv s (v_index v))
| m_unit : means s Never Unit
| m_node : forall t u, is_infer t = false -> head t = head u -> Forall2 (means s) (children t) (children u) -> means s t u.
Record agrees (s : sol) (c : ctx) : Prop := mkAgrees {
  a_good : good c;
  a_ival : forall i t, ival c i t -> t = Integer KInteger \/ t = Integer (si s i);
  a_isame : forall i j, isame c i j -> si s i = si s j;
  a_vval : forall v t, vval c v t -> means s t (sv s (v_index v));
  a_vsame : forall v w, vsame c v w -> sv s (v_index v) = sv s (v_index w);
  a_msl : msl c = false
}.

(** * Properties of declared types *)
Lemma proper_child : forall t x, proper t -> In x (children t) -> proper x.
Proof. intros t x H I y P. apply H. eapply part_in; eauto. Qed.
Lemma proper_here : forall t, proper t -> proper1 t = true.
Proof. intros t H. apply H. constructor. Qed.
Lemma means_refl : forall s t, has_infer t = false -> means s t t.
Proof.
  intros s t. induction t as [t IH] using ty_ind'. intros H. apply m_node; [now apply ground_not_infer|reflexivity|]. apply F2_self. intros x I. apply IH; auto. eapply no_infer_child; eauto.
Qed.
Lemma proper_ground : forall t, proper t -> has_infer t = false.
Proof. intros t H. unfold has_infer. apply visit_false_iff. intros x P. specialize (H x P). destruct x; auto; discriminate. Qed.
Lemma means_proper : forall s t, proper t -> means s t t.
Proof. intros s t H. apply means_refl. now apply proper_ground. Qed.
(** the shape of what stands for a type *)
Lemma means_cases : forall s t u, means s t u ->
  (exists i, t = Var i /\ u = sv s (v_index i) /\ proper u) \/ (exists i, t = IntVar i /\ u = Integer (si s i)) \/ (t = Integer KInteger /\ exists k, u = Integer k) \/
  (t = Never /\ u = Unit) \/ (is_infer t = false /\ head t = head u /\ Forall2 (means s) (children t) (children u)).
Proof. intros s t u H. inversion H; subst; eauto 10. Qed.
Lemma means_seq : forall s t k u, means s t (Seq k u) -> is_infer t = false -> exists t', t = Seq k t' /\ means s t' u.
Proof.
  intros s t k u H I. destruct (means_cases _ _ _ H) as [(i & -> & _ & _)|[(i & -> & _)|[(_ & k2 & E)|[(_ & E)|(_ & HH & F)]]]]; try discriminate.
  destruct t; cbn in HH; try discriminate. injection HH as ->. cbn in F. inversion F; subst. eauto.
Qed.
Lemma means_ref : forall s t m u, means s t (Reference m u) -> is_infer t = false -> exists t', t = Reference m t' /\ means s t' u.
Proof.
  intros s t m u H I. destruct (means_cases _ _ _ H) as [(i & -> & _ & _)|[(i & -> & _)|[(_ & k2 & E)|[(_ & E)|(_ & HH & F)]]]]; try discriminate.
  destruct t; cbn in HH; try discriminate. injection HH as ->. cbn in F. inversion F; subst. eauto.
Qed.
Lemma means_tuple : forall s t us, means s t (Tuple us) -> is_infer t = false -> exists ts, t = Tuple ts /\ Forall2 (means s) ts us.
Proof.
  intros s t us H I. destruct (means_cases _ _ _ H) as [(i & -> & _ & _)|[(i & -> & _)|[(_ & k2 & E)|[(_ & E)|(_ & HH & F)]]]]; try discriminate.
  destruct t; cbn in HH; try discriminate. cbn in F. eauto.
Qed.
Lemma means_adt : forall s t l k v x, means s t (Adt l k v x) -> is_infer t = false -> exists v' x', t = Adt l k v' x' /\ Forall2 (means s) v' v /\ Forall2 (means s) x' x.
Proof.
  intros s t l k v x H I. destruct (means_cases _ _ _ H) as [(i & -> & _ & _)|[(i & -> & _)|[(_ & k2 & E)|[(_ & E)|(_ & HH & F)]]]]; try discriminate.
  destruct t; cbn in HH; try discriminate. injection HH as -> -> H1 H2. cbn in F. apply F2_app in F; [|now apply map_const_len]. destruct F. eauto.
Qed.
Lemma means_integer : forall s t k, means s t (Integer k) -> is_infer t = false -> t = Integer KInteger \/ t = Integer k.
Proof.
  intros s t k H I. destruct (means_cases _ _ _ H) as [(i & -> & _ & _)|[(i & -> & _)|[(E & k2 & _)|[(_ & E)|(_ & HH & F)]]]]; try discriminate; auto.
  destruct t; cbn in HH; try discriminate. auto.
Qed.
(** a type without parts that is not an integer type or the unit type *)
Lemma means_leaf : forall s t u, means s t u -> is_infer t = false -> children u = [] -> (forall k, u <> Integer k) -> u <> Unit -> t = u.
Proof.
  intros s t u H I C NI NU. destruct (means_cases _ _ _ H) as [(i & -> & _ & _)|[(i & -> & _)|[(E & k2 & ->)|[(_ & ->)|(_ & HH & F)]]]]; try discriminate; try congruence.
  rewrite C in F. inversion F as [E|]. apply head_children_inj; auto. congruence.
Qed.
Lemma means_unit : forall s t, means s t Unit -> is_infer t = false -> t = Unit \/ t = Never.
Proof.
  intros s t H I. destruct (means_cases _ _ _ H) as [(i & -> & _ & _)|[(i & -> & _)|[(E & k2 & E2)|[(E & _)|(_ & HH & F)]]]]; try discriminate; auto.
  destruct t; cbn in HH; try discriminate. auto.
Qed.
Lemma means_no_single : forall s t u, means s t u -> proper u -> single_element_tuple_ty t = None.
Proof.
  intros s t u H P. destruct t as [| | | | | | | | | | | | | | | |ts|]; auto. destruct (means_cases _ _ _ H) as [(i & E & _ & _)|[(i & E & _)|[(E & _)|[(E & _)|(_ & HH & F)]]]]; try discriminate.
  destruct u; cbn in HH; try discriminate. injection HH as HH. apply map_const_len in HH. apply proper_here in P. cbn in P. destruct ts as [|x [|y ts]]; auto. cbn in HH. rewrite <- HH in P. discriminate.
Qed.
(** a variable inside stands for something smaller *)
Lemma means_var_size : forall s u t v, means s t u -> part (Var v) t -> size (sv s (v_index v)) <= size u /\ (is_infer t = false -> size (sv s (v_index v)) < size u).
Proof.
  intros s u. induction u as [u IH] using ty_ind'. intros t v H P. destruct (means_cases _ _ _ H) as [(i & -> & -> & _)|[(i & -> & ->)|[(-> & k & ->)|[(-> & ->)|(I & HH & F)]]]].
  - inversion P as [|? ? ? I]; subst; [|destruct I]. cbn. split; auto. discriminate.
  - inversion P as [|? ? ? I]; subst. destruct I.
  - inversion P as [|? ? ? I]; subst. destruct I.
  - inversion P as [|? ? ? I]; subst. destruct I.
  - inversion P as [|? ? x IX PX]; subst; [discriminate|]. destruct (F2_in_l _ _ _ _ _ _ F IX) as (y & IY & MY). destruct (IH y IY _ _ MY PX) as [L _]. apply size_child in IY. lia.
Qed.

(** * Resolving *)
Section Solved.
Variable s : sol.
Lemma means_resolves1 : forall c t u w, agrees s c -> means s t u -> resolves1 c t w -> means s w u.
Proof.
  intros c t u w A H R.
  assert (IV : forall i t, ival c i t -> means s t (Integer (si s i))).
  { intros i x V. destruct (a_ival _ _ A _ _ V) as [->| ->]; [constructor|]. apply means_refl. reflexivity. }
  inversion R; subst; auto.
  - inversion H; subst; auto. discriminate.
  - inversion H; subst; [|discriminate]. apply (a_vval _ _ A) in H0. cbn in H0. inversion H0; subst; [|discriminate]. auto.
  - inversion H; subst; [|discriminate]. apply (a_vval _ _ A) in H0. auto.
  - inversion H; subst; [|discriminate]. apply (a_vval _ _ A) in H0. auto.
Qed.
Lemma resolve_means : forall u c t, agrees s c -> means s t u -> exists w, (forall f, size u <= f -> resolve f c t = Some w) /\ means s w u /\
  (is_infer t = false -> head w = head t).
Proof.
  intros u. induction u as [u IH] using ty_ind'. intros c t A H. destruct (resolve_infer_spec c t (a_good _ _ A)) as (x & E & R). pose proof (means_resolves1 _ _ _ _ A H R) as HX.
  assert (HT : is_infer t = false -> x = t) by (intros I; rewrite resolve_infer_ground in E; auto; congruence).
  assert (LEAF : children x = [] -> exists w, (forall f, size u <= f -> resolve f c t = Some w) /\ means s w u /\ (is_infer t = false -> head w = head t)).
  { intros C. exists x. split; [|split; auto]. 2:{ intros I. now rewrite HT. } intros [|f] L; [rewrite size_eq in L; lia|]. apply resolve_step. exists x. rewrite C. auto. }
  destruct (means_cases _ _ _ HX) as [(i & -> & -> & _)|[(i & -> & ->)|[(-> & k & ->)|[(-> & ->)|(I & HH & F)]]]]; try (apply LEAF; reflexivity).
  assert (L : exists ws, (forall f, sizes (children u) <= f -> Forall2 (fun x y => resolve f c x = Some y) (children x) ws) /\ Forall2 (means s) ws (children u)).
  { clear HH LEAF HT H HX R E. revert F. generalize (children x). induction (children u) as [|y l IHl]; intros m F; inversion F as [|a b la lb Ha Hl]; subst; [exists []; split; constructor|].
    destruct (IH y (or_introl eq_refl) c a A Ha) as (w & K & M & _). destruct (IHl (fun z I => IH z (or_intror I)) _ Hl) as (ws & KS & MS). exists (w :: ws). split; [|constructor; auto]. intros f Lf. cbn in Lf. constructor; [apply K; lia|apply KS; lia]. }
  destruct L as (ws & K & M).
  assert (W : exists w, head w = head x /\ children w = ws).
  { specialize (K _ (Nat.le_refl _)). apply F2_len in K. clear - K I. destruct x; cbn [children] in K; try (destruct ws; [|discriminate]); try (eexists; split; [|reflexivity]; reflexivity); try (eexists; split; reflexivity); try discriminate.
    - destruct ws as [|w [|]]; try discriminate. exists (Seq k w). auto.
    - destruct ws as [|w [|]]; try discriminate. exists (Reference is_mut w). auto.
    - rewrite app_length in K. exists (Adt l keys (firstn (length vals) ws) (skipn (length vals) ws)). cbn. split; [|apply firstn_skipn]. unfold head. cbn. f_equal; apply map_unknown; rewrite ?firstn_length, ?skipn_length; lia.
    - rewrite app_length in K. cbn in K. exists (Callable (firstn (length params) ws) (hd Unknown (skipn (length params) ws)) k keys (tl (skipn (length params) ws))). cbn. pose proof (firstn_skipn (length params) ws) as FS. pose proof (skipn_length (length params) ws) as SL. pose proof (firstn_length (length params) ws) as FL. destruct (skipn (length params) ws) as [|y ys]; cbn in *; [lia|]. split; auto. unfold head. cbn. f_equal; apply map_unknown; lia.
    - exists (Tuple ws). cbn. split; auto. unfold head. cbn. f_equal. now apply map_unknown.
    - rewrite app_length in K. exists (Schema l keys (firstn (length vals) ws) (skipn (length vals) ws)). cbn. split; [|apply firstn_skipn]. unfold head. cbn. f_equal; apply map_unknown; rewrite ?firstn_length, ?skipn_length; lia. }
  destruct W as (w & HW & CW). exists w. split; [|split].
  - intros [|f] Lf; [rewrite size_eq in Lf; lia|]. apply resolve_step. exists x. split; auto. split; auto. rewrite CW. apply K. rewrite size_eq in Lf. lia.
  - apply m_node; [|congruence|now rewrite CW]. destruct w; auto; destruct x; cbn in HW; discriminate.
  - intros IT. rewrite <- (HT IT). auto.
Qed.
Lemma resolve_ground : forall c t f, has_infer t = false -> size t <= f -> resolve f c t = Some t.
Proof.
  intros c t. induction t as [t IH] using ty_ind'. intros [|f] H L; [rewrite size_eq in L; lia|]. apply resolve_step. exists t. split; [now apply resolve_infer_ground, ground_not_infer|]. split; auto. apply F2_self. intros x I. apply IH; auto; [eapply no_infer_child; eauto|]. apply size_child in I. lia.
Qed.

(** * Unifying a variable *)
Lemma int_var_var_strong : forall c v w m, good c -> unify_var_var nat ty Nat.eq_dec ty_eq_dec (t_map (it c)) v w = Done m ->
  (forall x t, ival (with_it c m) x t <-> ival c x t \/ (isame c x v /\ ival c w t) \/ (isame c x w /\ ival c v t)) /\
  (forall x y, isame (with_it c m) x y <-> isame c x y \/ (isame c x v /\ isame c w y) \/ (isame c x w /\ isame c v y)).
Proof.
  intros c v w m G H. destruct (var_var_effect nat ty Nat.eq_dec ty_eq_dec (t_map (it c)) v w (g_iwf _ G)) as [[E _]|(m' & E & W & CL & VL & _)]; [congruence|]. assert (m' = m) by congruence. subst m'. split; intros; [apply VL|apply CL].
Qed.
Lemma unify_int_means : forall c i t, agrees s c -> (forall u, ~ ival c i u) -> means s t (Integer (si s i)) -> (forall v, t <> Var v) -> exists c', unify_int_var c i t = Done (c', COk) /\ agrees s c'.
Proof.
  intros c i t A N H NV. pose proof (a_good _ _ A) as G.
  assert (VAL : forall k, k = KInteger \/ k = si s i -> exists c', unify_int_var c i (Integer k) = Done (c', COk) /\ agrees s c').
  { intros k HK. cbn. destruct (var_value_effect nat ty Nat.eq_dec ty_eq_dec (t_map (it c)) i (Integer k) (g_iwf _ G)) as [[_ (u & _ & V)]|(m' & E & _)]; [exfalso; eapply N; eauto|]. rewrite E. cbn. eexists. split; [reflexivity|].
    destruct (int_value_ctx c i (Integer k) m' G) as (G2 & GR & V & VV & SS); auto; [eexists; eauto|]. constructor; auto.
    - intros j u HV. apply VV in HV. destruct HV as [HV|[HS ->]]; [eapply a_ival; eauto|]. rewrite (a_isame _ _ A _ _ HS). destruct HK as [->| ->]; auto.
    - intros j l HS. apply SS in HS. eapply a_isame; eauto.
    - intros v u HV. apply (a_vval _ _ A v u). exact HV.
    - intros v w HS. apply (a_vsame _ _ A v w). exact HS.
    - apply (a_msl _ _ A). }
  destruct (means_cases _ _ _ H) as [(j & -> & E & _)|[(j & -> & E)|[(-> & k & E)|[(-> & E)|(I & HH & F)]]]].
  - exfalso. eapply NV; eauto.
  - injection E as E. cbn. destruct (var_var_effect nat ty Nat.eq_dec ty_eq_dec (t_map (it c)) i j (g_iwf _ G)) as [[_ (x & y & _ & V & _)]|(m' & E2 & _)]; [exfalso; eapply N; eauto|]. rewrite E2. cbn. eexists. split; [reflexivity|].
    destruct (int_var_var_ctx c i j m' G E2) as (G2 & GR & _). destruct (int_var_var_strong c i j m' G E2) as [VV SS]. constructor; auto.
    + intros x t HV. apply VV in HV. destruct HV as [HV|[[HS HV]|[HS HV]]]; [eapply a_ival; eauto| |exfalso; eapply N; eauto]. rewrite (a_isame _ _ A _ _ HS), E. eapply a_ival; eauto.
    + intros x y HS. apply SS in HS. destruct HS as [HS|[[H1 H2]|[H1 H2]]]; [eapply a_isame; eauto| |]; rewrite (a_isame _ _ A _ _ H1), <- (a_isame _ _ A _ _ H2); auto.
    + intros v u HV. apply (a_vval _ _ A v u). exact HV.
    + intros v w HS. apply (a_vsame _ _ A v w). exact HS.
    + apply (a_msl _ _ A).
  - apply VAL. auto.
  - discriminate.
  - destruct t; cbn in HH; try discriminate. injection HH as ->. apply VAL. auto.
Qed.
Lemma any_root_false : forall c vs r, good c -> (forall v, In v vs -> ~ vsame c v r) -> vleads c r r -> any_root c vs r = Done false.
Proof.
  intros c vs r G H L. induction vs as [|v vs IH]; cbn; auto. destruct (vroot_total c v G) as (x & E & LX). rewrite E. cbn. destruct (tyvar_eq_dec x r) as [->|_]; [|apply IH; intros; apply H; now right].
  exfalso. apply (H v); [now left|]. exists r. auto.
Qed.
Lemma filter_none : forall (A : Type) (f : A -> bool) l, (forall x, In x l -> f x = false) -> filter f l = [].
Proof. intros A f l. induction l as [|x l IH]; intros H; auto. cbn. rewrite (H x) by now left. apply IH. intros y I. apply H. now right. Qed.
Lemma allowed_check : forall c v t u, (forall l, v_origin v = Some l -> allowed l u) -> loose t u -> ability_check d c v t = COk.
Proof.
  intros c v t u H L. unfold ability_check. destruct (v_origin v) as [l|]; auto. destruct (H l eq_refl) as [_ HA]. destruct (param_bounds d l) as [bs|] eqn:EB; auto. destruct (abilities d t) as [l'|] eqn:EH; auto. destruct (msl c); auto.
  rewrite filter_none; auto. intros x I. apply negb_false_iff, existsb_exists. exists x. split; [eapply HA; eauto|]. destruct (ability_eq_dec x x); congruence.
Qed.
Lemma means_loose : forall t u, means s t u -> loose t u.
Proof.
  intros t. induction t as [t IH] using ty_ind'. intros u H. inversion H; subst; try constructor; auto.
  match goal with F : Forall2 _ _ _ |- _ => revert F end. generalize (children u). induction (children t) as [|x l IHl]; intros l' F; inversion F; subst; constructor; [apply IH; auto; now left|]. apply IHl; auto. intros z I. apply IH. now right.
Qed.
Lemma means_ref_head : forall m t u, means s (Reference m t) u -> reference u.
Proof. intros m t u H. inversion H; subst; try discriminate. destruct u; cbn in *; try discriminate. eexists _, _. reflexivity. Qed.
Lemma unify_var_means : forall c v t, agrees s c -> (forall l, v_origin v = Some l -> allowed l (sv s (v_index v))) -> (forall u, ~ vval c v u) -> means s t (sv s (v_index v)) -> exists c', unify_ty_var d c v t = Done (c', COk) /\ agrees s c'.
Proof.
  intros c v t A O N H. pose proof (a_good _ _ A) as G.
  assert (AB : ability_check d c v t = COk) by (apply allowed_check with (u := sv s (v_index v)); auto; now apply means_loose).
  assert (BIND : ~ is_var t -> exists c', obind (vroot c v) (fun r => obind (contains_var c t r) (fun b => if b then obind (set_value c r Unknown) (fun c' => Done (c', COk)) else obind (set_value c r t) (fun c' => Done (c', COk)))) = Done (c', COk) /\ agrees s c').
  { intros NV. destruct (vroot_total c v G) as (r & E & L). rewrite E. cbn [obind]. assert (SR : vsame c v r) by (exists r; split; auto; eapply leads_self; eauto).
    unfold contains_var. rewrite (any_root_false c (ty_vars t) r G); [| |eapply leads_self; eauto].
    2:{ intros w I HS. apply ty_vars_part in I. destruct (means_var_size _ _ _ _ H I) as [_ LT]. rewrite (a_vsame _ _ A _ _ HS), <- (a_vsame _ _ A _ _ SR) in LT.
        destruct (is_infer t) eqn:IT; [|specialize (LT eq_refl); lia]. destruct t; try discriminate; [apply NV; eexists; eauto|]. inversion I as [|? ? ? IX]; subst. destruct IX. }
    cbn [obind]. destruct (set_value_total c r t G) as (c' & SV); [eapply free_root; eauto|]. rewrite SV. cbn [obind]. exists c'. split; auto.
    destruct (set_value_effect c r t c' G NV SV) as (G2 & GR & V & VV & SS & IT). constructor; auto.
    - intros i u HV. apply (a_ival _ _ A i u). unfold ival in *. now rewrite IT in HV.
    - intros i j HS. apply (a_isame _ _ A i j). unfold isame, ileads in *. now rewrite IT in HS.
    - intros w u HV. apply VV in HV. destruct HV as [HV|[HS ->]]; [eapply a_vval; eauto|]. rewrite (a_vsame _ _ A _ _ HS), <- (a_vsame _ _ A _ _ SR). auto.
    - intros w x HS. apply SS in HS. eapply a_vsame; eauto.
    - rewrite (gr_msl _ _ GR). apply (a_msl _ _ A). }
  unfold unify_ty_var. rewrite AB. destruct t; try (apply BIND; intros [w W]; discriminate).
  - destruct (var_var_effect tyvar ty tyvar_eq_dec ty_eq_dec (t_map (vt c)) v v0 (g_vwf _ G)) as [[_ (x & y & _ & V & _)]|(m' & E2 & _)]; [exfalso; eapply N; eauto|]. rewrite E2. cbn [obind]. eexists. split; [reflexivity|].
    destruct (var_var_ctx c v v0 m' G E2) as (G2 & GR & _ & VV & SS). assert (E : sv s (v_index v) = sv s (v_index v0)) by (inversion H; subst; [|discriminate]; cbn; auto). constructor; auto.
    + intros i u HV. apply (a_ival _ _ A i u). exact HV.
    + intros i j HS. apply (a_isame _ _ A i j). exact HS.
    + intros x t HV. apply VV in HV. destruct HV as [HV|[[HS HV]|[HS HV]]]; [eapply a_vval; eauto| |exfalso; eapply N; eauto]. rewrite (a_vsame _ _ A _ _ HS), E. eapply a_vval; eauto.
    + intros x y HS. apply SS in HS. destruct HS as [HS|[[H1 H2]|[H1 H2]]]; [eapply a_vsame; eauto| |]; rewrite (a_vsame _ _ A _ _ H1), <- (a_vsame _ _ A _ _ H2); auto.
    + apply (a_msl _ _ A).
  - destruct (v_origin v) as [l|] eqn:EO; [|apply BIND; intros [w W]; discriminate]. exfalso. destruct (O l eq_refl) as [NR _]. apply NR. eapply means_ref_head; eauto.
Qed.

(** * Combining *)
Inductive dq (comb : ctx -> ty -> ty -> out (ctx * cres)) (c : ctx) (e a : ty) : out (ctx * cres) -> Prop :=
| dq_var_l : forall v, e = Var v -> dq comb c e a (unify_ty_var d c v a)
| dq_var_r : forall v, a = Var v -> dq comb c e a (unify_ty_var d c v e)
| dq_int_l : forall i, e = IntVar i -> (forall v, a <> Var v) -> dq comb c e a (unify_int_var c i a)
| dq_int_r : forall i, a = IntVar i -> (forall v, e <> Var v) -> dq comb c e a (unify_int_var c i e)
| dq_rest : is_infer e = false -> is_infer a = false -> dq comb c e a (combine_no_vars d comb c e a).
Lemma dispatch : forall comb c e a, dq comb c e a
  (match e, a with
   | Var v, r => unify_ty_var d c v r
   | l, Var v => unify_ty_var d c v l
   | IntVar i, r => unify_int_var c i r
   | l, IntVar i => unify_int_var c i l
   | e, a => combine_no_vars d comb c e a
   end).
Proof. intros comb c e a. destruct e; try (now apply dq_var_l); destruct a; try (now apply dq_var_r); try (apply dq_int_l; auto; discriminate); try (apply dq_int_r; auto; discriminate); apply dq_rest; reflexivity. Qed.

Definition combines (u : ty) : Prop := forall c e a, agrees s c -> proper u -> means s e u -> means s a u ->
  exists c', (forall f, size u <= f -> combine d f c e a = Done (c', COk)) /\ agrees s c'.
Lemma pairs_means : forall us, (forall u, In u us -> combines u) -> forall c es as_, agrees s c -> (forall u, In u us -> proper u) -> Forall2 (means s) es us -> Forall2 (means s) as_ us ->
  exists c', (forall f, sizes us <= f -> combine_pairs (combine d f) c COk es as_ = Done (c', COk)) /\ agrees s c'.
Proof.
  induction us as [|u us IH]; intros HU c es as_ A P FE FA; inversion FE; subst; inversion FA; subst; [exists c; split; auto|].
  destruct (HU u (or_introl eq_refl) c x x0 A) as (c1 & K1 & A1); auto; [apply P; now left|]. destruct (IH (fun z I => HU z (or_intror I)) c1 l l0 A1) as (c2 & K2 & A2); auto; [intros z I; apply P; now right|].
  exists c2. split; auto. intros f L. cbn in L. cbn [combine_pairs]. rewrite K1 by lia. cbn [obind cand]. apply K2. lia.
Qed.
Lemma no_vars_means : forall u, (forall x, In x (children u) -> combines x) -> forall c e a, agrees s c -> proper u -> means s e u -> means s a u -> is_infer e = false -> is_infer a = false ->
  exists c', (forall f, sizes (children u) <= f -> combine_no_vars d (combine d f) c e a = Done (c', COk)) /\ agrees s c'.
Proof.
  intros u IH c e a A P HE HA IE IA. pose proof (proper_here _ P) as P1.
  destruct (ty_eqb e a) eqn:EQ.
  { apply ty_eqb_iff in EQ. subst a. exists c. split; auto. intros f _. apply no_vars_same. }
  destruct u; try discriminate.
  - exists c. split; auto. intros f _. destruct (means_unit _ _ HE IE) as [->| ->], (means_unit _ _ HA IA) as [->| ->]; reflexivity.
  - apply means_leaf in HE, HA; auto; try discriminate. subst. cbn in EQ. discriminate.
  - apply means_leaf in HE, HA; auto; try discriminate. subst. cbn in EQ. discriminate.
  - apply means_leaf in HE, HA; auto; try discriminate. subst. cbn in EQ. discriminate.
  - exists c. split; auto. intros f _. unfold combine_no_vars. rewrite EQ. destruct (means_integer _ _ _ HE IE) as [->| ->], (means_integer _ _ _ HA IA) as [->| ->]; auto; [cbn; now rewrite orb_true_r|].
    exfalso. assert (ty_eqb (Integer k) (Integer k) = true) by now apply ty_eqb_iff. congruence.
  - destruct (means_seq _ _ _ _ HE IE) as (e' & -> & HE'). destruct (means_seq _ _ _ _ HA IA) as (a' & -> & HA'). destruct (IH u (or_introl eq_refl) c e' a' A) as (c1 & K & A1); auto; [eapply proper_child; eauto; now left|]. exists c1. split; auto. intros f L. unfold combine_no_vars. rewrite EQ. apply K. cbn in L. lia.
  - apply means_leaf in HE, HA; auto; try discriminate. subst. assert (ty_eqb (TypeParam p) (TypeParam p) = true) by now apply ty_eqb_iff. congruence.
  - destruct (means_ref _ _ _ _ HE IE) as (e' & -> & HE'). destruct (means_ref _ _ _ _ HA IA) as (a' & -> & HA'). destruct (IH u (or_introl eq_refl) c e' a' A) as (c1 & K & A1); auto; [eapply proper_child; eauto; now left|]. exists c1. split; auto. intros f L. unfold combine_no_vars. rewrite EQ. assert (B : negb is_mut || is_mut = true) by now destruct is_mut. rewrite B. apply K. cbn in L. lia.
  - destruct (means_adt _ _ _ _ _ _ HE IE) as (v1 & x1 & -> & _ & HE'). destruct (means_adt _ _ _ _ _ _ HA IA) as (v2 & x2 & -> & _ & HA'). cbn [children] in IH. destruct (pairs_means args) with (c := c) (es := x1) (as_ := x2) as (c1 & K & A1); auto; [intros z I; apply IH, in_or_app; auto|intros z I; eapply proper_child; eauto; apply in_or_app; auto|]. exists c1. split; auto. intros f L. unfold combine_no_vars. rewrite EQ, Nat.eqb_refl. apply K. cbn [children] in L. rewrite sizes_app in L. lia.
  - destruct (means_tuple _ _ _ HE IE) as (e' & -> & HE'). destruct (means_tuple _ _ _ HA IA) as (a' & -> & HA'). destruct (pairs_means ts) with (c := c) (es := e') (as_ := a') as (c1 & K & A1); auto; [intros z I; eapply proper_child; eauto|]. exists c1. split; auto. intros f L. unfold combine_no_vars. rewrite EQ. rewrite (F2_len _ _ _ _ _ HE'), (F2_len _ _ _ _ _ HA'), Nat.eqb_refl. apply K. cbn in L. lia.
Qed.
Lemma means_is_var : forall v u, means s (Var v) u -> (forall l, v_origin v = Some l -> allowed l (sv s (v_index v))) /\ u = sv s (v_index v).
Proof. intros v u H. inversion H; subst; [auto|discriminate]. Qed.
Lemma means_is_int : forall i u, means s (IntVar i) u -> u = Integer (si s i).
Proof. intros v u H. inversion H; subst; [auto|discriminate]. Qed.
Lemma prepare_off : forall c e a u, agrees s c -> means s a u -> proper u -> prepare c e a = (e, a).
Proof. intros c e a u A H P. unfold prepare. rewrite (a_msl _ _ A). cbn. rewrite (means_no_single _ _ _ H P). auto. Qed.
Theorem combine_means : forall u, combines u.
Proof.
  intros u. induction u as [u IH] using ty_ind'. intros c e a A P HE HA.
  destruct (resolve_infer_spec c e (a_good _ _ A)) as (e1 & EE & RE). destruct (resolve_infer_spec c a (a_good _ _ A)) as (a1 & EA & RA).
  pose proof (means_resolves1 _ _ _ _ A HE RE) as ME. pose proof (means_resolves1 _ _ _ _ A HA RA) as MA.
  assert (FIN : (exists c', (forall f, sizes (children u) <= f -> match e1, a1 with Var v, r => unify_ty_var d c v r | l, Var v => unify_ty_var d c v l | IntVar i, r => unify_int_var c i r | l, IntVar i => unify_int_var c i l | e, a => combine_no_vars d (combine d f) c e a end = Done (c', COk)) /\ agrees s c') -> exists c', (forall f, size u <= f -> combine d f c e a = Done (c', COk)) /\ agrees s c').
  { intros (c' & K & A'). exists c'. split; auto. intros [|f] L; [rewrite size_eq in L; lia|]. cbn [combine]. rewrite (prepare_off c e a u A HA P). rewrite EE. cbn [obind]. rewrite EA. cbn [obind]. apply K. rewrite size_eq in L. lia. }
  apply FIN. clear FIN.
  pose proof (dispatch (combine d 0) c e1 a1) as D. inversion D as [v E EQ|v E EQ|i E NV EQ|i E NV EQ|IE IA EQ]; clear D.
  - subst e1. destruct (means_is_var _ _ ME) as [O ->]. destruct (resolves1_var _ _ _ (a_good _ _ A) RE) as [_ FR]. destruct (unify_var_means c v a1 A O FR MA) as (c' & K & A'). exists c'. auto.
  - destruct (is_infer e1) eqn:IE.
    + destruct e1; try discriminate.
      * destruct (means_is_var _ _ ME) as [O ->]. destruct (resolves1_var _ _ _ (a_good _ _ A) RE) as [_ FR]. destruct (unify_var_means c v0 a1 A O FR MA) as (c' & K & A'). exists c'. auto.
      * subst a1. destruct (means_is_var _ _ MA) as [O ->]. destruct (resolves1_var _ _ _ (a_good _ _ A) RA) as [_ FR]. destruct (unify_var_means c v (IntVar i) A O FR ME) as (c' & K & A'). exists c'. auto.
    + subst a1. destruct (means_is_var _ _ MA) as [O ->]. destruct (resolves1_var _ _ _ (a_good _ _ A) RA) as [_ FR]. destruct (unify_var_means c v e1 A O FR ME) as (c' & K & A'). exists c'. split; auto. intros f _. rewrite <- K. destruct e1; auto; discriminate.
  - subst e1. apply means_is_int in ME. subst u. destruct (unify_int_means c i a1 A (resolves1_int _ _ _ (a_good _ _ A) RE) MA NV) as (c' & K & A'). exists c'. split; auto. intros f _. rewrite <- K. destruct a1; auto.
  - subst a1. apply means_is_int in MA. subst u. destruct e1 eqn:E1; try (destruct (unify_int_means c i e1 A (resolves1_int _ _ _ (a_good _ _ A) RA)) as (c' & K & A'); [now subst|intros; subst; discriminate|]; subst e1; exists c'; split; auto; fail).
    + exfalso. eapply NV; eauto.
    + destruct (unify_int_means c i0 (IntVar i) A (resolves1_int _ _ _ (a_good _ _ A) RE)) as (c' & K & A'); [|discriminate|exists c'; auto]. apply means_is_int in ME. injection ME as <-. constructor.
  - destruct (no_vars_means u IH c e1 a1 A P ME MA IE IA) as (c' & K & A'). exists c'. split; auto. intros f L. rewrite <- (K f L). destruct e1; try discriminate; destruct a1; try discriminate; reflexivity.
Qed.

(** * Coercions *)
(** the cases that the code handles: [u] is what is expected, [k] says that the type of the expression is known to be a reference *)
Definition accepts (u t te : ty) (k : bool) : Prop :=
  t = te \/ (t = Never /\ (te = Unit \/ is_infer u = false)) \/ (exists x, t = Reference true x /\ te = Reference false x /\ k = true /\ is_infer u = false).
Lemma means_never : forall t, means s t Never -> t = Never.
Proof.
  intros t H. destruct (means_cases _ _ _ H) as [(i & -> & _ & P)|[(i & -> & E)|[(_ & k & E)|[(_ & E)|(I & HH & F)]]]]; try discriminate; [apply proper_here in P; discriminate|]. destruct t; try discriminate; auto.
Qed.
Lemma combine_accepts : forall c u a t te k, agrees s c -> proper te -> means s u te -> means s a t -> accepts u t te k -> (k = true -> is_infer a = false) ->
  exists c', (forall f, size te <= f -> combine d f c u a = Done (c', COk)) /\ agrees s c'.
Proof.
  intros c u a t te k A P HU HA AC KA. destruct AC as [->|[(-> & AC)|(x & -> & -> & -> & IU)]].
  - apply combine_means; auto.
  - apply means_never in HA. subst a. destruct AC as [->|IU]; [apply (combine_means Unit); auto; constructor|]. exists c. split; auto. intros [|f] L; [rewrite size_eq in L; lia|]. cbn [combine]. unfold prepare. rewrite (a_msl _ _ A). cbn [refine_for_specs single_element_tuple_ty]. rewrite (resolve_infer_ground c u IU). cbn [obind resolve_infer].
    assert (NU : u <> Unknown). { intros ->. destruct (means_cases _ _ _ HU) as [(i & E & _)|[(i & E & _)|[(E & _)|[(E & _)|(_ & HH & _)]]]]; try discriminate. destruct te; try discriminate. apply proper_here in P. discriminate. }
    destruct u; try discriminate; try reflexivity; congruence.
  - specialize (KA eq_refl). destruct (means_ref _ _ _ _ HU IU) as (u' & -> & HU'). destruct (means_ref _ _ _ _ HA KA) as (a' & -> & HA').
    destruct (combine_means x c u' a' A) as (c' & K & A'); auto; [eapply proper_child; eauto; now left|]. exists c'. split; auto. intros [|f] L; [rewrite size_eq in L; lia|]. cbn [combine]. unfold prepare. rewrite (a_msl _ _ A). cbn [refine_for_specs single_element_tuple_ty obind resolve_infer]. unfold combine_no_vars. cbn [ty_eqb Bool.eqb andb negb orb]. apply K. cbn in L. lia.
Qed.
Lemma is_infer_head : forall t w, head w = head t -> is_infer w = is_infer t.
Proof. intros t w H. destruct t, w; cbn in H; try discriminate; reflexivity. Qed.
Lemma accepts_head : forall u w t te k, head w = head u \/ is_infer u = true -> accepts u t te k -> accepts w t te k.
Proof.
  intros u w t te k H AC. assert (I : is_infer u = false -> is_infer w = false) by (intros I; destruct H as [H|H]; [rewrite (is_infer_head u w H); auto|congruence]). destruct AC as [->|[(-> & [->|AC])|(x & -> & -> & -> & IU)]]; [now left|right; left; auto|right; left; auto|right; right; eauto 6].
Qed.
Lemma infer_dec : forall (t w : ty), (is_infer t = false -> head w = head t) -> head w = head t \/ is_infer t = true.
Proof. intros t w H. destruct (is_infer t); auto. Qed.
Theorem coerce_accepts : forall c u a t te k, agrees s c -> proper te -> means s u te -> means s a t -> accepts u t te k -> (k = true -> is_infer a = false) ->
  exists c', (forall f, size te + size t <= f -> coerce_types d f c a u = Done (c', true)) /\ agrees s c'.
Proof.
  intros c u a t te k A P HU HA AC KA. destruct (resolve_means te c u A HU) as (u' & KU & HU' & EU). destruct (resolve_means t c a A HA) as (a' & K1 & HA' & EA).
  destruct (ty_eqb a' u') eqn:EQ.
  { exists c. split; auto. intros f L. unfold coerce_types, resolve_out. rewrite K1, KU by lia. cbn [obind]. now rewrite EQ. }
  destruct (combine_accepts c u' a' t te k A P HU' HA') as (c' & K & A'); [eapply accepts_head; [|exact AC]; now apply infer_dec| |].
  { intros ->. specialize (KA eq_refl). rewrite (is_infer_head a a'); auto. }
  exists c'. split; auto. intros f L. unfold coerce_types, resolve_out. rewrite K1, KU by lia. cbn [obind]. rewrite EQ, K by lia. reflexivity.
Qed.
(** abort codes *)
Theorem any_code : forall c a, agrees s c -> means s a (Integer U64) \/ means s a (Seq SVector (Integer U8)) ->
  exists N, forall f, N <= f -> coerce_to_any_type d f c a [Integer U64; Seq SVector (Integer U8)] = Done (c, true).
Proof.
  intros c a A H.
  assert (P1 : proper (Integer U64)) by (intros x P; inversion P as [|? ? ? I]; subst; [reflexivity|destruct I]).
  assert (P2 : proper (Seq SVector (Integer U8))).
  { intros x P. inversion P as [|? ? y I P3]; subst; [reflexivity|]. destruct I as [<-|[]]. inversion P3 as [|? ? ? I]; subst; [reflexivity|destruct I]. }
  set (cs := mkCtx (msl c) (snapshot _ _ (vt c)) (snapshot _ _ (it c))).
  assert (AS : agrees s cs) by (destruct A as [[] ? ? ? ? ?]; constructor; auto; constructor; auto).
  assert (FR : forall f x e, (forall y, e <> Tuple y) -> forall r, combine d f cs x e = Done r -> is_tys_compatible d f c x e = Done (c, is_ok (snd r))).
  { intros f x e NT [c1 r] E. unfold is_tys_compatible. rewrite freeze_restores; [|apply compatible_keeps]. fold cs. destruct e; try (now rewrite E). exfalso. eapply NT; eauto. }
  assert (HH : exists te, (te = Integer U64 \/ te = Seq SVector (Integer U8)) /\ means s a te) by (destruct H; eauto). clear H. destruct HH as (te & TE & H).
  destruct (resolve_means te c a A H) as (a' & KA & HA & _). destruct TE as [->| ->].
  - destruct (combine_means _ cs a' (Integer U64) AS P1 HA (means_proper _ _ P1)) as (c1 & K1 & _). exists 3. intros f L. unfold coerce_to_any_type, resolve_out. rewrite KA by (cbn; lia). cbn [obind coerce_any_loop]. unfold resolve_out. rewrite resolve_ground by (auto; cbn; lia). cbn [obind]. destruct (ty_eqb a' (Integer U64)); auto.
    rewrite (FR f a' (Integer U64) ltac:(discriminate) (c1, COk)) by (apply K1; cbn; lia). reflexivity.
  - destruct (combine_means _ cs a' _ AS P2 HA (means_proper _ _ P2)) as (c1 & K1 & _). exists 3. intros f L. unfold coerce_to_any_type, resolve_out. rewrite KA by (cbn; lia). cbn [obind coerce_any_loop]. unfold resolve_out. rewrite resolve_ground by (auto; cbn; lia). cbn [obind]. destruct (ty_eqb a' (Integer U64)); auto.
    destruct (combine_total_actual_aux d f cs a' (Integer U64)) as (c2 & r & E & _); auto; [apply (a_good _ _ AS)|cbn; lia|]. rewrite (FR f a' (Integer U64) ltac:(discriminate) _ E). cbn [obind snd]. destruct (is_ok r); auto.
    unfold resolve_out. rewrite resolve_ground by (auto; cbn; lia). cbn [obind]. destruct (ty_eqb a' _); auto. rewrite (FR f a' (Seq SVector (Integer U8)) ltac:(discriminate) (c1, COk)) by (apply K1; cbn; lia). reflexivity.
Qed.

(** * The type of a conditional *)
Definition is_ref (t : ty) : bool := match t with Reference _ _ => true | _ => false end.
Lemma means_is_ref : forall t u, means s t u -> is_ref u = false -> is_ref t = false.
Proof.
  intros t u H R. destruct (means_cases _ _ _ H) as [(i & -> & _)|[(i & -> & _)|[(-> & _)|[(-> & _)|(_ & HH & _)]]]]; auto. destruct t; auto. destruct u; cbn in HH; discriminate.
Qed.
Lemma unwrap_nonref : forall t, is_ref t = false -> unwrap_all_refs t = t.
Proof. intros t H. destruct t; auto; discriminate. Qed.
Lemma proper_target : forall m t, proper (Reference m t) -> is_ref t = false /\ is_tuple t = false /\ proper t.
Proof. intros m t P. pose proof (proper_here _ P) as H. cbn in H. split; [|split]; [destruct t; auto; discriminate|destruct t; auto; discriminate|eapply proper_child; eauto; now left]. Qed.
Lemma means_unknown : forall u, means s Unknown u -> proper u -> False.
Proof. intros u H P. destruct (means_cases _ _ _ H) as [(i & E & _)|[(i & E & _)|[(E & _)|[(E & _)|(_ & HH & _)]]]]; try discriminate. destruct u; cbn in HH; try discriminate. apply proper_here in P. discriminate. Qed.
Theorem intersect_same : forall c l r u, agrees s c -> proper u -> is_ref u = false -> means s l u -> means s r u ->
  exists c' t, (forall f, size u <= f -> intersect_types d f c l r = Done (c', t)) /\ agrees s c' /\ means s t u /\ (t = l \/ t = r).
Proof.
  intros c l r u A P NR HL HR. assert (L : l = Never \/ l <> Never) by (destruct l; auto; right; discriminate). destruct L as [->|NL].
  { exists c, r. split; auto. }
  assert (R : r = Never \/ r <> Never) by (destruct r; auto; right; discriminate). destruct R as [->|N2].
  { exists c, l. split; auto. intros f _. destruct l; auto. }
  destruct (combine_means u c l r A P HL HR) as (c' & K & A'). exists c', l. split; auto. intros f LF. unfold intersect_types. rewrite (K f LF). cbn [obind is_ok]. pose proof (means_is_ref l u HL NR) as RL.
  destruct l; try congruence; try discriminate; try (exfalso; eapply means_unknown; eauto; fail); destruct r; try congruence; reflexivity.
Qed.
Lemma combine_refs : forall c m n l r x, agrees s c -> proper x -> means s l x -> means s r x ->
  exists c', agrees s c' /\ ((negb m || n = true /\ forall f, S (size x) <= f -> combine d f c (Reference m l) (Reference n r) = Done (c', COk)) \/
                             (m = true /\ n = false /\ forall f, S (size x) <= f -> combine d f c (Reference m l) (Reference n r) = Done (c', CErr EMismatch))).
Proof.
  intros c m n l r x A P HL HR. destruct (combine_means x c l r A P HL HR) as (c' & K & A').
  assert (ST : forall f, combine d (S f) c (Reference m l) (Reference n r) = combine_no_vars d (combine d f) c (Reference m l) (Reference n r)) by (intros f; cbn [combine]; unfold prepare; rewrite (a_msl _ _ A); reflexivity).
  destruct (ty_eqb (Reference m l) (Reference n r)) eqn:EQ.
  - apply ty_eqb_iff in EQ. injection EQ as <- <-. exists c. split; auto. left. split; [now destruct m|]. intros [|f] L; [lia|]. rewrite ST. apply no_vars_same.
  - exists c'. split; auto. destruct (negb m || n) eqn:B; [left|right].
    + split; auto. intros [|f] L; [lia|]. rewrite ST. unfold combine_no_vars. rewrite EQ, B. apply K. lia.
    + destruct m, n; try discriminate. split; auto. split; auto. intros [|f] L; [lia|]. rewrite ST. unfold combine_no_vars. rewrite EQ. cbn [negb orb]. rewrite K by lia. reflexivity.
Qed.
Theorem intersect_refs : forall c m n l r x, agrees s c -> proper x -> is_ref x = false -> means s l x -> means s r x ->
  exists c', (forall f, S (size x) <= f -> intersect_types d f c (Reference m l) (Reference n r) = Done (c', Reference (m && n) l)) /\ agrees s c'.
Proof.
  intros c m n l r x A P NR HL HR. assert (U : unwrap_all_refs l = l) by (apply unwrap_nonref; eapply means_is_ref; eauto).
  destruct (combine_refs c m n l r x A P HL HR) as (c1 & A1 & [(B & K)|(-> & -> & K)]).
  - exists c1. split; auto. intros f L. unfold intersect_types. rewrite (K f L). cbn [obind is_ok]. now rewrite U.
  - destruct (combine_refs c1 false true r l x A1 P HR HL) as (c2 & A2 & [(_ & K2)|(E & _)]); [|discriminate]. exists c2. split; auto. intros f L. unfold intersect_types. rewrite (K f L). cbn [obind is_ok]. rewrite (K2 f L). cbn [obind is_ok]. now rewrite U.
Qed.
End Solved.
End Means.
