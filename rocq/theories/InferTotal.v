(** When combining two types terminates without a panic, and when it succeeds. *)
From Verif Require Import Base TyModel TyProps UnifyModel UnifyProps InferModel InferProofs InferResolve.

Lemma ty_vars_eq : forall t, ty_vars t = match t with Var v => [v] | _ => flat_map ty_vars (children t) end.
Proof. intros t. destruct t; cbn [ty_vars children]; rewrite ?flat_map_app; cbn; rewrite ?app_nil_r; auto. Qed.
Lemma ty_vars_part : forall t v, In v (ty_vars t) <-> part (Var v) t.
Proof.
  intros t v. induction t as [t IH] using ty_ind'. rewrite ty_vars_eq.
  assert (N : In v (flat_map ty_vars (children t)) <-> exists y, In y (children t) /\ part (Var v) y).
  { rewrite in_flat_map. split; intros (y & I & P); exists y; split; auto; now apply IH. }
  assert (M : (forall w, t <> Var w) -> (In v (flat_map ty_vars (children t)) <-> part (Var v) t)).
  { intros NV. rewrite N. split; [intros (y & I & P); eapply part_in; eauto|]. intros P. inversion P as [|? ? y I P2]; subst; eauto. exfalso. eapply NV; eauto. }
  destruct t; try (apply M; intros; discriminate). cbn. split; [intros [->|[]]; constructor|]. intros P. inversion P as [|? ? y I P2]; subst; auto.
Qed.
Lemma ty_vars_ground : forall t, has_infer t = false -> ty_vars t = [].
Proof.
  intros t H. destruct (ty_vars t) as [|v l] eqn:E; auto. assert (P : part (Var v) t) by (apply ty_vars_part; rewrite E; now left).
  unfold has_infer in H. rewrite visit_false_iff in H. specialize (H _ P). discriminate.
Qed.
Lemma no_unknown_child : forall t x, has_unknown t = false -> In x (children t) -> has_unknown x = false.
Proof. intros t x H I. unfold has_unknown in *. eapply visit_child; eauto. Qed.
Lemma ground_not_infer : forall t, has_infer t = false -> is_infer t = false.
Proof. intros t H. destruct t; auto; discriminate. Qed.
Lemma resolve_infer_ground : forall c t, is_infer t = false -> resolve_infer c t = Done t.
Proof. intros c t H. destruct t; auto; discriminate. Qed.

(** * What preparation does to a type *)
Definition below (x t : ty) : Prop := size x <= size t /\ (has_infer t = false -> has_infer x = false) /\ (has_unknown t = false -> has_unknown x = false).
Lemma below_refl : forall t, below t t.
Proof. intros t. repeat split; auto. Qed.
Lemma below_trans : forall x y z, below x y -> below y z -> below x z.
Proof. intros x y z (A & B & C) (D & E & F). repeat split; auto. lia. Qed.
Lemma below_child : forall t x, In x (children t) -> below x t.
Proof. intros t x I. split; [|split]; intros; [apply size_child in I; lia|eapply no_infer_child; eauto|eapply no_unknown_child; eauto]. Qed.
Lemma below_unwrap : forall t, below (unwrap_all_refs t) t.
Proof. induction t; try apply below_refl. cbn. eapply below_trans; [exact IHt|]. apply below_child. now left. Qed.
Lemma below_num : forall t, below Num t.
Proof. intros t. split; [rewrite (size_eq t); cbn; lia|split; reflexivity]. Qed.
Lemma below_refine : forall m t, below (refine_for_specs m t) t.
Proof.
  intros m t. unfold refine_for_specs. destruct m; [|apply below_refl].
  set (u := match t with Reference _ _ => unwrap_all_refs t | t => t end). assert (B : below u t) by (unfold u; destruct t; try apply below_refl; apply below_unwrap).
  destruct u; auto; apply below_num.
Qed.
Lemma below_prepare : forall c e a e' a', prepare c e a = (e', a') -> below e' e /\ below a' a.
Proof.
  intros c e a e' a' P. unfold prepare in P. injection P as <- <-. split; [apply below_refine|]. pose proof (below_refine (msl c) a) as B. destruct (single_element_tuple_ty _) as [x|] eqn:S; auto. destruct (is_tuple _); auto.
  unfold single_element_tuple_ty in S. destruct (refine_for_specs (msl c) a) as [| | | | | | | | | | | | | | | |ts|]; try discriminate. destruct ts as [|y [|z ts]]; try discriminate. injection S as ->. eapply below_trans; [|exact B]. apply below_child. now left.
Qed.

Section WithDb.
Variable d : db.
(** * Binding a free variable does not panic *)
Lemma contains_ground : forall c t r, has_infer t = false -> contains_var c t r = Done false.
Proof. intros c t r H. unfold contains_var. rewrite ty_vars_ground; auto. Qed.
Lemma free_root : forall c v r, vleads c v r -> (forall t, ~ vval c v t) -> forall t, ~ vval c r t.
Proof. intros c v r L N t V. apply (N t). eapply vsame_val; [|exact V]. exists r. split; auto. eapply leads_self; eauto. Qed.
Lemma set_value_total : forall c v t, good c -> (forall u, ~ vval c v u) -> exists c', set_value c v t = Done c'.
Proof.
  intros c v t G N. unfold set_value. destruct (var_value_effect tyvar ty tyvar_eq_dec ty_eq_dec (t_map (vt c)) v t (g_vwf _ G)) as [[_ (u & _ & V)]|(m' & E & _)]; [exfalso; eapply N; eauto|]. rewrite E. cbn. eauto.
Qed.
Lemma unify_ty_var_ground : forall c v t, good c -> (forall u, ~ vval c v u) -> has_infer t = false -> exists c' r, unify_ty_var d c v t = Done (c', r).
Proof.
  intros c v t G N H. unfold unify_ty_var.
  assert (B : exists c' r, obind (vroot c v) (fun r0 => obind (contains_var c t r0) (fun b => if b then obind (set_value c r0 Unknown) (fun c' => Done (c', COk)) else obind (set_value c r0 t) (fun c' => Done (c', ability_check d c v t)))) = Done (c', r)).
  { destruct (vroot_total c v G) as (rt & E & L). rewrite E. cbn [obind]. rewrite contains_ground; auto. cbn [obind]. destruct (set_value_total c rt t G) as [c' S]; [eapply free_root; eauto|]. rewrite S. cbn. eauto. }
  destruct t; auto; [discriminate|]. destruct (v_origin v); eauto.
Qed.
Lemma unify_int_var_ground : forall c i t, good c -> (forall u, ~ ival c i u) -> has_infer t = false -> exists c' r, unify_int_var c i t = Done (c', r).
Proof.
  intros c i t G N H. destruct t; cbn [unify_int_var]; eauto; [|discriminate].
  destruct (var_value_effect nat ty Nat.eq_dec ty_eq_dec (t_map (it c)) i (Integer k) (g_iwf _ G)) as [[_ (u & _ & V)]|(m' & E & _)]; [exfalso; eapply N; eauto|]. rewrite E. cbn. eauto.
Qed.
Lemma pairs_total : forall comb (P : ctx -> Prop) (Q : ty -> ty -> Prop), (forall c e a, P c -> Q e a -> exists c' r, comb c e a = Done (c', r) /\ P c') ->
  forall l r c acc, P c -> (forall x y, In x l -> In y r -> Q x y) -> exists c' res, combine_pairs comb c acc l r = Done (c', res) /\ P c'.
Proof.
  intros comb P Q HC l. induction l as [|x l IH]; intros [|y r] c acc G HQ; cbn; eauto.
  destruct (HC c x y G) as (c1 & r1 & E & G1); [apply HQ; now left|]. rewrite E. cbn. apply IH; auto. intros; apply HQ; now right.
Qed.
Lemma callables_total : forall comb (P : ctx -> Prop) (Q : ty -> ty -> Prop), (forall c e a, P c -> Q e a -> exists c' r, comb c e a = Done (c', r) /\ P c') ->
  forall c ps r ps' r', P c -> (forall x y, In x ps -> In y ps' -> Q x y) -> Q (unwrap_all_refs r) (unwrap_all_refs r') -> exists c' res, combine_callables comb c ps r ps' r' = Done (c', res) /\ P c'.
Proof.
  intros comb P Q HC c ps r ps' r' G H1 H2. unfold combine_callables. destruct (pairs_total comb P Q HC ps ps' c COk G H1) as (c1 & r1 & E & G1). rewrite E. cbn. destruct r1; eauto.
Qed.
Lemma combine_total_actual_aux : forall f c e a, good c -> has_infer a = false -> has_unknown a = false -> size a <= f -> exists c' r, combine d f c e a = Done (c', r) /\ good c'.
Proof.
  intros f. induction f as [|f IH]; intros c e a G HI HU L; [rewrite size_eq in L; lia|].
  assert (FIN : (exists c' r, combine d (S f) c e a = Done (c', r)) -> exists c' r, combine d (S f) c e a = Done (c', r) /\ good c').
  { intros (c' & r & E). exists c', r. split; auto. eapply combine_sound; eauto. }
  apply FIN. clear FIN. cbn [combine]. destruct (prepare c e a) as [e' a'] eqn:P. apply below_prepare in P. destruct P as [_ (BS & BI & BU)]. specialize (BI HI). specialize (BU HU).
  destruct (resolve_infer_spec c e' G) as (e1 & E & R). rewrite E, (resolve_infer_ground c a' (ground_not_infer _ BI)). cbn [obind]. clear E.
  assert (LA : size a' <= S f) by lia.
  assert (CH : forall y, In y (children a') -> has_infer y = false /\ has_unknown y = false /\ size y <= f).
  { intros y I. repeat split; [eapply no_infer_child; eauto|eapply no_unknown_child; eauto|apply size_child in I; lia]. }
  set (Q := fun (x y : ty) => has_infer y = false /\ has_unknown y = false /\ size y <= f).
  assert (HC : forall c e a, good c -> Q e a -> exists c' r, combine d f c e a = Done (c', r) /\ good c') by (intros c0 e0 a0 G0 (q1 & q2 & q3); now apply IH).
  assert (ST : forall c0 e0 a0, good c0 -> Q e0 a0 -> exists c' r, combine d f c0 e0 a0 = Done (c', r)) by (intros c0 e0 a0 G0 Q0; destruct (HC c0 e0 a0 G0 Q0) as (c1 & r1 & E & _); eauto).
  assert (PT : forall l r, incl r (children a') -> exists c' res, combine_pairs (combine d f) c COk l r = Done (c', res)).
  { intros l r I. destruct (pairs_total (combine d f) good Q HC l r c COk G) as (c1 & r1 & E & _); eauto. intros x y _ IY. apply CH; auto. }
  assert (CT : forall ps r ps' r', incl ps' (children a') -> In r' (children a') -> exists c' res, combine_callables (combine d f) c ps r ps' r' = Done (c', res)).
  { intros ps r ps' r' I1 I2. destruct (callables_total (combine d f) good Q HC c ps r ps' r' G) as (c1 & r1 & E & _); eauto; [intros x y _ IY; apply CH; auto|]. destruct (CH r' I2) as (q1 & q2 & q3). destruct (below_unwrap r') as (b1 & b2 & b3). repeat split; auto. lia. }
  assert (NV : is_infer e1 = false -> exists c' r, combine_no_vars d (combine d f) c e1 a' = Done (c', r)).
  { intros IE. destruct (no_vars_cases d (combine d f) c e1 a') as [Q0|Q0|Q0|k l -> ->|k t l u -> ->|m t n u -> ->|l keys vals args ps rt k ks vs eps er -> -> EL|ps rt k ks vs ps' r' k' ks' vs' -> ->|l k v x k' v' x' -> ->|x x' -> -> LL|]; eauto.
    - destruct Q0 as [-> | ->]; [|discriminate]. rewrite (ty_vars_ground a' BI). cbn. eauto.
    - apply ST; auto. apply CH. now left.
    - destruct (negb m || n); [apply ST; auto; apply CH; now left|]. destruct (ST c t u G) as (c1 & r1 & E); [apply CH; now left|]. rewrite E. cbn. eauto.
    - apply CT; [intros y I; cbn; apply in_app_iff; auto|cbn; apply in_app_iff; right; now left].
    - apply CT; [intros y I; cbn; apply in_app_iff; auto|cbn; apply in_app_iff; right; now left].
    - apply PT. intros y I. cbn. apply in_app_iff. auto.
    - apply PT. intros y I. auto. }
  assert (UV : forall v, e1 = Var v -> exists c' r, unify_ty_var d c v a' = Done (c', r)) by (intros v ->; apply resolves1_var in R; auto; apply unify_ty_var_ground; auto; apply R).
  assert (UI : forall v, e1 = IntVar v -> exists c' r, unify_int_var c v a' = Done (c', r)) by (intros v ->; apply unify_int_var_ground; auto; eapply resolves1_int; eauto).
  destruct (dispatch_cases d (combine d f) c e1 a') as [v E|v ->|v E|v ->|I1 I2]; eauto; discriminate.
Qed.

(** the same when the expected type is known *)
Lemma combine_total_expected_aux : (forall l, wrapped_lambda d l = None) -> forall f c e a, good c -> has_infer e = false -> has_unknown e = false -> size e <= f -> exists c' r, combine d f c e a = Done (c', r) /\ good c'.
Proof.
  intros NW f. induction f as [|f IH]; intros c e a G HI HU L; [rewrite size_eq in L; lia|].
  assert (FIN : (exists c' r, combine d (S f) c e a = Done (c', r)) -> exists c' r, combine d (S f) c e a = Done (c', r) /\ good c').
  { intros (c' & r & E). exists c', r. split; auto. eapply combine_sound; eauto. }
  apply FIN. clear FIN. cbn [combine]. destruct (prepare c e a) as [e' a'] eqn:P. apply below_prepare in P. destruct P as [(BS & BI & BU) _]. specialize (BI HI). specialize (BU HU).
  destruct (resolve_infer_spec c a' G) as (a1 & E & R). rewrite E, (resolve_infer_ground c e' (ground_not_infer _ BI)). cbn [obind]. clear E.
  assert (LA : size e' <= S f) by lia.
  assert (CH : forall y, In y (children e') -> has_infer y = false /\ has_unknown y = false /\ size y <= f).
  { intros y I. repeat split; [eapply no_infer_child; eauto|eapply no_unknown_child; eauto|apply size_child in I; lia]. }
  set (Q := fun (y x : ty) => has_infer y = false /\ has_unknown y = false /\ size y <= f).
  assert (HC : forall c e a, good c -> Q e a -> exists c' r, combine d f c e a = Done (c', r) /\ good c') by (intros c0 e0 a0 G0 (q1 & q2 & q3); now apply IH).
  assert (ST : forall c0 e0 a0, good c0 -> Q e0 a0 -> exists c' r, combine d f c0 e0 a0 = Done (c', r)) by (intros c0 e0 a0 G0 Q0; destruct (HC c0 e0 a0 G0 Q0) as (c1 & r1 & E & _); eauto).
  assert (PT : forall l r, incl l (children e') -> exists c' res, combine_pairs (combine d f) c COk l r = Done (c', res)).
  { intros l r I. destruct (pairs_total (combine d f) good Q HC l r c COk G) as (c1 & r1 & E & _); eauto. intros x y IX _. apply CH; auto. }
  assert (CT : forall ps r ps' r', incl ps (children e') -> In r (children e') -> exists c' res, combine_callables (combine d f) c ps r ps' r' = Done (c', res)).
  { intros ps r ps' r' I1 I2. destruct (callables_total (combine d f) good Q HC c ps r ps' r' G) as (c1 & r1 & E & _); eauto; [intros x y IX _; apply CH; auto|]. destruct (CH r I2) as (q1 & q2 & q3). destruct (below_unwrap r) as (b1 & b2 & b3). repeat split; auto. lia. }
  assert (NV : is_infer a1 = false -> exists c' r, combine_no_vars d (combine d f) c e' a1 = Done (c', r)).
  { intros IE. destruct (no_vars_cases d (combine d f) c e' a1) as [Q0|Q0|Q0|k l -> ->|k t l u -> ->|m t n u -> ->|l keys vals args ps rt k ks vs eps er -> -> EL|ps rt k ks vs ps' r' k' ks' vs' -> ->|l k v x k' v' x' -> ->|x x' -> -> LL|]; eauto.
    - destruct Q0 as [-> | ->]; [discriminate|]. rewrite (ty_vars_ground e' BI). cbn. eauto.
    - apply ST; auto. apply CH. now left.
    - destruct (negb m || n); [apply ST; auto; apply CH; now left|]. destruct (ST c t u G) as (c1 & r1 & E); [apply CH; now left|]. rewrite E. cbn. eauto.
    - unfold expected_lambda in EL. rewrite NW in EL. discriminate.
    - apply CT; [intros y I; cbn; apply in_app_iff; auto|cbn; apply in_app_iff; right; now left].
    - apply PT. intros y I. cbn. apply in_app_iff. auto.
    - apply PT. intros y I. auto. }
  assert (UV : forall v, a1 = Var v -> exists c' r, unify_ty_var d c v e' = Done (c', r)) by (intros v ->; apply resolves1_var in R; auto; apply unify_ty_var_ground; auto; apply R).
  assert (UI : forall v, a1 = IntVar v -> exists c' r, unify_int_var c v e' = Done (c', r)) by (intros v ->; apply unify_int_var_ground; auto; eapply resolves1_int; eauto).
  destruct (dispatch_cases d (combine d f) c e' a1) as [v ->|v E|v ->|v E|I1 I2]; eauto; discriminate.
Qed.

(** * Types without variables *)
(** the wrapped type of a struct is a function type without inference variables *)
Definition lambda_db : Prop := forall l lam, wrapped_lambda d l = Some lam -> has_infer lam = false /\ exists ps r k ks vs, lam = Callable ps r k ks vs.
Definition no_single (t : ty) : Prop := forall x, part x t -> forall y, x <> Tuple [y].
Lemma no_single_child : forall t x, no_single t -> In x (children t) -> no_single x.
Proof. intros t x H I y P. apply H. eapply part_in; eauto. Qed.
Lemma part_unwrap : forall t, part (unwrap_all_refs t) t.
Proof. induction t; try constructor. cbn. eapply part_in; [now left|auto]. Qed.
Lemma no_single_unwrap : forall t, no_single t -> no_single (unwrap_all_refs t).
Proof. intros t H x P. apply H. eapply part_trans; eauto. apply part_unwrap. Qed.
Lemma no_single_refine : forall m t, no_single t -> no_single (refine_for_specs m t).
Proof.
  intros m t H. unfold refine_for_specs. destruct m; auto. assert (NN : no_single Num) by (intros x P y; inversion P as [|? ? ? I]; [discriminate|destruct I]).
  pose proof (no_single_unwrap t H) as U. destruct t; auto. destruct (unwrap_all_refs _); auto.
Qed.
Lemma subst_callable : forall s ps r k ks vs, exists ps' r' vs', substitute s (Callable ps r k ks vs) = Callable ps' r' k ks vs'.
Proof. intros. unfold substitute. cbn. eauto. Qed.
Scheme fits_mut := Induction for fits Sort Prop with fits_all_mut := Induction for fits_all Sort Prop.
Lemma refine_ref : forall x t, refine_for_specs true (Reference x t) = refine_for_specs true t.
Proof. intros x t. unfold refine_for_specs. destruct t; reflexivity. Qed.
Lemma fits_refine : lambda_db -> forall m e a, fits d m e a -> no_single a -> fits d m (refine_for_specs m e) (refine_for_specs m a).
Proof.
  intros LD [|] e a H; [|auto]. induction H; intros NS; rewrite ?refine_ref; try (cbn; constructor; auto; fail); auto.
  - apply IHfits. eapply no_single_child; [exact NS|]. now left.
  - cbn. eapply fi_callable; eauto.
  - cbn. eapply fi_wrapped; eauto. destruct (LD _ _ H) as (_ & ps & r & k & ks & vs & ->). destruct (subst_callable (mkSubst keys vals) ps r k ks vs) as (ps' & r' & vs' & E). rewrite E in *. cbn in IHfits. auto.
  - exfalso. eapply (NS (Tuple [x])); [constructor|reflexivity].
  - apply IHfits. eapply no_single_child; [exact NS|]. now left.
  - apply IHfits. intros x P y. inversion P as [|? ? ? I]; [discriminate|destruct I].
Qed.
Lemma fits_unwrap : lambda_db -> forall m e a, fits d m e a -> no_single a -> fits d m (unwrap_all_refs e) (unwrap_all_refs a).
Proof.
  intros LD m e a H. induction H; intros NS; cbn [unwrap_all_refs]; try (constructor; auto; fail).
  - apply IHfits. eapply no_single_child; [exact NS|]. now left.
  - eapply fi_callable; eauto.
  - eapply fi_wrapped; eauto. destruct (LD _ _ H) as (_ & ps & r & k & ks & vs & ->). destruct (subst_callable (mkSubst keys vals) ps r k ks vs) as (ps' & r' & vs' & E). rewrite E in *. cbn in IHfits. auto.
  - exfalso. eapply (NS (Tuple [x])); [constructor|reflexivity].
  - auto.
  - apply IHfits. eapply no_single_child; [exact NS|]. now left.
  - cbn in IHfits. apply fi_msl_int_r; auto. apply IHfits. intros x P y. inversion P as [|? ? ? I]; [discriminate|destruct I].
Qed.
Lemma strips_eq : forall r x, strips r x -> unwrap_all_refs x = unwrap_all_refs r.
Proof. intros r x H. induction H; auto. Qed.
Lemma strips_part : forall r x, strips r x -> part x r.
Proof. intros r x H. induction H; [constructor|]. eapply part_in; [now left|auto]. Qed.
Lemma ground_list : forall t l, has_infer t = false -> incl l (children t) -> forall x, In x l -> has_infer x = false.
Proof. intros t l H I x IX. eapply no_infer_child; eauto. Qed.
(** combining two known types succeeds when they fit *)
Lemma fits_combine : lambda_db -> forall f c e a, fits d (msl c) e a -> has_infer e = false -> has_infer a = false -> no_single a -> size a <= f -> combine d f c e a = Done (c, COk).
Proof.
  intros LD f. induction f as [|f IH]; intros c e a H HE HA NS L; [rewrite size_eq in L; lia|].
  cbn [combine]. destruct (prepare c e a) as [e' a'] eqn:P. pose proof (below_prepare _ _ _ _ _ P) as [(_ & BE & _) (BS & BI & _)]. specialize (BE HE). specialize (BI HA).
  assert (FT : fits d (msl c) e' a' /\ no_single a' /\ e' = refine_for_specs (msl c) e /\ a' = refine_for_specs (msl c) a).
  { pose proof (no_single_refine (msl c) a NS) as N1. unfold prepare in P. destruct (single_element_tuple_ty (refine_for_specs (msl c) a)) as [x|] eqn:S.
    - exfalso. unfold single_element_tuple_ty in S. destruct (refine_for_specs (msl c) a) as [| | | | | | | | | | | | | | | |ts|]; try discriminate. destruct ts as [|y [|z ts]]; try discriminate. eapply (N1 (Tuple [y])); [constructor|reflexivity].
    - injection P as <- <-. split; [now apply fits_refine|auto]. }
  destruct FT as (FT & NS' & RE & RA). rewrite (resolve_infer_ground c e' (ground_not_infer _ BE)), (resolve_infer_ground c a' (ground_not_infer _ BI)). cbn [obind].
  assert (LA : size a' <= S f) by lia.
  assert (NR : msl c = true -> (forall x t, e' <> Reference x t /\ a' <> Reference x t) /\ (forall k, e' <> Integer k /\ a' <> Integer k)).
  { intros M. rewrite M in RE, RA. assert (Z : forall t, (forall x u, refine_for_specs true t <> Reference x u) /\ (forall k, refine_for_specs true t <> Integer k)).
    { clear. intros t. assert (U : forall t x u, unwrap_all_refs t <> Reference x u) by (clear; induction t; cbn; intros; try discriminate; auto). unfold refine_for_specs. destruct t; try (split; intros; discriminate). specialize (U (Reference is_mut t)). destruct (unwrap_all_refs (Reference is_mut t)) eqn:E; try (split; intros; discriminate). exfalso. eapply U; eauto. }
    subst e' a'. split; intros; split; try apply Z. }
  clear RE RA P.
  assert (CH : forall x y, fits d (msl c) x y -> has_infer x = false -> In y (children a') -> combine d f c x y = Done (c, COk)).
  { intros x y FX HX I. apply IH; auto; [apply (no_infer_child a' y); auto|eapply no_single_child; eauto|apply size_child in I; lia]. }
  assert (CP : forall l r, fits_all d (msl c) l r -> (forall x, In x l -> has_infer x = false) -> incl r (children a') -> combine_pairs (combine d f) c COk l r = Done (c, COk)).
  { intros l r FA. induction FA as [r|l|x y l r FX FA IHF]; intros HL HI; [reflexivity|destruct l; reflexivity|]. cbn. rewrite CH; auto; [|apply HL; now left|apply HI; now left]. cbn. apply IHF; [intros z IZ; apply HL|intros z IZ; apply HI]; now right. }
  assert (CC : forall ps r ps' r' x x', fits_all d (msl c) ps ps' -> strips r x -> strips r' x' -> fits d (msl c) x x' -> (forall y, In y ps -> has_infer y = false) -> has_infer r = false -> incl ps' (children a') -> In r' (children a') -> combine_callables (combine d f) c ps r ps' r' = Done (c, COk)).
  { intros ps r ps' r' x x' FA S1 S2 FX HP HR I1 I2. unfold combine_callables. rewrite CP; auto. cbn. rewrite <- (strips_eq _ _ S1), <- (strips_eq _ _ S2). apply strips_part in S2. pose proof (no_infer_child _ _ BI I2) as HR'. pose proof (no_single_child _ _ NS' I2) as NR'.
    assert (NX : no_single x') by (intros z PZ; apply NR'; eapply part_trans; eauto). apply IH.
    - now apply fits_unwrap.
    - apply below_unwrap. eapply strips_no_infer; eauto.
    - apply below_unwrap. unfold has_infer in *. rewrite visit_false_iff in *. intros z PZ. apply HR'. eapply part_trans; eauto.
    - now apply no_single_unwrap.
    - destruct (below_unwrap x') as (b1 & _). assert (size x' <= size r') by (clear -S2; induction S2; auto; apply size_child in H; lia). apply size_child in I2. lia. }
  assert (NV : combine_no_vars d (combine d f) c e' a' = Done (c, COk)).
  {     assert (UN : e' = Unknown \/ a' = Unknown -> obind (unify_with_unknown d c (ty_vars e' ++ ty_vars a')) (fun c' => Done (c', COk)) = Done (c, COk)) by (intros _; rewrite (ty_vars_ground a' BI), (ty_vars_ground e' BE); reflexivity).
    destruct (ty_eqb e' a') eqn:EQ.
    { apply ty_eqb_iff in EQ. subst a'. apply no_vars_same. }
    assert (NE : e' <> a') by (intros X; apply ty_eqb_iff in X; congruence).
    inversion FT as [a0|e0|a0|e0|t|k l KK|k l t u FX|x y t u M FX|l k v x k' v' x' FA|x x' LL FA|ps r k ks vs ps' r' k' ks' vs' x x' FA S1 S2 FX|l keys vals args lam a0 WL FX|e0 x FX|x t a0 M FX|x t e0 M FX|k a0 M FX|k e0 M FX]; subst; unfold combine_no_vars; rewrite ?EQ.
    - apply UN. auto.
    - destruct e'; apply UN; auto.
    - destruct a'; first [reflexivity|apply UN; auto].
    - destruct e'; first [reflexivity|apply UN; auto].
    - congruence.
    - destruct KK as [->| ->]; cbn; rewrite ?orb_true_r; reflexivity.
    - apply CH; [exact FX|apply (no_infer_child _ _ BE); now left|now left].
    - replace (negb x || y) with true by (destruct x; auto; rewrite M; auto). apply CH; [exact FX|apply (no_infer_child _ _ BE); now left|now left].
    - rewrite Nat.eqb_refl. apply CP; auto; [|cbn; intros z I; apply in_app_iff; auto]. intros z I. apply (no_infer_child _ _ BE). cbn. apply in_app_iff. auto.
    - rewrite LL, Nat.eqb_refl. apply CP; auto; [|cbn; intros z I; auto]. intros z I. apply (no_infer_child _ _ BE). auto.
    - eapply CC; eauto; [| |cbn; intros z I; apply in_app_iff; auto|cbn; apply in_app_iff; right; now left].
      + intros z I. apply (no_infer_child _ _ BE). cbn. apply in_app_iff. auto.
      + apply (no_infer_child _ _ BE). cbn. apply in_app_iff. right. now left.
    - destruct (LD _ _ WL) as (HL & ps & r & k & ks & vs & ->). assert (HS : has_infer (substitute (mkSubst keys vals) (Callable ps r k ks vs)) = false).
      { apply no_infer_subst; auto. intros z I. apply (no_infer_child _ _ BE). cbn. apply in_app_iff. auto. }
      assert (EL : expected_lambda d l keys vals = match substitute (mkSubst keys vals) (Callable ps r k ks vs) with Callable ps r _ _ _ => Some (ps, r) | _ => None end) by (unfold expected_lambda; rewrite WL; reflexivity).
      destruct (subst_callable (mkSubst keys vals) ps r k ks vs) as (ps1 & r1 & vs1 & E). rewrite E in *.
      assert (HP : forall y, In y ps1 -> has_infer y = false) by (intros z I; apply (no_infer_child _ _ HS); cbn; apply in_app_iff; auto).
      assert (HR : has_infer r1 = false) by (apply (no_infer_child _ _ HS); cbn; apply in_app_iff; right; now left).
      inversion FX as [a0|e0|a0|e0|t| | | | | |q1 q2 q3 q4 q5 ps' r' k' ks' vs' x x' FA S1 S2 FY| |e0 x FY| |x t e0 M FY| |k0 e0 M FY]; subst.
      + apply UN. auto.
      + reflexivity.
      + rewrite EL. eapply CC; eauto using st_here, fi_refl; [|cbn; intros z I; apply in_app_iff; auto|cbn; apply in_app_iff; right; now left]. clear. induction ps1; constructor; auto. apply fi_refl.
      + rewrite EL. eapply CC; eauto; [cbn; intros z I; apply in_app_iff; auto|cbn; apply in_app_iff; right; now left].
      + exfalso. eapply (NS' (Tuple [x])); [constructor|reflexivity].
      + exfalso. destruct (proj1 (NR M) x t). congruence.
      + exfalso. destruct (proj2 (NR M) k0). congruence.
    - exfalso. eapply (NS' (Tuple [x])); [constructor|reflexivity].
    - exfalso. destruct (proj1 (NR M) x t). congruence.
    - exfalso. destruct (proj1 (NR M) x t). congruence.
    - exfalso. destruct (proj2 (NR M) k). congruence.
    - exfalso. destruct (proj2 (NR M) k). congruence. }
  destruct e'; try discriminate; destruct a'; try discriminate; exact NV.
Qed.
(** combining two known types stops and leaves the context alone *)
Lemma ground_total : lambda_db -> forall f c e a, has_infer e = false -> has_infer a = false -> size a <= f -> exists r, combine d f c e a = Done (c, r).
Proof.
  intros LD f. induction f as [|f IH]; intros c e a HE HA L; [rewrite size_eq in L; lia|].
  cbn [combine]. destruct (prepare c e a) as [e' a'] eqn:P. pose proof (below_prepare _ _ _ _ _ P) as [(_ & BE & _) (BS & BI & _)]. specialize (BE HE). specialize (BI HA).
  rewrite (resolve_infer_ground c e' (ground_not_infer _ BE)), (resolve_infer_ground c a' (ground_not_infer _ BI)). cbn [obind]. assert (LA : size a' <= S f) by lia. clear P.
  assert (CH : forall x y, has_infer x = false -> In y (children a') -> exists r, combine d f c x y = Done (c, r)).
  { intros x y HX I. apply IH; auto; [apply (no_infer_child a' y); auto|apply size_child in I; lia]. }
  assert (CP : forall l r acc, (forall x, In x l -> has_infer x = false) -> incl r (children a') -> exists res, combine_pairs (combine d f) c acc l r = Done (c, res)).
  { intros l. induction l as [|x l IHl]; intros [|y r] acc HL HI; cbn; eauto. destruct (CH x y) as [r1 E]; [apply HL; now left|apply HI; now left|]. rewrite E. cbn. apply IHl; intros; [apply HL; now right|]. intros z IZ. apply HI. now right. }
  assert (CC : forall ps r ps' r', (forall y, In y ps -> has_infer y = false) -> has_infer r = false -> incl ps' (children a') -> In r' (children a') -> exists res, combine_callables (combine d f) c ps r ps' r' = Done (c, res)).
  { intros ps r ps' r' HP HR I1 I2. unfold combine_callables. destruct (CP ps ps' COk HP I1) as [r1 E]. rewrite E. cbn. destruct r1; eauto. apply IH; try (apply below_unwrap; auto; apply (no_infer_child a' r'); auto). destruct (below_unwrap r') as (b1 & _). apply size_child in I2. lia. }
  assert (NV : exists r, combine_no_vars d (combine d f) c e' a' = Done (c, r)).
  { unfold combine_no_vars.
    assert (UN : exists r, obind (unify_with_unknown d c (ty_vars e' ++ ty_vars a')) (fun c' => Done (c', COk)) = Done (c, r)) by (rewrite (ty_vars_ground a' BI), (ty_vars_ground e' BE); cbn; eauto).
    destruct (ty_eqb e' a'); [destruct e'; destruct a'; eauto|].
    destruct e'; destruct a'; eauto; clear UN; try discriminate.
    - apply CH; [apply (no_infer_child _ _ BE)|]; now left.
    - destruct (CH e' a') as [r E]; [apply (no_infer_child _ _ BE); now left|now left|]. destruct (negb is_mut || is_mut0); rewrite E; cbn; eauto.
    - destruct (l =? l0); eauto. apply CP; [|intros z I; cbn; apply in_app_iff; auto]. intros z I. apply (no_infer_child _ _ BE). cbn. apply in_app_iff. auto.
    - destruct (expected_lambda d l keys vals) as [[eps er]|] eqn:EL; eauto. unfold expected_lambda in EL. destruct (wrapped_lambda d l) as [lam|] eqn:WL; [|discriminate]. destruct (LD _ _ WL) as (HL & ps & r & k1 & ks & vs & ->).
      assert (HS : has_infer (substitute (mkSubst keys vals) (Callable ps r k1 ks vs)) = false).
      { apply no_infer_subst; auto. intros z I. apply (no_infer_child _ _ BE). cbn. apply in_app_iff. auto. }
      destruct (subst_callable (mkSubst keys vals) ps r k1 ks vs) as (ps1 & r1 & vs1 & E). rewrite E in *. injection EL as <- <-.
      apply CC; [| |intros z I; cbn; apply in_app_iff; auto|cbn; apply in_app_iff; right; now left].
      + intros z I. apply (no_infer_child _ _ HS). cbn. apply in_app_iff. auto.
      + apply (no_infer_child _ _ HS). cbn. apply in_app_iff. right. now left.
    - apply CC; [| |intros z I; cbn; apply in_app_iff; auto|cbn; apply in_app_iff; right; now left].
      + intros z I. apply (no_infer_child _ _ BE). cbn. apply in_app_iff. auto.
      + apply (no_infer_child _ _ BE). cbn. apply in_app_iff. right. now left.
    - destruct (length ts =? length ts0); eauto. apply CP; [|intros z I; auto]. intros z I. apply (no_infer_child _ _ BE). auto. }
  destruct e'; try discriminate; destruct a'; try discriminate; exact NV.
Qed.
End WithDb.
