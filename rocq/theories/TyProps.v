(** Types: parts, visitors and substitution (C27). *)
From Verif Require Import Base TyModel.

(** * Specification *)
(** [c] is [t] or somewhere inside it *)
Inductive part : ty -> ty -> Prop :=
| part_here : forall t, part t t
| part_in : forall t c d, In d (children t) -> part c d -> part c t.
(** the outermost constructor with all its data except the types inside *)
Definition head (t : ty) : ty := deep_fold (fun _ => Unknown) t.
Definition mapped (s : subst) (p : loc) (t : ty) : Prop := In (p, t) (combine (s_keys s) (s_vals s)).
(** a hash map has distinct keys, and a value for every key *)
Definition is_map (s : subst) : Prop := NoDup (s_keys s) /\ length (s_keys s) = length (s_vals s).
Inductive replaced (s : subst) : ty -> ty -> Prop :=
| rep_mapped : forall p t, mapped s p t -> replaced s (TypeParam p) t
| rep_free : forall p, (forall t, ~ mapped s p t) -> replaced s (TypeParam p) (TypeParam p)
| rep_node : forall t u, (forall p, t <> TypeParam p) -> head t = head u -> Forall2 (replaced s) (children t) (children u) -> replaced s t u.

(** * Auxiliary *)
Lemma existsb_in : forall (f : ty -> bool) l, existsb f l = true <-> exists c, In c l /\ f c = true.
Proof. intros. apply existsb_exists. Qed.
Lemma visit_eq : forall mark t, visit mark t = mark t || existsb (visit mark) (children t).
Proof. intros mark t. destruct t; cbn [visit children]; rewrite ?existsb_app; cbn; rewrite ?orb_false_r; auto. Qed.
Theorem visit_exact : forall mark t, visit mark t = true <-> exists c, part c t /\ mark c = true.
Proof.
  intros mark t. induction t as [t IH] using ty_ind'. rewrite visit_eq, orb_true_iff, existsb_exists. split.
  - intros [H|(c & I & H)]; [exists t; split; auto; constructor|]. apply IH in H; auto. destruct H as (d & P & M). exists d. split; auto. eapply part_in; eauto.
  - intros (c & P & M). inversion P; subst; auto. right. exists d. split; auto. apply IH; eauto.
Qed.
Lemma visit_child : forall mark t, visit mark t = false -> forall c, In c (children t) -> visit mark c = false.
Proof. intros mark t H c I. rewrite visit_eq in H. apply orb_false_iff in H. destruct H as [_ H]. destruct (visit mark c) eqn:E; auto. assert (existsb (visit mark) (children t) = true) by (apply existsb_exists; eauto). congruence. Qed.
Lemma visit_false_iff : forall mark t, visit mark t = false <-> forall c, part c t -> mark c = false.
Proof.
  intros mark t. split.
  - intros H c P. destruct (mark c) eqn:E; auto. assert (visit mark t = true) by (apply visit_exact; eauto). congruence.
  - intros H. destruct (visit mark t) eqn:E; auto. apply visit_exact in E. destruct E as (c & P & M). rewrite H in M; auto.
Qed.
Lemma part_trans : forall a b c, part a b -> part b c -> part a c.
Proof. intros a b c H1 H2. induction H2; auto. eapply part_in; eauto. Qed.
Lemma children_deep_fold : forall f t, children (deep_fold f t) = map f (children t).
Proof. intros f t. destruct t; cbn; rewrite ?map_app; auto. Qed.
Lemma head_deep_fold : forall f t, head (deep_fold f t) = head t.
Proof. intros f t. unfold head. destruct t; cbn; rewrite ?map_map; auto. Qed.
Lemma map_const_len : forall (l m : list ty), map (fun _ => Unknown) l = map (fun _ => Unknown) m -> length l = length m.
Proof. intros l m H. apply (f_equal (@length ty)) in H. now rewrite !map_length in H. Qed.
Lemma app_inj_len : forall (a b c d : list ty), length a = length c -> a ++ b = c ++ d -> a = c /\ b = d.
Proof. induction a as [|x a IH]; intros b [|y c] d L E; cbn in *; try discriminate; auto. injection E as -> E. injection L as L. destruct (IH _ _ _ L E) as [-> ->]. auto. Qed.
(** a type is determined by its head and its children *)
Lemma head_children_inj : forall t u, head t = head u -> children t = children u -> t = u.
Proof.
  intros t u H C. destruct t, u; cbn in H; try discriminate; cbn in C; auto; try congruence.
  - injection H as -> -> H1 H2. destruct (app_inj_len _ _ _ _ (map_const_len _ _ H1) C) as [-> ->]. auto.
  - injection H as H1 -> -> H2. destruct (app_inj_len _ _ _ _ (map_const_len _ _ H1) C) as [-> C2]. injection C2 as -> ->. auto.
  - injection H as -> -> H1 H2. destruct (app_inj_len _ _ _ _ (map_const_len _ _ H1) C) as [-> ->]. auto.
Qed.
Lemma fold_params_eq : forall f t, fold_params f t = match t with TypeParam p => f p | t => deep_fold (fold_params f) t end.
Proof. intros f t. destruct t; reflexivity. Qed.
Lemma assoc_mapped : forall s p t, is_map s -> (get_ty s p = Some t <-> mapped s p t).
Proof.
  intros [keys vals] p t [ND L]. unfold get_ty, mapped. cbn in *. revert vals L. induction keys as [|k keys IH]; intros [|v vals] L; cbn in *; try discriminate; [split; [discriminate|tauto]|]. inversion ND as [|? ? N1 N2]; subst. injection L as L. destruct (Nat.eqb_spec k p) as [->|N].
  - split; [intros E; injection E as ->; auto|]. intros [E|E]; [congruence|]. exfalso. apply N1. eapply in_combine_l; eauto.
  - rewrite (IH N2 vals L). split; auto. intros [E|E]; auto. congruence.
Qed.

(** * C27 *)
Theorem substitute_exact : forall s t u, is_map s -> (replaced s t u <-> u = substitute s t).
Proof.
  intros s t u M. split.
  - revert u. unfold substitute. induction t as [t IH] using ty_ind'. intros u R. rewrite fold_params_eq. inversion R as [p t' HM|p HN|t' u' NP HH F]; subst.
    + apply assoc_mapped in HM; auto. now rewrite HM.
    + destruct (get_ty s p) as [x|] eqn:E; auto. apply assoc_mapped in E; auto. exfalso. eapply HN; eauto.
    + assert (E : u = deep_fold (fold_params (fun p => match get_ty s p with Some t => t | None => TypeParam p end)) t).
      { apply head_children_inj; [now rewrite head_deep_fold|]. rewrite children_deep_fold. clear HH R. induction F as [|x y l m H1 F IHF]; cbn; auto. f_equal; [apply IH; auto; now left|]. apply IHF. intros; apply IH; auto. now right. }
      destruct t; auto. exfalso. eapply NP; eauto.
  - intros ->. unfold substitute. induction t as [t IH] using ty_ind'. rewrite fold_params_eq.
    assert (N : (forall p, t <> TypeParam p) -> replaced s t (deep_fold (fold_params (fun p => match get_ty s p with Some t => t | None => TypeParam p end)) t)).
    { intros NP. apply rep_node; auto; [now rewrite head_deep_fold|]. rewrite children_deep_fold. induction (children t) as [|c l IHl]; cbn; constructor; [apply IH; now left|]. apply IHl. intros; apply IH. now right. }
    destruct t; try (apply N; intros; discriminate). destruct (get_ty s p) as [x|] eqn:E; [apply rep_mapped; now apply assoc_mapped|]. apply rep_free. intros x HM. apply assoc_mapped in HM; auto. congruence.
Qed.
Lemma fold_params_ext : forall f g t, (forall p, part (TypeParam p) t -> f p = g p) -> fold_params f t = fold_params g t.
Proof.
  intros f g t. induction t as [t IH] using ty_ind'. intros E. rewrite !fold_params_eq.
  assert (N : deep_fold (fold_params f) t = deep_fold (fold_params g) t).
  { apply head_children_inj; [now rewrite !head_deep_fold|]. rewrite !children_deep_fold. apply map_ext_in. intros c I. apply IH; auto. intros p P. apply E. eapply part_in; eauto. }
  destruct t; auto. apply E. constructor.
Qed.
Lemma fold_params_id : forall t, fold_params TypeParam t = t.
Proof.
  induction t as [t IH] using ty_ind'. rewrite fold_params_eq.
  assert (N : deep_fold (fold_params TypeParam) t = t).
  { apply head_children_inj; [now rewrite head_deep_fold|]. rewrite children_deep_fold. rewrite <- (map_id (children t)) at 2. apply map_ext_in. auto. }
  destruct t; auto.
Qed.
Lemma deep_fold_deep_fold : forall f g t, deep_fold g (deep_fold f t) = deep_fold (fun x => g (f x)) t.
Proof. intros f g t. apply head_children_inj; [now rewrite !head_deep_fold|]. rewrite !children_deep_fold, map_map. reflexivity. Qed.
Lemma fold_params_compose : forall f g t, fold_params g (fold_params f t) = fold_params (fun p => fold_params g (f p)) t.
Proof.
  intros f g t. induction t as [t IH] using ty_ind'. rewrite (fold_params_eq f t), (fold_params_eq _ t).
  assert (N : (forall p, t <> TypeParam p) -> fold_params g (deep_fold (fold_params f) t) = deep_fold (fold_params (fun p => fold_params g (f p))) t).
  { intros NP. rewrite fold_params_eq. assert (E : deep_fold (fold_params g) (deep_fold (fold_params f) t) = deep_fold (fold_params (fun p => fold_params g (f p))) t).
    { rewrite deep_fold_deep_fold. apply head_children_inj; [now rewrite !head_deep_fold|]. rewrite !children_deep_fold. apply map_ext_in. auto. }
    rewrite <- E. destruct t; cbn; auto; try (exfalso; eapply NP; eauto; fail). }
  destruct t; auto; apply N; intros; discriminate.
Qed.
(** parameters the substitution does not map stay; in particular types without parameters are unchanged *)
Theorem substitute_unmapped : forall s t, is_map s -> (forall p u, part (TypeParam p) t -> ~ mapped s p u) -> substitute s t = t.
Proof.
  intros s t M H. unfold substitute. rewrite (fold_params_ext _ TypeParam); [apply fold_params_id|]. intros p P. destruct (get_ty s p) as [u|] eqn:E; auto. apply assoc_mapped in E; auto. exfalso. eapply H; eauto.
Qed.
Theorem substitute_closed : forall s t, has_type_param t = false -> substitute s t = t.
Proof.
  intros s t H. unfold substitute. rewrite (fold_params_ext _ TypeParam); [apply fold_params_id|]. intros p P. unfold has_type_param in H. rewrite visit_false_iff in H. specialize (H _ P). discriminate.
Qed.
(** mapping each parameter to itself changes nothing (ty_type_params_subst) *)
Theorem substitute_identity : forall ps t, substitute (mkSubst ps (map TypeParam ps)) t = t.
Proof.
  intros ps t. unfold substitute. rewrite (fold_params_ext _ TypeParam); [apply fold_params_id|]. intros p _. unfold get_ty. cbn. induction ps as [|q ps IH]; cbn; auto. destruct (Nat.eqb_spec q p); [now subst|auto].
Qed.
(** first [s1], then [s2] *)
Definition compose (s1 s2 : subst) : subst :=
  mkSubst (s_keys s1 ++ s_keys s2) (map (substitute s2) (s_vals s1) ++ s_vals s2).
Theorem substitute_compose : forall s1 s2 t, length (s_keys s1) = length (s_vals s1) -> substitute s2 (substitute s1 t) = substitute (compose s1 s2) t.
Proof.
  intros s1 s2 t L. unfold substitute. rewrite fold_params_compose. apply fold_params_ext. intros p _. unfold compose, get_ty. cbn [s_keys s_vals]. destruct s1 as [keys vals]. cbn in *. revert vals L. induction keys as [|k keys IH]; intros [|v vals] L; cbn in *; try discriminate.
  - reflexivity.
  - destruct (k =? p); auto.
Qed.
(** no mapped parameter is left if the values do not bring one in *)
Theorem substitute_eliminates : forall s t p, is_map s -> (forall q u, mapped s q u -> ~ part (TypeParam p) u) -> (exists u, mapped s p u) -> ~ part (TypeParam p) (substitute s t).
Proof.
  intros s t p M HV (u & HM). unfold substitute. induction t as [t IH] using ty_ind'. intros P. rewrite fold_params_eq in P.
  assert (N : (forall q, t <> TypeParam q) -> part (TypeParam p) (deep_fold (fold_params (fun p => match get_ty s p with Some t => t | None => TypeParam p end)) t) -> False).
  { intros NP P2. inversion P2 as [x E|x c d I P3]; subst; [destruct t; try discriminate; eapply NP; eauto|]. rewrite children_deep_fold in I. apply in_map_iff in I. destruct I as (c & <- & I). eapply IH; eauto. }
  destruct t; try (eapply N; eauto; intros; discriminate). destruct (get_ty s p0) as [x|] eqn:E.
  - apply assoc_mapped in E; auto. eapply HV; eauto.
  - inversion P as [y EQ|x c d I P3]; subst; [|destruct I]. apply assoc_mapped in HM; auto. congruence.
Qed.

(** S<T, vector<U>> with T := u8, U := S<U> *)
Definition ex_subst : subst := mkSubst [10; 11] [Integer U8; Adt 5 [10] [TypeParam 11] [TypeParam 11]].
Definition ex_ty : ty := Adt 5 [10; 11] [TypeParam 10; Seq SVector (TypeParam 11)] [TypeParam 10; Seq SVector (TypeParam 11)].
Example substitute_example : is_map ex_subst /\ substitute ex_subst ex_ty =
  Adt 5 [10; 11] [Integer U8; Seq SVector (Adt 5 [10] [TypeParam 11] [TypeParam 11])] [Integer U8; Seq SVector (Adt 5 [10] [TypeParam 11] [TypeParam 11])].
Proof. split; [split; [repeat constructor; cbn; intuition discriminate|reflexivity]|reflexivity]. Qed.
Example eliminates_example : (forall q u, mapped ex_subst q u -> ~ part (TypeParam 10) u) /\ exists u, mapped ex_subst 10 u.
Proof.
  split; [|exists (Integer U8); left; reflexivity]. intros q u [E|[E|[]]]; injection E as <- <-; intros P.
  - inversion P as [|x c d I P2]; subst. destruct I.
  - inversion P as [|x c d I P2]; subst. destruct I as [<-|[<-|[]]]; inversion P2 as [|x c d I P3]; subst; destruct I.
Qed.

Print Assumptions visit_exact.
Print Assumptions substitute_exact.
Print Assumptions substitute_unmapped.
Print Assumptions substitute_closed.
Print Assumptions substitute_identity.
Print Assumptions substitute_compose.
Print Assumptions substitute_eliminates.
