(** Running the walk over expressions: proofs. *)
From Verif Require Import Base TyModel TyProps UnifyModel UnifyProps InferModel InferProofs InferResolve InferTotal InferProps WalkModel WalkTyping WalkSolve.

(** * What is known of an inferred type *)
Definition knows (k : level) (t : ty) : Prop := (1 <= k -> forall v, t <> Var v) /\ (2 <= k -> is_infer t = false) /\ (3 <= k -> has_infer t = false).
Lemma knows_le : forall k l t, k <= l -> knows l t -> knows k t.
Proof. intros k l t L (A & B & C). split; [|split]; intros; [apply A|apply B|apply C]; lia. Qed.
Lemma knows_0 : forall t, knows 0 t.
Proof. intros t. split; [|split]; intros; lia. Qed.
Lemma knows_ground : forall k t, has_infer t = false -> knows k t.
Proof. intros k t H. split; [|split]; intros; auto; [intros ->; discriminate|now apply ground_not_infer]. Qed.
Lemma knows_2 : forall k t, 2 <= k -> knows k t -> is_infer t = false.
Proof. intros k t L (_ & H & _). auto. Qed.
Lemma knows_3 : forall t, knows 3 t -> has_infer t = false.
Proof. intros t (_ & _ & H). auto. Qed.
Lemma knows_lv : forall k p t, knows k t -> knows (lv k p) t.
Proof. intros k [|] t H; auto. apply knows_0. Qed.
Lemma knows_around : forall k t, is_infer t = false -> (k = 3 -> has_infer t = false) -> knows (around k) t.
Proof. intros k t I H. unfold around. destruct (k =? 3) eqn:E; [apply knows_ground, H; now apply Nat.eqb_eq|]. split; [|split]; intros; auto; [intros ->; discriminate|lia]. Qed.
Lemma knows_inside : forall k t, (k = 3 -> has_infer t = false) -> knows (inside k) t.
Proof. intros k t H. unfold inside. destruct (k =? 3) eqn:E; [apply knows_ground, H; now apply Nat.eqb_eq|apply knows_0]. Qed.
Lemma infer_seq : forall k t, has_infer (Seq k t) = has_infer t.
Proof. reflexivity. Qed.
Lemma infer_ref : forall k t, has_infer (Reference k t) = has_infer t.
Proof. reflexivity. Qed.

(** * Running *)
Definition runs {A} (x : nat -> m A) (s s' : st) (a : A) : Prop := exists N, forall f, N <= f -> x f s = Done (s', a).
Lemma runs_bind : forall A B (x : nat -> m A) (k : nat -> A -> m B) s s1 a s2 b, runs x s s1 a -> runs (fun f => k f a) s1 s2 b -> runs (fun f => bindm (x f) (k f)) s s2 b.
Proof. intros A B x k s s1 a s2 b [N H] [M K]. exists (N + M). intros f L. unfold bindm. rewrite H by lia. cbn. apply K. lia. Qed.

Section Walk.
Context {d : db}.
Variables (fields : loc -> nat -> option ty) (ret : ty) (g : sol) (E : list werror).
Record inv (G : env) (n : nat) (s : st) : Prop := mkInv {
  i_agrees : agrees g (cx s);
  i_next : next s = n;
  i_errs : errs s = E;
  i_binds : forall x t k, G x = Some (t, k) -> exists u, binds s x = Some u /\ means g u t /\ knows k u
}.
Definition does {A} (G : env) (n : nat) (x : nat -> m A) (G' : env) (n' : nat) (Q : A -> Prop) : Prop :=
  forall s, inv G n s -> exists s' a, runs x s s' a /\ inv G' n' s' /\ Q a.
Lemma does_bind : forall A B (x : nat -> m A) (k : nat -> A -> m B) G n G1 n1 G2 n2 (P : A -> Prop) (Q : B -> Prop), does G n x G1 n1 P -> (forall a, P a -> does G1 n1 (fun f => k f a) G2 n2 Q) -> does G n (fun f => bindm (x f) (k f)) G2 n2 Q.
Proof. intros A B x k G n G1 n1 G2 n2 P Q H K s I. destruct (H s I) as (s1 & a & R & I1 & Pa). destruct (K a Pa s1 I1) as (s2 & b & R2 & I2 & Qb). exists s2, b. split; auto. eapply runs_bind; eauto. Qed.
Lemma does_pure : forall A (a : A) G n (Q : A -> Prop), Q a -> does G n (fun _ => pure a) G n Q.
Proof. intros A a G n Q H s I. exists s, a. split; auto. exists 0. auto. Qed.
Lemma does_skip : forall A B (a : A) (k : nat -> A -> m B) G n G2 n2 Q, does G n (fun f => k f a) G2 n2 Q -> does G n (fun f => bindm (pure a) (k f)) G2 n2 Q.
Proof. intros A B a k G n G2 n2 Q H. exact H. Qed.
Lemma does_imp : forall A (x : nat -> m A) G n G' n' (P Q : A -> Prop), (forall a, P a -> Q a) -> does G n x G' n' P -> does G n x G' n' Q.
Proof. intros A x G n G' n' P Q H D s I. destruct (D s I) as (s' & a & R & I' & Pa). exists s', a. auto. Qed.
Lemma inv_same : forall G n s c, inv G n s -> agrees g c -> inv G n (with_cx s c).
Proof. intros G n s c [A N EE B] AC. constructor; auto. Qed.
Lemma does_drop : forall A (x : nat -> m A) G n G' n' Q H, (forall y v, H y = Some v -> G' y = Some v) -> does G n x G' n' Q -> does G n x H n' Q.
Proof. intros A x G n G' n' Q H S D s I. destruct (D s I) as (s' & a & R & [A' N' E' B'] & Pa). exists s', a. split; auto. split; auto. constructor; auto. Qed.
(** the end of infer_expr *)
Lemma does_end : forall (x : nat -> m ty) G n G' n' Q, does G n x G' n' Q -> does G n (fun f => bindm (x f) (fun t => fun s => Done (s, refine_for_specs (msl (cx s)) t))) G' n' Q.
Proof.
  intros x G n G' n' Q D s I. destruct (D s I) as (s' & a & R & I' & Pa). exists s', a. split; auto. destruct R as [N R]. exists N. intros f L. unfold bindm. rewrite R; auto. cbn. rewrite (a_msl _ _ (i_agrees _ _ _ I')). reflexivity.
Qed.

(** * The operations *)
Lemma knows_resolved : forall f c t w k, agrees g c -> resolve f c t = Some w -> (is_infer t = false -> head w = head t) -> (has_infer t = false -> w = t) -> knows k t -> knows k w.
Proof.
  intros f c t w k A R HH GG (K1 & K2 & K3). split; [|split]; intros L.
  - intros v ->. destruct (is_infer t) eqn:I; [|specialize (HH eq_refl); destruct t; cbn in HH; discriminate]. destruct t; try discriminate; [eapply K1; eauto|].
    destruct f; [discriminate|]. apply resolve_step in R. destruct R as (u & EU & HU & _). apply resolves1_done in EU; [|apply (a_good _ _ A)]. inversion EU; subst; try discriminate. apply (g_ival _ (a_good _ _ A)) in H0. destruct H0 as [k' ->]. discriminate.
  - specialize (K2 L). rewrite <- K2. apply is_infer_head. auto.
  - specialize (K3 L). rewrite GG; auto.
Qed.
Definition resolved (t u w : ty) : Prop := means g w u /\ (forall k, knows k t -> knows k w) /\ (has_infer t = false -> w = t).
Lemma resolve_runs : forall t u s, agrees g (cx s) -> means g t u -> exists w, runs (fun f => resolve_m f t) s s w /\ resolved t u w.
Proof.
  intros t u s A H. destruct (resolve_means g u (cx s) t A H) as (w & K & M & HH). exists w. split.
  - exists (size u). intros f L. unfold resolve_m, resolve_out. rewrite K; auto.
  - assert (GG : has_infer t = false -> w = t).
    { intros I. pose proof (resolve_ground (cx s) t (size u + size t) I ltac:(lia)) as R2. rewrite K in R2 by lia. congruence. }
    split; auto. split; auto. intros k. eapply knows_resolved; eauto.
Qed.
Lemma d_resolve : forall t u G n, means g t u -> does G n (fun f => resolve_m f t) G n (resolved t u).
Proof. intros t u G n H s I. destruct (resolve_runs t u s (i_agrees _ _ _ I) H) as (w & R & K). exists s, w. auto. Qed.
Lemma d_combine : forall e a u G n, proper u -> means g e u -> means g a u -> does G n (fun f => combine_m f d e a) G n (fun r => r = COk).
Proof.
  intros e a u G n P HE HA s I. destruct (combine_means g u (cx s) e a (i_agrees _ _ _ I) P HE HA) as (c' & K & A'). exists (with_cx s c'), COk. split; [|split; auto; now apply inv_same].
  exists (size u). intros f L. unfold combine_m. rewrite K; auto.
Qed.
Lemma d_combine_to : forall e a t te k G n, proper te -> means g e te -> means g a t -> accepts e t te k -> (k = true -> is_infer a = false) -> does G n (fun f => combine_m f d e a) G n (fun r => r = COk).
Proof.
  intros e a t te k G n P HE HA AC KA s I. destruct (combine_accepts g (cx s) e a t te k (i_agrees _ _ _ I) P HE HA AC KA) as (c' & K & A'). exists (with_cx s c'), COk. split; [|split; auto; now apply inv_same].
  exists (size te). intros f L. unfold combine_m. rewrite K; auto.
Qed.
Lemma d_coerce : forall e a t te k G n, proper te -> means g e te -> means g a t -> accepts e t te k -> (k = true -> is_infer a = false) -> does G n (fun f => coerce_m f d a e) G n (fun r => r = true).
Proof.
  intros e a t te k G n P HE HA AC KA s I. destruct (coerce_accepts g (cx s) e a t te k (i_agrees _ _ _ I) P HE HA AC KA) as (c' & K & A'). exists (with_cx s c'), true. split; [|split; auto; now apply inv_same].
  exists (size te + size t). intros f L. unfold coerce_m. rewrite K; auto.
Qed.
Lemma d_coerce_same : forall e a t G n, proper t -> means g e t -> means g a t -> does G n (fun f => coerce_m f d a e) G n (fun r => r = true).
Proof. intros e a t G n P HE HA. eapply (d_coerce e a t t false); eauto; [now left|discriminate]. Qed.
Lemma d_any : forall a t G n, means g a t -> code_type t -> does G n (fun f => coerce_any_m f d a [Integer U64; byte_string]) G n (fun r => r = true).
Proof.
  intros a t G n H C s I. destruct (any_code g (cx s) a (i_agrees _ _ _ I)) as [N K]; [destruct C as [->| ->]; auto|]. exists s, true. split; [|split; auto]. exists N. intros f L. unfold coerce_any_m, byte_string. rewrite K; auto. cbn. destruct s; reflexivity.
Qed.
Lemma d_inc : forall G n, does G n (fun _ => inc) G (S n) (fun i => i = S n).
Proof. intros G n s I. eexists _, _. split; [exists 0; intros; reflexivity|]. destruct I as [A N EE B]. rewrite N. split; auto. constructor; auto. Qed.
Lemma d_bind : forall G n x t u k, means g u t -> knows k u -> does G n (fun _ => set_bind x u) (upd G x t k) n (fun _ => True).
Proof.
  intros G n x t u k H K s I. eexists _, _. split; [exists 0; intros; reflexivity|]. split; auto. destruct I as [A N EE B]. constructor; auto. intros y t' k' HY. cbn. unfold upd in HY. destruct (y =? x) eqn:EQ; [|eauto]. injection HY as <- <-. eauto.
Qed.
Lemma d_path : forall G n x t k, G x = Some (t, k) -> does G n (fun _ => fun s => Done (s, match binds s x with Some t => t | None => Unknown end)) G n (fun u => means g u t /\ knows k u).
Proof. intros G n x t k H s I. destruct (i_binds _ _ _ I _ _ _ H) as (u & B & M & K). exists s, u. split; auto. exists 0. intros f _. now rewrite B. Qed.

(** * Expectations *)
(** what is expected of an expression of type [t]: nothing, or a type it can be coerced to *)
Definition fits (ex : option ty) (t te : ty) (k : level) (c : bool) : Prop :=
  match ex with None => te = t | Some u => means g u te /\ proper te /\ accepts u t te (2 <=? k) /\ (c = true -> is_infer u = false) end.
Definition post (t te : ty) (k : level) (p : bool) (u : ty) : Prop := (means g u t /\ knows k u) \/ (p = false /\ means g u te).
Lemma fits_same : forall u t k c, means g u t -> proper t -> (c = true -> is_infer u = false) -> fits (Some u) t t k c.
Proof. intros u t k c H P C. split; auto. split; auto. split; auto. now left. Qed.
Lemma fits_goes : forall u t te k c, means g u te -> proper te -> is_infer u = false -> goes k t te -> fits (Some u) t te k c.
Proof. intros u t te k c H P I GO. split; auto. split; auto. split; auto. inversion GO; subst; [now left|right; left; auto|right; right; exists t0; repeat split; auto; now apply Nat.leb_le]. Qed.
Lemma post_same : forall t k p u, post t t k p u -> means g u t /\ knows (lv k p) u.
Proof. intros t k p u [[H K]|[-> H]]; split; auto; [now apply knows_lv|apply knows_0]. Qed.
Lemma post_know : forall t te k p u, means g u t -> knows k u -> post t te k p u.
Proof. now left. Qed.
Lemma resolved_infer : forall u t w, resolved u t w -> is_infer u = false -> is_infer w = false.
Proof. intros u t w (_ & K & _) I. apply (knows_2 2); auto. apply K. split; [|split]; intros; auto; [intros ->; discriminate|lia]. Qed.
Lemma fits_resolved : forall u w t te k c, resolved u te w -> fits (Some u) t te k c -> fits (Some w) t te k c.
Proof.
  intros u w t te k c R (M & P & AC & C). pose proof (resolved_infer _ _ _ R) as RI. destruct R as (MW & _). split; auto. split; auto. split; auto.
  destruct AC as [->|[(-> & [->|AC])|(x & -> & -> & KK & I)]]; [now left|right; left; auto|right; left; auto|right; right; eauto 6].
Qed.
Inductive exp_res (te : ty) : option ty -> option ty -> Prop :=
| er_none : exp_res te None None
| er_some : forall u w, resolved u te w -> exp_res te (Some u) (Some w).
Lemma fits_exp : forall ex ex' t te k c, exp_res te ex ex' -> fits ex t te k c -> fits ex' t te k c.
Proof. intros ex ex' t te k c H F. inversion H; subst; auto. eapply fits_resolved; eauto. Qed.
(** expected_m *)
Lemma d_expected : forall ex t te k c G n, fits ex t te k c -> does G n (fun f => expected_m f ex) G n (fun ex' => exp_res te ex ex' /\ fits ex' t te k c).
Proof.
  intros [u|] t te k c G n F.
  - eapply does_bind; [apply d_resolve; apply F|]. intros w R. apply does_pure. split; [now constructor|]. eapply fits_resolved; eauto.
  - apply does_pure. split; auto. constructor.
Qed.
(** after the expression: coerce it to what was expected *)
Lemma d_after : forall u t te k p c a G n, fits (Some u) t te k c -> post t te k p a -> does G n (fun f => coerce_m f d a u) G n (fun r => r = true).
Proof.
  intros u t te k p c a G n (M & P & AC & _) [[H K]|[_ H]]; [|now apply (d_coerce_same u a te)].
  eapply d_coerce; eauto. intros L. apply Nat.leb_le in L. eapply knows_2; eauto.
Qed.
(** resolve_all *)
Definition known_at (xs : list bool) (ps : list ty) : Prop := Forall2 (fun x t => x = false -> is_infer t = false) xs ps.
Lemma d_resolve_all : forall ps ts G n, Forall2 (means g) ps ts -> does G n (fun f => resolve_all f ps) G n (fun us => Forall2 (means g) us ts /\ (forall xs, known_at xs ps -> known_at xs us)).
Proof.
  induction ps as [|p ps IH]; intros ts G n F; inversion F; subst; [apply does_pure; repeat split; auto|]. cbn [resolve_all]. eapply does_bind; [apply d_resolve; eassumption|]. intros w R. pose proof (resolved_infer _ _ _ R) as RI. destruct R as (MW & KW & GW).
  eapply does_bind; [apply IH; eassumption|]. intros us (MU & IU). apply does_pure. split; [constructor; auto|]. intros xs H. inversion H; subst. constructor; [auto|now apply IU].
Qed.
(** infer_expected_call_arg_tys *)
Lemma d_expected_args : forall ps ts r t te k c ex G n, Forall2 (means g) ps ts -> means g r t -> is_infer r = false \/ te = t -> fits ex t te k c ->
  does G n (fun f => expected_args f d ps r ex) G n (fun eps => eps = [] \/ (Forall2 (means g) eps ts /\ (forall xs, known_at xs ps -> known_at xs eps))).
Proof.
  intros ps ts r t te k c ex G n FP MR IR F. unfold expected_args. eapply does_bind; [eapply d_expected; exact F|]. intros ex' [ER F']. destruct ex' as [e|]; [|apply does_pure; auto].
  eapply does_bind; [apply d_resolve; exact MR|]. intros r' RR. eapply does_bind.
  { destruct F' as (M & P & AC & _). destruct IR as [IR| ->]; [|eapply d_combine; [exact P|exact M|apply RR]]. eapply d_combine_to; [exact P|exact M|apply RR|exact AC|]. intros _. eapply resolved_infer; eauto. }
  intros res ->. eapply does_imp; [|apply d_resolve_all; exact FP]. intros us H. right. exact H.
Qed.
End Walk.

(** * Choosing what the variables stand for *)
Definition same (n n' : nat) (a b : sol) : Prop := forall i, n < i -> i <= n' -> si a i = si b i /\ sv a i = sv b i.
Definition glue (n : nat) (a b : sol) : sol := mkSol (fun i => if i <=? n then si a i else si b i) (fun i => if i <=? n then sv a i else sv b i).
Lemma same_glue : forall n n1 n2 a b c, n <= n1 -> n1 <= n2 -> same n n2 (glue n1 a b) c -> same n n1 a c /\ same n1 n2 b c.
Proof.
  intros n n1 n2 a b c L1 L2 S1. split; intros i A B; specialize (S1 i ltac:(lia) ltac:(lia)); cbn in S1; [apply Nat.leb_le in B|apply Nat.leb_gt in A]; [rewrite B in S1|rewrite A in S1]; auto.
Qed.
Definition ok (W : sol -> nat -> nat -> Prop) : Prop := forall n, exists n' s0, n <= n' /\ forall g, same n n' s0 g -> W g n n'.
Lemma ok_ret : forall W : sol -> nat -> nat -> Prop, (forall g n, W g n n) -> ok W.
Proof. intros W H n. exists n, (mkSol (fun _ => KInteger) (fun _ => Unit)). auto. Qed.
Lemma ok_fresh : forall (W : sol -> nat -> nat -> Prop) k t, (forall g n, si g (S n) = k -> sv g (S n) = t -> W g n (S n)) -> ok W.
Proof. intros W k t H n. exists (S n), (mkSol (fun _ => k) (fun _ => t)). split; auto. intros g HS. destruct (HS (S n)) as [A B]; auto. Qed.
Lemma ok_map : forall W V : sol -> nat -> nat -> Prop, ok W -> (forall g n n', W g n n' -> V g n n') -> ok V.
Proof. intros W V H K n. destruct (H n) as (n' & s0 & L & HW). exists n', s0. auto. Qed.
Lemma ok_seq : forall W V U : sol -> nat -> nat -> Prop, ok W -> ok V -> (forall g n n1 n2, W g n n1 -> V g n1 n2 -> U g n n2) -> ok U.
Proof.
  intros W V U H K C n. destruct (H n) as (n1 & s1 & L1 & HW). destruct (K n1) as (n2 & s2 & L2 & HV). exists n2, (glue n1 s1 s2). split; [lia|]. intros g HS. apply same_glue in HS; auto. destruct HS. eauto.
Qed.
Lemma ok_seq3 : forall W V U T : sol -> nat -> nat -> Prop, ok W -> ok V -> ok U -> (forall g n n1 n2 n3, W g n n1 -> V g n1 n2 -> U g n2 n3 -> T g n n3) -> ok T.
Proof.
  intros W V U T H K J C. apply (ok_seq W (fun g n n2 => exists n1, V g n n1 /\ U g n1 n2)); auto; [|intros g n n1 n2 HW (n3 & HV & HU); eauto]. eapply ok_seq; [exact K|exact J|]. intros. eauto.
Qed.

(** * Declared types *)
Section Declared.
Context {d : db}.
Lemma proper_integral : forall t, integral t -> proper t.
Proof. intros t (k & -> & N) x P. inversion P as [|? ? ? I]; subst; [|destruct I]. destruct k; auto. Qed.
Lemma F2_means_refl : forall g ps, Forall proper ps -> Forall2 (means g) ps ps.
Proof. intros g ps H. induction H; constructor; auto. now apply means_proper. Qed.
Lemma F_ground : forall ps, Forall proper ps -> Forall (fun t => has_infer t = false) ps.
Proof. intros ps H. eapply Forall_impl; [|exact H]. apply proper_ground. Qed.
Lemma substitute_nil : forall t, substitute (mkSubst [] []) t = t.
Proof.
  intros t. unfold substitute. induction t as [t IH] using ty_ind'. rewrite fold_params_eq. destruct t; auto; (apply head_children_inj; [apply head_deep_fold|]; rewrite children_deep_fold; rewrite <- (map_id (children _)) at 2; apply map_ext_in; intros x I; apply IH; exact I).
Qed.
Lemma means_adt_nil : forall g t l, means g t (Adt l [] [] []) -> is_infer t = false -> t = Adt l [] [] [].
Proof. intros g t l H I. destruct (means_adt _ _ _ _ _ _ H I) as (v & x & -> & FV & FX). inversion FV; inversion FX; subst; auto. Qed.
Lemma upd_keeps : forall (G : env) x t k y v, G x = None -> G y = Some v -> upd G x t k y = Some v.
Proof. intros G x t k y v N H. unfold upd. destruct (y =? x) eqn:Q; auto. apply Nat.eqb_eq in Q. congruence. Qed.
Lemma single_proper : forall g u t, means g u t -> proper t -> match single_element_tuple_ty u with Some x => x | None => u end = u.
Proof. intros g u t M P. now rewrite (means_no_single g u t M P). Qed.
Lemma ground_adt : forall l, proper (Adt l [] [] []).
Proof. intros l x P. inversion P as [|? ? ? I]; subst; [reflexivity|destruct I]. Qed.
Lemma means_ref_of : forall g m t u, means g t u -> means g (Reference m t) (Reference m u).
Proof. intros g m t u H. apply m_node; auto. constructor; [exact H|constructor]. Qed.
(** ** Type parameters *)
Lemma assoc_means : forall g gs ws vs l, Forall2 (means g) ws vs -> match assoc l gs ws, assoc l gs vs with Some w, Some v => means g w v | None, None => True | _, _ => False end.
Proof. intros g gs ws vs l F. revert gs. induction F as [|w v ws vs M F IH]; intros [|k gs]; cbn; auto. destruct (k =? l); auto. apply IH. Qed.
Lemma F2_map : forall A B (R : B -> B -> Prop) (f h : A -> B) l, (forall x, In x l -> R (f x) (h x)) -> Forall2 R (map f l) (map h l).
Proof. intros A B R f h l. induction l as [|x l IH]; intros H; cbn; constructor; [apply H; now left|]. apply IH. intros y I. apply H. now right. Qed.
Lemma subst_means : forall g gs ws vs t, Forall2 (means g) ws vs -> has_infer t = false -> means g (substitute (mkSubst gs ws) t) (substitute (mkSubst gs vs) t).
Proof.
  intros g gs ws vs t F. unfold substitute. induction t as [t IH] using ty_ind'. intros GT.
  assert (N : means g (deep_fold (fold_params (fun p => match get_ty (mkSubst gs ws) p with Some t => t | None => TypeParam p end)) t) (deep_fold (fold_params (fun p => match get_ty (mkSubst gs vs) p with Some t => t | None => TypeParam p end)) t)).
  { apply m_node; [|now rewrite !head_deep_fold|rewrite !children_deep_fold; apply F2_map; intros x I; apply IH; auto; eapply no_infer_child; eauto]. pose proof (ground_not_infer _ GT) as NI. destruct t; auto; discriminate NI. }
  rewrite !fold_params_eq. destruct t; auto. unfold get_ty. cbn [s_keys s_vals]. pose proof (assoc_means g gs ws vs p F) as A. destruct (assoc p gs ws), (assoc p gs vs); [exact A|contradiction|contradiction|now apply means_refl].
Qed.
Lemma assoc_none : forall l gs ws, existsb (Nat.eqb l) gs = false -> assoc l gs ws = None.
Proof. intros l gs. induction gs as [|k gs IH]; intros [|w ws] H; cbn in *; auto. apply orb_false_iff in H. destruct H as [H1 H2]. rewrite Nat.eqb_sym, H1. auto. Qed.
Lemma subst_free : forall gs ws t, mentions gs t = false -> substitute (mkSubst gs ws) t = t.
Proof.
  intros gs ws t. unfold substitute, mentions. induction t as [t IH] using ty_ind'. intros H. rewrite visit_eq in H. apply orb_false_iff in H. destruct H as [H1 H2].
  assert (N : deep_fold (fold_params (fun p => match get_ty (mkSubst gs ws) p with Some t => t | None => TypeParam p end)) t = t).
  { apply head_children_inj; [apply head_deep_fold|]. rewrite children_deep_fold. rewrite <- (map_id (children t)) at 2. apply map_ext_in. intros x I. apply IH; auto. destruct (visit (bare gs) x) eqn:V; auto. rewrite <- H2. symmetry. apply existsb_exists. eauto. }
  rewrite fold_params_eq. destruct t; auto. unfold get_ty. cbn [s_keys s_vals]. cbn in H1. now rewrite assoc_none.
Qed.
Lemma subst_infer : forall gs ws t, bare gs t = false -> is_infer t = false -> is_infer (substitute (mkSubst gs ws) t) = false.
Proof.
  intros gs ws t B I. unfold substitute. rewrite fold_params_eq. destruct t; auto. unfold get_ty. cbn [s_keys s_vals]. cbn in B. now rewrite assoc_none.
Qed.
Lemma subst_knows : forall gs ws t, proper t -> knows (outline gs t) (substitute (mkSubst gs ws) t).
Proof.
  intros gs ws t P. unfold outline. pose proof (proper_ground _ P) as GT. destruct (mentions gs t) eqn:M; [|rewrite subst_free by auto; now apply knows_ground]. destruct (bare gs t) eqn:B; [apply knows_0|].
  pose proof (subst_infer gs ws t B (ground_not_infer _ GT)) as I. split; [|split]; intros; auto; [intros EV; rewrite EV in I; discriminate|lia].
Qed.
Lemma subst_known : forall gs ws ps, Forall proper ps -> known_at (map (bare gs) ps) (map (substitute (mkSubst gs ws)) ps).
Proof. intros gs ws ps H. unfold known_at. induction H; cbn; constructor; auto. intros B. apply subst_infer; auto. now apply ground_not_infer, proper_ground. Qed.
Lemma F2_subst : forall g gs ws vs ps, Forall2 (means g) ws vs -> Forall proper ps -> Forall2 (means g) (map (substitute (mkSubst gs ws)) ps) (map (substitute (mkSubst gs vs)) ps).
Proof. intros g gs ws vs ps F H. induction H; cbn; constructor; auto. apply subst_means; auto. now apply proper_ground. Qed.
(** the variables stand for the types found *)
Definition gives (gs : list loc) (vs : list ty) (g : sol) (n n' : nat) : Prop := forall E G, does g E G n (fun _ => fresh_vars gs) G n' (fun ws => Forall2 (means g) ws vs).
Lemma ok_vars_for : forall gs vs, Forall2 allowed gs vs -> Forall proper vs -> ok (gives gs vs).
Proof.
  intros gs vs F. induction F as [|l v gs vs A F IH]; intros P; [apply ok_ret; intros g n E G; now apply does_pure|]. inversion P; subst.
  apply (ok_seq (fun g n n' => n' = S n /\ sv g (S n) = v) (gives gs vs)); auto; [apply (ok_fresh _ U8 v); auto|]. intros g n n1 n2 [-> SV] K E G. cbn [fresh_vars]. eapply does_bind; [apply d_inc|]. intros i ->. eapply does_bind; [apply K|]. intros ws MW. apply does_pure. constructor; auto.
  rewrite <- SV. apply (m_var g (mkVar (Some l) (S n))); cbn; rewrite SV; auto. intros l' E'. injection E' as <-. exact A.
Qed.
Lemma d_instantiate : forall g E G n n' gs vs ps r, gives gs vs g n n' -> Forall proper ps -> proper r ->
  does g E G n (fun _ => instantiate gs ps r) G n' (fun '(qs, q) => Forall2 (means g) qs (map (substitute (mkSubst gs vs)) ps) /\ known_at (map (bare gs) ps) qs /\ means g q (substitute (mkSubst gs vs) r) /\ knows (outline gs r) q).
Proof.
  intros g E G n n' gs vs ps r K PP PR. unfold instantiate. eapply does_bind; [apply K|]. intros ws MW. apply does_pure. split; [now apply F2_subst|]. split; [now apply subst_known|]. split; [apply subst_means; auto; now apply proper_ground|now apply subst_knows].
Qed.
Lemma subst_ground : forall gs ws t, Forall (fun w => has_infer w = false) ws -> has_infer t = false -> has_infer (substitute (mkSubst gs ws) t) = false.
Proof.
  intros gs ws t F GT. apply no_infer_subst; auto. now apply Forall_forall.
Qed.
(** the types for type parameters, of which all is known if all is known of the struct *)
Definition level_args (k : level) (ws : list ty) : Prop := k = 3 -> Forall (fun w => has_infer w = false) ws.
Lemma adt_parts : forall g w l gs vs k, means g w (Adt l gs vs vs) -> 2 <= k -> knows k w -> exists ws ys, w = Adt l gs ws ys /\ Forall2 (means g) ws vs /\ Forall2 (means g) ys vs /\ level_args k ws.
Proof.
  intros g w l gs vs k M L K. assert (I : is_infer w = false) by now apply (knows_2 k). destruct (means_adt _ _ _ _ _ _ M I) as (ws & ys & -> & F1 & F2). exists ws, ys. split; auto. split; auto. split; auto. intros ->.
  apply Forall_forall. intros x IX. apply (no_infer_child _ _ (knows_3 _ K)). cbn. apply in_app_iff. auto.
Qed.
Lemma knows_field : forall k gs ws t, level_args k ws -> proper t -> knows (field_level k gs t) (substitute (mkSubst gs ws) t).
Proof.
  intros k gs ws t L P. unfold field_level. destruct (k =? 3) eqn:E3; [|now apply subst_knows]. apply Nat.eqb_eq in E3. apply knows_ground, subst_ground; [now apply L|now apply proper_ground].
Qed.
Lemma F2_declared : forall g k gs ws vs ts, Forall2 (means g) ws vs -> level_args k ws -> Forall proper ts -> Forall2 (means g) (map (substitute (mkSubst gs ws)) ts) (map (substitute (mkSubst gs vs)) ts) /\ Forall (knows (fields_level k gs)) (map (substitute (mkSubst gs ws)) ts).
Proof.
  intros g k gs ws vs ts F L P. split; [now apply F2_subst|]. induction P as [|t ts PT P IH]; cbn; constructor; auto. unfold fields_level. destruct gs as [|l gs].
  - rewrite subst_free; [now apply knows_ground, proper_ground|]. apply visit_false_iff. intros [] _; reflexivity.
  - apply knows_inside. intros E3. apply subst_ground; [now apply L|now apply proper_ground].
Qed.
Lemma proper_adt : forall l gs us, Forall proper us -> proper (Adt l gs us us).
Proof. intros l gs us F x P. inversion P as [|? ? ? I Q]; subst; [reflexivity|]. rewrite Forall_forall in F. cbn in I. apply in_app_iff in I. destruct I as [I|I]; eapply F; eauto. Qed.
Lemma d_adt_vars : forall g E G n n' l gs us xs, gives gs xs g n n' -> Forall proper us ->
  does g E G n (fun _ => instantiate gs [] (Adt l gs us us)) G n' (fun '(_, a) => means g a (Adt l gs (map (substitute (mkSubst gs xs)) us) (map (substitute (mkSubst gs xs)) us)) /\ knows (outline gs (Adt l gs us us)) a).
Proof.
  intros g E G n n' l gs us xs K P. eapply does_imp; [|eapply (d_instantiate _ _ _ _ _ gs xs [] (Adt l gs us us)); [exact K|constructor|now apply proper_adt]]. intros [qs q] (_ & _ & M & KN). auto.
Qed.
End Declared.
