(** Well-typed expressions are walked without an error: proofs. *)
From Verif Require Import Base TyModel TyProps UnifyModel UnifyProps InferModel InferProofs InferResolve InferTotal InferProps WalkModel WalkTyping WalkSolve WalkRun WalkPat.

Section Rules.
Context {d : db}.
Variables (fields : loc -> nat -> option ty) (ret : ty).
Hypothesis ret_proper : proper ret.
Definition walks (G : env) (e : expr) (t : ty) (k : level) (p c : bool) (g : sol) (n n' : nat) : Prop :=
  forall E ex te, fits g ex t te k c -> does g E G n (fun f => infer f d fields ret e ex) G n' (post g t te k p).
Definition walks_branch (G : env) (b : branch) (t : ty) (k : level) (p c : bool) (g : sol) (n n' : nat) : Prop :=
  forall E ex te, fits g ex t te k c -> does g E G n (fun f => infer_branch f d fields ret b ex) G n' (post g t te k p).
Definition walks_block (G : env) (b : block) (t : ty) (k : level) (p c : bool) (g : sol) (n n' : nat) : Prop :=
  forall E ex te co, fits g ex t te k c -> does g E G n (fun f => infer_block f d fields ret b ex co) G n' (post g t te k (if co : bool then false else p)).
Definition walks_args (G : env) (xs : list bool) (es : exprs) (ts : list ty) (g : sol) (n n' : nat) : Prop :=
  forall E ps eps, Forall2 (means g) ps ts -> eps = [] \/ Forall2 (means g) eps ts -> Forall proper ts -> known_at xs ps -> eps = [] \/ known_at xs eps ->
    does g E G n (fun f => infer_args f d fields ret es ps eps) G n' (fun _ => True).
Definition walks_tuple (G : env) (es : exprs) (ts : list ty) (k : level) (g : sol) (n n' : nat) : Prop :=
  forall E ex, ex = [] \/ Forall2 (means g) ex ts -> Forall proper ts ->
    does g E G n (fun f => infer_tuple f d fields ret es ex) G n' (fun us => Forall2 (means g) us ts /\ (3 <= k -> Forall (fun t => has_infer t = false) us)).
Definition walks_fields (G : env) (l : loc) (gs : list loc) (vs : list ty) (es : exprs) (fs : list nat) (g : sol) (n n' : nat) : Prop :=
  forall E ws, Forall2 (means g) ws vs -> does g E G n (fun f => infer_fields f d fields ret es l (mkSubst gs ws) fs) G n' (fun _ => True).

(** without expectation *)
Lemma w_none : forall G e t k p c g n n' E, walks G e t k p c g n n' -> does g E G n (fun f => infer f d fields ret e None) G n' (fun u => means g u t /\ knows (lv k p) u).
Proof. intros G e t k p c g n n' E K. eapply does_imp; [|apply K; reflexivity]. intros u. apply post_same. Qed.
(** infer_expr_coerceable_to *)
Lemma w_coerceable : forall G e t k p c g n n' E u te, walks G e t k p c g n n' -> fits g (Some u) t te k c ->
  does g E G n (fun f => bindm (infer f d fields ret e (Some u)) (fun a => bindm (coerce_m f d a u) (fun _ => pure a))) G n' (post g t te k p).
Proof. intros G e t k p c g n n' E u te K F. eapply does_bind; [apply K; exact F|]. intros a PA. eapply does_bind; [eapply d_after; eauto|]. intros _ _. now apply does_pure. Qed.
Lemma w_cond : forall G e t k p c g n n' E, walks G e t k p c g n n' -> goes k t TBool ->
  does g E G n (fun f => bindm (infer f d fields ret e (Some TBool)) (fun a => bindm (coerce_m f d a TBool) (fun _ => pure a))) G n' (fun _ => True).
Proof.
  intros G e t k p c g n n' E K GO. eapply does_imp; [|eapply w_coerceable; [exact K|]]; [auto|]. apply (fits_goes g TBool t TBool); auto; [now apply means_refl|]. intros x P. inversion P as [|? ? ? I]; subst; [reflexivity|destruct I].
Qed.

Lemma r_lit : forall G l t k, lit_type l t k -> ok (walks G (Lit l) t k true false).
Proof.
  intros G l t k H. inversion H; subst.
  - apply ok_ret. intros g n E ex te _. cbn [infer infer_literal]. apply does_end, does_pure, post_know; [now apply means_refl|now apply knows_ground].
  - apply ok_ret. intros g n E ex te _. cbn [infer infer_literal]. apply does_end, does_pure, post_know; [now apply means_refl|now apply knows_ground].
  - apply (ok_fresh _ k0 Unit). intros g n SI _ E ex te _. cbn [infer infer_literal]. apply does_end. eapply does_bind; [apply d_inc|]. intros i ->. apply does_pure, post_know; [rewrite <- SI; constructor|]. split; [|split]; intros; [discriminate|lia|lia].
  - apply ok_ret. intros g n E ex te _. cbn [infer infer_literal]. apply does_end, does_pure, post_know; [now apply means_refl|now apply knows_ground].
  - apply ok_ret. intros g n E ex te _. cbn [infer infer_literal]. apply does_end, does_pure, post_know; [now apply means_refl|now apply knows_ground].
Qed.
Lemma r_unit : forall G, ok (walks G UnitE Unit 3 true false).
Proof. intros G. apply ok_ret. intros g n E ex te _. cbn [infer]. apply does_end, does_pure, post_know; [now apply means_refl|now apply knows_ground]. Qed.
Lemma r_path : forall G x t k, G x = Some (t, k) -> ok (walks G (Path x) t k true false).
Proof. intros G x t k H. apply ok_ret. intros g n E ex te _. cbn [infer]. apply does_end. eapply does_imp; [|apply d_path; exact H]. intros u [M K]. now apply post_know. Qed.
Lemma r_paren : forall G e t k p c, ok (walks G e t k p c) -> ok (walks G (Paren e) t k p c).
Proof. intros G e t k p c H. eapply ok_map; [exact H|]. intros g n n' K E ex te F. cbn [infer]. apply does_end. now apply K. Qed.
Lemma F_infer : forall ps, Forall proper ps -> Forall (fun t => is_infer t = false) ps.
Proof. intros ps H. eapply Forall_impl; [|exact H]. intros t P. now apply ground_not_infer, proper_ground. Qed.
Lemma d_ground : forall g E G n t, proper t -> does g E G n (fun f => resolve_m f t) G n (fun u => u = t).
Proof. intros g E G n t P. eapply does_imp; [|apply d_resolve; now apply means_proper]. intros u (_ & _ & H). apply H. now apply proper_ground. Qed.
Lemma fits_plain : forall g ex t te k c, fits g ex t te k c -> t <> Never -> ~ reference t -> te = t.
Proof. intros g [u|] t te k c F NN NR; auto. destruct F as (_ & _ & [->|[(-> & _)|(x & -> & _)]] & _); auto; [congruence|]. exfalso. apply NR. eexists _, _. reflexivity. Qed.
(** ** Calls *)
Lemma not_reference_bare : forall gs vs r, Forall2 allowed gs vs -> proper r -> bare gs r = true -> exists l v, r = TypeParam l /\ substitute (mkSubst gs vs) r = v /\ ~ reference v.
Proof.
  intros gs vs r F P B. destruct r; try discriminate. cbn in B. exists p, (substitute (mkSubst gs vs) (TypeParam p)). split; auto. split; auto. unfold substitute. cbn [fold_params]. unfold get_ty. cbn [s_keys s_vals]. clear P. revert B. induction F as [|l v gs vs A F IH]; intros B; [discriminate|]. cbn in B |- *.
  rewrite Nat.eqb_sym in B. destruct (l =? p) eqn:E; [apply A|]. apply IH. exact B.
Qed.
Lemma result_known : forall g ex gs vs r q te k c, Forall2 allowed gs vs -> proper r -> proper (substitute (mkSubst gs vs) r) -> knows (outline gs r) q -> fits g ex (substitute (mkSubst gs vs) r) te k c -> is_infer q = false \/ te = substitute (mkSubst gs vs) r.
Proof.
  intros g ex gs vs r q te k c F P PS K FT. destruct (bare gs r) eqn:B.
  - right. destruct (not_reference_bare gs vs r F P B) as (l & v & -> & ES & NR). rewrite ES in *. eapply fits_plain; [exact FT| |exact NR]. intros ->. apply proper_here in PS. discriminate.
  - left. apply (knows_2 (outline gs r)); auto. unfold outline. rewrite B. destruct (mentions gs r); lia.
Qed.
Lemma r_call : forall G gs vs ps r args, Forall2 allowed gs vs -> Forall proper vs -> Forall proper ps -> proper r -> Forall proper (map (substitute (mkSubst gs vs)) ps) -> proper (substitute (mkSubst gs vs) r) ->
  ok (walks_args G (map (bare gs) ps) args (map (substitute (mkSubst gs vs)) ps)) -> ok (walks G (Call gs ps r args) (substitute (mkSubst gs vs) r) (outline gs r) true false).
Proof.
  intros G gs vs ps r args FA PV PP PR PPS PRS H. eapply ok_seq; [apply (ok_vars_for gs vs FA PV)|exact H|]. intros g n n1 n2 KV K E ex te F. cbn [infer]. apply does_end. eapply does_bind; [eapply d_instantiate; [exact KV|exact PP|exact PR]|]. intros [qs q] (MQ & KQ & MR & KR).
  eapply does_bind; [eapply d_expected_args; [exact MQ|exact MR|eapply result_known; eauto|exact F]|].
  intros eps HE. eapply does_bind; [apply (K E qs eps); auto|].
  - destruct HE as [->|(HE & _)]; auto.
  - destruct HE as [->|(_ & HE)]; auto.
  - intros _ _. eapply does_imp; [|apply d_resolve; exact MR]. intros u (MU & KU & _). apply post_know; auto.
Qed.
Lemma r_args_nil : forall G, ok (walks_args G [] ENil []).
Proof. intros G. apply ok_ret. intros g n E ps eps _ _ _ _ _. cbn [infer_args]. now apply does_pure. Qed.
Lemma r_args_cons : forall G x xs e t k p c es u us, ok (walks G e t k p c) -> (x = true -> t = u /\ c = false) -> goes k t u -> ok (walks_args G xs es us) -> ok (walks_args G (x :: xs) (ECons e es) (u :: us)).
Proof.
  intros G x xs e t k p c es u us H X GO HS. eapply ok_seq; [exact H|exact HS|]. intros g n n1 n2 K KS E ps eps FP FE PP NP NE. inversion FP as [|p0 u0 ps' us' M0 FP']; subst. inversion PP as [|? ? PU PP']; subst. inversion NP as [|? ? ? ? NP0 NP']; subst. cbn [infer_args].
  assert (MH : means g (hd p0 eps) u) by (destruct FE as [->|FE]; auto; inversion FE; subst; auto).
  assert (NH : x = false -> is_infer (hd p0 eps) = false) by (destruct NE as [->|NE]; auto; inversion NE; subst; auto).
  eapply does_bind; [apply d_resolve; exact MH|]. intros w R.
  assert (F : fits g (Some w) t u k c).
  { destruct x; [destruct (X eq_refl) as [-> ->]; apply fits_same; auto; [apply R|discriminate]|]. apply fits_goes; auto; [apply R|]. eapply resolved_infer; [exact R|]. auto. }
  eapply does_bind; [apply K; exact F|]. intros a PA. eapply does_bind; [eapply d_after; eauto|]. intros _ _. cbn [tl]. apply KS; auto.
  - destruct FE as [->|FE]; auto. inversion FE; subst; auto.
  - destruct NE as [->|NE]; auto. inversion NE; subst; auto.
Qed.

Lemma means_seq_of : forall g m t u, means g t u -> means g (Seq m t) (Seq m u).
Proof. intros g m t u H. apply m_node; auto. constructor; [exact H|constructor]. Qed.
Lemma is_ref_reference : forall t, ~ reference t -> is_ref t = false.
Proof. intros t H. destruct t; auto. exfalso. apply H. eexists _, _. reflexivity. Qed.
Lemma d_coerce_self : forall g E G n self t q p1, means g self t -> is_infer self = false -> receives t p1 -> proper p1 -> means g q p1 -> is_infer q = false -> does g E G n (fun f => coerce_self f d self q) G n (fun _ => True).
Proof.
  intros g E G n self t q p1 M I RC P MQ IQ.
  assert (C : forall x, autoborrow self q = Some x -> means g x p1 -> does g E G n (fun f => coerce_self f d self q) G n (fun _ => True)).
  { intros x AB MX. unfold coerce_self. rewrite AB. eapply does_bind; [eapply d_combine; [exact P|exact MX|exact MQ]|]. intros _ _. now apply does_pure. }
  inversion RC; subst.
  - apply (C self); auto. destruct q; auto. destruct (means_ref_head _ _ _ _ MQ) as (m & u & ->). destruct (means_ref _ _ _ _ MQ IQ) as (q' & EQ & _). injection EQ as -> ->. destruct (means_ref _ _ _ _ M I) as (s' & -> & _). destruct m; reflexivity.
  - destruct (means_ref _ _ _ _ MQ IQ) as (q' & -> & MQ'). apply (C (Reference m self)); [|now apply means_ref_of]. cbn [autoborrow]. pose proof (means_is_ref _ _ _ M (is_ref_reference _ H)) as NR. destruct self; auto; discriminate.
  - destruct (means_ref _ _ _ _ M I) as (s' & -> & M'). destruct (means_ref _ _ _ _ MQ IQ) as (q' & -> & MQ'). apply (C (Reference false s')); auto. now apply means_ref_of.
Qed.
Lemma r_method : forall G recv t k p c gs vs p1 ps r args, ok (walks G recv t k p c) -> 2 <= lv k p -> Forall2 allowed gs vs -> Forall proper vs -> Forall proper (p1 :: ps) -> proper r -> bare gs p1 = false ->
  Forall proper (map (substitute (mkSubst gs vs)) (p1 :: ps)) -> proper (substitute (mkSubst gs vs) r) -> receives t (substitute (mkSubst gs vs) p1) ->
  ok (walks_args G (map (bare gs) ps) args (map (substitute (mkSubst gs vs)) ps)) -> ok (walks G (Method recv gs (p1 :: ps) r args) (substitute (mkSubst gs vs) r) (outline gs r) true false).
Proof.
  intros G recv t k p c gs vs p1 ps r args HR L FA PV PP PR B1 PPS PRS RC HA. eapply ok_seq3; [exact HR|apply (ok_vars_for gs vs FA PV)|exact HA|]. intros g n n1 n2 n3 K KV KA E ex te F. cbn [infer]. apply does_end. eapply does_bind; [eapply w_none; exact K|]. intros self [MS KS].
  eapply does_bind; [apply d_resolve; exact MS|]. intros self' R. assert (IS : is_infer self' = false) by (eapply resolved_infer; [exact R|]; eapply knows_2; eauto).
  eapply does_bind; [eapply d_instantiate; [exact KV|exact PP|exact PR]|]. intros [qs0 q0] (MQ0 & KQ0 & MR0 & KR0).
  eapply does_bind; [apply d_resolve_all; exact MQ0|]. intros qs (MQ & KQ1). specialize (KQ1 _ KQ0). rename KQ1 into KQ. clear qs0 MQ0 KQ0.
  eapply does_bind; [apply d_resolve; exact MR0|]. intros q (MR & KR1 & _). specialize (KR1 _ KR0). rename KR1 into KR. clear q0 MR0 KR0.
  eapply does_bind; [eapply d_expected_args; [exact MQ|exact MR|eapply result_known; eauto|exact F]|].
  intros eps HE. cbn [map] in *. inversion MQ as [|q1 ? qs' ? MQ1 MQS]; subst. inversion KQ as [|? ? ? ? KQ1 KQS]; subst. inversion PPS as [|? ? PP1 PPS']; subst.
  assert (MH : means g (hd q1 eps) (substitute (mkSubst gs vs) p1)) by (destruct HE as [->|(HE & _)]; auto; inversion HE; subst; auto).
  assert (IH : is_infer (hd q1 eps) = false) by (destruct HE as [->|(_ & HE)]; [auto|specialize (HE _ KQ); inversion HE; subst; auto]).
  eapply does_bind; [|intros _ _; apply does_pure, post_know; [exact MR|exact KR]].
  eapply does_bind; [apply d_resolve; exact MH|]. intros e' RE. eapply does_bind; [eapply d_coerce_self; [apply R|exact IS|exact RC|exact PP1|apply RE|eapply resolved_infer; [exact RE|exact IH]]|]. intros _ _. apply KA; auto.
  - destruct HE as [->|(HE & _)]; auto. inversion HE; subst; auto.
  - destruct HE as [->|(_ & HE)]; auto. specialize (HE _ KQ). inversion HE; subst; auto.
Qed.
Lemma d_meet : forall g E G n ks gs ws ys vs, Forall proper vs -> Forall2 (means g) ws vs -> Forall2 (means g) ys vs -> does g E G n (fun f => meet f d ks (mkSubst gs ws) (mkSubst gs ys)) G n (fun _ => True).
Proof.
  intros g E G n ks gs ws ys vs P F1 F2. induction ks as [|k ks IH]; cbn [meet]; [now apply does_pure|]. eapply (does_bind _ _ _ _ _ _ _ _ _ _ _ _ (fun _ => True)); [|intros _ _; exact IH]. unfold get_ty. cbn [s_keys s_vals].
  pose proof (assoc_means g gs ws vs k F1) as A1. pose proof (assoc_means g gs ys vs k F2) as A2.
  assert (PK : forall v, assoc k gs vs = Some v -> proper v) by (clear - P; revert gs; induction P as [|x vs PX P IH]; intros [|a gs] v; cbn; try discriminate; destruct (a =? k); [intros E; now injection E as <-|apply IH]).
  destruct (assoc k gs vs) as [v|]; destruct (assoc k gs ws) as [x|]; try contradiction; [|now apply does_pure]. destruct (assoc k gs ys) as [y|]; [|destruct x; now apply does_pure].
  assert (C : does g E G n (fun f => bindm (combine_m f d x y) (fun _ => pure tt)) G n (fun _ => True)) by (eapply does_bind; [eapply d_combine; [apply PK; reflexivity|exact A1|exact A2]|]; intros; now apply does_pure).
  destruct x; auto. now apply does_pure.
Qed.
Lemma r_struct : forall G l gs us vs fs es, for_params gs us vs -> ok (walks_fields G l gs vs es fs) -> ok (walks G (StructLit l gs us fs es) (Adt l gs vs vs) (outline gs (Adt l gs us us)) true false).
Proof.
  intros G l gs us vs fs es (xs & FA & PX & PU & PV & ->) H. eapply ok_seq; [apply (ok_vars_for gs xs FA PX)|exact H|]. set (vs := map (substitute (mkSubst gs xs)) us) in *. intros g n n1 n2 KX K E ex te F. cbn [infer]. apply does_end.
  eapply does_bind; [eapply d_expected; exact F|]. intros ex' (_ & F'). eapply does_bind; [eapply d_adt_vars; eauto|]. intros [qs a] [MA KA].
  assert (NI : forall b, knows (outline gs (Adt l gs us us)) b -> is_infer b = false) by (intros b KB; apply (knows_2 _ _ (le_n 2)); eapply knows_le; [|exact KB]; unfold outline; cbn [bare]; destruct (mentions _ _); lia).
  eapply (does_bind _ _ _ _ _ _ _ _ _ _ _ _ (fun b => means g b (Adt l gs vs vs) /\ knows (outline gs (Adt l gs us us)) b)).
  - destruct ex' as [x|]; [|apply does_pure; auto]. destruct x; try (apply does_pure; auto). assert (ET : te = Adt l gs vs vs) by (eapply fits_plain; [exact F'|discriminate|intros (m & u & Z); discriminate]). subst te.
    assert (MX : means g (Adt l0 keys vals args) (Adt l gs vs vs)) by apply F'. destruct (means_adt _ _ _ _ _ _ MX eq_refl) as (v' & x' & EX & F1 & F2). injection EX as -> -> -> ->. destruct (means_adt _ _ _ _ _ _ MA (NI _ KA)) as (ws & ys & -> & W1 & W2). cbn [adt_subst].
    eapply does_bind; [eapply d_meet; eauto|]. intros _ _. eapply does_imp; [|apply d_resolve; exact MA]. intros b R. split; [apply R|]. now apply R.
  - intros b [MB KB]. destruct (means_adt _ _ _ _ _ _ MB (NI _ KB)) as (ws & ys & -> & W1 & W2). cbn [adt_subst]. eapply does_bind; [apply K; exact W1|]. intros _ _. eapply does_imp; [|apply d_resolve; exact MB]. intros u R. apply post_know; [apply R|now apply R].
Qed.
Lemma r_fields_nil : forall G l gs vs, ok (walks_fields G l gs vs ENil []).
Proof. intros G l gs vs. apply ok_ret. intros g n E ws _. cbn [infer_fields]. now apply does_pure. Qed.
Lemma r_fields_cons : forall G l gs vs f t e te k p c es fs, fields l f = Some t -> proper t -> proper (substitute (mkSubst gs vs) t) -> ok (walks G e te k p c) -> goes k te (substitute (mkSubst gs vs) t) -> (bare gs t = true -> te = substitute (mkSubst gs vs) t /\ c = false) ->
  ok (walks_fields G l gs vs es fs) -> ok (walks_fields G l gs vs (ECons e es) (f :: fs)).
Proof.
  intros G l gs vs f t e te k p c es fs EF PT PS H GO B HS. eapply ok_seq; [exact H|exact HS|]. intros g n n1 n2 K KS E ws F. cbn [infer_fields]. rewrite EF. assert (MT : means g (substitute (mkSubst gs ws) t) (substitute (mkSubst gs vs) t)) by (apply subst_means; auto; now apply proper_ground).
  assert (FT : fits g (Some (substitute (mkSubst gs ws) t)) te (substitute (mkSubst gs vs) t) k c).
  { destruct (bare gs t) eqn:BT; [destruct (B eq_refl) as [-> ->]; apply fits_same; auto; discriminate|]. apply fits_goes; auto. apply subst_infer; auto. now apply ground_not_infer, proper_ground. }
  eapply does_bind; [apply K; exact FT|]. intros a PA. eapply does_bind; [eapply d_after; eauto|]. intros _ _. cbn [tl]. apply KS. exact F.
Qed.
Lemma r_field : forall G e l gs vs xs f t k p c, ok (walks G e (Adt l gs vs xs) k p c) -> 2 <= lv k p -> fields l f = Some t -> proper t -> ok (walks G (Field e f) (substitute (mkSubst gs vs) t) (field_level (lv k p) gs t) true false).
Proof.
  intros G e l gs vs xs f t k p c H L EF P. eapply ok_map; [exact H|]. intros g n n' K E ex te F. cbn [infer]. apply does_end. eapply does_bind; [eapply w_none; exact K|]. intros u [MU KU]. eapply does_bind; [apply d_resolve; exact MU|]. intros w R.
  assert (KW : knows (lv k p) w) by now apply R. destruct (means_adt g w l gs vs xs) as (ws & ys & -> & W1 & W2); [apply R|eapply knows_2; eauto|]. cbn [unwrap_all_refs]. rewrite EF. apply does_pure, post_know; [apply subst_means; auto; now apply proper_ground|].
  apply knows_field; auto. intros E3. rewrite E3 in KW. apply Forall_forall. intros x IX. apply (no_infer_child _ _ (knows_3 _ KW)). cbn. apply in_app_iff. auto.
Qed.
Lemma r_field_ref : forall G e m l gs vs xs f t c, ok (walks G e (Reference m (Adt l gs vs xs)) 3 true c) -> fields l f = Some t -> proper t -> ok (walks G (Field e f) (substitute (mkSubst gs vs) t) 3 true false).
Proof.
  intros G e m l gs vs xs f t c H EF P. eapply ok_map; [exact H|]. intros g n n' K E ex te F. cbn [infer]. apply does_end. eapply does_bind; [eapply w_none; exact K|]. intros u [MU KU]. cbn [lv] in KU. pose proof (knows_3 _ KU) as GU. eapply does_bind; [apply d_resolve; exact MU|]. intros w (_ & _ & GW). rewrite (GW GU).
  destruct (means_ref _ _ _ _ MU (ground_not_infer _ GU)) as (u' & -> & MU'). rewrite infer_ref in GU. destruct (means_adt g u' l gs vs xs MU' (ground_not_infer _ GU)) as (ws & ys & -> & W1 & W2). cbn [unwrap_all_refs]. rewrite EF. apply does_pure, post_know; [apply subst_means; auto; now apply proper_ground|].
  apply knows_ground, subst_ground; [|now apply proper_ground]. apply Forall_forall. intros x IX. apply (no_infer_child _ _ GU). cbn. apply in_app_iff. auto.
Qed.
Lemma F2_repeat : forall g a t n, means g a t -> Forall2 (means g) (repeat a n) (repeat t n).
Proof. induction n; intros; cbn; constructor; auto. Qed.
Lemma F_repeat : forall (P : ty -> Prop) t n, P t -> Forall P (repeat t n).
Proof. induction n; intros; cbn; constructor; auto. Qed.
Lemma fresh_means : forall g n t, proper t -> sv g (S n) = t -> means g (Var (mkVar None (S n))) t.
Proof. intros g n t P SV. rewrite <- SV. apply (m_var g (mkVar None (S n))); cbn; [now rewrite SV|discriminate]. Qed.
Lemma known_any : forall ps xs, length xs = length ps -> Forall (fun x => x = true) xs -> known_at xs ps.
Proof. intros ps xs L H. unfold known_at. revert ps L. induction H as [|x xs -> H IH]; intros [|p ps] L; try discriminate; constructor; [discriminate|]. apply IH. now injection L. Qed.
Lemma r_vec : forall G args t, proper t -> ok (walks_args G (repeat true (len_exprs args)) args (repeat t (len_exprs args))) -> ok (walks G (Vec args) (Seq SVector t) 2 true false).
Proof.
  intros G args t P H. apply (ok_seq (fun g n n' => n' = S n /\ sv g (S n) = t) (walks_args G (repeat true (len_exprs args)) args (repeat t (len_exprs args)))); auto; [apply (ok_fresh _ U8 t); auto|].
  intros g n n1 n2 [-> SV] K E ex te F. cbn [infer]. apply does_end. eapply does_bind; [apply d_inc|]. intros i ->. assert (MV : means g (Var (mkVar None (S n))) t) by now apply fresh_means.
  eapply does_bind; [apply d_resolve; exact MV|]. intros a RA. eapply does_bind; [eapply d_expected_args; [apply F2_repeat; apply RA|apply means_seq_of; exact MV|now left|exact F]|].
  intros eps HE. eapply does_bind; [apply K|].
  - apply F2_repeat. apply RA.
  - destruct HE as [->|(HE & _)]; auto.
  - now apply F_repeat.
  - apply known_any; [now rewrite !repeat_length|apply Forall_forall; intros x I; now apply repeat_spec in I].
  - destruct HE as [->|(HE & _)]; auto. right. apply known_any; [rewrite (F2_len _ _ _ _ _ HE), !repeat_length; auto|apply Forall_forall; intros x I; now apply repeat_spec in I].
  - intros _ _. eapply does_imp; [|apply d_resolve; apply means_seq_of; exact MV]. intros w RW. apply post_know; [apply RW|]. apply RW. split; [|split]; intros; auto; [discriminate|lia].
Qed.
Lemma r_vec_of : forall G args t, proper t -> ok (walks_args G (repeat true (len_exprs args)) args (repeat t (len_exprs args))) -> ok (walks G (VecOf t args) (Seq SVector t) 2 true false).
Proof.
  intros G args t P H. apply (ok_seq (fun g n n' => n' = S n /\ sv g (S n) = t) (walks_args G (repeat true (len_exprs args)) args (repeat t (len_exprs args)))); auto; [apply (ok_fresh _ U8 t); auto|].
  intros g n n1 n2 [-> SV] K E ex te F. cbn [infer]. apply does_end. eapply does_bind; [apply d_inc|]. intros i ->. assert (MV : means g (Var (mkVar None (S n))) t) by now apply fresh_means.
  eapply does_bind; [eapply d_combine; [exact P|exact MV|now apply means_proper]|]. intros _ _. eapply does_bind; [apply d_resolve; exact MV|]. intros a RA. eapply does_bind; [eapply d_expected_args; [apply F2_repeat; apply RA|apply means_seq_of; exact MV|now left|exact F]|].
  intros eps HE. eapply does_bind; [apply K|].
  - apply F2_repeat. apply RA.
  - destruct HE as [->|(HE & _)]; auto.
  - now apply F_repeat.
  - apply known_any; [now rewrite !repeat_length|apply Forall_forall; intros x I; now apply repeat_spec in I].
  - destruct HE as [->|(HE & _)]; auto. right. apply known_any; [rewrite (F2_len _ _ _ _ _ HE), !repeat_length; auto|apply Forall_forall; intros x I; now apply repeat_spec in I].
  - intros _ _. eapply does_imp; [|apply d_resolve; apply means_seq_of; exact MV]. intros w RW. apply post_know; [apply RW|]. apply RW. split; [|split]; intros; auto; [discriminate|lia].
Qed.
Lemma r_assert_eq : forall G a t k p b l q, proper t -> ok (walks G a t k p false) -> ok (walks G b t l q false) -> ok (walks G (AssertEq (ECons a (ECons b ENil))) Unit 3 true false).
Proof.
  intros G a t k p b l q P H1 H2. apply (ok_seq3 (fun g n n' => n' = S n /\ sv g (S n) = t) (walks G a t k p false) (walks G b t l q false)); auto; [apply (ok_fresh _ U8 t); auto|].
  intros g n n1 n2 n3 [-> SV] K1 K2 E ex te F. cbn [infer]. apply does_end. eapply does_bind; [apply d_inc|]. intros i ->. assert (MV : means g (Var (mkVar None (S n))) t) by now apply fresh_means.
  eapply does_bind; [|intros _ _; apply does_pure, post_know; [now apply means_refl|now apply knows_ground]]. cbn [infer_args hd tl].
  eapply does_bind; [apply d_resolve; exact MV|]. intros w RW. assert (F1 : fits g (Some w) t t k false) by (apply fits_same; [apply RW|exact P|discriminate]). eapply does_bind; [apply K1; exact F1|]. intros x PX. eapply does_bind; [eapply d_after; eauto|]. intros _ _.
  eapply does_bind; [apply d_resolve; exact MV|]. intros w2 RW2. assert (F2 : fits g (Some w2) t t l false) by (apply fits_same; [apply RW2|exact P|discriminate]). eapply does_bind; [apply K2; exact F2|]. intros y PY. eapply does_bind; [eapply d_after; eauto|]. intros _ _. apply does_pure. instantiate (1 := fun _ => True). exact I.
Qed.
Lemma means_tuple_of : forall g us ts, Forall2 (means g) us ts -> means g (Tuple us) (Tuple ts).
Proof. intros g us ts F. apply m_node; auto. unfold head. cbn. f_equal. apply map_unknown. eapply F2_len; eauto. Qed.
Lemma ground_tuple : forall us, Forall (fun t => has_infer t = false) us -> has_infer (Tuple us) = false.
Proof. intros us H. unfold has_infer. rewrite visit_eq. cbn [children orb]. induction H; auto. cbn. unfold has_infer in H. rewrite H. auto. Qed.
Lemma r_tuple_nil : forall G, ok (walks_tuple G ENil [] 3).
Proof. intros G. apply ok_ret. intros g n E ex _ _. cbn [infer_tuple]. apply does_pure. auto. Qed.
Lemma r_tuple_cons : forall G e t k p es ts l, ok (walks G e t k p false) -> ok (walks_tuple G es ts l) -> ok (walks_tuple G (ECons e es) (t :: ts) (Nat.min (lv k p) l)).
Proof.
  intros G e t k p es ts l H HS. eapply ok_seq; [exact H|exact HS|]. intros g n n1 n2 K KS E ex FE PP. inversion PP as [|? ? PT PTS]; subst. cbn [infer_tuple].
  apply (does_bind g E _ _ (fun f => match ex with [] => infer f d fields ret e None | t0 :: _ => bindm (infer f d fields ret e (Some t0)) (fun a => bindm (coerce_m f d a t0) (fun _ => pure a)) end)) with (G1 := G) (n1 := n1) (P := fun a => means g a t /\ knows (lv k p) a).
  - destruct ex as [|t0 ex]; [eapply w_none; exact K|]. destruct FE as [FE|FE]; [discriminate|]. inversion FE; subst. eapply does_imp; [|eapply w_coerceable; [exact K|]]; [intros a; apply post_same|]. apply fits_same; auto. discriminate.
  - intros a [MA KA]. eapply does_bind; [apply KS; auto|].
    + destruct FE as [->|FE]; auto. inversion FE; subst. auto.
    + intros us [MU GU]. apply does_pure. split; [constructor; auto|]. intros L. constructor; [|apply GU; lia]. apply KA. lia.
Qed.
Lemma r_tuple : forall G es ts k, ok (walks_tuple G es ts k) -> proper (Tuple ts) -> ok (walks G (TupleE es) (Tuple ts) (around k) true false).
Proof.
  intros G es ts k H P. eapply ok_map; [exact H|]. intros g n n' K E ex te F. cbn [infer]. apply does_end. eapply does_bind; [eapply d_expected; exact F|]. intros ex' [_ F']. eapply does_bind; [apply K|].
  - assert (te = Tuple ts) by (eapply fits_plain; [exact F'|discriminate|intros (? & ? & ?); discriminate]). subst te. destruct ex' as [u|]; [|now left]. destruct F' as (M & _). destruct (is_infer u) eqn:I; [left; destruct u; try discriminate; auto|]. right. destruct (means_tuple _ _ _ M I) as (us & -> & FU). exact FU.
  - apply Forall_forall. intros x I. eapply proper_child; eauto.
  - intros us [MU GU]. apply does_pure, post_know; [now apply means_tuple_of|]. apply knows_around; auto. intros ->. apply ground_tuple. apply GU. lia.
Qed.
Lemma r_range : forall G lo hi t k p c l q, integral t -> ok (walks G lo t k p c) -> ok (walks G hi t l q false) -> ok (walks G (RangeE lo hi) (Seq SRange t) (around (lv k p)) true false).
Proof.
  intros G lo hi t k p c l q IT H1 H2. eapply ok_seq; [exact H1|exact H2|]. intros g n n1 n2 K1 K2 E ex te F. cbn [infer]. apply does_end. eapply does_bind; [eapply w_none; exact K1|]. intros a [MA KA].
  eapply does_bind; [eapply w_coerceable; [exact K2|apply fits_same; [exact MA|now apply proper_integral|discriminate]]|]. intros _ _. apply does_pure, post_know; [now apply means_seq_of|]. apply knows_around; auto. intros L. rewrite infer_seq. apply KA. lia.
Qed.
Lemma fits_unit : forall g ex te k c t l, fits g ex Unit te k c -> goes l t Unit -> exists te', fits g ex t te' l c.
Proof.
  intros g [u|] te k c t l F GO; [|exists t; reflexivity]. assert (te = Unit) by (eapply fits_plain; [exact F|discriminate|intros (? & ? & ?); discriminate]). subst te. destruct F as (M & P & _ & C). exists Unit. split; auto. split; auto. split; auto. inversion GO; subst; [now left|right; left; auto].
Qed.
Lemma r_if : forall G e tc k p c b t l q c', ok (walks G e tc k p c) -> goes k tc TBool -> ok (walks_branch G b t l q c') -> goes l t Unit -> ok (walks G (If e b) Unit 3 true c').
Proof.
  intros G e tc k p c b t l q c' H1 GC H2 GO. eapply ok_seq; [exact H1|exact H2|]. intros g n n1 n2 K1 K2 E ex te F. cbn [infer]. apply does_end. eapply does_bind; [eapply w_cond; eauto|]. intros _ _.
  destruct (fits_unit _ _ _ _ _ _ _ F GO) as (te' & F'). eapply does_bind; [apply K2; exact F'|]. intros _ _. apply does_pure, post_know; [now apply means_refl|now apply knows_ground].
Qed.
Lemma body : forall G b t k p c g n n' E, walks_branch G b t k p c g n n' -> goes k t Unit -> does g E G n (fun f => infer_branch f d fields ret b (Some Unit)) G n' (fun _ => True).
Proof.
  intros G b t k p c g n n' E K GO. eapply does_imp; [|apply K]; [auto|]. apply (fits_goes g Unit t Unit); auto; [now apply means_refl|]. intros x P. inversion P as [|? ? ? I]; subst; [reflexivity|destruct I].
Qed.
Lemma r_loop : forall G b t k p c r, ok (walks_branch G b t k p c) -> goes k t Unit -> r = Unit \/ r = Never -> ok (walks G (LoopE b) r 3 true false).
Proof.
  intros G b t k p c r H GO R. eapply ok_map; [exact H|]. intros g n n' K E ex te F. cbn [infer]. apply does_end. eapply does_bind; [eapply body; eauto|]. intros _ _. apply does_pure, post_know; [|now apply knows_ground]. destruct R as [->| ->]; [constructor|now apply means_refl].
Qed.
Lemma r_while : forall G e tc k p c b t l q c', ok (walks G e tc k p c) -> goes k tc TBool -> ok (walks_branch G b t l q c') -> goes l t Unit -> ok (walks G (While e b) Unit 3 true false).
Proof.
  intros G e tc k p c b t l q c' H1 GC H2 GO. eapply ok_seq; [exact H1|exact H2|]. intros g n n1 n2 K1 K2 E ex te F. cbn [infer]. apply does_end. eapply does_bind; [eapply w_cond; eauto|]. intros _ _.
  eapply does_bind; [eapply body; eauto|]. intros _ _. apply does_pure, post_know; [constructor|now apply knows_ground].
Qed.
Lemma r_for : forall G x e sk t k p c b tb l q c', ok (walks G e (Seq sk t) k p c) -> 2 <= lv k p -> G x = None -> ok (walks_branch (upd G x t (inside (lv k p))) b tb l q c') -> goes l tb Unit -> ok (walks G (For x e b) Unit 3 true false).
Proof.
  intros G x e sk t k p c b tb l q c' H1 L NX H2 GO. eapply ok_seq; [exact H1|exact H2|]. intros g n n1 n2 K1 K2 E ex te F. cbn [infer]. apply does_end. eapply does_bind; [eapply w_none; exact K1|]. intros a [MA KA]. eapply does_bind; [apply d_resolve; exact MA|]. intros w R.
  assert (IW : is_infer w = false) by (eapply resolved_infer; [exact R|]; eapply knows_2; eauto). destruct R as (MW & KW & GW). destruct (means_seq _ _ _ _ MW IW) as (w' & -> & MW').
  eapply does_bind; [apply (d_bind g E G n1 x t w' (inside (lv k p))); auto; apply knows_inside; intros L3; rewrite <- (infer_seq sk); apply (knows_3 (Seq sk w')); apply KW; rewrite L3 in KA; exact KA|]. intros _ _.
  apply (does_drop g E) with (G' := upd G x t (inside (lv k p))); [intros; now apply upd_keeps|]. eapply does_bind; [eapply body; eauto|]. intros _ _. apply does_pure, post_know; [constructor|now apply knows_ground].
Qed.
Lemma d_resolve_seq : forall g E G n sk t u, means g t u -> does g E G n (fun f => resolve_m f (Seq sk t)) G n (fun w => exists w', w = Seq sk w' /\ means g w' u /\ (forall k, knows k t -> knows k w')).
Proof.
  intros g E G n sk t u M s I. destruct (resolve_runs g (Seq sk t) (Seq sk u) s (i_agrees _ _ _ _ _ I) (means_seq_of _ _ _ _ M)) as (w & R & RW).
  assert (IW : is_infer w = false) by (eapply resolved_infer; [exact RW|reflexivity]). destruct RW as (MW & _). destruct (means_seq _ _ _ _ MW IW) as (w' & -> & MW'). exists s, (Seq sk w'). split; auto. split; auto. exists w'. split; auto. split; auto. intros k KT.
  destruct (resolve_runs g t u s (i_agrees _ _ _ _ _ I) M) as (v & RV & (_ & KV & _)). destruct R as [N1 R], RV as [N2 RV]. specialize (R (S (N1 + N2)) ltac:(lia)). specialize (RV (N1 + N2) ltac:(lia)). unfold resolve_m, resolve_out in R, RV.
  destruct (resolve (N1 + N2) (cx s) t) as [v'|] eqn:EV; [|discriminate]. cbn in RV. injection RV as ->. cbn in R. rewrite EV in R. cbn in R. injection R as <-. auto.
Qed.
Lemma r_for_range : forall G x lo hi t k p c l q b tb j r c', integral t -> ok (walks G lo t k p c) -> ok (walks G hi t l q false) -> G x = None -> ok (walks_branch (upd G x t (lv k p)) b tb j r c') -> goes j tb Unit -> ok (walks G (For x (RangeE lo hi) b) Unit 3 true false).
Proof.
  intros G x lo hi t k p c l q b tb j r c' IT H1 H2 NX H3 GO. eapply ok_seq3; [exact H1|exact H2|exact H3|]. intros g n n1 n2 n3 K1 K2 K3 E ex te F. cbn [infer]. apply does_end.
  eapply does_bind with (P := fun u => exists a, u = Seq SRange a /\ means g a t /\ knows (lv k p) a) (G1 := G) (n1 := n2).
  { apply does_end. eapply does_bind; [eapply w_none; exact K1|]. intros a [MA KA]. eapply does_bind; [eapply w_coerceable; [exact K2|apply fits_same; [exact MA|now apply proper_integral|discriminate]]|]. intros _ _. apply does_pure. eauto. }
  intros u (a & -> & MA & KA). eapply does_bind; [apply d_resolve_seq; exact MA|]. intros w (w' & -> & MW & KW). eapply does_bind; [apply (d_bind g E G n2 x t w' (lv k p)); auto|]. intros _ _.
  apply (does_drop g E) with (G' := upd G x t (lv k p)); [intros; now apply upd_keeps|]. eapply does_bind; [eapply body; eauto|]. intros _ _. apply does_pure, post_know; [constructor|now apply knows_ground].
Qed.
Lemma r_break : forall G, ok (walks G Break Never 3 true false).
Proof. intros G. apply ok_ret. intros g n E ex te _. cbn [infer]. apply does_end, does_pure, post_know; [now apply means_refl|now apply knows_ground]. Qed.
Lemma r_return : forall G, ok (walks G Return Never 3 true false).
Proof. intros G. apply ok_ret. intros g n E ex te _. cbn [infer]. apply does_end, does_pure, post_know; [now apply means_refl|now apply knows_ground]. Qed.
Lemma r_return_e : forall G e t k p c, ok (walks G e t k p c) -> goes k t ret -> ok (walks G (ReturnE e) Never 3 true false).
Proof.
  intros G e t k p c H GO. eapply ok_map; [exact H|]. intros g n n' K E ex te _. cbn [infer]. apply does_end. eapply does_bind; [eapply w_coerceable; [exact K|apply fits_goes; [now apply means_proper|exact ret_proper|now apply ground_not_infer, proper_ground|exact GO]]|]. intros _ _. apply does_pure, post_know; [now apply means_refl|now apply knows_ground].
Qed.
Lemma r_abort : forall G e t k p c, ok (walks G e t k p c) -> code_type t -> ok (walks G (Abort e) Never 3 true false).
Proof.
  intros G e t k p c H CT. eapply ok_map; [exact H|]. intros g n n' K E ex te _. cbn [infer]. apply does_end. eapply does_bind; [eapply w_none; exact K|]. intros a [MA _]. eapply does_bind; [eapply d_any; eauto|]. intros _ _. apply does_pure, post_know; [now apply means_refl|now apply knows_ground].
Qed.
Lemma w_bool : forall G e t k p c g n n' E, walks G e t k p c g n n' -> goes k t TBool -> forall B (K : nat -> m B) G2 n2 Q, does g E G n' K G2 n2 Q ->
  does g E G n (fun f => bindm (infer f d fields ret e (Some TBool)) (fun a => bindm (coerce_m f d a TBool) (fun _ => K f))) G2 n2 Q.
Proof.
  intros G e t k p c g n n' E W GO B K G2 n2 Q H. assert (F : fits g (Some TBool) t TBool k c) by (apply (fits_goes g TBool t TBool); auto; [now apply means_refl|intros x P; inversion P as [|? ? ? I]; subst; [reflexivity|destruct I]]).
  eapply does_bind; [apply W; exact F|]. intros a PA. eapply does_bind; [eapply d_after; eauto|]. intros _ _. exact H.
Qed.
Lemma r_assert : forall G e tc k p c, ok (walks G e tc k p c) -> goes k tc TBool -> ok (walks G (Assert e) Unit 3 true false).
Proof. intros G e tc k p c H GO. eapply ok_map; [exact H|]. intros g n n' K E ex te _. cbn [infer]. apply does_end. eapply w_bool; eauto. apply does_pure, post_know; [now apply means_refl|now apply knows_ground]. Qed.
Lemma r_assert_code : forall G e tc k p c e' t l q c', ok (walks G e tc k p c) -> goes k tc TBool -> ok (walks G e' t l q c') -> code_type t -> ok (walks G (AssertCode e e') Unit 3 true false).
Proof.
  intros G e tc k p c e' t l q c' H1 GO H2 CT. eapply ok_seq; [exact H1|exact H2|]. intros g n n1 n2 K1 K2 E ex te _. cbn [infer]. apply does_end. eapply w_bool; eauto. eapply does_bind; [eapply w_none; exact K2|]. intros a [MA _]. eapply does_bind; [eapply d_any; eauto|]. intros _ _. apply does_pure, post_know; [now apply means_refl|now apply knows_ground].
Qed.
Lemma integral_plain : forall t, integral t -> t <> Never /\ ~ reference t.
Proof. intros t (k & -> & _). split; [discriminate|intros (? & ? & ?); discriminate]. Qed.
Lemma r_cast : forall G e t k p c u, ok (walks G e t k p c) -> integral u -> ok (walks G (Cast e u) u 3 true false).
Proof.
  intros G e t k p c u H IU. eapply ok_map; [exact H|]. intros g n n' K E ex te F. cbn [infer]. apply does_end. eapply does_bind; [eapply w_none; exact K|]. intros _ _. eapply does_bind; [eapply d_expected; exact F|]. intros ex' [_ F'].
  pose proof (proper_integral _ IU) as PU. destruct (integral_plain _ IU) as [N1 N2]. pose proof (fits_plain _ _ _ _ _ _ F' N1 N2). subst te.
  eapply does_bind with (P := fun _ => True) (G1 := G) (n1 := n'); [|intros _ _; apply does_pure, post_know; [now apply means_proper|now apply knows_ground, proper_ground]].
  destruct ex' as [w|]; [|now apply does_pure]. eapply does_imp; [|eapply d_combine; [exact PU|apply F'|now apply means_proper]]. auto.
Qed.
Lemma r_borrow : forall G m e t k p, ok (walks G e t k p false) -> proper (Reference m t) -> ok (walks G (Borrow m e) (Reference m t) (around (lv k p)) true false).
Proof.
  intros G m e t k p H P. eapply ok_map; [exact H|]. intros g n n' K E ex te F. cbn [infer]. apply does_end. eapply does_bind; [eapply d_expected; exact F|]. intros ex' [_ F']. destruct (proper_target _ _ P) as (NR & NT & PT).
  eapply does_bind; [apply (K E (as_ref ex') t)|].
  { destruct ex' as [u|]; [|reflexivity]. destruct F' as (M & _ & AC & _). assert (TE : exists m', te = Reference m' t) by (destruct AC as [<-|[(EQ & _)|(x & EQ & -> & _)]]; [eauto|discriminate|injection EQ as _ <-; eauto]). destruct TE as (m' & ->).
    destruct (is_infer u) eqn:I; [destruct u; try discriminate; reflexivity|]. destruct (means_ref _ _ _ _ M I) as (u' & -> & MU). cbn [as_ref]. apply fits_same; auto. discriminate. }
  intros a PA. apply post_same in PA. destruct PA as [MA KA]. pose proof (means_is_ref _ _ _ MA NR) as AR.
  assert (AT : is_tuple a = false). { destruct a; auto. destruct (means_cases _ _ _ MA) as [(i & Q & _)|[(i & Q & _)|[(Q & _)|[(Q & _)|(_ & HH & _)]]]]; try discriminate. destruct t; cbn in HH; try discriminate. }
  assert (RES : does g E G n' (fun _ : nat => pure (Reference m a)) G n' (post g (Reference m t) te (around (lv k p)) true)).
  { apply does_pure, post_know; [now apply means_ref_of|]. apply knows_around; auto. intros L. rewrite infer_ref. apply KA. lia. }
  eapply does_bind with (P := fun b => b = a) (G1 := G) (n1 := n'); [destruct a; try discriminate; now apply does_pure|]. intros b ->. exact RES.
Qed.
Lemma r_deref : forall G e m t k p c, ok (walks G e (Reference m t) k p c) -> 2 <= lv k p -> ok (walks G (Deref e) t (inside (lv k p)) true false).
Proof.
  intros G e m t k p c H L. eapply ok_map; [exact H|]. intros g n n' K E ex te F. cbn [infer]. apply does_end. eapply does_bind; [eapply w_none; exact K|]. intros a [MA KA]. eapply does_bind; [apply d_resolve; exact MA|]. intros w R.
  assert (IW : is_infer w = false) by (eapply resolved_infer; [exact R|]; eapply knows_2; eauto). destruct R as (MW & KW & _). destruct (means_ref _ _ _ _ MW IW) as (w' & -> & MW'). apply does_pure, post_know; auto. apply knows_inside. intros L3. rewrite <- (infer_ref m). apply (knows_3 (Reference m w')). apply KW. rewrite L3 in KA. exact KA.
Qed.
Lemma index_type : forall g ta t l, means g ta t -> integral t -> 1 <= l -> knows l ta -> (exists k, ta = Integer k) \/ (exists i, ta = IntVar i).
Proof.
  intros g ta t l M (k & -> & _) L (K1 & _). destruct (is_infer ta) eqn:I; [|destruct (means_integer _ _ _ M I) as [->| ->]; eauto]. destruct ta; try discriminate; eauto. exfalso. eapply K1; eauto.
Qed.
Lemma r_index : forall G b a t k p c ta l q c', ok (walks G b (Seq SVector t) k p c) -> 2 <= lv k p -> ok (walks G a ta l q c') -> integral ta -> 1 <= lv l q -> ok (walks G (Index b a) t (inside (lv k p)) true false).
Proof.
  intros G b a t k p c ta l q c' H1 L H2 IT LA. eapply ok_seq; [exact H1|exact H2|]. intros g n n1 n2 K1 K2 E ex te F. cbn [infer]. apply does_end. eapply does_bind; [eapply w_none; exact K1|]. intros tb [MB KB]. eapply does_bind; [apply d_resolve; exact MB|]. intros w R.
  assert (IW : is_infer w = false) by (eapply resolved_infer; [exact R|]; eapply knows_2; eauto). destruct R as (MW & KW & _). destruct (means_seq _ _ _ _ MW IW) as (w' & -> & MW'). cbn [unwrap_all_refs]. eapply does_bind; [eapply w_none; exact K2|]. intros ia [MI KI].
  assert (RES : does g E G n2 (fun _ : nat => pure w') G n2 (post g t te (inside (lv k p)) true)).
  { apply does_pure, post_know; auto. apply knows_inside. intros L3. rewrite <- (infer_seq SVector). apply (knows_3 (Seq SVector w')). apply KW. rewrite L3 in KB. exact KB. }
  destruct (index_type _ _ _ _ MI IT LA KI) as [(k' & ->)|(i & ->)]; exact RES.
Qed.
Lemma r_index_ref : forall G b a m t c ta l q c', ok (walks G b (Reference m (Seq SVector t)) 3 true c) -> ok (walks G a ta l q c') -> integral ta -> 1 <= lv l q -> ok (walks G (Index b a) t 3 true false).
Proof.
  intros G b a m t c ta l q c' H1 H2 IT LA. eapply ok_seq; [exact H1|exact H2|]. intros g n n1 n2 K1 K2 E ex te F. cbn [infer]. apply does_end. eapply does_bind; [eapply w_none; exact K1|]. intros tb [MB KB]. cbn [lv] in KB. pose proof (knows_3 _ KB) as GB. eapply does_bind; [apply d_resolve; exact MB|]. intros w (_ & _ & GW). rewrite (GW GB).
  destruct (means_ref _ _ _ _ MB (ground_not_infer _ GB)) as (u & -> & MU). rewrite infer_ref in GB. destruct (means_seq _ _ _ _ MU (ground_not_infer _ GB)) as (u' & -> & MU'). rewrite infer_seq in GB. cbn [unwrap_all_refs]. eapply does_bind; [eapply w_none; exact K2|]. intros ia [MI KI].
  assert (RES : does g E G n2 (fun _ : nat => pure u') G n2 (post g t te 3 true)) by (apply does_pure, post_know; auto; now apply knows_ground).
  destruct (index_type _ _ _ _ MI IT LA KI) as [(k' & ->)|(i & ->)]; exact RES.
Qed.
Lemma r_slice : forall G b a t k p c ta l q c', ok (walks G b (Seq SVector t) k p c) -> 2 <= lv k p -> ok (walks G a (Seq SRange ta) l q c') -> 2 <= lv l q -> ok (walks G (Index b a) (Seq SVector t) (lv k p) true false).
Proof.
  intros G b a t k p c ta l q c' H1 L H2 LA. eapply ok_seq; [exact H1|exact H2|]. intros g n n1 n2 K1 K2 E ex te F. cbn [infer]. apply does_end. eapply does_bind; [eapply w_none; exact K1|]. intros tb [MB KB]. eapply does_bind; [apply d_resolve; exact MB|]. intros w R.
  assert (IW : is_infer w = false) by (eapply resolved_infer; [exact R|]; exact (knows_2 _ _ L KB)). destruct R as (MW & KW & _). destruct (means_seq _ _ _ _ MW IW) as (w' & -> & MW'). cbn [unwrap_all_refs]. eapply does_bind; [eapply w_none; exact K2|]. intros ia [MI KI].
  destruct (means_seq _ _ _ _ MI (knows_2 _ _ LA KI)) as (i' & -> & _). apply does_pure, post_know; auto.
Qed.
Lemma r_block : forall G b t k p c, ok (walks_block G b t k p c) -> ok (walks G (Block b) t k false c).
Proof. intros G b t k p c H. eapply ok_map; [exact H|]. intros g n n' K E ex te F. cbn [infer]. apply does_end. exact (K E ex te true F). Qed.
Lemma supports : forall g u t, means g u t -> integral t -> supports_arithm_op u = true.
Proof. intros g u t M (k & -> & _). destruct (is_infer u) eqn:I; [destruct u; try discriminate; auto|]. destruct (means_integer _ _ _ M I) as [->| ->]; auto. Qed.
Lemma post_arith : forall g te co t u k, means g u t -> knows k u -> post g (if co : bool then Unit else t) te (if co then 3 else k) true (if co then Unit else u).
Proof. intros g te [|] t u k M K; apply post_know; auto; [now apply means_refl|now apply knows_ground]. Qed.
Lemma r_arith : forall G co l r t k p c j q, integral t -> ok (walks G l t k p c) -> ok (walks G r t j q false) -> ok (walks G (Arith Plain co l r) (if co then Unit else t) (if co then 3 else lv k p) true false).
Proof.
  intros G co l r t k p c j q IT H1 H2. pose proof (proper_integral _ IT) as PT. eapply ok_seq; [exact H1|exact H2|]. intros g n n1 n2 K1 K2 E ex te F. cbn [infer]. apply does_end. eapply does_bind; [eapply w_none; exact K1|]. intros ta [MA KA]. eapply does_bind; [apply d_resolve; exact MA|]. intros wa RA. rewrite (supports g wa t) by (auto; apply RA). cbn [negb andb].
  apply does_skip. eapply does_bind; [apply (K2 E (Some ta) t); apply fits_same; auto; discriminate|]. intros tb PB. apply post_same in PB. destruct PB as [MB _]. eapply does_bind; [apply d_resolve; exact MB|]. intros wb RB. rewrite (supports g wb t) by (auto; apply RB).
  apply does_skip. eapply does_bind; [eapply d_combine; eauto|]. intros res ->. apply does_pure. now apply post_arith.
Qed.
Lemma r_bit : forall G co l r t k p c j q, integral t -> ok (walks G l t k p c) -> ok (walks G r t j q false) -> ok (walks G (Arith BitOp co l r) (if co then Unit else t) (if co then 3 else lv k p) true false).
Proof.
  intros G co l r t k p c j q IT H1 H2. pose proof (proper_integral _ IT) as PT. eapply ok_seq; [exact H1|exact H2|]. intros g n n1 n2 K1 K2 E ex te F. cbn [infer]. apply does_end.
  eapply does_bind; [eapply w_coerceable; [exact K1|apply fits_same; [|exact PT|auto]]; destruct IT as (k' & -> & _); constructor|]. intros ta PA. apply post_same in PA. destruct PA as [MA KA].
  eapply does_bind; [eapply w_coerceable; [exact K2|apply fits_same; [exact MA|exact PT|discriminate]]|]. intros _ _. apply does_pure. now apply post_arith.
Qed.
Lemma r_annotated : forall G e t k p c, proper t -> ok (walks G e t k p c) -> ok (walks G (Annotated e t) t (lv k p) true false).
Proof.
  intros G e t k p c P H. eapply ok_map; [exact H|]. intros g n n' K E ex te F. cbn [infer]. apply does_end.
  eapply does_imp; [|eapply w_coerceable; [exact K|apply fits_same; [now apply means_proper|exact P|intros _; now apply ground_not_infer, proper_ground]]]. intros a PA. apply post_same in PA. now apply post_know.
Qed.
Lemma r_is : forall G e t k p c, ok (walks G e t k p c) -> ok (walks G (Is e) TBool 3 true false).
Proof. intros G e t k p c H. eapply ok_map; [exact H|]. intros g n n' K E ex te F. cbn [infer]. apply does_end. eapply does_bind; [eapply w_none; exact K|]. intros _ _. apply does_pure, post_know; [now apply means_refl|now apply knows_ground]. Qed.
Lemma r_minus : forall G e t k p c, integral t -> ok (walks G e t k p c) -> ok (walks G (Minus e) t (lv k p) true false).
Proof.
  intros G e t k p c IT H. pose proof (proper_integral _ IT) as PT. eapply ok_map; [exact H|]. intros g n n' K E ex te F. cbn [infer]. apply does_end.
  eapply does_imp; [|eapply w_coerceable; [exact K|apply fits_same; [|exact PT|auto]]; destruct IT as (k' & -> & _); constructor]. intros a PA. apply post_same in PA. now apply post_know.
Qed.
Lemma r_shift : forall G co l r t k p c u j q c', integral t -> ok (walks G l t k p c) -> ok (walks G r u j q c') -> goes j u (Integer U8) -> ok (walks G (Arith Shift co l r) (if co then Unit else t) (if co then 3 else lv k p) true false).
Proof.
  intros G co l r t k p c u j q c' IT H1 H2 GO. pose proof (proper_integral _ IT) as PT. eapply ok_seq; [exact H1|exact H2|]. intros g n n1 n2 K1 K2 E ex te F. cbn [infer]. apply does_end.
  eapply does_bind; [eapply w_coerceable; [exact K1|apply fits_same; [|exact PT|auto]]; destruct IT as (k' & -> & _); constructor|]. intros ta PA. apply post_same in PA. destruct PA as [MA KA].
  assert (P8 : proper (Integer U8)) by (apply proper_integral; exists U8; split; [reflexivity|discriminate]). eapply does_bind; [eapply w_coerceable; [exact K2|apply fits_goes; [now apply means_proper|exact P8|reflexivity|exact GO]]|]. intros _ _. apply does_pure. now apply post_arith.
Qed.
Lemma r_assign : forall G l r t k p c u j q c', proper t -> ok (walks G l t k p c) -> ok (walks G r u j q c') -> goes j u t -> (u = t /\ c' = false) \/ 2 <= lv k p -> ok (walks G (Assign l r) Unit 3 true false).
Proof.
  intros G l r t k p c u j q c' P H1 H2 GO CO. eapply ok_seq; [exact H1|exact H2|]. intros g n n1 n2 K1 K2 E ex te F. cbn [infer]. apply does_end. eapply does_bind; [eapply w_none; exact K1|]. intros ta [MA KA].
  eapply does_bind; [apply (w_coerceable G r u j q c' g n1 n2 E ta t); [exact K2|]|intros _ _; apply does_pure, post_know; [now apply means_refl|now apply knows_ground]]. destruct CO as [[-> ->]|L]; [apply fits_same; [exact MA|exact P|discriminate]|]. apply fits_goes; [exact MA|exact P|eapply knows_2; eauto|exact GO].
Qed.
Lemma r_logic : forall G l r t k p c u j q c', ok (walks G l t k p c) -> goes k t TBool -> ok (walks G r u j q c') -> goes j u TBool -> ok (walks G (Logic l r) TBool 3 true false).
Proof.
  intros G l r t k p c u j q c' H1 G1 H2 G2. eapply ok_seq; [exact H1|exact H2|]. intros g n n1 n2 K1 K2 E ex te F. cbn [infer]. apply does_end. eapply does_bind; [eapply w_cond; eauto|]. intros _ _. eapply does_bind; [eapply w_cond; eauto|]. intros _ _. apply does_pure, post_know; [now apply means_refl|now apply knows_ground].
Qed.
Lemma r_ord : forall G l r t k p c j q c', integral t -> ok (walks G l t k p c) -> ok (walks G r t j q c') -> ok (walks G (OrdE l r) TBool 3 true false).
Proof.
  intros G l r t k p c j q c' IT H1 H2. eapply ok_seq; [exact H1|exact H2|]. intros g n n1 n2 K1 K2 E ex te F. cbn [infer]. apply does_end. eapply does_bind; [eapply w_none; exact K1|]. intros ta [MA _]. eapply does_bind; [eapply w_none; exact K2|]. intros tb [MB _].
  eapply does_bind; [eapply d_coerce_same; [now apply proper_integral; exact IT|exact MA|exact MB]|]. intros _ _. apply does_pure, post_know; [now apply means_refl|now apply knows_ground].
Qed.
Lemma r_not : forall G e t k p c, ok (walks G e t k p c) -> goes k t TBool -> ok (walks G (Not e) TBool 3 true false).
Proof.
  intros G e t k p c H GO. eapply ok_map; [exact H|]. intros g n n' K E ex te F. cbn [infer]. apply does_end. eapply does_bind; [apply (K E (Some TBool) TBool)|]; [|intros _ _; apply does_pure, post_know; [now apply means_refl|now apply knows_ground]].
  apply (fits_goes g TBool t TBool); auto; [now apply means_refl|]. intros x P. inversion P as [|? ? ? I]; subst; [reflexivity|destruct I].
Qed.
Lemma r_inline : forall G e t k p c, ok (walks G e t k p c) -> ok (walks_branch G (Inline e) t k p c).
Proof. intros G e t k p c H. eapply ok_map; [exact H|]. intros g n n' K E ex te F. cbn [infer_branch]. now apply K. Qed.
Lemma r_braces : forall G b t k p c, ok (walks_block G b t k p c) -> ok (walks_branch G (Braces b) t k p c).
Proof. intros G b t k p c H. eapply ok_map; [exact H|]. intros g n n' K E ex te F. cbn [infer_branch]. exact (K E ex te false F). Qed.
Lemma r_tail : forall G e t k p c, ok (walks G e t k p c) -> ok (walks_block G (Tail e) t k p c).
Proof.
  intros G e t k p c H. eapply ok_map; [exact H|]. intros g n n' K E ex te co F. cbn [infer_block]. eapply does_bind; [eapply d_expected; exact F|]. intros ex1 [_ F1]. eapply does_bind; [apply K; exact F1|]. intros a PA. destruct co; [|now apply does_pure].
  eapply does_bind; [eapply d_expected; exact F1|]. intros ex2 [_ F2]. destruct ex2 as [u|]; [|apply does_pure; destruct PA as [PA|[_ PA]]; [now left|right; auto]]. eapply does_bind; [eapply d_after; eauto|]. intros b ->. apply does_pure. right. split; auto. apply F2.
Qed.
Lemma r_no_tail : forall G, ok (walks_block G NoTail Unit 3 true false).
Proof.
  intros G. apply ok_ret. intros g n E ex te co F. cbn [infer_block]. eapply does_bind; [eapply d_expected; exact F|]. intros ex1 [_ F1]. assert (te = Unit) by (eapply fits_plain; [exact F1|discriminate|intros (? & ? & ?); discriminate]). subst te.
  eapply does_bind with (P := fun _ => True) (G1 := G) (n1 := n); [|intros _ _; apply does_pure, post_know; [now apply means_refl|now apply knows_ground]]. destruct ex1 as [u|]; [|now apply does_pure]. destruct F1 as (M & P & _). destruct co.
  - eapply does_imp; [|eapply d_coerce_same; [exact P|exact M|now apply means_refl]]. auto.
  - eapply does_bind; [eapply d_combine; [exact P|now apply means_refl|exact M]|]. intros _ _. now apply does_pure.
Qed.
(** resolving, then matching *)
Lemma d_top : forall g E G n p t k G1 n1 a, walks_top fields G p t k G1 g n n1 -> means g a t -> knows k a -> does g E G n (fun f => bindm (resolve_m f a) (fun w => collect f d fields p w ByValue)) G1 n1 (fun _ => True).
Proof.
  intros g E G n p t k G1 n1 a K M KA s I. destruct (resolve_runs g a t s (i_agrees _ _ _ _ _ I) M) as (w & R & MW & KW & _). assert (NB : no_bound (cx s) w).
  { destruct R as [N R]. specialize (R N (Nat.le_refl _)). unfold resolve_m, resolve_out in R. destruct (resolve N (cx s) a) as [w'|] eqn:E2; [|discriminate]. cbn in R. injection R as ->. eapply resolved_no_bound; [apply (a_good _ _ (i_agrees _ _ _ _ _ I))|exact E2]. }
  destruct (K E w s I MW (KW _ KA) NB) as (s' & x & R' & I'). exists s', x. split; auto. eapply runs_bind; eauto.
Qed.
Lemma d_ground_top : forall g E G n p t k G1 n1 w, walks_top fields G p t k G1 g n n1 -> means g w t -> has_infer w = false -> does g E G n (fun f => collect f d fields p w ByValue) G1 n1 (fun _ => True).
Proof. intros g E G n p t k G1 n1 w K M GW s I. destruct (K E w s I M (knows_ground _ _ GW) (no_infer_no_bound _ _ GW)) as (s' & x & R & I'). exists s', x. auto. Qed.
Lemma bind_assoc : forall A B C (x : m A) (y : A -> m B) (z : B -> m C) s, bindm x (fun a => bindm (y a) z) s = bindm (bindm x y) z s.
Proof. intros A B C x y z s. unfold bindm. destruct (x s) as [[s1 a1]| |]; reflexivity. Qed.
Lemma does_ext : forall g E A (x y : nat -> m A) G n G' n' Q, (forall f s, x f s = y f s) -> does g E G n y G' n' Q -> does g E G n x G' n' Q.
Proof. intros g E A x y G n G' n' Q H D s I. destruct (D s I) as (s' & a & [N R] & I' & HQ). exists s', a. split; auto. exists N. intros f L. rewrite H. auto. Qed.
Lemma r_let : forall G pt G1 t e u k p c b r l q c', proper t -> ok (walks G e u k p c) -> goes k u t -> top_has fields G pt t 3 G1 -> ok (walks_block G1 b r l q c') -> ok (walks_block G (SLet pt (Some t) e b) r l q c').
Proof.
  intros G pt G1 t e u k p c b r l q c' P H1 GO HT H2. eapply ok_seq3; [exact H1|apply (top_walks fields); [exact HT|exact P]|exact H2|]. intros g n n1 n2 n3 K1 KT K2 E ex te co F. cbn [infer_block]. assert (FT : fits g (Some t) u t k c) by (apply fits_goes; [now apply means_proper|exact P|now apply ground_not_infer, proper_ground|exact GO]).
  eapply does_bind; [apply K1; exact FT|]. intros a PA. eapply does_bind; [eapply d_after; eauto|]. intros _ _. apply does_skip. apply (does_drop g E) with (G' := G1); [apply (top_extends _ _ _ _ _ _ HT)|].
  eapply does_bind; [eapply d_ground_top; [exact KT|now apply means_proper|now apply proper_ground]|]. intros _ _. now apply K2.
Qed.
Lemma r_let_infer : forall G pt G1 e t k p c b r l q c', proper t -> ok (walks G e t k p c) -> top_has fields G pt t (lv k p) G1 -> ok (walks_block G1 b r l q c') -> ok (walks_block G (SLet pt None e b) r l q c').
Proof.
  intros G pt G1 e t k p c b r l q c' P H1 HT H2. eapply ok_seq3; [exact H1|apply (top_walks fields); [exact HT|exact P]|exact H2|]. intros g n n1 n2 n3 K1 KT K2 E ex te co F. cbn [infer_block]. eapply does_bind; [eapply w_none; exact K1|]. intros a [MA KA]. apply does_skip. apply (does_drop g E) with (G' := G1); [apply (top_extends _ _ _ _ _ _ HT)|].
  eapply does_ext; [intros f s; apply bind_assoc|]. eapply does_bind; [eapply d_top; eauto|]. intros _ _. now apply K2.
Qed.
Lemma ok_vars : forall n0, ok (fun g n n' => forall E G, does g E G n (fun _ => new_vars n0) G n' (fun _ => True)).
Proof.
  induction n0 as [|n0 IH]; [apply ok_ret; intros g n E G; now apply does_pure|]. apply (ok_seq (fun g n n' => n' = S n) _ _ (ok_fresh _ U8 Unit (fun g n _ _ => eq_refl)) IH). intros g n n1 n2 -> K E G. cbn [new_vars]. eapply does_bind; [apply d_inc|]. intros i ->. eapply does_bind; [apply K|]. intros l _. now apply does_pure.
Qed.
Lemma ok_anonymous : forall pt, ok (fun g n n' => forall E G, does g E G n (fun _ => anonymous pt) G n' (fun _ => True)).
Proof.
  intros pt. destruct pt; try (apply ok_ret; intros g ? E G; now apply does_pure).
  - apply (ok_map (fun g n n' => n' = S n)); [apply (ok_fresh _ U8 Unit); auto|]. intros g n n' -> E G. cbn [anonymous]. eapply does_bind; [apply d_inc|]. intros i ->. now apply does_pure.
  - eapply ok_map; [apply (ok_vars (len_pats ps))|]. intros g n n' K E G. cbn [anonymous]. eapply does_bind; [apply K|]. intros l _. now apply does_pure.
Qed.
Lemma r_declare : forall G pt G1 t b r l q c, proper t -> top_has fields G pt t 3 G1 -> ok (walks_block G1 b r l q c) -> ok (walks_block G (SLet0 pt (Some t) b) r l q c).
Proof.
  intros G pt G1 t b r l q c P HT H. eapply ok_seq3; [apply (ok_anonymous pt)|apply (top_walks fields); [exact HT|exact P]|exact H|]. intros g n n1 n2 n3 KA KT K E ex te co F. cbn [infer_block]. eapply does_bind; [apply KA|]. intros a _. apply does_skip. apply (does_drop g E) with (G' := G1); [apply (top_extends _ _ _ _ _ _ HT)|].
  eapply does_bind; [eapply d_ground_top; [exact KT|now apply means_proper|now apply proper_ground]|]. intros _ _. now apply K.
Qed.
Lemma r_declare_infer : forall G x t b r l q c, G x = None -> proper t -> ok (walks_block (upd G x t 0) b r l q c) -> ok (walks_block G (SLet0 (PIdent x) None b) r l q c).
Proof.
  intros G x t b r l q c NX P H. apply (ok_seq (fun g n n' => n' = S n /\ sv g (S n) = t) (walks_block (upd G x t 0) b r l q c)); auto; [apply (ok_fresh _ U8 t); auto|]. intros g n n1 n2 [-> SV] K E ex te co F. cbn [infer_block anonymous]. assert (MV : means g (Var (mkVar None (S n))) t) by now apply fresh_means.
  eapply does_bind with (P := fun a => means g a t); [eapply does_bind; [apply d_inc|]; intros i ->; now apply does_pure|]. intros a MA. eapply does_bind; [apply d_resolve; exact MA|]. intros w (MW & KW & _). cbn [collect apply_bm]. rewrite (single_proper g w t MW P).
  eapply does_bind; [apply (d_bind g E G (S n) x t w 0); [exact MW|apply knows_0]|]. intros _ _. apply (does_drop g E) with (G' := upd G x t 0); [intros; now apply upd_keeps|]. now apply K.
Qed.
Lemma r_expr : forall G e t k p c b r l q c', ok (walks G e t k p c) -> ok (walks_block G b r l q c') -> ok (walks_block G (SExpr e b) r l q c').
Proof. intros G e t k p c b r l q c' H1 H2. eapply ok_seq; [exact H1|exact H2|]. intros g n n1 n2 K1 K2 E ex te co F. cbn [infer_block]. eapply does_bind; [eapply w_none; exact K1|]. intros _ _. now apply K2. Qed.
Lemma eq_pair : forall g tl tr m n t u, means g tl t -> means g tr u -> (t = u /\ proper t) \/ (exists x, t = Reference m x /\ u = Reference n x /\ proper t /\ is_infer tl = false /\ is_infer tr = false) ->
  exists a b v, match tl, tr with Reference _ a, Reference _ b => (a, b) | _, _ => (tl, tr) end = (a, b) /\ proper v /\ means g a v /\ means g b v.
Proof.
  intros g tl tr m n t u ML MR H. destruct H as [[<- P]|(x & -> & -> & P & IL & IR)].
  - destruct (is_ref tl) eqn:RL; [|exists tl, tr, t; split; auto; destruct tl; auto; discriminate]. destruct (is_ref tr) eqn:RR; [|exists tl, tr, t; split; auto; destruct tl; auto; destruct tr; auto; discriminate].
    assert (RT : is_ref t = true) by (destruct (is_ref t) eqn:RT; auto; rewrite (means_is_ref g tl t ML RT) in RL; discriminate). destruct t; try discriminate RT. assert (IL : is_infer tl = false) by (destruct tl; auto; discriminate). assert (IR : is_infer tr = false) by (destruct tr; auto; discriminate).
    destruct (means_ref _ _ _ _ ML IL) as (a & -> & MA). destruct (means_ref _ _ _ _ MR IR) as (b & -> & MB). exists a, b, t. split; auto. split; auto. now apply (proper_target is_mut t).
  - destruct (means_ref _ _ _ _ ML IL) as (a & -> & MA). destruct (means_ref _ _ _ _ MR IR) as (b & -> & MB). exists a, b, x. split; auto. split; auto. now apply (proper_target m x).
Qed.
Lemma eq_rule : forall G l r m n0 t u k p c j q c', ok (walks G l t k p c) -> ok (walks G r u j q c') ->
  (t = u /\ proper t) \/ (exists x, t = Reference m x /\ u = Reference n0 x /\ proper t /\ 2 <= lv k p /\ 2 <= lv j q) -> ok (walks G (EqE l r) TBool 3 true false).
Proof.
  intros G l r m n0 t u k p c j q c' H1 H2 C. eapply ok_seq; [exact H1|exact H2|]. intros g n n1 n2 K1 K2 E ex te F. cbn [infer]. apply does_end. eapply does_bind; [eapply w_none; exact K1|]. intros ta [MA KA]. eapply does_bind; [apply d_resolve; exact MA|]. intros wa RA.
  eapply does_bind; [eapply w_none; exact K2|]. intros tb [MB KB]. eapply does_bind; [apply d_resolve; exact MB|]. intros wb RB. destruct (eq_pair g wa wb m n0 t u) as (a & b & v & EP & PV & MV & MW); [apply RA|apply RB| |].
  { destruct C as [C|(x & -> & -> & P & L1 & L2)]; auto. right. exists x. repeat split; auto; [eapply resolved_infer; [exact RA|]; exact (knows_2 _ _ L1 KA)|eapply resolved_infer; [exact RB|]; exact (knows_2 _ _ L2 KB)]. }
  rewrite EP. eapply does_bind; [eapply d_combine; eauto|]. intros res ->. apply does_skip. apply does_pure, post_know; [now apply means_refl|now apply knows_ground].
Qed.
Lemma r_eq : forall G l r t k p c j q c', proper t -> ok (walks G l t k p c) -> ok (walks G r t j q c') -> ok (walks G (EqE l r) TBool 3 true false).
Proof. intros. eapply (eq_rule G l r true true); eauto. Qed.
Lemma r_eq_ref : forall G l r t m k p c n j q c', proper (Reference m t) -> ok (walks G l (Reference m t) k p c) -> ok (walks G r (Reference n t) j q c') -> 2 <= lv k p -> 2 <= lv j q -> ok (walks G (EqE l r) TBool 3 true false).
Proof. intros G l r t m k p c n j q c' P H1 H2 L1 L2. eapply (eq_rule G l r m n); eauto. right. exists t. auto. Qed.

(** ** Conditionals *)
Lemma never_both : forall g f c a v, agrees g c -> is_infer a = false -> (means g a v /\ proper v) \/ a = Never -> combine d (S f) c a Never = Done (c, COk) /\ combine d (S f) c Never a = Done (c, COk).
Proof.
  intros g f c a v A I H. assert (S1 : single_element_tuple_ty a = None) by (destruct H as [[M P]|H]; [eapply means_no_single; eauto|subst; auto]). assert (NU : a <> Unknown) by (destruct H as [[M P]|H]; [intros ->; eapply means_unknown; eauto|congruence]).
  cbn [combine]. unfold prepare. rewrite (a_msl _ _ A). cbn [refine_for_specs]. rewrite S1. cbn [single_element_tuple_ty]. rewrite (resolve_infer_ground c a I). cbn [obind resolve_infer]. split; destruct a; try discriminate; try congruence; reflexivity.
Qed.
Lemma d_never : forall g E G n a v, is_infer a = false -> (means g a v /\ proper v) \/ a = Never ->
  does g E G n (fun f => combine_m f d a Never) G n (fun r => r = COk) /\ does g E G n (fun f => combine_m f d Never a) G n (fun r => r = COk).
Proof.
  intros g E G n a v I H. split; intros s IV; exists (with_cx s (cx s)), COk; (split; [|split; auto; apply inv_same; auto; apply (i_agrees _ _ _ _ _ IV)]); exists 1; intros [|f] L; try lia; unfold combine_m; destruct (never_both g f (cx s) a v (i_agrees _ _ _ _ _ IV) I H) as [E1 E2]; rewrite ?E1, ?E2; reflexivity.
Qed.
Lemma d_inter : forall g E G n l r (Q : ty -> Prop), (forall c, agrees g c -> exists c' t N, (forall f, N <= f -> intersect_types d f c l r = Done (c', t)) /\ agrees g c' /\ Q t) ->
  does g E G n (fun f s => obind (intersect_types d f (cx s) l r) (fun '(c, t) => Done (with_cx s c, t))) G n Q.
Proof. intros g E G n l r Q H s I. destruct (H (cx s) (i_agrees _ _ _ _ _ I)) as (c' & t & N & K & A & HQ). exists (with_cx s c'), t. split; [exists N; intros f L; now rewrite K|]. split; auto. now apply inv_same. Qed.
Lemma never_target : forall g a t l, means g a t -> proper t \/ t = Never -> 2 <= l -> ~ reference t \/ 3 <= l -> knows l a ->
  exists v, is_infer (unwrap_all_refs a) = false /\ ((means g (unwrap_all_refs a) v /\ proper v) \/ unwrap_all_refs a = Never).
Proof.
  intros g a t l M P L R K. destruct P as [P|P]; [|subst t; apply means_never in M; subst a; exists Unit; auto]. pose proof (knows_2 _ _ L K) as I. destruct (is_ref t) eqn:RT; [|rewrite (unwrap_nonref a) by (eapply means_is_ref; eauto); exists t; auto].
  destruct t; try discriminate. destruct R as [R|R]; [exfalso; apply R; eexists _, _; reflexivity|]. destruct (proper_target _ _ P) as (NR & _ & PT). destruct (means_ref _ _ _ _ M I) as (a' & -> & M'). cbn [unwrap_all_refs]. rewrite unwrap_nonref by (eapply means_is_ref; eauto).
  exists t. split; auto. apply ground_not_infer. rewrite <- (infer_ref is_mut). apply K. exact R.
Qed.
(** the end of infer_if_expr *)
Lemma cond_end : forall g E G n ex t1 te1 k1 p1 c1 t2 te2 k2 p2 c2 a1 a2 Q te, fits g ex t1 te1 k1 c1 -> fits g ex t2 te2 k2 c2 -> post g t1 te1 k1 p1 a1 -> post g t2 te2 k2 p2 a2 ->
  (forall u, ex = Some u -> te1 = te /\ te2 = te) -> (ex = None -> te1 = t1 /\ te2 = t2) ->
  does g E G n (fun f => combine_m f d (unwrap_all_refs a2) (unwrap_all_refs a1)) G n (fun r => r = COk) -> does g E G n (fun f => intersect_m f d a1 a2) G n Q ->
  does g E G n (fun f => bindm (combine_m f d (unwrap_all_refs a2) (unwrap_all_refs a1)) (fun compat => bindm (expected_m f ex) (fun ex =>
    if is_ok compat then
        bindm (match ex with
          | Some (Reference n u) => bindm (coerce_m f d a1 (Reference n u)) (fun _ => coerce_m f d a2 (Reference n u))
          | _ => pure true
          end) (fun _ => intersect_m f d a1 a2)
      else
        bindm (match ex with
          | Some u => bindm (coerce_m f d a1 u) (fun _ => coerce_m f d a2 u)
          | None => coerce_m f d (unwrap_all_refs a2) (unwrap_all_refs a1)
          end) (fun _ => pure Unknown)))) G n Q.
Proof.
  intros g E G n ex t1 te1 k1 p1 c1 t2 te2 k2 p2 c2 a1 a2 Q te F1 F2 P1 P2 S1 N1 HC HI. eapply does_bind; [exact HC|]. intros res ->. cbn [is_ok]. destruct ex as [u|].
  - destruct (S1 u eq_refl) as [-> ->]. eapply does_bind; [eapply d_expected; exact F1|]. intros ex' [ER F1']. pose proof (fits_exp _ _ _ _ _ _ _ ER F2) as F2'. eapply does_bind with (P := fun _ => True) (G1 := G) (n1 := n); [|intros _ _; exact HI].
    destruct ex' as [w|]; [|now apply does_pure]. destruct w; try (now apply does_pure). eapply does_bind; [eapply d_after; [exact F1'|exact P1]|]. intros _ _. eapply does_imp; [|eapply d_after; [exact F2'|exact P2]]. auto.
  - apply does_skip. apply does_skip. exact HI.
Qed.
Lemma r_if_else : forall G e tc k p c b1 t1 k1 p1 c1 b2 t2 k2 p2 c2 t l c', ok (walks G e tc k p c) -> goes k tc TBool -> ok (walks_branch G b1 t1 k1 p1 c1) -> ok (walks_branch G b2 t2 k2 p2 c2) ->
  joins t1 k1 p1 c1 t2 k2 p2 c2 t l c' -> ok (walks G (IfElse e b1 b2) t l true c').
Proof.
  intros G e tc k p c b1 t1 k1 p1 c1 b2 t2 k2 p2 c2 t l c' H0 GC H1 H2 J. eapply ok_seq3; [exact H0|exact H1|exact H2|]. intros g n n0 n1 n2 K0 K1 K2 E ex te F. cbn [infer]. apply does_end. eapply does_bind; [eapply w_cond; eauto|]. intros _ _.
  assert (B : exists te1 te2, fits g ex t1 te1 k1 c1 /\ fits g ex t2 te2 k2 c2 /\ (forall u, ex = Some u -> te1 = te /\ te2 = te) /\ (ex = None -> te1 = t1 /\ te2 = t2)).
  { destruct ex as [u|]; [|exists t1, t2; repeat split; auto; discriminate]. exists te, te. destruct F as (M & P & AC & C). split; [|split; [|split; [auto|discriminate]]]; (split; [exact M|]; split; [exact P|]; inversion J; subst).
    - split; [|intros ->; auto]. assert (t = te); [|now left]. destruct AC as [AC|[(-> & _)|(x & -> & _)]]; auto; [apply proper_here in H; discriminate|]. exfalso. apply H3. eexists _, _. reflexivity.
    - split; [|auto]. specialize (C eq_refl). assert (L : (2 <=? k1) = true) by now apply Nat.leb_le. unfold accepts. destruct AC as [<-|[(EQ & _)|(x & EQ & -> & _)]]; [|discriminate|injection EQ as EQ <-]; destruct m, n3; cbn in *; try discriminate; auto; right; right; eexists; repeat split; auto.
    - split; [|auto]. right. left. auto.
    - split; [|auto]. exact AC.
    - split; [|intros ->; rewrite orb_true_r in C; auto]. assert (t = te); [|now left]. destruct AC as [AC|[(-> & _)|(x & -> & _)]]; auto; [apply proper_here in H; discriminate|]. exfalso. apply H3. eexists _, _. reflexivity.
    - split; [|auto]. specialize (C eq_refl). assert (L : (2 <=? k2) = true) by now apply Nat.leb_le. unfold accepts. destruct AC as [<-|[(EQ & _)|(x & EQ & -> & _)]]; [|discriminate|injection EQ as EQ <-]; destruct m, n3; cbn in *; try discriminate; auto; right; right; eexists; repeat split; auto.
    - split; [|auto]. exact AC.
    - split; [|auto]. right. left. auto. }
  destruct B as (te1 & te2 & F1 & F2 & S1 & N1). eapply does_bind; [apply K1; exact F1|]. intros a1 P1. eapply does_bind; [apply K2; exact F2|]. intros a2 P2.
  assert (CI : does g E G n2 (fun f => combine_m f d (unwrap_all_refs a2) (unwrap_all_refs a1)) G n2 (fun r => r = COk) /\ does g E G n2 (fun f => intersect_m f d a1 a2) G n2 (post g t te l true)).
  { inversion J; subst.
    - assert (NN : t <> Never) by (intros ->; apply proper_here in H; discriminate). rewrite (fits_plain _ _ _ _ _ _ F1 NN H3) in P1. rewrite (fits_plain _ _ _ _ _ _ F2 NN H3) in P2. apply post_same in P1, P2. destruct P1 as [M1 KN1], P2 as [M2 KN2].
      pose proof (is_ref_reference _ H3) as NR. split.
      + rewrite !unwrap_nonref by (eapply means_is_ref; eauto). eapply d_combine; eauto.
      + eapply does_bind; [apply d_resolve; exact M1|]. intros w1 (MW1 & KW1 & _). eapply does_bind; [apply d_resolve; exact M2|]. intros w2 (MW2 & KW2 & _). apply d_inter. intros cc A. destruct (intersect_same g cc w1 w2 t A H NR MW1 MW2) as (c' & w & K & A' & MW & ER). exists c', w, (size t). split; auto. split; auto.
        apply post_know; auto. destruct ER as [->| ->]; [apply (knows_le _ (lv k1 p1)); [apply Nat.le_min_l|auto]|apply (knows_le _ (lv k2 p2)); [apply Nat.le_min_r|auto]].
    - destruct P1 as [[M1 KN1]|[X _]]; [|discriminate]. destruct P2 as [[M2 KN2]|[X _]]; [|discriminate]. destruct (proper_target _ _ H) as (NR & _ & PT). destruct (means_ref _ _ _ _ M1 (knows_2 _ _ H3 KN1)) as (a1' & -> & MA1). destruct (means_ref _ _ _ _ M2 (knows_2 _ _ H4 KN2)) as (a2' & -> & MA2). split.
      + cbn [unwrap_all_refs]. rewrite !unwrap_nonref by (eapply means_is_ref; eauto). eapply d_combine; eauto.
      + eapply does_bind; [apply d_resolve; exact M1|]. intros w1 R1. assert (I1 : is_infer w1 = false) by (eapply resolved_infer; [exact R1|reflexivity]). destruct R1 as (MW1 & KW1 & _). destruct (means_ref _ _ _ _ MW1 I1) as (w1' & -> & MW1').
        eapply does_bind; [apply d_resolve; exact M2|]. intros w2 R2. assert (I2 : is_infer w2 = false) by (eapply resolved_infer; [exact R2|reflexivity]). destruct R2 as (MW2 & KW2 & _). destruct (means_ref _ _ _ _ MW2 I2) as (w2' & -> & MW2').
        apply d_inter. intros cc A. destruct (intersect_refs g cc m n3 w1' w2' t0 A PT NR MW1' MW2') as (c' & K & A'). exists c', (Reference (m && n3) w1'), (S (size t0)). split; auto. split; auto. apply post_know; [now apply means_ref_of|].
        specialize (KW1 _ KN1). split; [|split]; intros; [discriminate|reflexivity|]. rewrite infer_ref. rewrite <- (infer_ref m). apply KW1. lia.
    - destruct P1 as [[M1 KN1]|[X _]]; [|discriminate]. destruct P2 as [[M2 KN2]|[X _]]; [|discriminate]. apply means_never in M1. subst a1. destruct (never_target g a2 t l M2 H H4 H5 KN2) as (v & IV & V). split.
      + cbn [unwrap_all_refs]. exact (proj1 (d_never g E G n2 _ v IV V)).
      + eapply does_bind; [apply d_resolve; now apply means_refl|]. intros w1 (_ & _ & GW). rewrite (GW eq_refl). eapply does_bind; [apply d_resolve; exact M2|]. intros w2 (MW2 & KW2 & _). apply d_inter. intros cc A. exists cc, w2, 0. split; [reflexivity|]. split; auto. apply post_know; auto.
    - destruct P1 as [[M1 KN1]|[X _]]; [|discriminate]. destruct P2 as [[M2 KN2]|[X _]]; [|discriminate]. apply means_never in M2. subst a2. destruct (never_target g a1 t l M1 H H3 H5 KN1) as (v & IV & V). split.
      + cbn [unwrap_all_refs]. exact (proj2 (d_never g E G n2 _ v IV V)).
      + eapply does_bind; [apply d_resolve; exact M1|]. intros w1 (MW1 & KW1 & _). eapply does_bind; [apply d_resolve; now apply means_refl|]. intros w2 (_ & _ & GW). rewrite (GW eq_refl). apply d_inter. intros cc A. exists cc, w1, 0. split; [intros f _; destruct w1; reflexivity|]. split; auto. apply post_know; auto. }
  destruct CI as [C1 C2]. exact (cond_end g E G n2 ex t1 te1 k1 p1 c1 t2 te2 k2 p2 c2 a1 a2 _ te F1 F2 P1 P2 S1 N1 C1 C2).
Qed.

(** * All rules together *)
(** ** Match *)
Definition walks_arms (G : env) (t : ty) (k : level) (a : arms) (ts : list ty) (l : level) (g : sol) (n n' : nat) : Prop :=
  forall E w, means g w t -> knows k w -> does g E G n (fun f => infer_arms f d fields ret a w) G n' (fun us => Forall2 (means g) us ts /\ Forall (knows l) us).
Lemma arm_walks : forall G p t k G1, arm_has fields G p t k G1 -> proper t -> ok (fun g n n' => forall E w, means g w t -> knows k w -> does g E G n (fun f => collect f d fields p w ByValue) G1 n' (fun _ => True)).
Proof.
  intros G p t k G1 [H|[-> H]] P; [exact (proj1 (pats_walk fields) _ _ _ _ _ _ H)|]. eapply ok_map; [apply (top_walks fields); [exact H|exact P]|]. intros g n n' K E w M KW. eapply d_ground_top; [exact K|exact M|now apply knows_3].
Qed.
Lemma arm_extends : forall G p t k G1, arm_has fields G p t k G1 -> extends G G1.
Proof. intros G p t k G1 [H|[_ H]]; [exact (proj1 (pats_extend fields) _ _ _ _ _ _ H)|exact (top_extends _ _ _ _ _ _ H)]. Qed.
Lemma knows_min : forall k l u, Forall (knows l) u -> Forall (knows (Nat.min k l)) u.
Proof. intros k l u H. eapply Forall_impl; [|exact H]. intros a. apply knows_le. lia. Qed.
Lemma r_arms_nil : forall G t k, ok (walks_arms G t k ANil [] 3).
Proof. intros G t k. apply ok_ret. intros g n E w _ _. cbn [infer_arms]. apply does_pure. auto. Qed.
Lemma r_arms_cons : forall G t k pt G1 e u l q c a us j, proper t -> arm_has fields G pt t k G1 -> ok (walks G1 e u l q c) -> ok (walks_arms G t k a us j) -> ok (walks_arms G t k (ACons pt None e a) (u :: us) (Nat.min (lv l q) j)).
Proof.
  intros G t k pt G1 e u l q c a us j P HA H1 H2. eapply ok_seq3; [exact (arm_walks _ _ _ _ _ HA P)|exact H1|exact H2|]. intros g n n1 n2 n3 KA K1 K2 E w M KW. cbn [infer_arms]. eapply does_bind; [apply KA; [exact M|exact KW]|]. intros _ _. apply does_skip.
  eapply does_bind; [apply (does_drop g E) with (G' := G1); [exact (arm_extends _ _ _ _ _ HA)|eapply w_none; exact K1]|]. intros x [MX KX]. eapply does_bind; [apply K2; [exact M|exact KW]|]. intros xs [MXS KXS]. apply does_pure. split; [now constructor|]. constructor; [eapply knows_le; [|exact KX]; lia|now apply knows_min].
Qed.
Lemma w_guard : forall G e t k p c g n n' E, walks G e t k p c g n n' -> goes k t TBool -> does g E G n (fun f => bindm (infer f d fields ret e (Some TBool)) (fun _ => pure tt)) G n' (fun _ => True).
Proof.
  intros G e t k p c g n n' E W GO. assert (F : fits g (Some TBool) t TBool k c) by (apply (fits_goes g TBool t TBool); auto; [now apply means_refl|intros x P; inversion P as [|? ? ? I]; subst; [reflexivity|destruct I]]).
  eapply does_bind; [apply W; exact F|]. intros _ _. now apply does_pure.
Qed.
Lemma r_arms_guard : forall G t k pt G1 e0 t0 k0 p0 c0 e u l q c a us j, proper t -> arm_has fields G pt t k G1 -> ok (walks G1 e0 t0 k0 p0 c0) -> goes k0 t0 TBool -> ok (walks G1 e u l q c) -> ok (walks_arms G t k a us j) ->
  ok (walks_arms G t k (ACons pt (Some e0) e a) (u :: us) (Nat.min (lv l q) j)).
Proof.
  intros G t k pt G1 e0 t0 k0 p0 c0 e u l q c a us j P HA H0 GO H1 H2. eapply ok_seq; [exact (arm_walks _ _ _ _ _ HA P)|eapply (ok_seq3 _ _ _ (fun g n n' => exists n1 n2, walks G1 e0 t0 k0 p0 c0 g n n1 /\ walks G1 e u l q c g n1 n2 /\ walks_arms G t k a us j g n2 n')); [exact H0|exact H1|exact H2|eauto]|].
  intros g n n1 n3 KA (n2 & n4 & K0 & K1 & K2) E w M KW. cbn [infer_arms]. eapply does_bind; [apply KA; [exact M|exact KW]|]. intros _ _. eapply does_bind; [eapply w_guard; [exact K0|exact GO]|]. intros _ _.
  eapply does_bind; [apply (does_drop g E) with (G' := G1); [exact (arm_extends _ _ _ _ _ HA)|eapply w_none; exact K1]|]. intros x [MX KX]. eapply does_bind; [apply K2; [exact M|exact KW]|]. intros xs [MXS KXS]. apply does_pure. split; [now constructor|]. constructor; [eapply knows_le; [|exact KX]; lia|now apply knows_min].
Qed.
Lemma d_resolve_known : forall g E G n l us ts, Forall2 (means g) us ts -> Forall (knows l) us -> does g E G n (fun f => resolve_all f us) G n (fun ws => Forall2 (means g) ws ts /\ Forall (knows l) ws).
Proof.
  intros g E G n l us ts F. revert l. induction F as [|u t us ts M F IH]; intros l K; [now apply does_pure|]. inversion K; subst. cbn [resolve_all]. eapply does_bind; [apply d_resolve; exact M|]. intros w (MW & KW & _). eapply does_bind; [exact (IH l H2)|]. intros ws [MWS KWS]. apply does_pure. split; constructor; auto.
Qed.
Definition one_type (u : ty) : Prop := (proper u /\ ~ reference u) \/ u = Never.
Lemma never_dec : forall t : ty, t = Never \/ t <> Never.
Proof. intros t. destruct t; auto; right; discriminate. Qed.
Lemma d_step : forall g E G n l u a y x (Q : ty -> Prop), one_type u -> knows l a -> knows l y -> means g y x -> x = u \/ x = Never -> means g a u \/ a = Never ->
  (forall r, knows l r -> means g r u \/ (r = Never /\ a = Never /\ x = Never /\ u <> Never) -> Q r) ->
  does g E G n (fun f s => obind (intersect_types d f (cx s) a y) (fun '(c, t) => Done (with_cx s c, t))) G n Q.
Proof.
  intros g E G n l u a y x Q OT KA KY MY X A H. apply d_inter. intros c AG. destruct (never_dec a) as [->|NA].
  { exists c, y, 0. split; auto. split; auto. apply H; auto. destruct X as [<-| ->]; auto. apply means_never in MY. subst y. destruct A as [A|_]; [auto|]. destruct (never_dec u) as [->|NU]; [left; now apply means_refl|auto]. }
  destruct A as [A|A]; [|congruence]. destruct (never_dec y) as [->|NY].
  { exists c, a, 0. split; [intros f _; destruct a; auto; congruence|]. split; auto. }
  destruct X as [<-| ->]; [|apply means_never in MY; congruence]. destruct OT as [[P NR]| ->]; [|apply means_never in A; congruence].
  destruct (intersect_same g c a y x AG P) as (c' & t & K & A' & MT & TT); auto; [destruct x; auto; exfalso; apply NR; eexists _, _; reflexivity|]. exists c', t, (size x). split; auto. split; auto. apply H; auto. destruct TT as [->| ->]; auto.
Qed.
Lemma d_from : forall g E G n l u us xs a, one_type u -> Forall2 (means g) us xs -> Forall (knows l) us -> (forall x, In x xs -> x = u \/ x = Never) -> knows l a -> means g a u \/ (a = Never /\ In u xs) ->
  does g E G n (fun f => intersect_from f d a us) G n (fun r => means g r u /\ knows l r).
Proof.
  intros g E G n l u us xs a OT F. revert a. induction F as [|y x us xs M F IH]; intros a K X KA A; cbn [intersect_from].
  - apply does_pure. destruct A as [A|[_ []]]. auto.
  - inversion K; subst. eapply does_bind; [eapply (d_step g E G n l u a y x (fun r => knows l r /\ (means g r u \/ (r = Never /\ In u xs)))); auto; [apply X; now left|destruct A as [A|[A _]]; auto|]|].
    + intros r KR [MR|(-> & -> & -> & NU)]; auto. split; auto. destruct A as [A|[_ [A|A]]]; [now left|now symmetry in A|now right].
    + intros r [KR AR]. apply IH; auto. intros z Z. apply X. now right.
Qed.
Lemma r_match : forall G e a t k p c ts u l, ok (walks G e t k p c) -> proper t -> ok (walks_arms G t (lv k p) a ts l) -> In u ts -> (forall x, In x ts -> x = u \/ x = Never) -> (proper u /\ ~ reference u) \/ u = Never -> ok (walks G (Match e a) u l true false).
Proof.
  intros G e a t k p c ts u l H1 P H2 IU X OT. eapply ok_seq; [exact H1|exact H2|]. intros g n n1 n2 K1 K2 E ex te F. cbn [infer]. apply does_end. eapply does_bind; [eapply w_none; exact K1|]. intros x [MX KX]. eapply does_bind; [apply d_resolve; exact MX|]. intros w (MW & KW & _).
  eapply does_bind; [apply K2; auto|]. intros us [MU KU]. unfold intersect_all. eapply does_bind; [eapply d_resolve_known; eauto|]. intros ws [MWS KWS]. inversion MWS as [|y z ys zs MY MYS]; subst; [destruct IU|]. inversion KWS; subst.
  eapply does_imp; [|eapply (d_from g E G n2 l u ys zs y OT); auto]; [intros r [MR KR]; now apply post_know|intros q Q; apply X; now right|].
  destruct (X z (or_introl eq_refl)) as [->| ->]; auto. apply means_never in MY. subst y. destruct IU as [<-|IU]; [left; now apply means_refl|auto].
Qed.
Theorem has_walks : forall G,
  (forall e t k p c, has fields ret G e t k p c -> ok (walks G e t k p c)) /\
  (forall xs es ts, has_args fields ret G xs es ts -> ok (walks_args G xs es ts)) /\
  (forall es ts k, has_tuple fields ret G es ts k -> ok (walks_tuple G es ts k)) /\
  (forall l gs vs es fs, has_fields fields ret G l gs vs es fs -> ok (walks_fields G l gs vs es fs)) /\
  (forall t k a ts l, has_arms fields ret G t k a ts l -> proper t -> ok (walks_arms G t k a ts l)) /\
  (forall b t k p c, has_branch fields ret G b t k p c -> ok (walks_branch G b t k p c)) /\
  (forall b t k p c, has_block fields ret G b t k p c -> ok (walks_block G b t k p c)).
Proof.
  apply (has_all d fields ret (fun G e t k p c => ok (walks G e t k p c)) (fun G x es ts => ok (walks_args G x es ts)) (fun G es ts k => ok (walks_tuple G es ts k))
    (fun G l gs vs es fs => ok (walks_fields G l gs vs es fs)) (fun G t k a ts l => proper t -> ok (walks_arms G t k a ts l)) (fun G b t k p c => ok (walks_branch G b t k p c)) (fun G b t k p c => ok (walks_block G b t k p c))); intros.
  - now apply r_lit.
  - apply r_unit.
  - now apply r_path.
  - now apply r_paren.
  - apply r_call; auto.
  - eapply r_method; eauto.
  - now apply r_struct.
  - eapply r_field; eauto.
  - eapply r_field_ref; eauto.
  - now apply r_vec.
  - now apply r_tuple.
  - eapply r_range; eauto.
  - eapply r_if; eauto.
  - eapply r_if_else with (b1 := b1); eauto.
  - eapply r_loop; eauto.
  - eapply r_while; eauto.
  - eapply r_for; eauto.
  - eapply r_for_range; eauto.
  - apply r_break.
  - apply r_return.
  - eapply r_return_e; eauto.
  - eapply r_abort; eauto.
  - eapply r_assert; eauto.
  - eapply r_assert_code; eauto.
  - eapply r_assert_eq; eauto.
  - eapply r_cast; eauto.
  - now apply r_borrow.
  - eapply r_deref; eauto.
  - eapply r_index; eauto.
  - eapply r_index_ref; eauto.
  - eapply r_slice; eauto.
  - eapply r_block; eauto.
  - eapply r_arith; eauto.
  - eapply r_bit; eauto.
  - eapply r_shift; eauto.
  - eapply (r_assign G l r t); eauto.
  - eapply (r_logic G l r); eauto.
  - eapply (r_eq G l r); eauto.
  - eapply (r_eq_ref G l r); eauto.
  - eapply (r_ord G l r); eauto.
  - eapply r_not; eauto.
  - eapply r_match; eauto.
  - now apply r_vec_of.
  - eapply r_annotated; eauto.
  - eapply r_is; eauto.
  - eapply r_minus; eauto.
  - apply r_args_nil.
  - eapply r_args_cons; eauto.
  - apply r_tuple_nil.
  - now apply r_tuple_cons.
  - apply r_fields_nil.
  - eapply r_fields_cons; eauto.
  - apply r_arms_nil.
  - eapply r_arms_cons; eauto.
  - eapply r_arms_guard; eauto.
  - now apply r_inline.
  - now apply r_braces.
  - now apply r_tail.
  - apply r_no_tail.
  - eapply r_let; eauto.
  - eapply r_let_infer; eauto.
  - eapply r_declare; eauto.
  - eapply r_declare_infer; eauto.
  - eapply r_expr; eauto.
Qed.
End Rules.
