(** Patterns bind variables with the types of what they match: proofs. *)
From Verif Require Import Base TyModel TyProps UnifyModel UnifyProps InferModel InferProofs InferResolve InferTotal InferProps WalkModel WalkTyping WalkSolve WalkRun.

(** * Positions *)
(** the types of the patterns: [Unknown] for [..] *)
Inductive lines : pats -> list ty -> list ty -> Prop :=
| ln_nil : lines PNil [] []
| ln_cons : forall p t ps ts us, is_rest p = false -> lines ps ts us -> lines (PCons p ps) (t :: ts) (t :: us)
| ln_rest : forall ps q ts, no_rest ps -> len_pats ps = length ts -> lines (PCons PRest ps) (q ++ ts) (Unknown :: ts)
with no_rest : pats -> Prop :=
| nr_nil : no_rest PNil
| nr_cons : forall p ps, is_rest p = false -> no_rest ps -> no_rest (PCons p ps).
Lemma rests_none : forall ps i a b, no_rest ps -> rests ps i a b = (a, b).
Proof. intros ps i a b H. revert i. induction H; intros i; cbn; auto. rewrite H. auto. Qed.
Lemma rests_first : forall ps i a b j, fst (rests ps i a b) = Some j -> (exists k, a = Some k /\ j <= k /\ (i <= j \/ j = k)) \/ (a = None /\ i <= j).
Proof.
  induction ps as [|p ps IH]; intros i a b j H; cbn in H; [left; exists j; auto|]. destruct (is_rest p); apply IH in H.
  - destruct H as [(k & E & L1 & L2)|(E & _)]; [|discriminate]. injection E as <-. destruct a as [k|]; [left; exists k; split; auto; lia|right; split; auto; lia].
  - destruct H as [(k & -> & L1 & L2)|(-> & L)]; [left; exists k; split; auto; lia|right; split; auto; lia].
Qed.
Lemma suffix_types : forall ps ts q i a b, length ts = len_pats ps -> a < i -> b < i ->
  pat_types (length (q ++ ts)) (i + len_pats ps) (fun j => nth j (q ++ ts) Unknown) (Some a) (Some b) ps i = Done ts.
Proof.
  induction ps as [|p ps IH]; intros ts q i a b L A B; destruct ts as [|t ts]; try discriminate; auto. cbn [len_pats length] in *. cbn [pat_types].
  rewrite (proj2 (Nat.ltb_ge i a)) by lia. rewrite (proj2 (Nat.ltb_lt b i)) by lia. replace (i + S (len_pats ps) - i) with (S (len_pats ps)) by lia. rewrite app_length. cbn [length]. rewrite (proj2 (Nat.ltb_ge _ _)) by lia. cbn [obind].
  replace (length q + S (length ts) - S (len_pats ps)) with (length q) by lia. rewrite nth_middle.
  specialize (IH ts (q ++ [t]) (S i) a b ltac:(lia) ltac:(lia) ltac:(lia)). rewrite <- app_assoc in IH. cbn [app] in IH. rewrite app_length in IH. cbn [length] in IH. replace (i + S (len_pats ps)) with (S i + len_pats ps) by lia. rewrite IH. reflexivity.
Qed.
Lemma lines_from : forall ps ts us, lines ps ts us -> forall q, pat_types (length (q ++ ts)) (length q + len_pats ps) (fun j => nth j (q ++ ts) Unknown) (fst (rests ps (length q) None None)) (snd (rests ps (length q) None None)) ps (length q) = Done us.
Proof.
  intros ps ts us H. induction H as [|p t ps ts us NR H IH|ps m ts NR L]; intros q; auto.
  - cbn [rests]. rewrite NR. cbn [pat_types]. specialize (IH (q ++ [t])). rewrite <- app_assoc in IH. cbn [app] in IH. rewrite (app_length q [t]) in IH. cbn [length] in IH. replace (length q + 1) with (S (length q)) in IH by lia.
    assert (F : match fst (rests ps (S (length q)) None None) with Some j => length q <? j | None => true end = true).
    { destruct (fst (rests ps (S (length q)) None None)) as [j|] eqn:E; auto. apply rests_first in E. destruct E as [(k & E & _)|(_ & E)]; [discriminate|]. apply Nat.ltb_lt. lia. }
    rewrite F. cbn [obind]. rewrite nth_middle. cbn [len_pats]. replace (length q + S (len_pats ps)) with (S (length q) + len_pats ps) by lia. rewrite IH. reflexivity.
  - cbn [rests is_rest]. rewrite rests_none by auto. cbn [fst snd pat_types]. rewrite Nat.ltb_irrefl. cbn [obind len_pats]. replace (length q + S (len_pats ps)) with (S (length q) + len_pats ps) by lia. rewrite !app_assoc. rewrite suffix_types; auto.
Qed.
Lemma lines_types : forall ps ts us, lines ps ts us -> tuple_pat_types ps ts = Done us.
Proof. intros ps ts us H. unfold tuple_pat_types. pose proof (lines_from _ _ _ H []) as K. cbn [app length Nat.add] in K. destruct (rests ps 0 None None). exact K. Qed.

(** * Compatibility *)
Section Compat.
Context {d : db}.
Lemma snap_good : forall c, good c -> good (mkCtx (msl c) (snapshot _ _ (vt c)) (snapshot _ _ (it c))).
Proof. intros c [A B C D]. constructor; auto. Qed.
Lemma snap_agrees : forall g c, agrees g c -> agrees g (mkCtx (msl c) (snapshot _ _ (vt c)) (snapshot _ _ (it c))).
Proof. intros g c [A B C D E F]. constructor; auto. now apply snap_good. Qed.
Lemma d_compatible : forall g E G n w a t, proper t -> t <> Tuple [] -> means g w t -> means g a t -> does g E G n (fun f => compatible_m f d w a) G n (fun b => b = true).
Proof.
  intros g E G n w a t P NT MW MA s I. destruct (combine_means g t _ w a (snap_agrees _ _ (i_agrees _ _ _ _ _ I)) P MW MA) as (c' & K & A'). exists s, true. split; [|split; auto]. exists (size t). intros f L. unfold compatible_m, is_tys_compatible.
  assert (EQ : freeze (fun c => obind (combine d f c w a) (fun '(c', r) => Done (c', is_ok r))) (cx s) = Done (cx s, true)) by (rewrite freeze_restores by apply compatible_keeps; rewrite K by auto; reflexivity).
  destruct a; try (rewrite EQ; destruct s; reflexivity). match goal with |- context [Tuple ?l] => destruct l end; [|rewrite EQ; destruct s; reflexivity]. destruct s; reflexivity.
Qed.
(** the variables in [vs] have no value, or an unknown one *)
Definition open (vs : list tyvar) (c : ctx) : Prop := good c /\ msl c = false /\ forall v, In v vs -> (forall c', ability_check d c' v Unknown = COk) /\ forall t, vval c v t -> t = Unknown.
Lemma unknown_value : forall vs c v, open vs c -> In v vs -> exists c', unify_ty_var d c v Unknown = Done (c', COk) /\ open vs c'.
Proof.
  intros vs c v (G & M & O) I. unfold unify_ty_var. assert (AB : ability_check d c v Unknown = COk) by apply (proj1 (O v I)). rewrite AB. destruct (vroot_total c v G) as (r & E & L). rewrite E. cbn [obind]. rewrite contains_ground by reflexivity. cbn [obind].
  assert (SR : vsame c v r) by (exists r; split; auto; eapply leads_self; eauto). assert (SV : exists c', set_value c r Unknown = Done c').
  { unfold set_value. destruct (var_value_effect tyvar ty tyvar_eq_dec ty_eq_dec (t_map (vt c)) r Unknown (g_vwf _ G)) as [[_ (u & NE & V)]|(m' & E2 & _)]; [|rewrite E2; cbn; eauto]. exfalso. apply NE. symmetry. apply (proj2 (O v I)). apply (vsame_val c r v u); [|exact V]. exists r. split; auto. eapply leads_self; eauto. }
  destruct SV as (c' & SV). rewrite SV. cbn [obind]. exists c'. split; auto. destruct (set_value_effect c r Unknown c' G) as (G2 & GR & _ & VV & _); auto; [intros [w W]; discriminate|]. split; auto. split; [rewrite (gr_msl _ _ GR); exact M|].
  intros w IW. split; [apply O; exact IW|]. intros t V. apply VV in V. destruct V as [V|[_ ->]]; auto. eapply O; eauto.
Qed.
Lemma unknown_values : forall vs ws c, open vs c -> incl ws vs -> exists c', unify_with_unknown d c ws = Done c' /\ open vs c'.
Proof.
  intros vs ws. induction ws as [|w ws IH]; intros c O I; cbn [unify_with_unknown]; eauto. destruct (unknown_value vs c w O) as (c1 & E & O1); [apply I; now left|]. rewrite E. cbn [obind]. apply IH; auto. intros x X. apply I. now right.
Qed.
Lemma combine_unknown : forall vs c t f, open vs c -> incl (ty_vars t) vs -> exists c', combine d (S f) c t Unknown = Done (c', COk) /\ open vs c'.
Proof.
  intros vs c t f O I. pose proof O as (G & M & OV). cbn [combine]. unfold prepare. rewrite M. cbn [refine_for_specs single_element_tuple_ty]. destruct (resolve_infer_spec c t G) as (u & E & R). rewrite E. cbn [resolve_infer obind].
  assert (NV : is_infer u = false -> incl (ty_vars u) vs -> exists c', combine_no_vars d (combine d f) c u Unknown = Done (c', COk) /\ open vs c').
  { intros IU IV. destruct (unknown_values vs (ty_vars u ++ ty_vars Unknown) c O) as (c' & E2 & O2); [intros x X; apply in_app_iff in X; destruct X as [X|[]]; auto|]. exists c'. split; auto. unfold combine_no_vars. destruct u; try discriminate; rewrite E2; reflexivity. }
  assert (GR : is_infer u = false -> ty_vars u = [] -> exists c', combine_no_vars d (combine d f) c u Unknown = Done (c', COk) /\ open vs c') by (intros; apply NV; auto; rewrite H0; intros x []).
  inversion R; subst; cbn beta iota.
  - apply (g_ival _ G) in H. destruct H as [k ->]. apply GR; auto.
  - cbn [unify_int_var]. eauto.
  - destruct (unknown_value vs c v O) as (c' & E2 & O2); [apply I; now left|]. exists c'. split; auto.
  - apply (g_ival _ G) in H0. destruct H0 as [k ->]. apply GR; auto.
  - cbn [unify_int_var]. eauto.
  - assert (u = Unknown) by (eapply OV; [apply I; now left|exact H]). subst u. apply GR; auto.
  - destruct u; try discriminate; apply NV; auto.
Qed.
Lemma pairs_unknown : forall vs f ts c, open vs c -> incl (flat_map ty_vars ts) vs -> exists c', combine_pairs (combine d (S f)) c COk ts (repeat Unknown (length ts)) = Done (c', COk) /\ open vs c'.
Proof.
  intros vs f ts. induction ts as [|t ts IH]; intros c O I; [exists c; auto|]. cbn [length repeat combine_pairs]. destruct (combine_unknown vs c t f O) as (c1 & E & O1); [intros x X; apply I; cbn; apply in_app_iff; auto|]. rewrite E. cbn [obind cand]. apply IH; auto. intros x X. apply I. cbn. apply in_app_iff. auto.
Qed.
Lemma means_origin : forall g t v, part (Var v) t -> forall w, means g t w -> forall c, ability_check d c v Unknown = COk.
Proof.
  intros g t v P. remember (Var v) as x eqn:EX. induction P as [t|t c u I P IH]; intros w M; [subst; destruct (means_is_var _ _ _ M) as [A _]; intros c; eapply allowed_check; [exact A|constructor]|]. inversion M; subst; try destruct I. destruct (F2_in_l _ _ _ _ _ _ H1 I) as (y & _ & MY). eauto.
Qed.
Lemma compatible_tuple : forall g c us ts f, agrees g c -> Forall2 (means g) us ts -> no_bound c (Tuple us) -> length ts <> 1 -> is_tys_compatible d (S (S f)) c (Tuple us) (Tuple (repeat Unknown (length us))) = Done (c, true).
Proof.
  intros g c us ts f A F NB L1. pose proof (F2_len _ _ _ _ _ F) as LL. unfold is_tys_compatible. destruct us as [|u [|u2 us]]; [reflexivity|cbn in LL; lia|]. remember (u :: u2 :: us) as vs eqn:EV. assert (ER : repeat Unknown (length vs) = Unknown :: Unknown :: repeat Unknown (length us)) by (subst vs; reflexivity). rewrite ER.
  rewrite freeze_restores by apply compatible_keeps. set (c0 := mkCtx _ _ _). assert (M : msl c0 = false) by apply (a_msl _ _ A). assert (O : open (flat_map ty_vars vs) c0).
  { split; [apply snap_good, A|]. split; auto. intros v I. apply in_flat_map in I. destruct I as (t & IT & IV). apply ty_vars_part in IV. destruct (F2_in_l _ _ _ _ _ _ F IT) as (w & _ & MW). split; [eapply means_origin; eauto|].
    intros y V. exfalso. apply (NB (Var v)) with (t := y); [|exact V]. eapply part_in; [|exact IV]. exact IT. }
  remember (S f) as f1 eqn:EF. cbn [combine]. unfold prepare. rewrite M. cbn [refine_for_specs single_element_tuple_ty resolve_infer obind]. rewrite EF.
  destruct (pairs_unknown _ f vs c0 O) as (c1 & E & _); [apply incl_refl|]. unfold combine_no_vars. destruct (ty_eqb _ _); [reflexivity|]. rewrite <- ER, repeat_length, Nat.eqb_refl, E. reflexivity.
Qed.
End Compat.

(** * Patterns *)
Definition mode (r : option bool) : bmode := match r with Some m => ByRef m | None => ByValue end.
Section Pat.
Context {d : db}.
Variables (fields : loc -> nat -> option ty).
Definition walks_pat (r : option bool) (G : env) (p : pat) (t : ty) (k : level) (G' : env) (g : sol) (n n' : nat) : Prop :=
  forall E w, means g w t -> knows k w -> does g E G n (fun f => collect f d fields p w (mode r)) G' n' (fun _ => True).
Definition walks_pats (r : option bool) (G : env) (ps : pats) (ts : list ty) (k : level) (G' : env) (g : sol) (n n' : nat) : Prop :=
  forall E ws, Forall2 (means g) ws ts -> Forall (knows k) ws -> does g E G n (fun f => collect_all f d fields ps ws (mode r)) G' n' (fun _ => True).
Definition same_fields (o : owner) (l : loc) : Prop := match o with OStruct v | OVariant _ v => v = l | ONone => False end.
Definition walks_named (r : option bool) (G : env) (l : loc) (k : level) (gs : list loc) (vs : list ty) (fs : list nat) (ps : pats) (G' : env) (g : sol) (n n' : nat) : Prop :=
  forall E o ws, same_fields o l -> Forall2 (means g) ws vs -> level_args k ws -> does g E G n (fun f => collect_all f d fields ps (map (fun i => substitute (mkSubst gs ws) (field_ty fields o i)) fs) (mode r)) G' n' (fun _ => True).
Definition walks_line (r : option bool) (G : env) (ps : pats) (ts : list ty) (k : level) (G' : env) (g : sol) (n n' : nat) : Prop :=
  forall E ws us, Forall2 (means g) ws ts -> Forall (knows k) ws -> lines ps ws us -> does g E G n (fun f => collect_all f d fields ps us (mode r)) G' n' (fun _ => True).
Lemma means_through : forall g r w t, means g w t -> means g (apply_bm w (mode r)) (through r t).
Proof. intros g [m|] w t H; auto. now apply means_ref_of. Qed.
Lemma knows_through : forall r k w, knows k w -> knows (match r with Some _ => around k | None => k end) (apply_bm w (mode r)).
Proof. intros [m|] k w H; auto. cbn [mode apply_bm]. apply knows_around; auto. intros ->. rewrite infer_ref. now apply knows_3. Qed.
Lemma ok_literal : forall l t j, lit_type l t j -> ok (fun g n n' => forall E G, does g E G n (fun _ => infer_literal l) G n' (fun a => means g a t)).
Proof.
  intros l t j H. inversion H; subst; try (apply ok_ret; intros; cbn [infer_literal]; apply does_pure; now apply means_refl).
  apply (ok_fresh _ k Unit). intros g n SI _ E G. cbn [infer_literal]. eapply does_bind; [apply d_inc|]. intros i ->. apply does_pure. rewrite <- SI. constructor.
Qed.
Lemma lit_proper : forall l t j, lit_type l t j -> proper t.
Proof.
  intros l t j H. assert (F : forall u, children u = [] -> proper1 u = true -> proper u) by (intros u C P x Q; inversion Q as [|? ? ? I]; subst; auto; rewrite C in I; destruct I).
  inversion H; subst; try (apply F; reflexivity); try (apply F; [reflexivity|destruct k; auto; congruence]). intros x P. inversion P as [|? ? ? I Q]; subst; [reflexivity|]. destruct I as [<-|[]]. inversion Q as [|? ? ? I]; subst; [reflexivity|destruct I].
Qed.
Definition bound_walk (l : option lit) (t : ty) (g : sol) (n n' : nat) : Prop :=
  forall E G w, means g w t -> does g E G n (fun f => match l with Some l => bindm (infer_literal l) (fun a => coerce_m f d a w) | None => pure true end) G n' (fun _ => True).
Lemma ok_bound : forall l t, bound_type l t -> ok (bound_walk l t).
Proof.
  intros l t [->|(l' & j & -> & H)]; [apply ok_ret; intros g n E G w _; now apply does_pure|]. eapply ok_map; [eapply ok_literal; exact H|]. intros g n n' K E G w M. eapply does_bind; [apply K|]. intros a MA. eapply does_imp; [|eapply d_coerce_same; [eapply lit_proper; exact H|exact M|exact MA]]. auto.
Qed.
Lemma d_adt : forall g E G n n' l gs us xs w, let vs := map (substitute (mkSubst gs xs)) us in gives gs xs g n n' -> Forall proper us -> Forall proper vs -> means g w (Adt l gs vs vs) ->
  does g E G n (fun f => bindm (instantiate gs [] (Adt l gs us us)) (fun '(_, a) => bindm (compatible_m f d w a) (fun ok : bool => if ok then pure tt else push WUnpack))) G n' (fun _ => True).
Proof.
  intros g E G n n' l gs us xs w vs K PU PV M. eapply does_bind; [eapply d_adt_vars; eauto|]. intros [qs a] [MA _]. eapply does_bind; [apply (d_compatible _ _ _ _ _ _ (Adt l gs vs vs)); auto; [now apply proper_adt|discriminate]|]. intros b ->. now apply does_pure.
Qed.
Lemma F_knows : forall k ts, Forall proper ts -> Forall (knows k) ts.
Proof. intros k ts H. eapply Forall_impl; [|exact H]. intros t P. now apply knows_ground, proper_ground. Qed.
Lemma tuple_owner : forall o l n ts gs ws, same_fields o l -> tuple_fields fields l n ts -> map (fun f => substitute (mkSubst gs ws) (field_ty fields o f)) (seq 0 n) = map (substitute (mkSubst gs ws)) ts.
Proof.
  intros o l n ts gs ws SF (<- & _ & F). assert (H : forall q us, (forall i t, nth_error us i = Some t -> fields l (q + i) = Some t) -> map (fun f => substitute (mkSubst gs ws) (field_ty fields o f)) (seq q (length us)) = map (substitute (mkSubst gs ws)) us).
  { clear F. intros q us. revert q. induction us as [|u us IH]; intros q H; auto. cbn [length seq map]. f_equal; [|apply IH; intros i t E; replace (S q + i) with (q + S i) by lia; now apply H].
    specialize (H 0 u eq_refl). rewrite Nat.add_0_r in H. destruct o; cbn in SF |- *; [subst; now rewrite H|subst; now rewrite H|destruct SF]. }
  apply (H 0). auto.
Qed.
Lemma pat_not_rest : forall r G p t k G', pat_has fields r G p t k G' -> is_rest p = false.
Proof. intros r G p t k G' H. inversion H; subst; auto. destruct p; auto. destruct H0. Qed.
Lemma each_no_rest : forall r G ps ts k G', each fields r G ps ts k G' -> no_rest ps /\ len_pats ps = length ts.
Proof. intros r G ps ts k G' H. induction H; split; try constructor; auto; try apply IHeach; [eapply pat_not_rest; eauto|]. cbn. f_equal. apply IHeach. Qed.
Lemma places_lines : forall r G ps ts k G', places fields r G ps ts k G' -> forall ws : list ty, length ws = length ts -> exists us, lines ps ws us.
Proof.
  intros r G ps ts k G' H. induction H as [r G k|r G ps q ts k G' HE|r G p t ps ts k G1 G2 HP HL IH]; intros ws L.
  - destruct ws; [|discriminate]. exists []. constructor.
  - destruct (each_no_rest _ _ _ _ _ _ HE) as [NR LL]. rewrite app_length in L. exists (Unknown :: skipn (length q) ws). rewrite <- (firstn_skipn (length q) ws) at 1. constructor; auto. rewrite skipn_length. lia.
  - destruct ws as [|w ws]; [discriminate|]. injection L as L. destruct (IH ws L) as [us LN]. exists (w :: us). constructor; auto. eapply pat_not_rest; exact HP.
Qed.
Lemma pats_walk : (forall r G p t k G', pat_has fields r G p t k G' -> ok (walks_pat r G p t k G'))
  /\ (forall r G l k gs vs fs ps G', fields_has fields r G l k gs vs fs ps G' -> ok (walks_named r G l k gs vs fs ps G'))
  /\ (forall r G ps ts k G', places fields r G ps ts k G' -> ok (walks_line r G ps ts k G'))
  /\ (forall r G ps ts k G', each fields r G ps ts k G' -> ok (walks_pats r G ps ts k G')).
Proof.
  apply pat_has_all.
  - intros r G x t k NX P. apply ok_ret. intros g n E w M K. cbn [collect]. rewrite (single_proper g _ (through r t)); [|now apply means_through|auto]. apply d_bind; [now apply means_through|now apply knows_through].
  - intros r G x t k NX P. apply ok_ret. intros g n E w M K. cbn [collect]. apply d_bind; [now apply means_through|now apply knows_through].
  - intros r G t k. apply ok_ret. intros g n E w M K. now apply does_pure.
  - intros r G t k. apply ok_ret. intros g n E w M K. now apply does_pure.
  - intros r G k. apply ok_ret. intros g n E w M K. now apply does_pure.
  - intros r G l t j k H. eapply ok_map; [eapply ok_literal; exact H|]. intros g n n' K E w M _. cbn [collect]. eapply does_bind; [apply K|]. intros a MA. eapply does_bind; [eapply d_coerce_same; [eapply lit_proper; exact H|exact M|exact MA]|]. intros _ _. now apply does_pure.
  - intros r G lo hi t k IT H1 H2. eapply ok_seq; [apply ok_bound; exact H1|apply ok_bound; exact H2|]. intros g n n1 n2 K1 K2 E w M _. cbn [collect]. eapply does_bind; [apply K1; exact M|]. intros _ _. eapply does_bind; [apply K2; exact M|]. intros _ _. now apply does_pure.
  - intros r G p t k G' _ H. eapply ok_map; [exact H|]. intros g n n' K E w M KW. cbn [collect]. now apply K.
  - intros G p t k G' NT _ H. eapply ok_map; [exact H|]. intros g n n' K E w M KW. cbn [collect]. assert (IT : is_tuple w = false).
    { destruct w; auto. exfalso. destruct (means_cases _ _ _ M) as [(i & Z & _)|[(i & Z & _)|[(Z & _)|[(Z & _)|(_ & HH & _)]]]]; try discriminate. destruct t; cbn in HH; try discriminate. eapply NT; eauto. }
    rewrite IT. now apply K.
  - intros r m G p t G' C _ H. eapply ok_map; [exact H|]. intros g n n' K E w M KW. pose proof (knows_3 _ KW) as GW. destruct (means_ref _ _ _ _ M (ground_not_infer _ GW)) as (w' & -> & M'). rewrite infer_ref in GW.
    specialize (K E w' M' (knows_ground 3 _ GW)). destruct p; try destruct C; cbn [collect] in K |- *; (replace (strip_references (Reference m w') (mode r)) with (strip_references w' (mode (Some (via r m)))) by (destruct r as [[|]|]; reflexivity)); exact K.
  - intros r G l gs us vs fs ps k G' W (xs & FA & PX & PU & PV & ->) _ H. eapply ok_seq; [apply (ok_vars_for gs xs FA PX)|exact H|]. intros g n n1 n2 KX K E w M KW. destruct (adt_parts _ _ _ _ _ _ M W KW) as (ws & ys & -> & F1 & F2 & GW). cbn [collect strip_references adt_subst]. eapply does_bind; [eapply d_adt; eauto|]. intros _ _. apply K; auto. reflexivity.
  - intros r G l v hs us gs vs fs ps k G' W _ H. eapply ok_map; [exact H|]. intros g n n' K E w M KW. destruct (adt_parts _ _ _ _ _ _ M W KW) as (ws & ys & -> & F1 & F2 & GW). cbn [collect strip_references adt_subst]. apply does_skip. apply K; auto. reflexivity.
  - intros r G l gs vs n0 ts ps k G' W TF HL H. eapply ok_map; [exact H|]. intros g n n' K E w M KW. destruct (adt_parts _ _ _ _ _ _ M W KW) as (ws & ys & -> & F1 & F2 & GW). cbn [collect strip_references adt_subst]. rewrite (tuple_owner (OStruct l) l n0 ts) by (auto; reflexivity). destruct (F2_declared g k gs ws vs ts F1 GW (proj1 (proj2 TF))) as [FD KD].
    destruct (places_lines _ _ _ _ _ _ HL (map (substitute (mkSubst gs ws)) ts)) as [us LN]; [now rewrite !map_length|]. rewrite (lines_types _ _ _ LN). cbn [obind]. eapply K; eauto.
  - intros r G l v gs vs n0 ts ps k G' W TF HL H. eapply ok_map; [exact H|]. intros g n n' K E w M KW. destruct (adt_parts _ _ _ _ _ _ M W KW) as (ws & ys & -> & F1 & F2 & GW). cbn [collect strip_references adt_subst]. rewrite (tuple_owner (OVariant l v) v n0 ts) by (auto; reflexivity). destruct (F2_declared g k gs ws vs ts F1 GW (proj1 (proj2 TF))) as [FD KD].
    destruct (places_lines _ _ _ _ _ _ HL (map (substitute (mkSubst gs ws)) ts)) as [us LN]; [now rewrite !map_length|]. rewrite (lines_types _ _ _ LN). cbn [obind]. eapply K; eauto.
  - intros r G l k gs vs. apply ok_ret. intros g n E o ws S _ _. now apply does_pure.
  - intros r G l k gs vs f. apply ok_ret. intros g n E o ws S _ _. cbn [map collect_all collect]. apply does_skip. now apply does_pure.
  - intros r G l k gs vs f t fs p ps G1 G2 EF P _ H1 _ H2. eapply ok_seq; [exact H1|exact H2|]. intros g n n1 n2 K1 K2 E o ws S F GW. cbn [map collect_all]. assert (FT : field_ty fields o f = t) by (destruct o; cbn in S |- *; [subst; now rewrite EF|subst; now rewrite EF|destruct S]). rewrite FT.
    eapply does_bind; [apply K1; [apply subst_means; auto; now apply proper_ground|now apply knows_field]|]. intros _ _. now apply K2.
  - intros r G k. apply ok_ret. intros g n E ws us _ _ LN. inversion LN; subst. now apply does_pure.
  - intros r G ps q ts k G' HE H. eapply ok_map; [exact H|]. intros g n n' K E ws us F KW LN. inversion LN as [|? ? ? ? ? NR|? q' ts' NR LL]; subst; [discriminate|]. cbn [collect_all collect]. apply does_skip. destruct (each_no_rest _ _ _ _ _ _ HE) as [_ LT].
    assert (LQ : length q' = length q) by (pose proof (F2_len _ _ _ _ _ F) as LF; rewrite !app_length in LF; lia). assert (FT : Forall2 (means g) ts' ts) by (clear - F LQ; revert q LQ F; induction q' as [|a q' IH]; intros [|b q] L F; try discriminate; auto; cbn in F; inversion F; subst; injection L as L; eapply IH; eauto).
    apply K; auto. apply Forall_app in KW. apply KW.
  - intros r G p t ps ts k G1 G2 HP H1 _ H2. eapply ok_seq; [exact H1|exact H2|]. intros g n n1 n2 K1 K2 E ws us F KW LN. pose proof (pat_not_rest _ _ _ _ _ _ HP) as NR. inversion LN as [|? w ? ws' us' NR' LN'|? q' ts' NR' LL]; subst; [|discriminate]. inversion F; subst. inversion KW; subst. cbn [collect_all]. eapply does_bind; [apply K1; auto|]. intros _ _. eapply K2; eauto.
  - intros r G k. apply ok_ret. intros g n E ws F _. cbn [collect_all]. now apply does_pure.
  - intros r G p t ps ts k G1 G2 _ H1 _ H2. eapply ok_seq; [exact H1|exact H2|]. intros g n n1 n2 K1 K2 E ws F KW. inversion F; subst. inversion KW; subst. cbn [collect_all]. eapply does_bind; [apply K1; auto|]. intros _ _. now apply K2.
Qed.
(** the pattern of let, in a state in which the type is resolved *)
Definition walks_top (G : env) (p : pat) (t : ty) (k : level) (G' : env) (g : sol) (n n' : nat) : Prop :=
  forall E w s, inv g E G n s -> means g w t -> knows k w -> no_bound (cx s) w -> exists s' a, runs (fun f => collect f d fields p w ByValue) s s' a /\ inv g E G' n' s'.
Lemma ground_child : forall t x, has_infer t = false -> In x (children t) -> has_infer x = false.
Proof. intros t x H I. eapply no_infer_child; eauto. Qed.
Lemma each_lines : forall ps ts, no_rest ps -> len_pats ps = length ts -> lines ps ts ts.
Proof. intros ps ts H. revert ts. induction H; intros [|t ts] L; try discriminate; constructor; auto. Qed.
Lemma top_walks : forall G p t k G', top_has fields G p t k G' -> proper t -> ok (walks_top G p t k G').
Proof.
  intros G p t k G' H. induction H as [p t k G' H|p t k G' H IH|ps ts k G' L H]; intros P.
  - eapply ok_map; [apply (proj1 pats_walk); exact H|]. intros g n n' K E w s I M KW _. destruct (K E w M KW s I) as (s' & a & R & I' & _). eauto.
  - eapply ok_map; [apply IH; exact P|]. intros g n n' K E w s I M KW NB. cbn [collect]. now apply K.
  - eapply ok_map; [apply (proj2 (proj2 (proj2 pats_walk))); exact H|]. intros g n n' K E w s I M KW NB. destruct (means_tuple _ _ _ M (knows_2 _ _ L KW)) as (us & -> & F). destruct (each_no_rest _ _ _ _ _ _ H) as [NR LL].
    assert (L1 : length ts <> 1) by (intros L1; apply proper_here in P; cbn in P; rewrite L1 in P; discriminate).
    assert (KU : Forall (knows (inside k)) us).
    { apply Forall_forall. intros x IX. apply knows_inside. intros ->. eapply ground_child; [apply knows_3; exact KW|exact IX]. }
    pose proof (F2_len _ _ _ _ _ F) as LF. destruct (K E us F KU s I) as (s' & a & [N R] & I' & _). exists s', a. split; auto. exists (N + 2). intros f LE. destruct f as [|[|f]]; [lia|lia|].
    assert (EQ : collect (S (S f)) d fields (PTuple ps) (Tuple us) ByValue = bindm (compatible_m (S (S f)) d (Tuple us) (Tuple (repeat Unknown (len_pats ps)))) (fun ok : bool => bindm (if ok then pure tt else push WUnpack) (fun _ => fun s => obind (tuple_pat_types ps us) (fun l => collect_all (S (S f)) d fields ps l ByValue s)))).
    { destruct ps as [|p [|p2 ps]]; reflexivity. }
    rewrite EQ, (lines_types _ _ _ (each_lines ps us NR ltac:(lia))). unfold bindm at 1, compatible_m. rewrite LL, <- LF, (compatible_tuple g (cx s) us ts f (i_agrees _ _ _ _ _ I) F NB L1). cbn [obind]. unfold bindm, pure. cbn [obind]. replace (with_cx s (cx s)) with s by (destruct s; reflexivity). apply R. lia.
Qed.
(** no binding is lost *)
Definition extends (G G' : env) : Prop := forall y v, G y = Some v -> G' y = Some v.
Lemma pats_extend : (forall r G p t k G', pat_has fields r G p t k G' -> extends G G')
  /\ (forall r G l k gs vs fs ps G', fields_has fields r G l k gs vs fs ps G' -> extends G G')
  /\ (forall r G ps ts k G', places fields r G ps ts k G' -> extends G G')
  /\ (forall r G ps ts k G', each fields r G ps ts k G' -> extends G G').
Proof. apply pat_has_all; unfold extends; intros; eauto; now apply upd_keeps. Qed.
Lemma top_extends : forall G p t k G', top_has fields G p t k G' -> extends G G'.
Proof. intros G p t k G' H. induction H as [p t k G' H|p t k G' H IH|ps ts k G' L H]; [exact (proj1 pats_extend _ _ _ _ _ _ H)|exact IH|exact (proj2 (proj2 (proj2 pats_extend)) _ _ _ _ _ _ H)]. Qed.
End Pat.
