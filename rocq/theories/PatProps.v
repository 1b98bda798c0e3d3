(** C59: patterns bind variables with the types of the matched parts. *)
From Verif Require Import Base TyModel TyProps UnifyModel UnifyProps InferModel InferProofs InferResolve InferTotal InferProps WalkModel WalkTyping WalkSolve WalkRun WalkPat WalkProofs WalkProps.

(** * The variables bound *)
Definition holds (G : env) (b : nat -> option ty) : Prop := forall x t k, G x = Some (t, k) -> b x = Some t.
Definition keeps {A} (x : m A) : Prop := forall s s' a, x s = Done (s', a) -> binds s' = binds s.
Definition moves {A} (x : m A) (G G' : env) : Prop := forall s s' a, x s = Done (s', a) -> holds G (binds s) -> holds G' (binds s') /\ forall y, G' y = None -> binds s' y = binds s y.
Lemma keeps_bind : forall A B (x : m A) (f : A -> m B), keeps x -> (forall a, keeps (f a)) -> keeps (bindm x f).
Proof. intros A B x f K1 K2 s s' b H. unfold bindm in H. destruct (x s) as [[s1 a]| |] eqn:E; try discriminate. cbn in H. rewrite (K2 a s1 s' b H). eapply K1; eauto. Qed.
Lemma keeps_pure : forall A (a : A), keeps (pure a).
Proof. intros A a s s' b H. injection H as <- _. reflexivity. Qed.
Lemma keeps_push : forall e, keeps (push e).
Proof. intros e s s' b H. injection H as <- _. reflexivity. Qed.
Lemma keeps_coerce : forall f d a e, keeps (coerce_m f d a e).
Proof. intros f d a e s s' b H. unfold coerce_m in H. destruct (coerce_types d f (cx s) a e) as [[c [|]]| |]; try discriminate; cbn in H; injection H as <- _; reflexivity. Qed.
Lemma keeps_compatible : forall f d a e, keeps (compatible_m f d a e).
Proof. intros f d a e s s' b H. unfold compatible_m in H. destruct (is_tys_compatible d f (cx s) a e) as [[c x]| |]; try discriminate. cbn in H. injection H as <- _. reflexivity. Qed.
Lemma keeps_literal : forall l, keeps (infer_literal l).
Proof. intros l s s' b H. destruct l as [|[k|]| |]; cbn in H; injection H as <- _; reflexivity. Qed.
Lemma keeps_inc : keeps inc.
Proof. intros s s' b H. injection H as <- _. reflexivity. Qed.
Lemma keeps_instantiate : forall gs ps r, keeps (instantiate gs ps r).
Proof.
  intros gs ps r. unfold instantiate. apply keeps_bind; [|intros; apply keeps_pure]. induction gs as [|l gs IH]; cbn [fresh_vars]; [apply keeps_pure|]. apply keeps_bind; [apply keeps_inc|]. intros i. apply keeps_bind; [exact IH|]. intros; apply keeps_pure.
Qed.
Lemma moves_keeps : forall A (x : m A) G, keeps x -> moves x G G.
Proof. intros A x G K s s' a H HG. rewrite (K _ _ _ H). auto. Qed.
Lemma moves_bind : forall A B (x : m A) (f : A -> m B) G G1 G2, extends G1 G2 -> moves x G G1 -> (forall a, moves (f a) G1 G2) -> moves (bindm x f) G G2.
Proof.
  intros A B x f G G1 G2 EX M1 M2 s s' b H HG. unfold bindm in H. destruct (x s) as [[s1 a]| |] eqn:E; try discriminate. cbn in H. destruct (M1 _ _ _ E HG) as [H1 U1]. destruct (M2 _ _ _ _ H H1) as [H2 U2]. split; auto. intros y Y. rewrite U2 by auto. apply U1.
  destruct (G1 y) as [v|] eqn:EY; auto. rewrite (EX _ _ EY) in Y. discriminate.
Qed.
Lemma moves_skip : forall A B (x : m A) (f : A -> m B) G G', keeps x -> (forall a, moves (f a) G G') -> moves (bindm x f) G G'.
Proof.
  intros A B x f G G' K M s s' b H HG. unfold bindm in H. destruct (x s) as [[s1 a]| |] eqn:E; try discriminate. cbn in H. pose proof (K _ _ _ E) as EB. rewrite <- EB in HG |- *. eapply M; eauto.
Qed.
Lemma moves_set : forall G x t k, moves (set_bind x t) G (upd G x t k).
Proof.
  intros G x t k s s' a H HG. injection H as <- _. cbn. split.
  - intros y u j E. unfold upd in E. destruct (y =? x); [now injection E as -> _|eapply HG; eauto].
  - intros y E. unfold upd in E. destruct (y =? x); [discriminate|reflexivity].
Qed.
Section Exact.
Context {d : db}.
Variables (fields : loc -> nat -> option ty) (f : nat).
Lemma single_exact : forall t, proper t -> match single_element_tuple_ty t with Some u => u | None => t end = t.
Proof. intros t P. apply proper_here in P. destruct t; auto. match goal with H : proper1 (Tuple ?l) = true |- _ => destruct l as [|u [|u2 us]] end; auto. discriminate. Qed.
Lemma exact_pats : (forall r G p t k G', pat_has fields r G p t k G' -> moves (collect f d fields p t (mode r)) G G')
  /\ (forall r G l k gs vs fs ps G', fields_has fields r G l k gs vs fs ps G' -> forall o, same_fields o l -> moves (collect_all f d fields ps (map (fun i => substitute (mkSubst gs vs) (field_ty fields o i)) fs) (mode r)) G G')
  /\ (forall r G ps ts k G', places fields r G ps ts k G' -> exists us, lines ps ts us /\ moves (collect_all f d fields ps us (mode r)) G G')
  /\ (forall r G ps ts k G', each fields r G ps ts k G' -> moves (collect_all f d fields ps ts (mode r)) G G').
Proof.
  assert (KB : forall (l : option lit) t, keeps (match l with Some l => bindm (infer_literal l) (fun a => coerce_m f d a t) | None => pure true end)).
  { intros [l|] t; [|apply keeps_pure]. apply keeps_bind; [apply keeps_literal|]. intros a. apply keeps_coerce. }
  assert (TH : forall r t, apply_bm t (mode r) = through r t) by (intros [m|] t; reflexivity).
  apply pat_has_all.
  - intros r G x t k NX P. cbn [collect]. rewrite TH, single_exact by auto. apply moves_set.
  - intros r G x t k NX P. cbn [collect]. rewrite TH. apply moves_set.
  - intros. apply moves_keeps, keeps_pure.
  - intros. apply moves_keeps, keeps_pure.
  - intros. apply moves_keeps, keeps_pure.
  - intros. apply moves_keeps. cbn [collect]. apply keeps_bind; [apply keeps_literal|]. intros a. apply keeps_bind; [apply keeps_coerce|]. intros. apply keeps_pure.
  - intros. apply moves_keeps. cbn [collect]. apply keeps_bind; [apply KB|]. intros _. apply keeps_bind; [apply KB|]. intros. apply keeps_pure.
  - intros. cbn [collect]. auto.
  - intros G p t k G' NT _ H. cbn [collect]. destruct (is_tuple t) eqn:IT; [|exact H]. destruct t; try discriminate. exfalso. eapply NT; eauto.
  - intros r m G p t G' C _ H. destruct p; try destruct C; cbn [collect] in H |- *; (replace (strip_references (Reference m t) (mode r)) with (strip_references t (mode (Some (via r m)))) by (destruct r as [[|]|]; reflexivity)); exact H.
  - intros r G l gs us vs fs ps k G' _ _ _ H. cbn [collect strip_references adt_subst]. apply moves_skip; [|intros _; apply H; reflexivity]. apply keeps_bind; [apply keeps_instantiate|]. intros [qs a]. apply keeps_bind; [apply keeps_compatible|]. intros [|]; [apply keeps_pure|apply keeps_push].
  - intros r G l v hs us gs vs fs ps k G' _ _ H. cbn [collect strip_references adt_subst]. apply moves_skip; [apply keeps_pure|]. intros _. apply H. reflexivity.
  - intros r G l gs vs n ts ps k G' _ TF _ (us & LN & H). cbn [collect strip_references adt_subst]. rewrite (tuple_owner fields (OStruct l) l n ts) by (auto; reflexivity). rewrite (lines_types _ _ _ LN). exact H.
  - intros r G l v gs vs n ts ps k G' _ TF _ (us & LN & H). cbn [collect strip_references adt_subst]. rewrite (tuple_owner fields (OVariant l v) v n ts) by (auto; reflexivity). rewrite (lines_types _ _ _ LN). exact H.
  - intros. apply moves_keeps, keeps_pure.
  - intros. cbn [map collect_all collect]. apply moves_skip; [apply keeps_pure|]. intros _. apply moves_keeps, keeps_pure.
  - intros r G l k gs vs n t fs p ps G1 G2 EF P _ H1 HF H2 o SF. cbn [map collect_all]. assert (FT : field_ty fields o n = t) by (destruct o; cbn in SF |- *; [subst; now rewrite EF|subst; now rewrite EF|destruct SF]). rewrite FT.
    eapply moves_bind; [exact (proj1 (proj2 (pats_extend fields)) _ _ _ _ _ _ _ _ _ HF)|exact H1|]. intros _. now apply H2.
  - intros r G k. exists []. split; [constructor|]. apply moves_keeps, keeps_pure.
  - intros r G ps q ts k G' HE H. exists (Unknown :: ts). destruct (each_no_rest fields _ _ _ _ _ _ HE) as [NR LL]. split; [now constructor|]. cbn [collect_all collect]. apply moves_skip; [apply keeps_pure|]. intros _. exact H.
  - intros r G p t ps ts k G1 G2 HP H1 HL (us & LN & H2). exists (t :: us). split; [constructor; auto; eapply pat_not_rest; exact HP|]. cbn [collect_all]. eapply moves_bind; [exact (proj1 (proj2 (proj2 (pats_extend fields))) _ _ _ _ _ _ HL)|exact H1|]. intros _. exact H2.
  - intros. apply moves_keeps, keeps_pure.
  - intros r G p t ps ts k G1 G2 _ H1 HE H2. cbn [collect_all]. eapply moves_bind; [exact (proj2 (proj2 (proj2 (pats_extend fields))) _ _ _ _ _ _ HE)|exact H1|]. intros _. exact H2.
Qed.
Lemma exact_top : forall G p t k G', top_has fields G p t k G' -> moves (collect f d fields p t ByValue) G G'.
Proof.
  intros G p t k G' H. induction H as [p t k G' H|p t k G' H IH|ps ts k G' L H]; [exact (proj1 exact_pats _ _ _ _ _ _ H)|cbn [collect]; exact IH|].
  destruct (each_no_rest fields _ _ _ _ _ _ H) as [NR LL]. pose proof (proj2 (proj2 (proj2 exact_pats)) _ _ _ _ _ _ H) as M. cbn [mode] in M.
  assert (U : moves (bindm (compatible_m f d (Tuple ts) (Tuple (repeat Unknown (len_pats ps)))) (fun ok : bool => bindm (if ok then pure tt else push WUnpack) (fun _ => fun s => obind (tuple_pat_types ps ts) (fun l => collect_all f d fields ps l ByValue s)))) G G').
  { apply moves_skip; [apply keeps_compatible|]. intros ok. apply moves_skip; [destruct ok; [apply keeps_pure|apply keeps_push]|]. intros _. rewrite (lines_types _ _ _ (each_lines ps ts NR LL)). exact M. }
  destruct ps as [|p [|p2 ps]]; exact U.
Qed.
End Exact.

(** * Theorem *)
(** A pattern of let that matches values of the type [t] is walked without an error, and binds every variable in it to the type of
    the part of the value at its place: a reference to it if the pattern goes through a reference.  Other variables keep their types.
    Missing: tuple patterns with [..] and what follows on patterns that do not fit, both refuted below. *)
Theorem pattern_binds_partial : forall (d : db) fields G b p t G', proper t -> params G b -> top_has fields G p t 3 G' ->
  exists s N, (forall f, N <= f -> collect f d fields p t ByValue (start b) = Done (s, tt)) /\ errs s = [] /\
    (forall x u k, G' x = Some (u, k) -> binds s x = Some u) /\ (forall x, G' x = None -> binds s x = b x).
Proof.
  intros d fields G b p t G' P HP H. destruct (top_walks fields _ _ _ _ _ H P 0) as (n & g & _ & K). specialize (K g (fun i _ _ => conj eq_refl eq_refl)).
  destruct (K [] t (start b) (start_inv g G b HP) (means_proper g _ P) (knows_ground _ _ (proper_ground _ P)) (no_infer_no_bound _ _ (proper_ground _ P))) as (s & [] & [N R] & I).
  exists s, N. split; auto. split; [apply (i_errs _ _ _ _ _ I)|]. apply (exact_top fields N _ _ _ _ _ H (start b) s tt (R N (Nat.le_refl _))). intros x u k E. apply (HP _ _ _ E).
Qed.
(** * Example *)
(** struct 7 has a field 0 of type u8; struct 8 has the fields bool, address, struct 7 by position.  The pattern
    (S8(x, .., S7 { f: y }), 3..=5, z) for a tuple of &mut S8, u16 and address *)
#[local] Existing Instance ex_db.
Definition pat_fields (l : loc) (f : nat) : option ty :=
  if l =? 7 then if f =? 0 then Some (Integer U8) else None
  else if l =? 8 then nth_error [TBool; Address; ex_s] f else None.
Definition p1 (l : list pat) : pats := fold_right PCons PNil l.
Definition ex_pat : pat := PTuple (p1 [PTupleStruct (OStruct 8) 3 (p1 [PIdent 0; PRest; PStruct (OStruct 7) [] [] [0] (p1 [PIdent 1])]); PRange (Some (LInt None)) (Some (LInt None)); PIdent 2]).
Definition ex_pat_ty : ty := Tuple [Reference true (Adt 8 [] [] []); Integer U16; Address].
Lemma proper_tuple3 : forall a b c, proper a -> proper b -> proper c -> proper (Tuple [a; b; c]).
Proof. intros a b c A B C x H. inversion H as [|? ? ? I]; subst; auto. destruct I as [<-|[<-|[<-|[]]]]; auto. Qed.
Example pattern_example : proper ex_pat_ty /\ (exists G', top_has pat_fields (fun _ => None) ex_pat ex_pat_ty 3 G' /\ G' 0 = Some (Reference true TBool, 3) /\ G' 1 = Some (Reference true (Integer U8), 3) /\ G' 2 = Some (Address, 3) /\ G' 3 = None)
  /\ exists s, collect 20 ex_db pat_fields ex_pat ex_pat_ty ByValue (start (fun _ => None)) = Done (s, tt) /\ binds s 0 = Some (Reference true TBool) /\ binds s 1 = Some (Reference true (Integer U8)) /\ binds s 2 = Some Address /\ errs s = [].
Proof.
  assert (PB : proper (Reference true TBool)) by (eapply proper_one; [reflexivity|reflexivity|]; now apply proper_flat).
  assert (P8 : proper (Reference true (Integer U8))) by (eapply proper_one; [reflexivity|reflexivity|]; now apply proper_int).
  split; [apply proper_tuple3; [eapply proper_one; [reflexivity|reflexivity|]; now apply proper_flat|now apply proper_int|now apply proper_flat]|]. split.
  - eexists. split.
    { apply th_tuple; [lia|]. cbn [inside Nat.eqb]. eapply ea_cons; [|eapply ea_cons; [|eapply ea_cons; [|apply ea_nil]]].
      - apply ph_deref; [exact Logic.I|]. apply (ph_tuple_struct _ _ _ 8 [] [] 3 [TBool; Address; ex_s]); [lia| |].
        + split; auto. split; [repeat constructor; now apply proper_flat|]. intros [|[|[|i]]] t E; cbn in E |- *; auto; destruct i; discriminate.
        + eapply pl_cons; [apply ph_ident; [reflexivity|exact PB]|]. apply (pl_rest _ _ _ _ [Address] [ex_s]). eapply ea_cons; [|apply ea_nil]. apply ph_struct; [cbn; lia|exists []; repeat constructor|]. eapply fp_cons; [reflexivity|now apply proper_int|apply ph_ident; [reflexivity|exact P8]|apply fp_nil].
      - apply ph_range; [now exists U16|right; exists (LInt None), 1; split; [reflexivity|now constructor]|right; exists (LInt None), 1; split; [reflexivity|now constructor]].
      - apply ph_ident; [reflexivity|now apply proper_flat]. }
    repeat split; reflexivity.
  - eexists. split; [vm_compute; reflexivity|]. repeat split; reflexivity.
Qed.

(** fun f(r: &mut S8): u8 { match (r) { S8(b, .., S7 { f: y }) if ( *b) => *y, S8(..) => abort 1, _ => 0 } } has a type by the rules, so
    that [well_typed_no_errors_partial] says that it gets no error *)
Definition ex_match (e : expr) : block := Tail (Match (Path 0)
  (ACons (PTupleStruct (OStruct 8) 3 (p1 [PIdent 1; PRest; PStruct (OStruct 7) [] [] [0] (p1 [PIdent 2])])) (Some (Deref (Path 1))) (Deref (Path 2))
  (ACons (PTupleStruct (OStruct 8) 3 (p1 [PRest])) None (Abort num) (ACons PWild None e ANil)))).
Definition match_binds (x : nat) : option ty := match x with 0 => Some (Reference true (Adt 8 [] [] [])) | _ => None end.
Example match_example : has_block pat_fields (Integer U8) (fun x => match match_binds x with Some t => Some (t, 3) | None => None end) (ex_match num) (Integer U8) 1 true false
  /\ (exists s u, infer_block 20 ex_db pat_fields (Integer U8) (ex_match num) (Some (Integer U8)) true (start match_binds) = Done (s, u) /\ errs s = [] /\ u = Integer U8).
Proof.
  assert (PB : proper (Reference true TBool)) by (eapply proper_one; [reflexivity|reflexivity|]; now apply proper_flat).
  assert (P8 : proper (Reference true (Integer U8))) by (eapply proper_one; [reflexivity|reflexivity|]; now apply proper_int).
  assert (TF : tuple_fields pat_fields 8 3 [TBool; Address; ex_s]).
  { split; auto. split; [repeat constructor; now apply proper_flat|]. intros [|[|[|i]]] t E; cbn in E |- *; auto; destruct i; discriminate. }
  split; [|eexists _, _; split; [vm_compute; reflexivity|]; repeat split; reflexivity].
  apply hk_tail. eapply (h_match _ _ _ _ _ (Reference true (Adt 8 [] [] [])) 3 true false [Integer U8; Never; Integer U8] _ 1); [now apply h_path| | |now left| |].
  - eapply proper_one; [reflexivity|reflexivity|]. now apply proper_flat.
  - eapply (hr_guard _ _ _ _ _ _ _ _ _ _ _ _ _ _ 3 true _ _ _ 1).
    + left. apply ph_deref; [exact Logic.I|]. apply (ph_tuple_struct _ _ _ 8 [] [] 3 [TBool; Address; ex_s]); [lia|exact TF|]. eapply pl_cons; [apply ph_ident; [reflexivity|exact PB]|]. apply (pl_rest _ _ _ _ [Address] [ex_s]). eapply ea_cons; [|apply ea_nil]. apply ph_struct; [cbn; lia|exists []; repeat constructor|]. eapply fp_cons; [reflexivity|now apply proper_int|apply ph_ident; [reflexivity|exact P8]|apply fp_nil].
    + eapply h_deref; [now apply h_path|]. cbn. lia.
    + apply go_same.
    + eapply (h_deref _ _ _ _ true (Integer U8) 3 true); [now apply h_path|]. cbn. lia.
    + eapply (hr_cons _ _ _ _ _ _ _ _ _ 3 true _ _ _ 1).
      * left. apply ph_deref; [exact Logic.I|]. apply (ph_tuple_struct _ _ _ 8 [] [] 3 [TBool; Address; ex_s]); [lia|exact TF|]. apply (pl_rest _ _ _ _ [TBool; Address; ex_s] []). apply ea_nil.
      * eapply h_abort; [now apply (num_typed _ _ _ U64)|now left].
      * eapply (hr_cons _ _ _ _ _ _ _ _ _ 1 true _ _ _ 3); [left; apply ph_wild|now apply num_typed|apply hr_nil].
  - intros x [<-|[<-|[<-|[]]]]; auto.
  - left. split; [now apply proper_int|]. intros (m & u & E). discriminate.
Qed.

(** generic structs: in fun f(r: &Box<u8>): u8 { let Box { x: a, v: w } = r; let Box { x: b, v: _ } = Box { x: 1, v: vector[] }; b }, a is of
    type &u8 and w of type &vector<u8>; b is an integer of a type that is known from the result *)
Definition box_pats : block :=
  SLet (PStruct (OStruct 9) [40] [TypeParam 40] [0; 1] (p1 [PIdent 1; PIdent 2])) None (Path 0)
  (SLet (PStruct (OStruct 9) [40] [TypeParam 40] [0; 1] (p1 [PIdent 3; PWild])) None (box_lit [TypeParam 40] num (Vec ENil))
  (Tail (Path 3))).
Definition shared_binds (x : nat) : option ty := match x with 0 => Some (Reference false (box (Integer U8))) | _ => None end.
Example box_pats_example : has_block box_fields (Integer U8) (fun x => match shared_binds x with Some t => Some (t, 3) | None => None end) box_pats (Integer U8) 0 true false
  /\ exists s u, infer_block 20 ex_db box_fields (Integer U8) box_pats (Some (Integer U8)) true (start shared_binds) = Done (s, u) /\ errs s = [] /\ binds s 1 = Some (Reference false (Integer U8)) /\ binds s 2 = Some (Reference false (Seq SVector (Integer U8))) /\ u = Integer U8.
Proof.
  split; [|eexists _, _; split; [vm_compute; reflexivity|]; repeat split; vm_compute; reflexivity]. pose proof proper_u8 as P8.
  assert (PR : proper (Reference false (Integer U8))) by (eapply proper_one; [reflexivity|reflexivity|exact P8]). assert (PX : proper (Reference false (box (Integer U8)))) by (eapply proper_one; [reflexivity|reflexivity|now apply proper_box]).
  eapply (hk_let_infer _ _ _ _ _ _ (Reference false (box (Integer U8)))); [exact PX|now apply h_path| |].
  { apply th_plain, ph_deref; [exact Logic.I|]. apply ph_struct; [lia|now apply for_box|]. eapply fp_cons; [reflexivity|apply proper_param|apply ph_ident; [reflexivity|exact PR]|]. eapply fp_cons; [reflexivity|apply proper_vec, proper_param|apply ph_ident; [reflexivity|now apply proper_rvec]|apply fp_nil]. }
  eapply (hk_let_infer _ _ _ _ _ _ (box (Integer U8))); [now apply proper_box| | |].
  { apply h_struct; [now apply for_box|]. eapply hf_cons; [reflexivity|apply proper_param|exact P8|now apply (num_typed _ _ _ U8)|apply go_same|auto|].
    eapply hf_cons; [reflexivity|apply proper_vec, proper_param|now apply proper_vec|apply h_vec; [exact P8|apply ha_nil]|apply go_same|discriminate|apply hf_nil]. }
  { apply th_plain, ph_struct; [cbn; lia|now apply for_box|]. eapply fp_cons; [reflexivity|apply proper_param|apply ph_ident; [reflexivity|exact P8]|]. eapply fp_cons; [reflexivity|apply proper_vec, proper_param|apply ph_wild|apply fp_nil]. }
  apply hk_tail. now apply h_path.
Qed.
(** the pattern Box<bool> { x: a, v: _ } for a Box<u8> gets an error *)
Example box_pat_error_example : exists s, collect 20 ex_db box_fields (PStruct (OStruct 9) [40] [TBool] [0; 1] (p1 [PIdent 1; PWild])) (box (Integer U8)) ByValue (start (fun _ => None)) = Done (s, tt) /\ errs s = [WUnpack].
Proof. eexists. split; vm_compute; reflexivity. Qed.

(** * Tuple patterns with [..] *)
(** the types that the parts of a tuple pattern with one [..] are given are those at the ends of the tuple, but an error is
    reported: the number of patterns, with the [..], is compared with the number of parts *)
Theorem tuple_rest_no_error_refuted : exists ps ts s N, (forall f, N <= f -> collect f ex_db pat_fields (PTuple ps) (Tuple ts) ByValue (start (fun _ => None)) = Done (s, tt)) /\
  ps = p1 [PIdent 0; PRest; PIdent 1] /\ ts = [TBool; Address; Address; Integer U8] /\ binds s 0 = Some TBool /\ binds s 1 = Some (Integer U8) /\ errs s = [WUnpack].
Proof.
  eexists _, _, _, 20. split; [|split; [reflexivity|split; [reflexivity|]]].
  - intros f L. rewrite (from_20 f L). generalize (f - 20). intros f'. vm_compute. reflexivity.
  - repeat split.
Qed.
(** a pattern with [..] before other patterns, for a value of unknown type or for a struct with too few fields: an
    index is computed by subtraction below zero *)
Theorem rest_then_more_refuted : exists p p' t, (forall f, 20 <= f -> collect f ex_db pat_fields p Unknown ByValue (start (fun _ => None)) = Crash) /\
  (forall f s, collect f ex_db pat_fields p' t ByValue s = Crash) /\ p = PTuple (p1 [PRest; PIdent 0]) /\ p' = PTupleStruct (OStruct 7) 1 (p1 [PRest; PIdent 0; PIdent 1]) /\ t = ex_s.
Proof.
  eexists _, _, _. split; [|split; [|split; [reflexivity|split; reflexivity]]].
  - intros f L. rewrite (from_20 f L). generalize (f - 20). intros f'. vm_compute. reflexivity.
  - intros f s. reflexivity.
Qed.
(** the type of what is matched is resolved once, before the arms.  If the first arm tells what a variable in it is, a tuple
    pattern in the second arm binds this variable to the unknown type again, which is a panic:
    match ((vector[], true)) { (v, _) => f(v), (w, _) => () } where f takes a vector<u8> *)
Definition two_arms (b : bool) : expr := Match (TupleE (ECons (Vec ENil) (ECons (Lit LBool) ENil)))
  (ACons (PTuple (p1 [PIdent 0; PWild])) None (Call [] [Seq SVector (Integer U8)] Unit (ECons (Path 0) ENil))
  (ACons (if b then PTuple (p1 [PIdent 1; PWild]) else PWild) None UnitE ANil)).
Theorem tuple_arms_refuted : (forall f, 20 <= f -> infer f ex_db pat_fields Unit (two_arms true) None (start (fun _ => None)) = Crash) /\
  exists s u, (forall f, 20 <= f -> infer f ex_db pat_fields Unit (two_arms false) None (start (fun _ => None)) = Done (s, u)) /\ errs s = [] /\ u = Unit.
Proof.
  split; [intros f L; rewrite (from_20 f L); generalize (f - 20); intros f'; vm_compute; reflexivity|]. eexists _, _. split; [intros f L; rewrite (from_20 f L); generalize (f - 20); intros f'; vm_compute; reflexivity|]. split; reflexivity.
Qed.
(** arms of different types: [match (c) { _ => 1u8, _ => false }] as the result of a function that returns u16 has no type, but gets no error:
    where the types of the arms have no common type, the type of the expression is unknown, which is accepted everywhere *)
Definition differing_arms : block := Tail (Match (Lit LBool) (ACons PWild None (Lit (LInt (Some U8))) (ACons PWild None (Lit LBool) ANil))).
Theorem differing_arms_error_refuted : (forall fields ret G t k p c, ~ has_block fields ret G differing_arms t k p c) /\
  exists s u, (forall f, 20 <= f -> infer_block f ex_db pat_fields (Integer U16) differing_arms (Some (Integer U16)) true (start (fun _ => None)) = Done (s, u)) /\ errs s = [].
Proof.
  split.
  - intros fields ret G t k p c H. unfold differing_arms in H.
    repeat match goal with
      | B : has_block _ _ _ (Tail _) _ _ _ _ |- _ => inversion B; subst; clear B
      | B : has _ _ _ (Match _ _) _ _ _ _ |- _ => inversion B; subst; clear B
      | B : has _ _ _ (Lit _) _ _ _ _ |- _ => inversion B; subst; clear B
      | B : lit_type _ _ _ |- _ => inversion B; subst; clear B
      | B : has_arms _ _ _ _ _ (ACons _ _ _ _) _ _ |- _ => inversion B; subst; clear B
      | B : has_arms _ _ _ _ _ ANil _ _ |- _ => inversion B; subst; clear B
      end.
    match goal with A : forall x, In x _ -> _ |- _ => destruct (A (Integer U8)) as [E|E]; [now left|subst|discriminate]; destruct (A TBool) as [E|E]; [right; now left|discriminate|discriminate] end.
  - eexists _, _. split; [intros f L; rewrite (from_20 f L); generalize (f - 20); intros f'; vm_compute; reflexivity|reflexivity].
Qed.
Print Assumptions differing_arms_error_refuted.
Print Assumptions pattern_binds_partial.
Print Assumptions tuple_rest_no_error_refuted.
Print Assumptions rest_then_more_refuted.
Print Assumptions tuple_arms_refuted.
