(** C58: well-typed code gets no type errors. *)
From Verif Require Import Base TyModel TyProps UnifyModel UnifyProps InferModel InferProofs InferResolve InferTotal InferProps WalkModel WalkTyping WalkSolve WalkRun WalkPat WalkProofs.

(** the state in which the body of a function is walked: the types of the parameters are known *)
Definition start (b : nat -> option ty) : st := mkSt (empty_ctx false) 0 b [].
Definition params (G : env) (b : nat -> option ty) : Prop := forall x t k, G x = Some (t, k) -> b x = Some t /\ proper t.
Lemma empty_agrees : forall {d : db} g, agrees g (empty_ctx false).
Proof.
  intros d g. constructor; auto.
  - apply empty_good.
  - intros i t (r & _ & H). discriminate.
  - intros i j (r & H1 & H2). inversion H1; subst; [|discriminate]. inversion H2; subst; [auto|discriminate].
  - intros v t (r & _ & H). discriminate.
  - intros i j (r & H1 & H2). inversion H1; subst; [|discriminate]. inversion H2; subst; [auto|discriminate].
Qed.
Lemma start_inv : forall {d : db} g G b, params G b -> inv g [] G 0 (start b).
Proof.
  intros d g G b H. constructor; auto; [apply empty_agrees|]. intros x t k E. destruct (H _ _ _ E) as [B P]. exists t. split; auto. split; [now apply means_proper|now apply knows_ground, proper_ground].
Qed.

(** The walk over the body of a function that has a type by the rules of WalkTyping reports no error and stops.  Missing: the
    cases that the rules leave out, of which some are refused below and in PatProps; lambdas; of the result of a generic call, only the parts outside of the type parameters count as known. *)
Theorem well_typed_no_errors_partial : forall (d : db) fields ret G b binds t k p c, proper ret -> params G binds -> has_block fields ret G b t k p c -> goes k t ret ->
  exists s u N, (forall f, N <= f -> infer_block f d fields ret b (Some ret) true (start binds) = Done (s, u)) /\ errs s = [].
Proof.
  intros d fields ret G b binds t k p c P HP H GO. destruct (has_walks fields ret P G) as (_ & _ & _ & _ & _ & _ & HB). destruct (HB _ _ _ _ _ H 0) as (n & g & _ & K).
  specialize (K g (fun i _ _ => conj eq_refl eq_refl) [] (Some ret) ret true). destruct (K (fits_goes g ret t ret k c (means_proper _ _ P) P (ground_not_infer _ (proper_ground _ P)) GO) (start binds) (start_inv g G binds HP)) as (s & u & [N R] & I & _).
  exists s, u, N. split; auto. apply (i_errs _ _ _ _ _ I).
Qed.
(** The type that the walk gives an expression stands for the type that the expression has: some choice of types for the variables,
    with which the tables of the walk agree, turns it into that type, where [integer] and the type of what does not return stand
    for any integer type and for the unit type.  If all of the type is known, no variables are left in it. *)
Theorem well_typed_inferred_partial : forall (d : db) fields ret G e binds t k p c, proper ret -> params G binds -> has fields ret G e t k p c ->
  exists s u N g, (forall f, N <= f -> infer f d fields ret e None (start binds) = Done (s, u)) /\ errs s = [] /\ agrees g (cx s) /\ means g u t /\ (p = true -> 3 <= k -> has_infer u = false).
Proof.
  intros d fields ret G e binds t k p c P HP H. destruct (has_walks fields ret P G) as (HE & _). destruct (HE _ _ _ _ _ H 0) as (n & g & _ & K).
  specialize (K g (fun i _ _ => conj eq_refl eq_refl)). destruct (w_none fields ret G e t k p c g 0 n [] K (start binds) (start_inv g G binds HP)) as (s & u & [N R] & I & M & KN).
  exists s, u, N, g. split; auto. split; [apply (i_errs _ _ _ _ _ I)|]. split; [apply (i_agrees _ _ _ _ _ I)|]. split; auto. intros -> L. now apply KN.
Qed.

(** * Example *)
(** fun f(v: &vector<u64>, c: bool, r: &mut S): u64, where S has a field of type u8:
      let s = 0;
      for (i in 0..10) { s = s + v[i] };
      if (c) return 1;
      let q = if (c) r else abort 1;
      let w: vector<u8> = vector[1, q.f];
      let z: &S = r;
      s *)
#[local] Existing Instance ex_db.
Definition ex_fields (l : loc) (f : nat) : option ty := if (l =? 7) && (f =? 0) then Some (Integer U8) else None.
Definition ex_v : ty := Reference false (Seq SVector (Integer U64)).
Definition ex_s : ty := Adt 7 [] [] [].
Definition ex_binds (x : nat) : option ty := match x with 0 => Some ex_v | 1 => Some TBool | 2 => Some (Reference true ex_s) | _ => None end.
Definition ex_env : env := fun x => match ex_binds x with Some t => Some (t, 3) | None => None end.
Definition num : expr := Lit (LInt None).
Definition ex_rest (e : expr) : block :=
  SLet (PIdent 12) None (IfElse (Path 1) (Inline (Path 2)) (Braces (Tail (Abort num))))
  (SLet (PIdent 13) (Some (Seq SVector (Integer U8))) (Vec (ECons num (ECons (Field (Path 12) 0) ENil)))
  (SLet (PIdent 14) (Some (Reference false ex_s)) (Path 2) (Tail e))).
Definition ex_body (e : expr) : block :=
  SLet (PIdent 10) None num
  (SExpr (For 11 (RangeE num num) (Braces (SExpr (Assign (Path 10) (Arith Plain false (Path 10) (Index (Path 0) (Path 11)))) NoTail)))
  (SExpr (If (Path 1) (Inline (ReturnE num)))
  (ex_rest e))).
Lemma proper_flat : forall t, children t = [] -> proper1 t = true -> proper t.
Proof. intros t C P x H. inversion H as [|? ? ? I]; subst; auto. rewrite C in I. destruct I. Qed.
Lemma proper_one : forall t u, children t = [u] -> proper1 t = true -> proper u -> proper t.
Proof. intros t u C P Q x H. inversion H as [|? ? ? I]; subst; auto. rewrite C in I. destruct I as [<-|[]]. auto. Qed.
Lemma proper_int : forall k, k <> KInteger -> proper (Integer k).
Proof. intros k H. apply proper_flat; auto. destruct k; auto. Qed.
Lemma ex_params : params ex_env ex_binds.
Proof.
  intros x t k H. unfold ex_env in H. destruct (ex_binds x) as [u|] eqn:E; [|discriminate]. injection H as <- <-. split; auto. destruct x as [|[|[|x]]]; cbn in E; try discriminate; injection E as <-.
  - eapply proper_one; [reflexivity|reflexivity|]. eapply proper_one; [reflexivity|reflexivity|]. now apply proper_int.
  - now apply proper_flat.
  - eapply proper_one; [reflexivity|reflexivity|]. now apply proper_flat.
Qed.
Lemma num_typed : forall fields ret G k, k <> KInteger -> has fields ret G num (Integer k) 1 true false.
Proof. intros. constructor. now constructor. Qed.
Example typed_example : has_block ex_fields (Integer U64) ex_env (ex_body (Path 10)) (Integer U64) 1 true false.
Proof.
  eapply hk_let_infer; [now apply (proper_int U64)|now apply num_typed|apply th_plain, ph_ident; [reflexivity|now apply (proper_int U64)]|]. eapply hk_expr.
  { eapply h_for_range; [now exists U64|now apply num_typed|now apply num_typed|reflexivity| |apply go_same]. apply hb_braces. eapply hk_expr; [|apply hk_none].
    eapply h_assign; [now apply (proper_int U64)|now apply h_path| |apply go_same|left; auto]. eapply (h_arith _ _ _ false); [now exists U64|now apply h_path|]. eapply h_index_ref; [now apply h_path|now apply h_path|now exists U64|auto]. }
  eapply hk_expr.
  { eapply h_if; [now apply h_path|apply go_same| |apply go_never]. apply hb_inline. eapply h_return_e; [now apply (num_typed _ _ _ U64)|apply go_same]. }
  eapply hk_let_infer; [|eapply h_if_else; [now apply h_path|apply go_same|apply hb_inline; now apply h_path|apply hb_braces, hk_tail; eapply h_abort; [now apply (num_typed _ _ _ U64)|now left]|eapply j_never_r; auto; left]|apply th_plain, ph_ident; [reflexivity|]|].
  { eapply proper_one; [reflexivity|reflexivity|]. now apply proper_flat. }
  { eapply proper_one; [reflexivity|reflexivity|]. now apply proper_flat. }
  { eapply proper_one; [reflexivity|reflexivity|]. now apply proper_flat. }
  eapply hk_let; [|apply h_vec; [now apply (proper_int U8)|]|apply go_same|apply th_plain, ph_ident; [reflexivity|]|].
  { eapply proper_one; [reflexivity|reflexivity|]. now apply (proper_int U8). }
  { cbn [len_exprs repeat]. eapply ha_cons; [now apply (num_typed _ _ _ U8)|auto|apply go_same|]. eapply ha_cons; [eapply h_field_ref; [now apply h_path|reflexivity|now apply (proper_int U8)]|auto|apply go_same|apply ha_nil]. }
  { eapply proper_one; [reflexivity|reflexivity|]. now apply (proper_int U8). }
  eapply hk_let; [|now apply h_path|apply go_ref; auto|apply th_plain, ph_ident; [reflexivity|]|].
  { eapply proper_one; [reflexivity|reflexivity|]. now apply proper_flat. }
  { eapply proper_one; [reflexivity|reflexivity|]. now apply proper_flat. }
  apply hk_tail. now apply h_path.
Qed.
Example no_errors_example : exists s u, infer_block 20 ex_db ex_fields (Integer U64) (ex_body (Path 10)) (Some (Integer U64)) true (start ex_binds) = Done (s, u) /\ errs s = [] /\ u = Integer U64 /\
  binds s 12 = Some (Reference true ex_s) /\ binds s 11 = Some (IntVar 2) /\ next s = 7.
Proof. eexists _, _. split; [vm_compute; reflexivity|]. repeat split; vm_compute; reflexivity. Qed.
(** with the boolean as its result, the same body gets an error *)
Example errors_example : exists s u, infer_block 20 ex_db ex_fields (Integer U64) (ex_body (Path 1)) (Some (Integer U64)) true (start ex_binds) = Done (s, u) /\ errs s = [WMismatch].
Proof. eexists _, _. split; vm_compute; reflexivity. Qed.

(** * Example: generic functions *)
(** fun f<T: copy>(x: &mut vector<u8>): u8, where push_back is native fun push_back<E: copy>(v: &mut vector<E>, e: E) and borrow is
    native fun borrow<E: copy>(v: &vector<E>, i: u64): &E:
      push_back(x, 1); x.push_back(1);
      let r = x.borrow(0);
      assert_eq!( *r, 1);
      *r *)
Definition vec_of (l : loc) : ty := Seq SVector (TypeParam l).
Definition push_back : list ty := [Reference true (vec_of 20); TypeParam 20].
Definition borrow_at : list ty := [Reference false (vec_of 21); Integer U64].
Definition gen_binds (x : nat) : option ty := match x with 0 => Some (Reference true (Seq SVector (Integer U8))) | _ => None end.
Definition gen_env : env := fun x => match gen_binds x with Some t => Some (t, 3) | None => None end.
Definition gen_body (e : expr) : block :=
  SExpr (Call [20] push_back Unit (ECons (Path 0) (ECons e ENil)))
  (SExpr (Method (Path 0) [20] push_back Unit (ECons e ENil))
  (SLet (PIdent 10) None (Method (Path 0) [21] borrow_at (Reference false (TypeParam 21)) (ECons num ENil))
  (SExpr (AssertEq (ECons (Deref (Path 10)) (ECons num ENil)))
  (Tail (Deref (Path 10)))))).
Lemma allowed_int : forall l k, allowed l (Integer k).
Proof.
  intros l k. split; [intros (m & u & E); discriminate|]. intros w bs l' L B A. cbn in B. injection B as <-. intros a [<-|[]]. inversion L; subst; cbn in A; try (injection A as <-); cbn; auto.
  destruct w; try discriminate; cbn in A; injection A as <-; cbn; auto.
Qed.
Lemma proper_u8 : proper (Integer U8).
Proof. now apply proper_int. Qed.
Lemma proper_param : forall l, proper (TypeParam l).
Proof. intros l. now apply proper_flat. Qed.
Lemma proper_vec : forall t, proper t -> proper (Seq SVector t).
Proof. intros t P. eapply proper_one; [reflexivity|reflexivity|exact P]. Qed.
Lemma proper_rvec : forall b t, proper t -> proper (Reference b (Seq SVector t)).
Proof. intros b t P. eapply proper_one; [reflexivity|reflexivity|]. now apply proper_vec. Qed.
Example generic_example : has_block ex_fields (Integer U8) gen_env (gen_body num) (Integer U8) 0 true false /\
  exists s u, infer_block 20 ex_db ex_fields (Integer U8) (gen_body num) (Some (Integer U8)) true (start gen_binds) = Done (s, u) /\ errs s = [].
Proof.
  split; [|eexists _, _; split; vm_compute; reflexivity]. pose proof proper_u8 as P8.
  eapply hk_expr; [apply (h_call _ _ _ [20] [Integer U8]); repeat (first [apply allowed_int|apply proper_rvec|apply proper_param|exact P8|now apply proper_flat|constructor])|].
  { cbn [map bare existsb Nat.eqb orb]. eapply ha_cons; [now apply h_path|discriminate|apply go_same|]. eapply ha_cons; [now apply (num_typed _ _ _ U8)|auto|apply go_same|apply ha_nil]. }
  eapply hk_expr; [eapply (h_method _ _ _ _ _ _ _ _ [20] [Integer U8]); [now apply h_path|cbn; lia|..]; repeat (first [apply allowed_int|apply proper_rvec|apply proper_param|exact P8|now apply proper_flat|reflexivity|constructor])|].
  { cbn [map bare existsb Nat.eqb orb]. eapply ha_cons; [now apply (num_typed _ _ _ U8)|auto|apply go_same|apply ha_nil]. }
  assert (PR : proper (Reference false (Integer U8))) by (eapply proper_one; [reflexivity|reflexivity|exact P8]).
  assert (PT : proper (Reference false (TypeParam 21))) by (eapply proper_one; [reflexivity|reflexivity|apply proper_param]).
  eapply (hk_let_infer _ _ _ _ _ _ (Reference false (Integer U8))); [exact PR|eapply (h_method _ _ _ _ _ _ _ _ [21] [Integer U8]); [now apply h_path|cbn; lia|..]|apply th_plain, ph_ident; [reflexivity|exact PR]|].
  1-9: repeat (first [exact PR|exact PT|apply allowed_int|apply proper_rvec|apply proper_param|exact P8|now apply proper_int|now apply proper_flat|reflexivity|apply rc_share|apply go_same|eapply ha_cons; [now apply (num_typed _ _ _ U64)|discriminate|apply go_same|]|constructor]).
  eapply hk_expr; [eapply h_assert_eq; [exact P8|eapply (h_deref _ _ _ _ false (Integer U8) 2 true); [now apply h_path|cbn; lia]|now apply num_typed]|].
  apply hk_tail. apply (h_deref _ _ _ _ false (Integer U8) 2 true false); [now apply h_path|cbn; lia].
Qed.
(** with a boolean pushed, there are errors *)
Example generic_errors_example : exists s u, infer_block 20 ex_db ex_fields (Integer U8) (gen_body (Lit LBool)) (Some (Integer U8)) true (start gen_binds) = Done (s, u) /\ errs s = [WMismatch; WMismatch].
Proof. eexists _, _. split; vm_compute; reflexivity. Qed.
(** a type parameter must have the abilities declared for it: a signer is no argument for a parameter that is copied *)
Example abilities_example : ~ allowed 20 Signer /\ exists s u, infer_block 20 ex_db ex_fields Unit (Tail (Call [20] [TypeParam 20] Unit (ECons (Path 0) ENil))) (Some Unit) true (start (fun _ => Some Signer)) = Done (s, u) /\ errs s = [WMismatch].
Proof.
  split; [|eexists _, _; split; vm_compute; reflexivity]. intros [_ H]. assert (L : loose Signer Signer) by (apply lo_node; constructor). specialize (H Signer [ACopy] [ADrop] L eq_refl eq_refl ACopy (or_introl eq_refl)). destruct H as [H|[]]. discriminate.
Qed.

(** * Example: generic structs *)
(** struct Box<E: copy> { x: E, v: vector<E> } and fun f(r: &mut Box<u8>): u8
      let b = Box { x: 1, v: vector[r.x] };
      let c: Box<u8> = Box { x: b.x, v: b.v };
      let d = Box<bool> { x: true, v: vector[] };
      c.x *)
Definition box_fields (l : loc) (f : nat) : option ty := if l =? 9 then match f with 0 => Some (TypeParam 40) | 1 => Some (vec_of 40) | _ => None end else None.
Definition box (t : ty) : ty := Adt 9 [40] [t] [t].
Definition box_lit (us : list ty) (x v : expr) : expr := StructLit 9 [40] us [0; 1] (ECons x (ECons v ENil)).
Definition box_binds (x : nat) : option ty := match x with 0 => Some (Reference true (box (Integer U8))) | _ => None end.
Definition box_env : env := fun x => match box_binds x with Some t => Some (t, 3) | None => None end.
Definition box_body (e : expr) : block :=
  SLet (PIdent 10) None (box_lit [TypeParam 40] num (Vec (ECons (Field (Path 0) 0) ENil)))
  (SLet (PIdent 11) (Some (box (Integer U8))) (box_lit [TypeParam 40] (Field (Path 10) 0) (Field (Path 10) 1))
  (SLet (PIdent 12) None (box_lit [TBool] e (Vec ENil))
  (Tail (Field (Path 11) 0)))).
Lemma proper_box : forall t, proper t -> proper (box t).
Proof. intros t P. apply proper_adt. constructor; auto. Qed.
Lemma for_box : forall k, k <> KInteger -> for_params [40] [TypeParam 40] [Integer k].
Proof. intros k NK. exists [Integer k]. repeat (first [apply allowed_int|now apply proper_int|apply proper_param|reflexivity|constructor]). Qed.
Example box_example : has_block box_fields (Integer U8) box_env (box_body (Lit LBool)) (Integer U8) 3 true false /\
  exists s u, infer_block 20 ex_db box_fields (Integer U8) (box_body (Lit LBool)) (Some (Integer U8)) true (start box_binds) = Done (s, u) /\ errs s = [] /\ binds s 12 = Some (box TBool).
Proof.
  split; [|eexists _, _; split; [vm_compute; reflexivity|split; vm_compute; reflexivity]]. pose proof proper_u8 as P8.
  assert (PB : proper TBool) by now apply proper_flat.
  eapply (hk_let_infer _ _ _ _ _ _ (box (Integer U8))); [now apply proper_box| |apply th_plain, ph_ident; [reflexivity|now apply proper_box]|].
  { apply h_struct; [now apply for_box|]. eapply hf_cons; [reflexivity|apply proper_param|exact P8|now apply (num_typed _ _ _ U8)|apply go_same|auto|].
    eapply hf_cons; [reflexivity|apply proper_vec, proper_param|now apply proper_vec|apply h_vec; [exact P8|]|apply go_same|discriminate|apply hf_nil]. cbn [len_exprs repeat].
    eapply ha_cons; [eapply (h_field_ref _ _ _ _ true 9 [40] [Integer U8]); [now apply h_path|reflexivity|apply proper_param]|split; reflexivity|apply go_same|apply ha_nil]. }
  eapply hk_let; [now apply proper_box| |apply go_same|apply th_plain, ph_ident; [reflexivity|now apply proper_box]|].
  { apply h_struct; [now apply for_box|]. eapply hf_cons; [reflexivity|apply proper_param|exact P8|eapply (h_field _ _ _ _ 9 [40] [Integer U8]); [now apply h_path|cbn; lia|reflexivity|apply proper_param]|apply go_same|auto|].
    eapply hf_cons; [reflexivity|apply proper_vec, proper_param|now apply proper_vec|eapply (h_field _ _ _ _ 9 [40] [Integer U8]); [now apply h_path|cbn; lia|reflexivity|apply proper_vec, proper_param]|apply go_same|discriminate|apply hf_nil]. }
  eapply (hk_let_infer _ _ _ _ _ _ (box TBool)); [now apply proper_box| |apply th_plain, ph_ident; [reflexivity|now apply proper_box]|].
  { apply h_struct; [exists [Integer U8]; repeat (first [apply allowed_int|exact P8|exact PB|reflexivity|constructor])|]. eapply hf_cons; [reflexivity|apply proper_param|exact PB|constructor; constructor|apply go_same|auto|].
    eapply hf_cons; [reflexivity|apply proper_vec, proper_param|now apply proper_vec|apply h_vec; [exact PB|apply ha_nil]|apply go_same|discriminate|apply hf_nil]. }
  apply hk_tail. apply (h_field _ _ _ (Path 11) 9 [40] [Integer U8] [Integer U8] 0 (TypeParam 40) 3 true false); [now apply h_path|cbn; lia|reflexivity|apply proper_param].
Qed.
(** with an integer for the boolean there is an error *)
Example box_errors_example : exists s u, infer_block 20 ex_db box_fields (Integer U8) (box_body num) (Some (Integer U8)) true (start box_binds) = Done (s, u) /\ errs s = [WMismatch].
Proof. eexists _, _. split; vm_compute; reflexivity. Qed.

(** * Example: annotations *)
(** fun f(v: &vector<u64>, c: bool, r: &mut S): bool {
      let x = (1: u8);
      let y = vector<u8>[2, x];
      let z: u8 = (-y[0]: u8);
      r is S } *)
Definition note_body (e : expr) : block :=
  SLet (PIdent 10) None (Annotated e (Integer U8))
  (SLet (PIdent 11) None (VecOf (Integer U8) (ECons num (ECons (Path 10) ENil)))
  (SLet (PIdent 12) (Some (Integer U8)) (Annotated (Minus (Index (Path 11) num)) (Integer U8))
  (Tail (Is (Path 2))))).
Example annotations_example : has_block ex_fields TBool ex_env (note_body num) TBool 3 true false /\
  exists s u, infer_block 20 ex_db ex_fields TBool (note_body num) (Some TBool) true (start ex_binds) = Done (s, u) /\ errs s = [] /\ binds s 11 = Some (Seq SVector (Integer U8)).
Proof.
  split; [|eexists _, _; split; [vm_compute; reflexivity|split; vm_compute; reflexivity]]. pose proof proper_u8 as P8. assert (I8 : integral (Integer U8)) by (exists U8; split; [reflexivity|discriminate]).
  eapply hk_let_infer; [exact P8|eapply h_annotated; [exact P8|now apply (num_typed _ _ _ U8)]|apply th_plain, ph_ident; [reflexivity|exact P8]|].
  eapply (hk_let_infer _ _ _ _ _ _ (Seq SVector (Integer U8))); [now apply proper_vec|apply h_vec_of; [exact P8|]|apply th_plain, ph_ident; [reflexivity|now apply proper_vec]|].
  { cbn [len_exprs repeat]. eapply ha_cons; [now apply (num_typed _ _ _ U8)|auto|apply go_same|]. eapply ha_cons; [now apply h_path|auto|apply go_same|apply ha_nil]. }
  eapply hk_let; [exact P8|eapply h_annotated; [exact P8|eapply h_minus; [exact I8|]]|apply go_same|apply th_plain, ph_ident; [reflexivity|exact P8]|].
  { eapply h_index; [now apply h_path|cbn; lia|now apply (num_typed _ _ _ U8)|exact I8|cbn; lia]. }
  apply hk_tail. eapply h_is. now apply h_path.
Qed.
(** with a boolean for the integer there is an error *)
Example annotations_errors_example : exists s u, infer_block 20 ex_db ex_fields TBool (note_body (Lit LBool)) (Some TBool) true (start ex_binds) = Done (s, u) /\ In WMismatch (errs s).
Proof. eexists _, _. split; [vm_compute; reflexivity|now left]. Qed.
(** The type of an annotated expression is not that of the annotation: a mutable reference annotated as an immutable one can
    still be bound to a variable for mutable ones. *)
Theorem annotation_type_refuted : let z := SLet (PIdent 14) (Some (Reference true ex_s)) in
  (exists s u, infer_block 20 ex_db ex_fields Unit (z (Annotated (Path 2) (Reference false ex_s)) NoTail) (Some Unit) true (start ex_binds) = Done (s, u) /\ errs s = []) /\
  (exists s u, infer_block 20 ex_db ex_fields Unit (SLet (PIdent 13) (Some (Reference false ex_s)) (Path 2) (z (Path 13) NoTail)) (Some Unit) true (start ex_binds) = Done (s, u) /\ errs s = [WMismatch]).
Proof. split; eexists _, _; (split; [vm_compute; reflexivity|reflexivity]). Qed.

(** * Errors in well-typed code *)
Definition one_error (b : block) (bs : nat -> option ty) : Prop :=
  exists s u N, (forall f, N <= f -> infer_block f ex_db ex_fields Unit b (Some Unit) true (start bs) = Done (s, u)) /\ errs s = [WMismatch].
Definition more (f : nat) : nat := 20 + f.
Lemma from_20 : forall f, 20 <= f -> f = more (f - 20).
Proof. intros f H. unfold more. lia. Qed.
Ltac runs20 := exists 20; split; [intros f L; rewrite (from_20 f L); generalize (f - 20); intros f'; vm_compute; reflexivity|reflexivity].
(** [let a = if (c) 1u64 else abort 0u64;] is well-typed and gets no error.  Without the suffix of 1, which the language
    allows to leave out, it gets an error. *)
Definition literal_or_abort (l : expr) : block := SLet (PIdent 10) None (IfElse (Path 1) (Inline l) (Inline (Abort (Lit (LInt (Some U64)))))) NoTail.
Theorem literal_or_abort_refuted : exists l l' : expr,
  (forall fields ret G, has fields ret G l (Integer U64) 3 true false) /\ (forall fields ret G, has fields ret G l' (Integer U64) 1 true false) /\
  has_block ex_fields Unit ex_env (literal_or_abort l) Unit 3 true false /\ one_error (literal_or_abort l') ex_binds.
Proof.
  exists (Lit (LInt (Some U64))), num. split; [intros; constructor; now constructor|]. split; [intros; now apply num_typed|]. split.
  - eapply hk_let_infer; [now apply (proper_int U64)|eapply h_if_else; [now apply h_path|apply go_same|apply hb_inline; constructor; now constructor|apply hb_inline; eapply h_abort; [constructor; now constructor|now left]|]|apply th_plain, ph_ident; [reflexivity|now apply proper_int]|apply hk_none].
    apply j_never_r; auto. left. now apply proper_int.
  - unfold one_error. eexists _, _. runs20.
Qed.
(** [let i: u64; i = 0; let b = v[i];] for a vector of booleans is well-typed and gets no error; without the type of i, which
    is known from the assignment, it gets an error: the type of the elements, not that of the index, is compared with the integers *)
Definition index_declared (t : option ty) : block := SLet0 (PIdent 10) t (SExpr (Assign (Path 10) num) (SLet (PIdent 11) None (Index (Path 3) (Path 10)) NoTail)).
Definition bools (x : nat) : option ty := match x with 3 => Some (Seq SVector TBool) | _ => None end.
Theorem index_without_type_refuted : has_block ex_fields Unit (fun x => match bools x with Some t => Some (t, 3) | None => None end) (index_declared (Some (Integer U64))) Unit 3 true false /\
  one_error (index_declared None) bools.
Proof.
  split.
  - eapply hk_declare; [now apply (proper_int U64)|apply th_plain, ph_ident; [reflexivity|now apply (proper_int U64)]|]. eapply hk_expr; [eapply h_assign; [now apply (proper_int U64)|now apply h_path|now apply (num_typed _ _ _ U64)|apply go_same|now left]|].
    eapply hk_let_infer; [|eapply h_index; [now apply h_path|cbn; lia|now apply h_path|now exists U64|cbn; lia]|apply th_plain, ph_ident; [reflexivity|]|apply hk_none]; now apply proper_flat.
  - unfold one_error. eexists _, _. runs20.
Qed.

(** * Ill-typed code without errors *)
(** [let a = 1 & 1; let x: u8 = a; let y: u16 = a;] has no type, since a cannot be of two types, but gets no error: the operands of &
    are combined with [integer], which fits all integer types afterwards *)
Definition two_types : block := SLet (PIdent 10) None (Arith BitOp false num num) (SLet (PIdent 11) (Some (Integer U8)) (Path 10) (SLet (PIdent 12) (Some (Integer U16)) (Path 10) NoTail)).
Theorem ill_typed_error_refuted : (forall fields ret G t k p c, ~ has_block fields ret G two_types t k p c) /\
  exists s u N, (forall f, N <= f -> infer_block f ex_db ex_fields Unit two_types (Some Unit) true (start ex_binds) = Done (s, u)) /\ errs s = [].
Proof.
  split.
  - intros fields ret G t k p c H. unfold two_types in H.
    repeat match goal with
      | B : has_block _ _ _ (SLet _ _ _ _) _ _ _ _ |- _ => inversion B; subst; clear B
      | B : has _ _ _ (Arith _ _ _ _) _ _ _ _ |- _ => inversion B; subst; clear B
      | B : has _ _ _ (Path _) _ _ _ _ |- _ => inversion B; subst; clear B
      | B : top_has _ _ (PIdent _) _ _ _ |- _ => inversion B; subst; clear B
      | B : pat_has _ _ _ (PIdent _) _ _ _ |- _ => inversion B; subst; clear B; try match goal with C : constructor (PIdent _) |- _ => destruct C end
      | I : integral _ |- _ => destruct I as (? & -> & ?)
      end.
    unfold upd in *. cbn in *. repeat match goal with E : Some _ = Some _ |- _ => injection E as ? ?; subst end.
    repeat match goal with GO : goes _ _ _ |- _ => inversion GO; subst; clear GO end.
  - eexists _, _. runs20.
Qed.

(** the type of a parameter in a path with type arguments, path.rs:57-63, 77-106: the arguments replace the type parameters *)
Definition named (gs : list loc) (us : list ty) (t : ty) : ty := substitute (mkSubst gs us) t.
Definition named_call (gs : list loc) (us ps : list ty) (e : expr) : block := SExpr (Call gs (map (named gs us) ps) Unit (ECons e ENil)) NoTail.
(** In a function with the type parameter T, [g<T>(1u8)] gets an error for another function g<E>(e: E), as the parameter of g<T> is of the type
    T.  A call of the function itself, f<T>(1u8), with the same declaration and the same argument gets none: the T given as an argument is
    taken for the parameter of f, whose value is searched. *)
Theorem recursive_call_error_refuted : let T := TypeParam 20 in let u8 := Lit (LInt (Some U8)) in
  named [30] [T] (TypeParam 30) = T /\ named [20] [T] (TypeParam 20) = T /\ (forall k p c fields ret G, ~ has fields ret G u8 T k p c) /\
  one_error (named_call [30] [T] [TypeParam 30] u8) ex_binds /\
  exists s u N, (forall f, N <= f -> infer_block f ex_db ex_fields Unit (named_call [20] [T] [TypeParam 20] u8) (Some Unit) true (start ex_binds) = Done (s, u)) /\ errs s = [].
Proof.
  cbv zeta. split; [reflexivity|]. split; [reflexivity|]. split; [intros k p c fields ret G H; inversion H; subst; match goal with L : lit_type _ _ _ |- _ => inversion L end|]. split; [unfold one_error|]; eexists _, _; runs20.
Qed.

Print Assumptions well_typed_no_errors_partial.
Print Assumptions well_typed_inferred_partial.
Print Assumptions annotation_type_refuted.
Print Assumptions literal_or_abort_refuted.
Print Assumptions index_without_type_refuted.
Print Assumptions ill_typed_error_refuted.
Print Assumptions recursive_call_error_refuted.
