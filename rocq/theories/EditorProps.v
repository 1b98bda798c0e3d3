(** Theorems about the syntax tree editor. *)
From Coq Require Import Permutation Sorted Ascii String.
From Verif Require Import Base SyntaxKind TextEditModel ParserModel TreeSinkModel TreeSinkSpec TreeDiffModel TreeDiffSpec TreeDiffProofs EditorModel EditorSpec EditorProofs EditorOrder EditorApply.
Close Scope N_scope. Close Scope string_scope. Open Scope list_scope.
Open Scope nat_scope.

Lemma parent_prefix : forall q p, prefix q p -> q <> p -> prefix q (parent p).
Proof.
  intros q p [r ->] N. destruct (exists_last (l := r)) as (r' & x & ->). { intros ->. apply N. now rewrite app_nil_r. } unfold parent. rewrite app_assoc, removelast_last. now exists r'.
Qed.
Lemma apart_spot : forall t c d a, removed c = None -> spot c = Some a -> apart t d c -> spot d <> Some a /\ (forall q, removed d = Some q -> clear_of t a q).
Proof.
  intros t c d a Rc Sc A. unfold apart in A. rewrite Rc, Sc in A. destruct (removed d) as [q|] eqn:Rd.
  - assert (A' : clear_of t a q) by (destruct (spot d); exact A). split; [destruct d; cbn in Rd |- *; discriminate|]. intros q' [= <-]. auto.
  - split; [|discriminate]. destruct (spot d); [congruence|discriminate].
Qed.
Lemma apart_removed : forall t c d p, removed c = Some p -> apart t d c -> spot d <> Some (AfterElement p) /\ (forall q, removed d = Some q -> ~ prefix q p).
Proof.
  intros t c d p Rc A. unfold apart in A. rewrite Rc in A. destruct (removed d) as [q|] eqn:Rd.
  - split; [destruct d; cbn in Rd |- *; discriminate|]. intros q' [= <-]. tauto.
  - split; [|discriminate]. destruct (spot d) as [a|]; [|discriminate]. intros [= ->]. destruct A as [A _]. now apply A.
Qed.
Lemma not_gone : forall done p, Forall (fun d => forall q, removed d = Some q -> ~ prefix q p) done -> ~ gone done p.
Proof. intros done p F (d & q & I & Rd & P). rewrite Forall_forall in F. exact (F d I q Rd P). Qed.

(** one change *)
Lemma step : forall t done c s, reached t done s -> Forall (fun d => apart t d c) done -> points_into t c -> removed c <> Some [] ->
  exists s', apply_change c s = Some s' /\ reached t (done ++ [c]) s'.
Proof.
  intros t done c s R A P NR.
  assert (INS : forall a es, spot c = Some a -> removed c = None -> (forall b, inserted b c = if place_eq_dec b a then es else []) -> exists s', insert_at a (map fresh es) s = Some s' /\ reached t (done ++ [c]) s').
  { intros a es Sp Rm Ins. apply step_insert; auto.
    - eapply Forall_impl; [|exact A]. intros d Ad. cbn in Ad. apply (apart_spot t c d a); auto.
    - apply not_gone. eapply Forall_impl; [|exact A]. intros d Ad q Rd. destruct (apart_spot t c d a Rm Sp Ad) as [_ X]. destruct (X q Rd) as (X1 & X2 & _). destruct a as [p|p]; [exact X2|]. intros Q. apply X2. cbn. apply parent_prefix; auto. congruence.
    - unfold points_into in P. rewrite Rm, Sp in P. destruct a as [p|p]; [|exact P]. destruct P as (k & x & ch & E). eauto. }
  assert (REM : forall p es, removed c = Some p -> spot c = None -> (forall q, substituted q c = if list_eq_dec Nat.eq_dec q p then Some es else None) -> exists s', splice_at p (own p) (map fresh es) s = Some s' /\ reached t (done ++ [c]) s').
  { intros p es Rm Sp Sub. apply step_remove; auto.
    - eapply Forall_impl; [|exact A]. intros d Ad. cbn in Ad. apply (apart_removed t c d p); auto.
    - apply not_gone. eapply Forall_impl; [|exact A]. intros d Ad. cbn in Ad. apply (apart_removed t c d p); auto.
    - unfold points_into in P. rewrite Rm in P. apply text_at_some, P.
    - intros ->. auto. }
  assert (TOP : forall p, removed c = Some p -> is_top p s = false).
  { intros p Rm. apply (not_top t done); auto; [|intros ->; auto]. apply not_gone. eapply Forall_impl; [|exact A]. intros d Ad. cbn in Ad. apply (apart_removed t c d p); auto. }
  destruct c as [a e|a es|p e|p es|p q es]; cbn [apply_change].
  - apply (INS a [e]); auto.
  - apply (INS a es); auto.
  - destruct e as [e|].
    + pose proof (TOP p eq_refl) as X. unfold is_top in X. cbn [existsb] in X. apply orb_false_iff in X as [X _]. rewrite X. apply (REM p [e]); auto.
    + rewrite (TOP p eq_refl). apply (REM p []); auto.
  - apply (REM p es); auto.
  - destruct P.
Qed.
Lemma all_steps : forall t cs done s, reached t done s -> Forall (fun c => Forall (fun d => apart t d c) done) cs -> ForallOrdPairs (apart t) cs -> Forall (points_into t) cs -> Forall (fun c => removed c <> Some []) cs ->
  exists s', apply_all cs s = Some s' /\ reached t (done ++ cs) s'.
Proof.
  intros t cs. induction cs as [|c cs IH]; intros done s R A O P N; [exists s; rewrite app_nil_r; auto|].
  inversion A; subst. inversion O; subst. inversion P; subst. inversion N; subst. destruct (step t done c s) as (s1 & E & R1); auto. cbn. rewrite E.
  destruct (IH (done ++ [c]) s1 R1) as (s2 & E2 & R2); auto.
  - rewrite Forall_forall in *. intros x X. apply Forall_app. split; [now apply H2|]. constructor; [|constructor]. auto.
  - exists s2. rewrite <- app_assoc in R2. auto.
Qed.

(** the plan does not depend on the order *)
Lemma pick_spot : forall t l a c, ForallOrdPairs (apart t) l -> In c l -> spot c = Some a -> removed c = None -> flat_map (inserted a) l = inserted a c.
Proof.
  intros t l a c O. induction O as [|d l F O IH]; intros I Sc Rc; [destruct I|]. cbn. rewrite Forall_forall in F. destruct I as [<-|I].
  - rewrite inserts_none, app_nil_r; auto. rewrite Forall_forall. intros x X. apply F in X. apply apart_sym in X. apply (apart_spot t d x a); auto.
  - rewrite IH by auto. rewrite inserted_none; auto. apply (apart_spot t c d a); auto.
Qed.
Lemma pick_removed : forall t l p c, ForallOrdPairs (apart t) l -> In c l -> removed c = Some p -> first_some (substituted p) l = substituted p c.
Proof.
  intros t l p c O. induction O as [|d l F O IH]; intros I Rc; [destruct I|]. cbn. rewrite Forall_forall in F. destruct I as [<-|I].
  - assert (X : substituted p d <> None) by (destruct d; cbn in Rc |- *; try discriminate; injection Rc as ->; destruct (list_eq_dec _ _ _); try discriminate; contradiction). now destruct (substituted p d).
  - rewrite substituted_none; [auto|]. intros Rd. apply F in I. apply (apart_removed t c d p Rc) in I as [_ X]. apply (X p Rd). apply prefix_refl.
Qed.
Lemma spot_removed : forall c a, spot c = Some a -> removed c = None. Proof. intros [| | | |]; cbn; try discriminate; auto. Qed.
Lemma find_dec : forall {A} (f : change -> option A) (dec : forall x y : A, {x = y} + {x <> y}) a l, (exists c, In c l /\ f c = Some a) \/ Forall (fun c => f c <> Some a) l.
Proof.
  intros A f dec a l. induction l as [|c l [IH|IH]]; [right; constructor|left|]; [destruct IH as (x & I & E); exists x; split; auto; now right|].
  destruct (f c) as [b|] eqn:E; [|right; constructor; auto; congruence]. destruct (dec b a) as [->|N]; [left; exists c; split; auto; now left|right; constructor; auto; congruence].
Qed.
Lemma requested_perm : forall t l l', Permutation l l' -> ForallOrdPairs (apart t) l -> ForallOrdPairs (apart t) l' -> agree_below [] (requested l) (requested l').
Proof.
  intros t l l' P O O' q _.
  assert (INS : forall a, flat_map (inserted a) l = flat_map (inserted a) l').
  { intros a. destruct (find_dec spot place_eq_dec a l) as [(c & I & E)|F].
    - rewrite (pick_spot t l a c), (pick_spot t l' a c); eauto using spot_removed. eapply Permutation_in; eauto.
    - rewrite inserts_none by auto. rewrite inserts_none; auto. now rewrite <- P. }
  cbn. split; [apply INS|]. split; [apply INS|]. destruct (find_dec removed (list_eq_dec Nat.eq_dec) q l) as [(c & I & E)|F].
  - rewrite (pick_removed t l q c), (pick_removed t l' q c); auto. eapply Permutation_in; eauto.
  - change (instead_of (requested l) q = instead_of (requested l') q). rewrite instead_none by auto. symmetry. apply instead_none. now rewrite <- P.
Qed.

Lemma sorted_two : forall t cs, 1 < length cs -> 1 < length (sorted_changes t cs).
Proof. intros t cs H. now rewrite (Permutation_length (sorted_perm t cs)). Qed.
Lemma no_root_removed : forall t c d, apart t d c -> removed c = Some [] -> False.
Proof.
  intros t c d A Rc. unfold apart in A. rewrite Rc in A. destruct (removed d) as [q|]; [apply A; now exists q|]. destruct (spot d) as [a|]; [|exact A]. destruct A as (_ & A & _). apply A. now exists (place_parent a).
Qed.
Lemma root_alone : forall t cs c, ForallOrdPairs (apart t) cs -> In c cs -> removed c = Some [] -> cs = [c].
Proof.
  intros t cs c O I Rc. destruct O as [|x l F O]; [destruct I|]. rewrite Forall_forall in F. destruct I as [->|I].
  - destruct l as [|y l]; [reflexivity|]. exfalso. apply (no_root_removed t c y); auto. apply apart_sym, F. now left.
  - exfalso. apply (no_root_removed t c x); auto.
Qed.
Lemma not_panicking : forall t c, points_into t c -> target_panics t c = false.
Proof.
  intros t c P. destruct c as [[p|p] e|[p|p] es|p e|p es|p q es]; cbn in *; auto; try contradiction.
  1,3: destruct P as (k & x & ch & ->); reflexivity. 1,2: destruct P as [_ P]; destruct p; [contradiction|reflexivity].
Qed.

(** C49: a batch of changes to a file's tree that do not touch each other is carried out in full: the editor
    returns the tree in which everything requested is inserted, replaced or deleted at its place and nothing
    else is different; it neither drops the changes nor panics *)
Theorem edits_applied : forall k ch cs, let t := TNode k ch in
  ForallOrdPairs (apart t) cs -> Forall (points_into t) cs -> no_twins t ->
  exists t', finish t cs = Edited t' /\ carried_out (requested cs) [] t = [t'].
Proof.
  intros k ch cs t O P NT.
  assert (Root : (exists c, In c cs /\ removed c = Some []) \/ Forall (fun c => removed c <> Some []) cs) by (apply find_dec, list_eq_dec, Nat.eq_dec).
  set (cs' := sorted_changes t cs). pose proof (sorted_perm t cs) as Pm. fold cs' in Pm.
  assert (P' : Forall (points_into t) cs') by now rewrite Pm.
  assert (O' : ForallOrdPairs (apart t) cs') by (apply sorted_pairs; auto; apply apart_sym).
  assert (F1 : (1 <? length cs) && existsb (target_panics t) cs = false).
  { apply andb_false_iff. right. destruct (existsb (target_panics t) cs) eqn:E; auto. apply existsb_exists in E as (c & I & E). rewrite Forall_forall in P. rewrite (not_panicking t c (P c I)) in E. discriminate. }
  assert (F2 : disjoint_replaces t cs' = true) by (apply no_conflict; auto; apply sorted_sorted).
  assert (F3 : dependent_changes t 0 cs' [] = []) by (apply no_dependent; auto; [apply sorted_sorted|intros r j c []]).
  assert (F4 : map (resolve_change t) cs' = cs').
  { rewrite <- (map_id cs') at 2. apply map_ext_in. intros c I. rewrite Forall_forall in P'. apply resolve_change_self; auto. }
  assert (FE : forall s', apply_all cs' (labelled [] t, []) = Some s' -> finish t cs = Edited (erase (fst s'))) by (intros s' E; unfold finish; rewrite F1; fold cs'; rewrite F2, F3, F4, E; reflexivity).
  destruct Root as [(c & I & Rc)|N].
  - assert (C : cs = [c]) by (apply (root_alone t); auto).
    assert (X : cs' = [c]) by (apply (root_alone t); auto; rewrite Pm; auto).
    rewrite Forall_forall in P. pose proof (P c I) as Pc. unfold points_into in Pc. rewrite Rc in Pc. destruct Pc as [_ Pc]. destruct (Pc eq_refl) as (k' & ch' & ->).
    exists (TNode k' ch'). split.
    + rewrite (FE (fresh (TNode k' ch'), [labelled [] t])); [cbn [fst]; now rewrite erase_fresh|]. rewrite X. reflexivity.
    + rewrite C. unfold t. rewrite carried_node. reflexivity.
  - destruct (all_steps t cs' [] (labelled [] t, [])) as (s' & E & R1 & _); auto.
    + split; [|constructor]. apply medit_idle.
    + rewrite Forall_forall. intros; constructor.
    + now rewrite Pm.
    + exists (erase (fst s')). split; [now apply FE|]. rewrite <- erase_medit. rewrite (medit_ext t [] (requested cs) (requested cs')); [cbn [app] in R1; rewrite R1; reflexivity|]. apply requested_perm with (t := t); auto. now symmetry.
Qed.

(** * Checking that a tree has no twins *)
Fixpoint all_paths (t : tree) : list place_path :=
  match t with
  | TNode _ ch => [] :: (fix go (i : nat) (ch : list tree) : list place_path := match ch with [] => [] | c :: r => map (cons i) (all_paths c) ++ go (S i) r end) 0 ch
  | TTok _ _ => [[]]
  end.
Lemma all_paths_in : forall p t e, element_at t p = Some e -> In p (all_paths t).
Proof.
  intros p. induction p as [|i p IH]; intros t e H; [destruct t; now left|]. cbn in H. destruct t as [k ch|]; [|discriminate]. destruct (nth_error ch i) as [c|] eqn:E; [|discriminate]. apply IH in H. right.
  assert (X : forall ch i b c, nth_error ch i = Some c -> In p (all_paths c) -> In (b + i :: p) ((fix go (i : nat) (ch : list tree) : list place_path := match ch with [] => [] | c :: r => map (cons i) (all_paths c) ++ go (S i) r end) b ch)).
  { clear. intros ch. induction ch as [|d ch IH]; intros i b c E H; [destruct i; discriminate|]. apply in_or_app. destruct i as [|i]; cbn in E.
    - injection E as ->. left. rewrite Nat.add_0_r. now apply in_map.
    - right. rewrite <- Nat.add_succ_comm. eapply IH; eauto. }
  exact (X ch i 0 c E H).
Qed.
Fixpoint prefixb (p q : place_path) : bool := match p, q with [], _ => true | i :: p', j :: q' => (i =? j) && prefixb p' q' | _, _ => false end.
Lemma prefixb_spec : forall p q, prefix p q -> prefixb p q = true.
Proof. intros p q [r ->]. induction p as [|i p IH]; [reflexivity|]. cbn. now rewrite Nat.eqb_refl. Qed.
Definition twinless (t : tree) : bool := forallb (fun p => forallb (fun q => negb (prefixb p q && same_ptr t p q) || path_eqb p q) (all_paths t)) (all_paths t).
Lemma twinless_ok : forall t, twinless t = true -> no_twins t.
Proof.
  intros t H p q k ch ch' Ep Eq P R. unfold twinless in H. rewrite forallb_forall in H. specialize (H p (all_paths_in p t _ Ep)). rewrite forallb_forall in H. specialize (H q (all_paths_in q t _ Eq)).
  apply path_eqb_spec. destruct (path_eqb p q); auto. rewrite orb_false_r in H. rewrite (prefixb_spec p q P) in H. unfold same_ptr in H. rewrite Ep, Eq in H. rewrite (proj2 (kind_eqb_spec k k) eq_refl) in H. unfold range_at in R. injection R as R1 R2. rewrite R1, Nat.eqb_refl in H. replace (length (text_at t p)) with (length (text_at t q)) in H by lia. rewrite Nat.eqb_refl in H. discriminate.
Qed.
Ltac apart_tac := repeat match goal with
  | |- _ /\ _ => split
  | |- Forall _ _ => constructor
  | |- ForallOrdPairs _ _ => constructor
  | |- ~ prefix _ _ => let r := fresh in let E := fresh in intros [r E]; discriminate E
  | |- _ <> _ => discriminate
  end.

(** * Examples *)
Definition w (k : kind) (c : N) : tree := TTok k [c].
Definition sp : tree := w WHITESPACE 32%N.
(** [f { a b c }] as a tree, with the nodes [f], the block and the three names *)
Definition sample : tree := TNode SOURCE_FILE [TNode NAME [w IDENT 102%N]; sp; TNode BLOCK_EXPR [w L_CURLY 123%N; sp; TNode NAME_REF [w IDENT 97%N]; sp; TNode NAME_REF [w IDENT 98%N]; sp; TNode NAME_REF [w IDENT 99%N]; sp; w R_CURLY 125%N]; sp].
(** delete [a] and the space after it, put [x y] for [b], [z] after [c] and a comma at the start of the name *)
Definition sample_changes : list change :=
  [ReplaceWithMany [2; 4] [w IDENT 120%N; sp; w IDENT 121%N]; Replace [2; 2] None; InsertAll (AfterElement [2; 7]) [w IDENT 122%N; sp]; Replace [2; 3] None; Insert (FirstChild [0]) (w COMMA 44%N)].
Lemma sample_apart : ForallOrdPairs (apart sample) sample_changes.
Proof.
  unfold sample_changes. apart_tac; unfold apart, clear_of; cbn [removed spot]; apart_tac; try (intros H; vm_compute in H; discriminate H); intros _; vm_compute; auto 7 with arith.
Qed.
Lemma sample_inside : Forall (points_into sample) sample_changes.
Proof. unfold sample_changes. repeat constructor; try discriminate. cbn. eauto. Qed.
Example edits_applied_example :
  ForallOrdPairs (apart sample) sample_changes /\ Forall (points_into sample) sample_changes /\ no_twins sample /\
  option_map elem_text (new_root sample (finish sample sample_changes)) = Some (map N_of_ascii (list_ascii_of_string ",f { x y c z } "%string)).
Proof. split; [exact sample_apart|]. split; [exact sample_inside|]. split; [apply twinless_ok; vm_compute; reflexivity|]. vm_compute. reflexivity. Qed.

(** * What goes wrong when changes touch each other *)
(** the same deletion asked for twice: everything in the batch is dropped, and the tree comes back unchanged *)
Theorem deleted_twice_refuted : exists t cs d, Forall (points_into t) cs /\ no_twins t /\ In d cs /\ (forall c, In c cs -> c = d \/ apart t c d) /\ finish t cs = Conflict /\ new_root t (finish t cs) = Some t.
Proof.
  exists sample, [Insert (FirstChild [0]) (w COMMA 44%N); Replace [2; 2] None; Replace [2; 2] None], (Replace [2; 2] None). split; [repeat constructor; try discriminate; cbn; eauto|]. split; [apply twinless_ok; vm_compute; reflexivity|]. split; [cbn; auto|]. split; [|split; vm_compute; reflexivity].
  intros c [<-|[<-|[<-|[]]]]; auto. right. unfold apart, clear_of. cbn [removed spot]. apart_tac. intros _. vm_compute. auto.
Qed.
(** two insertions at the same place come out in the opposite order *)
Theorem same_place_refuted : exists t a x y t', finish t [Insert a x; Insert a y] = Edited t' /\ carried_out (requested [Insert a y; Insert a x]) [] t = [t'] /\ carried_out (requested [Insert a x; Insert a y]) [] t <> [t'].
Proof.
  exists sample, (AfterElement [2; 2]), (w IDENT 120%N), (w IDENT 121%N). eexists. split; [vm_compute; reflexivity|]. split; [vm_compute; reflexivity|]. vm_compute. discriminate.
Qed.
(** an insertion after an element that is deleted panics *)
Theorem insert_after_deleted_refuted : exists t p q e, finish t [Replace p None; Insert (AfterElement p) e] = Panicked /\ is_node_at t p = true /\ finish t [Replace q None; Insert (AfterElement q) e] = Panicked /\ is_node_at t q = false.
Proof. exists sample, [2; 2], [2; 3], (w IDENT 120%N). repeat split; vm_compute; reflexivity. Qed.
(** so does one at the end of what precedes a deleted node, although it is made inside another element *)
Theorem insert_before_deleted_refuted : exists t p q e, finish t [Replace p None; Insert (AfterElement q) e] = Panicked /\ ~ prefix p q /\ ~ prefix q p /\ parent p <> parent q /\ finish t [Insert (AfterElement q) e] <> Panicked.
Proof.
  exists (TNode SOURCE_FILE [TNode NAME [w IDENT 102%N]; TNode BLOCK_EXPR [w L_CURLY 123%N; w R_CURLY 125%N]]), [1], [0; 0], (w IDENT 120%N).
  split; [vm_compute; reflexivity|]. apart_tac.
Qed.
(** of three replacements, each inside the one before it, the innermost is carried over to the outermost *)
Theorem nested_ancestor_refuted : exists t p q r x y z, prefix p q /\ prefix q r /\ q <> p /\ r <> q /\ sorted_changes t [Replace p x; Replace q y; Replace r z] = [Replace p x; Replace q y; Replace r z] /\
  finish t [Replace p x; Replace q y; Replace r z] = Remapped [(0, 1); (0, 2)].
Proof.
  exists (TNode SOURCE_FILE [TNode PAREN_EXPR [w L_PAREN 40%N; TNode BLOCK_EXPR [w L_CURLY 123%N; TNode NAME_REF [w IDENT 97%N]; w R_CURLY 125%N]; w R_PAREN 41%N]]), [0], [0; 1], [0; 1; 1], (Some (TNode PAREN_EXPR [])), (Some (TNode BLOCK_EXPR [])), (Some (TNode NAME_REF [])).
  split; [now exists [1]|]. split; [now exists [1]|]. split; [discriminate|]. split; [discriminate|]. split; vm_compute; reflexivity.
Qed.
Print Assumptions edits_applied.
Print Assumptions deleted_twice_refuted.
Print Assumptions same_place_refuted.
Print Assumptions insert_after_deleted_refuted.
Print Assumptions insert_before_deleted_refuted.
Print Assumptions nested_ancestor_refuted.
