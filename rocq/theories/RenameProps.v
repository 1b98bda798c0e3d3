(** Renaming: the edits of all references and of the definition can be applied together, and a field or a variable
    keeps its meaning in struct literals and patterns. *)
From Coq Require Import String Permutation Sorted.
Close Scope string_scope.
From Verif Require Import LexerNumberProps Base SyntaxKind TextEditModel TextEditSpec TextEditProofs TextEditProps TreeSinkModel TreeSinkSpec TreeDiffModel TreeDiffSpec TreeDiffProofs EditorModel EditorSpec EditorProofs EditorOrder AddressModel ParserModel LexerModel LexerProps SelectionModel SelectionProofs SelectionProps SignatureModel SignatureProofs SignatureProps UsagesModel UsagesProps RenameModel RenameProofs.
Close Scope N_scope.
Open Scope nat_scope.
Open Scope list_scope.
Local Notation change := TextEditModel.change.
Local Notation solid := SelectionProps.solid.
Local Notation fits := TextEditSpec.fits.
Local Notation disjoint := TextEditSpec.disjoint.
Local Notation wf_change := TextEditSpec.wf_change.
Local Notation pairwise_disjoint := TextEditSpec.pairwise_disjoint.
Local Notation edited := TextEditSpec.edited.

(** * The specification *)
(** a name consists of one token *)
Definition name_leaf (t : tree) : Prop := forall p k ch, element_at t p = Some (TNode k ch) -> k = NAME \/ k = NAME_REF -> exists k' x, ch = [TTok k' x].
(** segments are parts of paths *)
Definition segments_in_paths (t : tree) : Prop := forall p ch, element_at t p = Some (TNode PATH_SEGMENT ch) -> exists q i, p = q ++ [i] /\ kind_at t q = Some PATH.
(** only tokens stand between the children [i] and [j] *)
Definition between (t : tree) (q : place_path) (i j : nat) : Prop :=
  i < j /\ forall m, i < m < j -> exists k x, element_at t (q ++ [m]) = Some (TTok k x).
(** fields: the name, a colon, then the expression or the pattern; a binding is a name *)
Definition expr_kind (k : kind) : Prop := In k [ABORT_EXPR; ANNOTATED_EXPR; ASSERT_MACRO_EXPR; BANG_EXPR; BEHAVIOR_PREDICATE_EXPR; BIN_EXPR; BLOCK_EXPR; BORROW_EXPR;
  BREAK_EXPR; CALL_EXPR; CAST_EXPR; CHOOSE_EXPR; CONTINUE_EXPR; DEREF_EXPR; DOT_EXPR; EXISTS_EXPR; FOR_EXPR; FORALL_EXPR;
  IF_EXPR; INDEX_EXPR; IS_EXPR; LAMBDA_EXPR; LITERAL; LOOP_EXPR; MATCH_EXPR; METHOD_CALL_EXPR; MINUS_EXPR; PAREN_EXPR;
  PATH_EXPR; RANGE_EXPR; RESOURCE_EXPR; RETURN_EXPR; SPEC_BLOCK_EXPR; STRUCT_LIT; TUPLE_EXPR; UNIT_EXPR; VECTOR_LIT_EXPR; WHILE_EXPR].
Definition fields_ok (t : tree) : Prop :=
  (forall q i j ch, kind_at t q = Some STRUCT_LIT_FIELD -> element_at t (q ++ [i]) = Some (TNode NAME_REF ch) -> first_node t expr_kind q j -> between t q i j) /\
  (forall q i j ch ch', kind_at t q = Some STRUCT_PAT_FIELD -> element_at t (q ++ [i]) = Some (TNode NAME_REF ch) -> element_at t (q ++ [j]) = Some (TNode IDENT_PAT ch') -> between t q i j) /\
  (forall q i j ch ch', kind_at t q = Some STRUCT_PAT_FIELD -> element_at t (q ++ [i]) = Some (TNode IDENT_PAT ch) -> element_at t (q ++ [j]) = Some (TNode IDENT_PAT ch') -> i = j) /\
  (forall p ch, element_at t p = Some (TNode IDENT_PAT ch) -> exists ch', ch = [TNode NAME ch']).

(** * Places *)
Lemma is_expr_spec k : is_expr k = true <-> expr_kind k.
Proof. unfold expr_kind. cbn [In]. split; [destruct k; cbn; try discriminate; tauto|]. intros H. repeat (destruct H as [<-|H]; [reflexivity|]). destruct H. Qed.
Lemma name_exists t n : name_node t n -> exists_at t n. Proof. intros (k & ch & E & _). unfold exists_at. congruence. Qed.
Lemma below_name t n s k ch : name_leaf t -> name_node t n -> element_at t (n ++ s) = Some (TNode k ch) -> s = [].
Proof.
  intros Lf (k' & c & E & K) H. destruct (Lf _ _ _ E K) as (k2 & x & ->). rewrite element_at_app, E in H. destruct s as [|[|i] s]; [reflexivity| |]; cbn in H; [destruct s; discriminate|destruct i; discriminate].
Qed.
Lemma names_disjoint t a b : name_leaf t -> name_node t a -> name_node t b -> a <> b -> r_end (range_at t a) <= r_start (range_at t b) \/ r_end (range_at t b) <= r_start (range_at t a).
Proof.
  intros Lf A B N. destruct (prefix_dec a b) as [(s & ->)|P]. { destruct B as (k & ch & E & K). rewrite (below_name t a s k ch Lf A E) in N. rewrite app_nil_r in N. congruence. }
  destruct (prefix_dec b a) as [(s & ->)|Q]. { destruct A as (k & ch & E & K). rewrite (below_name t b s k ch Lf B E) in N. rewrite app_nil_r in N. congruence. }
  apply disjoint_ranges; auto; now apply name_exists.
Qed.
Lemma prefix_exists t q s : exists_at t (q ++ s) -> exists_at t q.
Proof. unfold exists_at. rewrite element_at_app. destruct (element_at t q); congruence. Qed.
Lemma under_token t q s k x : element_at t q = Some (TTok k x) -> exists_at t (q ++ s) -> s = [].
Proof. unfold exists_at. rewrite element_at_app. intros ->. destruct s; [auto|cbn; congruence]. Qed.
Lemma gap_disjoint t q i j n : name_leaf t -> between t q i j -> name_node t (q ++ [i]) -> exists_at t (q ++ [j]) -> name_node t n -> n <> q ++ [i] ->
  r_end (range_at t n) <= r_start (range_at t (q ++ [i])) \/ r_start (range_at t (q ++ [j])) <= r_start (range_at t n).
Proof.
  intros Lf [L Bt] Ni Xj Nn D. pose proof (name_exists _ _ Ni) as Xi. pose proof (name_exists _ _ Nn) as Xn. destruct (prefix_dec q n) as [(s & ->)|P].
  - destruct s as [|m s]. { rewrite app_nil_r in Nn. destruct Ni as (k & ch & E & _). discriminate (below_name t q [i] k ch Lf Nn E). }
    assert (Em : q ++ m :: s = (q ++ [m]) ++ s) by now rewrite <- app_assoc. rewrite Em in *. pose proof (prefix_exists _ _ _ Xn) as Xm. pose proof (range_prefix t (q ++ [m]) s Xn) as R. unfold inside in R.
    destruct (Nat.lt_trichotomy m i) as [M|[->|M]].
    + left. pose proof (siblings_range t q m i M Xm Xi). lia.
    + destruct Nn as (k & ch & E & _). rewrite (below_name t (q ++ [i]) s k ch Lf Ni E) in D. now rewrite app_nil_r in D.
    + right. destruct (Nat.lt_trichotomy m j) as [M'|[->|M']].
      * destruct (Bt m (conj M M')) as (k & x & E). rewrite (under_token _ _ _ _ _ E Xn) in Nn. rewrite app_nil_r in Nn. destruct Nn as (k' & ch & E' & _). congruence.
      * lia.
      * pose proof (siblings_range t q j m M' Xj Xm). pose proof (range_order t (q ++ [j])). lia.
  - assert (Xq : exists_at t q) by (eapply prefix_exists; exact Xi). pose proof (range_prefix t q [i] Xi) as Ri. pose proof (range_prefix t q [j] Xj) as Rj. unfold inside in *. destruct (prefix_dec n q) as [(s & ->)|Q].
    + exfalso. destruct Ni as (k & ch & E & _). rewrite <- app_assoc in E. pose proof (below_name t n _ k ch Lf Nn E) as Z. destruct s; discriminate.
    + pose proof (range_order t (q ++ [j])). destruct (disjoint_ranges t n q Q P Xn Xq) as [Z|Z]; [left; lia|right; lia].
Qed.
Lemma name_len t n : solid t -> name_leaf t -> name_node t n -> r_start (range_at t n) < r_end (range_at t n).
Proof.
  intros S Lf N. pose proof N as (k & ch & E & K). destruct (Lf _ _ _ E K) as (k' & x & ->). assert (T : element_at t (n ++ [0]) = Some (TTok k' x)) by now rewrite element_at_app, E. pose proof (S _ _ _ T) as X.
  unfold range_at, text_at. rewrite E. cbn. rewrite app_nil_r. destruct x; [congruence|cbn; lia].
Qed.

(** * Boundaries *)
Lemma cut t : utf8_tokens t -> forall p e, element_at t p = Some e -> utf8_tokens e /\ exists a b, elem_text t = a ++ elem_text e ++ b /\ length a = offset_at t p /\ starts_at_char b.
Proof.
  intros U p. revert t U. induction p as [|i p IH]; intros t U e E; cbn in E.
  - injection E as ->. split; [exact U|]. exists [], []. rewrite app_nil_r. repeat split.
  - destruct t as [k ch|]; [|discriminate]. destruct (nth_error ch i) as [c|] eqn:C; [|discriminate]. pose proof (utf8_child _ _ U) as Uc. destruct (nth_error_split ch i C) as (l & r & -> & Ll).
    apply Forall_app in Uc as [Ul Ur]. inversion Ur as [|? ? U1 U2]; subst. destruct (IH c U1 e E) as (Ue & a & b & T & La & Sb). split; [exact Ue|]. exists (flat_map elem_text l ++ a), (b ++ flat_map elem_text r). split; [|split].
    + cbn. rewrite flat_map_app. cbn. rewrite T, <- !app_assoc. reflexivity.
    + rewrite app_length, La. cbn. rewrite nth_error_app2, Nat.sub_diag by lia. cbn. rewrite firstn_app, Nat.sub_diag, firstn_all. cbn. rewrite app_nil_r. reflexivity.
    + apply starts_app; auto. now apply utf8_flat.
Qed.
Lemma edges t p : utf8_tokens t -> exists_at t p -> is_char_boundary (elem_text t) (r_start (range_at t p)) = true /\ is_char_boundary (elem_text t) (r_end (range_at t p)) = true /\ r_end (range_at t p) <= length (elem_text t).
Proof.
  intros U X. unfold exists_at in X. destruct (element_at t p) as [e|] eqn:E; [|congruence]. destruct (cut t U p e E) as (Ue & a & b & T & La & Sb). unfold range_at, text_at. rewrite E. cbn [r_start r_end]. rewrite <- La, T. split; [|split].
  - apply boundary_app. apply starts_app; auto. now apply TreeDiffProofs.utf8_starts.
  - rewrite <- app_length, app_assoc. now apply boundary_app.
  - rewrite !app_length. lia.
Qed.

(** * The changes of one reference *)
Inductive part (t : tree) (new : text) (p : place_path) (c : change) : Prop :=
| part_in : r_start (range_at t p) <= c_start c -> c_end c <= r_end (range_at t p) -> part t new p c
| part_gap q i j : p = q ++ [i] -> between t q i j -> exists_at t (q ++ [j]) -> c_start c = r_start (range_at t p) -> c_end c = r_start (range_at t (q ++ [j])) -> part t new p c
| part_name q i j m : p = q ++ [i] -> first_node t (eq NAME_REF) q i -> name_node t (q ++ [j; m]) -> text_at t (q ++ [j; m]) = new -> c_range c = range_at t (q ++ [j; m]) -> part t new p c.
Definition sound (t : tree) (new : text) (p : place_path) (cs : list change) : Prop :=
  Forall (part t new p) cs /\ Forall wf_change cs /\ Forall (fits (elem_text t)) cs /\ pairwise_disjoint cs.
Lemma parent_of_spec t f p q : parent_of t f p = Some q -> exists i k, p = q ++ [i] /\ kind_at t q = Some k /\ f k = true.
Proof.
  unfold parent_of, parent_path. destruct (rev p) as [|i r] eqn:E; cbn; [discriminate|]. unfold kind_is. destruct (kind_at t (rev r)) as [k|] eqn:K; [|discriminate]. destruct (f k) eqn:F; [|discriminate]. intros H. injection H as <-.
  exists i, k. split; [|auto]. rewrite <- (rev_involutive p), E. reflexivity.
Qed.
Lemma is_kind_spec k k' : is_kind k k' = true <-> k = k'. Proof. apply kind_eqb_spec. Qed.
Lemma kind_node t p k : kind_at t p = Some k -> exists ch, element_at t p = Some (TNode k ch) \/ exists x, element_at t p = Some (TTok k x).
Proof. unfold kind_at. destruct (element_at t p) as [[k' ch|k' x]|]; cbn; intros H; inversion H; subst; [exists ch; auto|exists []; right; eauto]. Qed.
Lemma first_child_at t f q c : first_child t f q = Some c -> exists j, c = q ++ [j] /\ (exists k ch, element_at t (q ++ [j]) = Some (TNode k ch) /\ f k = true).
Proof.
  intros H. pose proof H as H'. unfold first_child in H. destruct (find_index _ 0 (children_of t q)) as [j|] eqn:X; [|discriminate H]. cbn [option_map] in H. apply some_eq in H. subst c. exists j. split; [reflexivity|].
  apply (first_found t f (fun k => f k = true)) in H' as [(k & ch & E & F) _]; [|tauto]. eauto.
Qed.
Lemma one_in t new p c : part t new p c -> wf_change c -> fits (elem_text t) c -> sound t new p [c].
Proof. intros A B C. refine (conj (Forall_cons _ A (Forall_nil _)) (conj (Forall_cons _ B (Forall_nil _)) (conj (Forall_cons _ C (Forall_nil _)) _))). constructor; constructor. Qed.
Lemma sound_replace t new p : utf8_tokens t -> starts_at_char new -> exists_at t p -> sound t new p [replace_change (range_at t p) new].
Proof.
  intros U S X. destruct (edges t p U X) as (A & B & C). apply one_in; [apply part_in; cbn; lia|split; [apply range_order|exact S]|]. split; [exact C|split; assumption].
Qed.
Lemma sound_insert t new p o x : utf8_tokens t -> starts_at_char x -> exists_at t p -> o = r_start (range_at t p) \/ o = r_end (range_at t p) -> sound t new p [insert_change o x].
Proof.
  intros U S X O. destruct (edges t p U X) as (A & B & C). pose proof (range_order t p). apply one_in.
  - apply part_in; [change (r_start (range_at t p) <= o)|change (o <= r_end (range_at t p))]; destruct O; subst o; lia.
  - split; [exact (le_n o)|exact S].
  - split; [change (o <= length (elem_text t)); destruct O; subst o; lia|]. destruct O; subst o; auto.
Qed.
Lemma gap_order t q i j : i < j -> exists_at t (q ++ [i]) -> exists_at t (q ++ [j]) -> r_start (range_at t (q ++ [i])) <= r_start (range_at t (q ++ [j])).
Proof. intros L A B. pose proof (siblings_range t q i j L A B). pose proof (range_order t (q ++ [i])). lia. Qed.
Lemma fits_gap t q i j : utf8_tokens t -> exists_at t (q ++ [i]) -> exists_at t (q ++ [j]) -> fits (elem_text t) (delete_change (upto (r_start (range_at t (q ++ [i]))) (r_start (range_at t (q ++ [j]))))).
Proof. intros U A B. destruct (edges t _ U A) as (A1 & _ & _). destruct (edges t _ U B) as (B1 & _ & B3). pose proof (range_order t (q ++ [j])). split; [change (r_start (range_at t (q ++ [j])) <= length (elem_text t)); lia|]. split; assumption. Qed.
Lemma ref_sound t tg new p : solid t -> utf8_tokens t -> name_leaf t -> segments_in_paths t -> fields_ok t -> starts_at_char new -> name_node t p -> exists cs, ref_changes t tg new p = Ok cs /\ sound t new p cs.
Proof.
  intros So U Lf Sg (F1 & F2 & F3 & F4) S N. pose proof (name_exists _ _ N) as X. unfold ref_changes. pose proof (sound_replace t new p U S X) as Dflt.
  assert (S1 : starts_at_char (new ++ str ": ")) by (apply starts_app; [exact S|reflexivity]). assert (S2 : starts_at_char (str ": " ++ new)) by reflexivity.
  destruct N as (k & ch & E & K). assert (Kp : kind_at t p = Some k) by (unfold kind_at; now rewrite E). rewrite Kp. assert (N : name_node t p) by (exists k, ch; auto). destruct K as [->| ->].
  - unfold from_name. destruct (parent_of t (is_kind IDENT_PAT) p) as [ip|] eqn:P1; cbn [obind]; [|eexists; split; [reflexivity|exact Dflt]]. destruct (parent_of t (is_kind STRUCT_PAT_FIELD) ip) as [q|] eqn:P2; [|eexists; split; [reflexivity|exact Dflt]].
    apply parent_of_spec in P1 as (i & k1 & -> & K1 & I1). apply is_kind_spec in I1. subst k1. apply parent_of_spec in P2 as (j & k2 & -> & K2 & I2). apply is_kind_spec in I2. subst k2.
    assert (Eip : exists c, element_at t (q ++ [j]) = Some (TNode IDENT_PAT c)). { apply prefix_exists in X as Y. unfold exists_at in Y. unfold kind_at in K1. destruct (element_at t (q ++ [j])) as [[k' c|k' x]|] eqn:Z; [cbn in K1; injection K1 as ->; eauto| |congruence]. discriminate (under_token _ _ _ _ _ Z X). }
    destruct Eip as (c & Eip). destruct (first_child t (is_kind IDENT_PAT) q) as [ip'|] eqn:FC.
    + apply first_child_at in FC as (j' & -> & k' & c' & E' & I'). apply is_kind_spec in I'. subst k'. assert (j = j') by (eapply F3; eauto). subst j'.
      cbn [bind]. eexists. split; [reflexivity|]. destruct (F4 _ _ Eip) as (c2 & ->). rewrite element_at_app, Eip in E. destruct i as [|i]; [|destruct i; discriminate].
      apply sound_insert; [exact U|exact S1|exact X|left]. unfold range_at. cbn [r_start]. rewrite (offset_at_app (q ++ [j]) [0] t _ Eip). cbn. lia.
    + exfalso. unfold first_child in FC. destruct (find_index _ 0 (children_of t q)) as [z|] eqn:FI; [discriminate|]. destruct (exist_children t q j) as (e & Q1 & Q2); [unfold exists_at; congruence|]. pose proof (find_index_none _ _ _ FI _ _ Q1) as Z. assert (e = TNode IDENT_PAT c) by congruence. subst e. discriminate Z.
  - unfold from_name_ref, lit_field. destruct (parent_of t (is_kind STRUCT_LIT_FIELD) p) as [q|] eqn:P1.
    + cbn [bind]. apply parent_of_spec in P1 as (i & k1 & -> & K1 & I1). apply is_kind_spec in I1. subst k1. destruct (first_child t is_expr q) as [e|] eqn:FC; [|eexists; split; [reflexivity|exact Dflt]].
      destruct (text_eqb (text_at t e) new) eqn:TE; [|eexists; split; [reflexivity|exact Dflt]]. cbn [bind]. eexists. split; [reflexivity|].
      destruct (first_child_at _ _ _ _ FC) as (j & -> & k' & c' & E' & I'). assert (Xj : exists_at t (q ++ [j])) by (unfold exists_at; congruence). apply (first_found t is_expr expr_kind q j is_expr_spec) in FC. pose proof (F1 q i j ch K1 E FC) as Bt.
      apply one_in; [eapply part_gap; eauto|split; [cbn; apply gap_order; auto; apply Bt|exact I]|now apply fits_gap].
    + assert (Pat : exists cs, bind (from_pat_field t new p) (fun e => Ok (match e with Some cs => cs | None => [replace_change (range_at t p) new] end)) = Ok cs /\ sound t new p cs).
      { unfold from_pat_field. destruct (parent_of t (is_kind STRUCT_PAT_FIELD) p) as [q|] eqn:P2; [|eexists; split; [reflexivity|exact Dflt]].
        destruct (first_child t (is_kind NAME_REF) q) as [f|] eqn:FF; [|eexists; split; [reflexivity|exact Dflt]]. destruct (first_child t (is_kind IDENT_PAT) q) as [ip|] eqn:FI; [|eexists; split; [reflexivity|exact Dflt]].
        destruct (list_eq_dec Nat.eq_dec f p) as [->|]; [|eexists; split; [reflexivity|exact Dflt]]. destruct (first_child t (is_kind NAME) ip) as [nm|] eqn:FN; [|eexists; split; [reflexivity|exact Dflt]].
        apply parent_of_spec in P2 as (i & k1 & -> & K1 & I1). apply is_kind_spec in I1. subst k1. destruct (first_child_at _ _ _ _ FI) as (j & -> & k' & c' & E' & I'). apply is_kind_spec in I'. subst k'. destruct (first_child_at _ _ _ _ FN) as (m & -> & k'' & c'' & E'' & I''). apply is_kind_spec in I''. subst k''.
        pose proof (F2 q i j ch c' K1 E E') as Bt. assert (Xj : exists_at t (q ++ [j])) by (unfold exists_at; congruence). assert (Xm : exists_at t ((q ++ [j]) ++ [m])) by (unfold exists_at; congruence).
        destruct (Lf _ _ _ E'' (or_introl eq_refl)) as (k3 & x & ->). unfold name_text. assert (Cx : children_of t ((q ++ [j]) ++ [m]) = [TTok k3 x]) by (unfold children_of; now rewrite E''). rewrite Cx. cbn [bind].
        destruct (text_eqb x new) eqn:TE; [|eexists; split; [reflexivity|exact Dflt]]. unfold text_eqb in TE. destruct (list_eq_dec N.eq_dec x new) as [->|]; [|discriminate]. cbn [bind]. eexists. split; [reflexivity|].
        assert (Nm : name_node t (q ++ [j; m])) by (replace (q ++ [j; m]) with ((q ++ [j]) ++ [m]) by (now rewrite <- app_assoc); exists NAME, [TTok k3 new]; auto).
        assert (Tx : text_at t (q ++ [j; m]) = new). { replace (q ++ [j; m]) with ((q ++ [j]) ++ [m]) by now rewrite <- app_assoc. unfold text_at. rewrite E''. cbn. now rewrite app_nil_r. }
        assert (FN' : first_node t (eq NAME_REF) q i) by (apply (first_found t (is_kind NAME_REF) _ q i (is_kind_spec _)); exact FF).
        destruct (edges t _ U Xm) as (B1 & B2 & B3). pose proof (range_prefix t (q ++ [j]) [m] Xm) as In1. unfold inside in In1. pose proof (gap_order t q i j (proj1 Bt) X Xj) as Go. split; [|split; [|split]].
        - constructor; [eapply part_gap; eauto|]. constructor; [|constructor]. eapply (part_name t new _ _ q i j m); eauto. cbn. now rewrite <- app_assoc.
        - constructor; [split; [exact Go|exact I]|]. constructor; [|constructor]. split; [apply range_order|exact S].
        - constructor; [now apply fits_gap|]. constructor; [|constructor]. split; [exact B3|split; assumption].
        - constructor; [|constructor; constructor]. constructor; [|constructor]. left. change (r_start (range_at t (q ++ [j])) <= r_start (range_at t ((q ++ [j]) ++ [m]))). apply In1. }
      destruct (parent_of t (is_kind PATH_SEGMENT) p) as [s|] eqn:P2; cbn [bind]; [|exact Pat].
      apply parent_of_spec in P2 as (i & k1 & -> & K1 & I1). apply is_kind_spec in I1. subst k1.
      assert (Es : exists c, element_at t s = Some (TNode PATH_SEGMENT c)). { unfold kind_at in K1. destruct (element_at t s) as [[k' c|k' x]|] eqn:Z; [cbn in K1; injection K1 as ->; eauto| |discriminate]. discriminate (under_token _ _ _ _ _ Z X). }
      destruct Es as (c & Es). destruct (Sg _ _ Es) as (pp & z & -> & Kpp). rewrite (parent_of_child t (is_kind PATH) pp z PATH Kpp eq_refl).
      destruct (obind _ _) as [q|]; [|exact Pat]. destruct (first_child t (is_kind NAME_REF) q); [exact Pat|]. cbn [bind]. destruct tg; cbn [bind].
      * eexists. split; [reflexivity|]. apply sound_insert; auto.
      * eexists. split; [reflexivity|]. apply sound_insert; auto.
      * eexists. split; [reflexivity|exact Dflt].
Qed.

(** * What is done at a reference *)
(** `f: e` in a struct literal, [p] is the name f and [e] the expression *)
Definition lit_full (t : tree) (p e : place_path) : Prop :=
  exists q i j, p = q ++ [i] /\ kind_at t q = Some STRUCT_LIT_FIELD /\ first_node t expr_kind q j /\ e = q ++ [j].
(** `f` alone in a struct literal: the field is a path expression, and [p] a name in that path *)
Definition lit_short (t : tree) (p : place_path) : Prop :=
  exists q a c cs b d, p = q ++ [a] ++ (c :: cs) ++ [b; d] /\ kind_at t q = Some STRUCT_LIT_FIELD /\ (forall i ch, element_at t (q ++ [i]) <> Some (TNode NAME_REF ch)) /\
    kind_at t (q ++ [a]) = Some PATH_EXPR /\ (forall u v, c :: cs = u ++ v -> u <> [] -> kind_at t (q ++ [a] ++ u) = Some PATH) /\ kind_at t (q ++ [a] ++ (c :: cs) ++ [b]) = Some PATH_SEGMENT.
(** `f: x` in a struct pattern, [ip] is the pattern and [nm] the name x *)
Definition pat_full (t : tree) (p ip nm : place_path) : Prop :=
  exists q i j m, p = q ++ [i] /\ kind_at t q = Some STRUCT_PAT_FIELD /\ first_node t (eq NAME_REF) q i /\ first_node t (eq IDENT_PAT) q j /\ ip = q ++ [j] /\ first_node t (eq NAME) ip m /\ nm = ip ++ [m].
(** `f` alone in a struct pattern *)
Definition pat_short (t : tree) (p : place_path) : Prop := exists q i j, p = q ++ [i; j] /\ kind_at t (q ++ [i]) = Some IDENT_PAT /\ kind_at t q = Some STRUCT_PAT_FIELD.
Inductive ref_edit (t : tree) (tg : target) (new : text) (p : place_path) : list change -> Prop :=
| edit_lit_drop e : kind_at t p = Some NAME_REF -> lit_full t p e -> text_at t e = new ->
    ref_edit t tg new p [mkChange (mkRange (r_start (range_at t p)) (r_start (range_at t e))) []]
| edit_lit_field : kind_at t p = Some NAME_REF -> lit_short t p -> tg = Field ->
    ref_edit t tg new p [mkChange (mkRange (r_start (range_at t p)) (r_start (range_at t p))) (new ++ str ": ")]
| edit_lit_binding : kind_at t p = Some NAME_REF -> lit_short t p -> tg = Binding ->
    ref_edit t tg new p [mkChange (mkRange (r_end (range_at t p)) (r_end (range_at t p))) (str ": " ++ new)]
| edit_pat_drop ip nm : kind_at t p = Some NAME_REF -> pat_full t p ip nm -> text_at t nm = new ->
    ref_edit t tg new p [mkChange (mkRange (r_start (range_at t p)) (r_start (range_at t ip))) []; mkChange (range_at t nm) new]
| edit_pat_field : kind_at t p = Some NAME -> pat_short t p ->
    ref_edit t tg new p [mkChange (mkRange (r_start (range_at t p)) (r_start (range_at t p))) (new ++ str ": ")]
| edit_plain : (forall e, kind_at t p = Some NAME_REF -> lit_full t p e -> text_at t e <> new) -> (kind_at t p = Some NAME_REF -> lit_short t p -> tg = OtherItem) ->
    (forall ip nm, kind_at t p = Some NAME_REF -> pat_full t p ip nm -> text_at t nm <> new) -> (kind_at t p = Some NAME -> ~ pat_short t p) ->
    ref_edit t tg new p [mkChange (range_at t p) new].
Lemma root_climb t r a : kind_is t (is_kind PATH) r = false -> forall s, (forall u v, s = u ++ v -> kind_at t (r ++ a :: u) = Some PATH) -> root_of t (rev (r ++ a :: s)) = r ++ [a].
Proof.
  intros Kr s. induction s as [|x s IH] using rev_ind; intros C.
  - rewrite rev_app_distr. cbn [rev app root_of]. rewrite rev_involutive, Kr. reflexivity.
  - replace (r ++ a :: s ++ [x]) with ((r ++ a :: s) ++ [x]) by now rewrite <- app_assoc. rewrite rev_app_distr. cbn [rev app root_of]. rewrite rev_involutive. unfold kind_is at 1. rewrite (C s [x] eq_refl). cbn [is_kind]. rewrite (proj2 (is_kind_spec PATH PATH) eq_refl). apply IH. intros u v ->. apply (C u (v ++ [x])). now rewrite app_assoc.
Qed.
Lemma root_of_found t : forall rp, rp <> [] -> kind_at t (rev rp) = Some PATH -> exists r a s, rev rp = r ++ a :: s /\ root_of t rp = r ++ [a] /\ (forall u v, s = u ++ v -> kind_at t (r ++ a :: u) = Some PATH) \/ root_of t rp = [].
Proof.
  induction rp as [|x rp IH]; intros N K; [congruence|]. cbn [root_of]. destruct (kind_is t (is_kind PATH) (rev rp)) eqn:E.
  - destruct rp as [|y rp]; [exists [], 0, []; right; reflexivity|]. unfold kind_is in E. destruct (kind_at t (rev (y :: rp))) as [k|] eqn:Ky; [|discriminate]. apply is_kind_spec in E. subst k. destruct IH as (r & a & s & [(E1 & E2 & C)|R]); [discriminate|reflexivity| |].
    + exists r, a, (s ++ [x]). left. split; [cbn [rev] in *; rewrite E1, <- app_assoc; reflexivity|]. split; [exact E2|]. intros u v H. destruct v as [|z v _] using rev_ind; [rewrite app_nil_r in H; subst u|rewrite app_assoc in H; apply app_inj_tail in H as [H _]; now apply (C u v)].
      cbn [rev] in K, E1. rewrite E1 in K. rewrite <- app_assoc in K. exact K.
    + exists [], 0, []. right. exact R.
  - cbn [rev] in *. exists (rev rp), x, []. left. split; [reflexivity|]. split; [reflexivity|]. intros u v H. symmetry in H. apply app_eq_nil in H as [-> ->]. exact K.
Qed.
Lemma no_child t f g q : (forall k, f k = true <-> g k) -> first_child t f q = None -> forall i k ch, element_at t (q ++ [i]) = Some (TNode k ch) -> ~ g k.
Proof.
  intros FG H i k ch E G. unfold first_child in H. destruct (find_index _ 0 (children_of t q)) as [j|] eqn:X; [discriminate|]. destruct (exist_children t q i) as (e & A & B); [unfold exists_at; congruence|]. assert (e = TNode k ch) by congruence. subst e. pose proof (find_index_none _ _ _ X _ _ A) as Z. cbn in Z. apply FG in G. congruence.
Qed.
Lemma parent_none t f p q i k : parent_of t f p = None -> p = q ++ [i] -> kind_at t q = Some k -> f k = false.
Proof. intros H -> K. unfold parent_of in H. rewrite parent_child in H. cbn in H. unfold kind_is in H. rewrite K in H. destruct (f k); [discriminate|reflexivity]. Qed.
Lemma first_unique t g q i j : first_node t g q i -> first_node t g q j -> i = j.
Proof.
  intros [(k & ch & E & G) B] [(k' & ch' & E' & G') B']. destruct (Nat.lt_trichotomy i j) as [L|[L|L]]; [|exact L|]; exfalso; [exact (B' i k ch L E G)|exact (B j k' ch' L E' G')].
Qed.
Lemma parents_same (q q' : place_path) i i' : q ++ [i] = q' ++ [i'] -> q = q' /\ i = i'. Proof. apply app_inj_tail. Qed.
Lemma lit_field_short t p r : lit_field t p = Ok r -> lit_short t p -> (forall q i, p = q ++ [i] -> kind_at t q <> Some STRUCT_LIT_FIELD) -> r = Some LitShort.
Proof.
  intros H (q & a & c & cs & b & d & E & K & NoN & Ke & C & Ks) NL. unfold lit_field in H. destruct (parent_of t (is_kind STRUCT_LIT_FIELD) p) as [z|] eqn:P1. { apply parent_of_spec in P1 as (i & k & Ei & Kz & I). apply is_kind_spec in I. subst k. now destruct (NL z i Ei). }
  assert (Ep : p = (q ++ [a] ++ (c :: cs) ++ [b]) ++ [d]) by (rewrite E; rewrite <- !app_assoc; reflexivity). rewrite Ep, (parent_of_child t (is_kind PATH_SEGMENT) _ d _ Ks eq_refl) in H.
  assert (Kc : kind_at t (q ++ [a] ++ c :: cs) = Some PATH) by (apply (C (c :: cs) []); [now rewrite app_nil_r|discriminate]).
  replace (q ++ [a] ++ (c :: cs) ++ [b]) with ((q ++ [a] ++ c :: cs) ++ [b]) in H by (rewrite <- !app_assoc; reflexivity). rewrite (parent_of_child t (is_kind PATH) _ b _ Kc eq_refl) in H.
  replace (q ++ [a] ++ c :: cs) with ((q ++ [a]) ++ c :: cs) in H by (rewrite <- app_assoc; reflexivity). rewrite (root_climb t (q ++ [a]) c) in H.
  - rewrite (parent_of_child t (is_kind PATH_EXPR) (q ++ [a]) c _ Ke eq_refl) in H. cbn [obind] in H. rewrite (parent_of_child t (is_kind STRUCT_LIT_FIELD) q a _ K eq_refl) in H. destruct (first_child t (is_kind NAME_REF) q) as [x|] eqn:FC; [|congruence].
    destruct (first_child_at _ _ _ _ FC) as (j & _ & k & ch & Ej & I). apply is_kind_spec in I. subst k. now destruct (NoN j ch).
  - unfold kind_is. now rewrite Ke.
  - intros u v ->. replace ((q ++ [a]) ++ c :: u) with (q ++ [a] ++ c :: u) by now rewrite <- app_assoc. apply (C (c :: u) v); [reflexivity|discriminate].
Qed.
Lemma lit_field_is_short t p : lit_field t p = Ok (Some LitShort) -> lit_short t p.
Proof.
  unfold lit_field. destruct (parent_of t (is_kind STRUCT_LIT_FIELD) p); [discriminate|]. destruct (parent_of t (is_kind PATH_SEGMENT) p) as [s|] eqn:P2; [|discriminate]. destruct (parent_of t (is_kind PATH) s) as [pa|] eqn:P3; [|discriminate].
  destruct (obind _ _) as [q|] eqn:OB; [|discriminate]. destruct (first_child t (is_kind NAME_REF) q) eqn:FC; [discriminate|]. intros _.
  apply parent_of_spec in P2 as (d & k2 & -> & K2 & I2). apply is_kind_spec in I2. subst k2. apply parent_of_spec in P3 as (b & k3 & -> & K3 & I3). apply is_kind_spec in I3. subst k3.
  destruct (parent_of t (is_kind PATH_EXPR) (root_of t (rev pa))) as [pe|] eqn:P4; [|discriminate]. cbn [obind] in OB. apply parent_of_spec in P4 as (c & k4 & E4 & K4 & I4). apply is_kind_spec in I4. subst k4. apply parent_of_spec in OB as (a & k5 & -> & K5 & I5). apply is_kind_spec in I5. subst k5.
  destruct (root_of_found t (rev pa)) as (r & x & s & [(E & R & C)|R]).
  - intros Z. rewrite Z in E4. cbn in E4. destruct (q ++ [a]); discriminate.
  - rewrite rev_involutive. exact K3.
  - rewrite rev_involutive in E. rewrite E4 in R. apply app_inj_tail in R as [<- <-]. subst pa. exists q, a, c, s, b, d. split; [rewrite <- !app_assoc; reflexivity|]. split; [exact K5|]. split. { intros i ch Ei. apply (no_child t (is_kind NAME_REF) (eq NAME_REF) q (is_kind_spec _) FC i _ _ Ei eq_refl). } split; [exact K4|]. split.
    + intros u v Eu Nu. destruct u as [|y u]; [congruence|]. cbn [app] in Eu. injection Eu as <- Es. rewrite <- (C u v Es). f_equal. rewrite <- app_assoc. reflexivity.
    + rewrite <- K2. f_equal. rewrite <- !app_assoc. reflexivity.
  - rewrite E4 in R. destruct (q ++ [a]); discriminate.
Qed.
Lemma ref_changes_spec t tg new p cs : name_leaf t -> fields_ok t -> name_node t p -> ref_changes t tg new p = Ok cs -> ref_edit t tg new p cs.
Proof.
  intros Lf (F1 & F2 & F3 & F4) (k & ch & E & K) H. unfold ref_changes in H. assert (Kp : kind_at t p = Some k) by (unfold kind_at; now rewrite E). rewrite Kp in H. destruct K as [->| ->].
  - destruct (from_name t new p) as [r|] eqn:FN; [|discriminate]. cbn [bind] in H. injection H as <-. unfold from_name in FN.
    destruct (parent_of t (is_kind IDENT_PAT) p) as [ip|] eqn:P1; cbn [obind] in FN.
    + apply parent_of_spec in P1 as (j & k1 & -> & K1 & I1). apply is_kind_spec in I1. subst k1. destruct (parent_of t (is_kind STRUCT_PAT_FIELD) ip) as [q|] eqn:P2.
      * apply parent_of_spec in P2 as (i & k2 & -> & K2 & I2). apply is_kind_spec in I2. subst k2. destruct (first_child t (is_kind IDENT_PAT) q) as [ip'|] eqn:FC; [|discriminate]. injection FN as <-.
        assert (Eip : exists c, element_at t (q ++ [i]) = Some (TNode IDENT_PAT c)). { rewrite element_at_app in E. unfold kind_at in K1. destruct (element_at t (q ++ [i])) as [[k' c|k' x]|]; [cbn in K1; injection K1 as ->; eauto|discriminate|discriminate]. }
        destruct Eip as (c & Eip). destruct (first_child_at _ _ _ _ FC) as (i' & -> & k' & c' & E' & I'). apply is_kind_spec in I'. subst k'. assert (i = i') by (eapply F3; eauto). subst i'.
        destruct (F4 _ _ Eip) as (c2 & ->). assert (j = 0). { rewrite element_at_app, Eip in E. destruct j as [|j]; [reflexivity|destruct j; discriminate]. } subst j.
        assert (St : offset_at t (q ++ [i]) = r_start (range_at t ((q ++ [i]) ++ [0]))). { unfold range_at. cbn [r_start]. rewrite (offset_at_app (q ++ [i]) [0] t _ Eip). cbn. lia. }
        rewrite St. apply edit_pat_field; [exact Kp|]. exists q, i, 0. rewrite <- app_assoc. auto.
      * injection FN as <-. apply edit_plain; try (intros; congruence). intros _ (q & i & j' & Ep & Ki & Kq). replace (q ++ [i; j']) with ((q ++ [i]) ++ [j']) in Ep by now rewrite <- app_assoc. apply app_inj_tail in Ep as [-> ->]. pose proof (parent_none _ _ _ q i _ P2 eq_refl Kq). discriminate.
    + injection FN as <-. apply edit_plain; try (intros; congruence). intros _ (q & i & j' & Ep & Ki & Kq). replace (q ++ [i; j']) with ((q ++ [i]) ++ [j']) in Ep by now rewrite <- app_assoc. pose proof (parent_none _ _ _ (q ++ [i]) j' _ P1 Ep Ki). discriminate.
  - destruct (from_name_ref t tg new p) as [r|] eqn:FN; [|discriminate]. cbn [bind] in H. injection H as <-. unfold from_name_ref in FN. destruct (lit_field t p) as [l|] eqn:LF; [|discriminate]. cbn [bind] in FN.
    assert (NP : kind_at t p = Some NAME -> ~ pat_short t p) by congruence.
    assert (Full : forall e, lit_full t p e -> exists e', l = Some (LitFull (Some e')) /\ e' = e).
    { intros e (q & i & j & Ep & Kq & Fn & ->). unfold lit_field in LF. rewrite Ep, (parent_of_child t (is_kind STRUCT_LIT_FIELD) q i _ Kq eq_refl) in LF. rewrite (first_child_spec t is_expr expr_kind q j is_expr_spec Fn) in LF. injection LF as <-. eauto. }
    assert (PatL : (exists q i, p = q ++ [i] /\ kind_at t q = Some STRUCT_LIT_FIELD) \/ forall q i, p = q ++ [i] -> kind_at t q <> Some STRUCT_LIT_FIELD).
    { destruct (parent_of t (is_kind STRUCT_LIT_FIELD) p) as [q|] eqn:P; [left; apply parent_of_spec in P as (i & k & Ep & Kq & I); apply is_kind_spec in I; subst k; eauto|]. right. intros q i Ep Kq. pose proof (parent_none _ _ _ q i _ P Ep Kq). discriminate. }
    assert (NoPat : forall q i, p = q ++ [i] -> kind_at t q = Some STRUCT_LIT_FIELD -> forall ip nm, ~ pat_full t p ip nm).
    { intros q i Ep Kq ip nm (q' & i' & j & m & Ep' & Kq' & _). rewrite Ep in Ep'. apply app_inj_tail in Ep' as [-> _]. congruence. }
    assert (NoShort : forall q i, p = q ++ [i] -> kind_at t q = Some STRUCT_LIT_FIELD -> ~ lit_short t p).
    { intros q i Ep Kq (q' & a & c & cs & b & d & Ep' & _ & _ & _ & _ & Ks). replace (q' ++ [a] ++ (c :: cs) ++ [b; d]) with ((q' ++ [a] ++ (c :: cs) ++ [b]) ++ [d]) in Ep' by (rewrite <- !app_assoc; reflexivity). rewrite Ep in Ep'. apply app_inj_tail in Ep' as [Ez _]. rewrite <- Ez in Ks. congruence. }
    destruct l as [[oe|]|].
    + (* full *) assert (IsF : exists q i, p = q ++ [i] /\ kind_at t q = Some STRUCT_LIT_FIELD). { destruct PatL as [Y|Nn]; [exact Y|]. exfalso. unfold lit_field in LF. destruct (parent_of t (is_kind STRUCT_LIT_FIELD) p) as [q|] eqn:P; [apply parent_of_spec in P as (i & k & Ep & Kq & I); apply is_kind_spec in I; subst k; exact (Nn q i Ep Kq)|].
        destruct (parent_of t (is_kind PATH_SEGMENT) p); [|discriminate]. destruct (parent_of t (is_kind PATH) p0); [|discriminate]. destruct (obind _ _); [|discriminate]. destruct (first_child _ _ _); discriminate. }
      destruct IsF as (q & i & Ep & Kq). destruct oe as [e|].
      * assert (Le : lit_full t p e). { unfold lit_field in LF. rewrite Ep, (parent_of_child t (is_kind STRUCT_LIT_FIELD) q i _ Kq eq_refl) in LF. injection LF as LF. destruct (first_child_at _ _ _ _ LF) as (j & -> & _). exists q, i, j. split; [exact Ep|]. split; [exact Kq|]. split; [|reflexivity]. apply (first_found t is_expr expr_kind q j is_expr_spec LF). }
        destruct (text_eqb (text_at t e) new) eqn:TE; injection FN as <-; unfold text_eqb in TE; destruct (list_eq_dec N.eq_dec (text_at t e) new) as [Te|Te]; try discriminate.
        -- exact (edit_lit_drop t tg new p e Kp Le Te).
        -- apply edit_plain; [|intros _ Sh; destruct (NoShort q i Ep Kq Sh)|intros ip nm _ Pf; destruct (NoPat q i Ep Kq ip nm Pf)|exact NP]. intros e' _ Le'. destruct (Full e' Le') as (e2 & E2 & <-). injection E2 as <-. exact Te.
      * injection FN as <-. apply edit_plain; [|intros _ Sh; destruct (NoShort q i Ep Kq Sh)|intros ip nm _ Pf; destruct (NoPat q i Ep Kq ip nm Pf)|exact NP]. intros e' _ Le'. destruct (Full e' Le') as (e2 & E2 & _). discriminate.
    + (* short *) pose proof (lit_field_is_short t p LF) as Sh. assert (Nn : forall q i, p = q ++ [i] -> kind_at t q <> Some STRUCT_LIT_FIELD) by (intros q i Ep Kq; exact (NoShort q i Ep Kq Sh)). destruct tg; injection FN as <-.
      * now apply edit_lit_field.
      * now apply edit_lit_binding.
      * apply edit_plain; [|auto| |exact NP].
        -- intros e _ Le. destruct (Full e Le) as (e2 & E2 & _). discriminate.
        -- intros ip nm _ (q & i & j & m & Ep & Kq & _). destruct Sh as (q' & a & c & cs & b & d & Ep' & _ & _ & _ & _ & Ks). replace (q' ++ [a] ++ (c :: cs) ++ [b; d]) with ((q' ++ [a] ++ (c :: cs) ++ [b]) ++ [d]) in Ep' by (rewrite <- !app_assoc; reflexivity). rewrite Ep in Ep'. apply app_inj_tail in Ep' as [Ez _]. rewrite <- Ez in Ks. congruence.
    + assert (NF : forall e, kind_at t p = Some NAME_REF -> lit_full t p e -> text_at t e <> new). { intros e _ Le. destruct (Full e Le) as (e2 & E2 & _). discriminate. }
      assert (NS : kind_at t p = Some NAME_REF -> lit_short t p -> tg = OtherItem). { intros _ Sh. exfalso. assert (Nn : forall q i, p = q ++ [i] -> kind_at t q <> Some STRUCT_LIT_FIELD) by (intros q i Ep Kq; exact (NoShort q i Ep Kq Sh)). discriminate (lit_field_short t p _ LF Sh Nn). }
      unfold from_pat_field in FN. assert (Pl : (forall ip nm, kind_at t p = Some NAME_REF -> pat_full t p ip nm -> text_at t nm <> new) -> ref_edit t tg new p [replace_change (range_at t p) new]) by (intros; now apply edit_plain).
      assert (PF : forall ip nm, pat_full t p ip nm -> exists q, parent_of t (is_kind STRUCT_PAT_FIELD) p = Some q /\ first_child t (is_kind NAME_REF) q = Some p /\ first_child t (is_kind IDENT_PAT) q = Some ip /\ first_child t (is_kind NAME) ip = Some nm).
      { intros ip nm (q & i & j & m & Ep & Kq & Fi & Fj & -> & Fm & ->). exists q. split; [rewrite Ep; apply (parent_of_child t _ q i _ Kq eq_refl)|]. split; [rewrite Ep; exact (first_child_spec t _ _ q i (is_kind_spec _) Fi)|]. split; [exact (first_child_spec t _ _ q j (is_kind_spec _) Fj)|exact (first_child_spec t _ _ _ m (is_kind_spec _) Fm)]. }
      destruct (parent_of t (is_kind STRUCT_PAT_FIELD) p) as [q|] eqn:P; [|injection FN as <-; apply Pl; intros ip nm _ Pf; destruct (PF _ _ Pf) as (q & Q & _); discriminate].
      destruct (first_child t (is_kind NAME_REF) q) as [f|] eqn:Ff; [|injection FN as <-; apply Pl; intros ip nm _ Pf; destruct (PF _ _ Pf) as (q' & Q & Q1 & _); injection Q as <-; congruence].
      destruct (first_child t (is_kind IDENT_PAT) q) as [ip|] eqn:Fi; [|injection FN as <-; apply Pl; intros ip nm _ Pf; destruct (PF _ _ Pf) as (q' & Q & _ & Q1 & _); injection Q as <-; congruence].
      destruct (list_eq_dec Nat.eq_dec f p) as [->|Nfp]; [|injection FN as <-; apply Pl; intros ip' nm _ Pf; destruct (PF _ _ Pf) as (q' & Q & Q1 & _); injection Q as <-; congruence].
      destruct (first_child t (is_kind NAME) ip) as [nm|] eqn:Fm; [|injection FN as <-; apply Pl; intros ip' nm _ Pf; destruct (PF _ _ Pf) as (q' & Q & _ & Q1 & Q2); injection Q as <-; congruence].
      destruct (first_child_at _ _ _ _ Fm) as (m & -> & k' & c' & Em & I'). apply is_kind_spec in I'. subst k'. destruct (Lf _ _ _ Em (or_introl eq_refl)) as (k3 & x & ->). unfold name_text in FN. assert (Cx : children_of t (ip ++ [m]) = [TTok k3 x]) by (unfold children_of; now rewrite Em). rewrite Cx in FN. cbn [bind] in FN.
      assert (Tx : text_at t (ip ++ [m]) = x) by (unfold text_at; rewrite Em; cbn; apply app_nil_r).
      destruct (text_eqb x new) eqn:TE; injection FN as <-; unfold text_eqb in TE; destruct (list_eq_dec N.eq_dec x new) as [Te|Te]; try discriminate.
      * apply (edit_pat_drop t tg new p ip (ip ++ [m]) Kp); [|congruence]. apply parent_of_spec in P as (i & kq & Ep & Kq & I). apply is_kind_spec in I. subst kq. destruct (first_child_at _ _ _ _ Fi) as (j & -> & _). exists q, i, j, m. split; [exact Ep|]. split; [exact Kq|]. rewrite Ep in Ff.
        split; [exact (first_found t (is_kind NAME_REF) _ q i (is_kind_spec _) Ff)|]. split; [exact (first_found t (is_kind IDENT_PAT) _ q j (is_kind_spec _) Fi)|]. split; [reflexivity|]. split; [exact (first_found t (is_kind NAME) _ _ m (is_kind_spec _) Fm)|reflexivity].
      * apply Pl. intros ip' nm' _ Pf. destruct (PF _ _ Pf) as (q' & Q & _ & Q1 & Q2). injection Q as <-. rewrite Fi in Q1. injection Q1 as <-. rewrite Fm in Q2. injection Q2 as <-. congruence.
Qed.

(** * All edits together *)
Lemma parts_disjoint t new p p' c c' : solid t -> name_leaf t -> fields_ok t -> name_node t p -> name_node t p' -> text_at t p <> new -> text_at t p' <> new -> p <> p' ->
  c_start c <= c_end c -> c_start c' <= c_end c' -> part t new p c -> part t new p' c' -> disjoint c c'.
Proof.
  intros So Lf F N N' T T' D W W' P P'. pose proof (name_len t p So Lf N) as L. pose proof (name_len t p' So Lf N') as L'. unfold disjoint.
  assert (Nm : forall q j m, name_node t (q ++ [j; m]) -> text_at t (q ++ [j; m]) = new -> q ++ [j; m] <> p /\ q ++ [j; m] <> p') by (intros q j m _ X; split; congruence).
  destruct P as [A B|q i j -> Bt X A B|q i j m -> Fn Nn Tn R]; destruct P' as [A' B'|q' i' j' -> Bt' X' A' B'|q' i' j' m' -> Fn' Nn' Tn' R'].
  - destruct (names_disjoint t p p' Lf N N' D); lia.
  - destruct (gap_disjoint t q' i' j' p Lf Bt' N' X' N D); lia.
  - destruct (names_disjoint t p (q' ++ [j'; m']) Lf N Nn') as [Z|Z]; [congruence| |]; unfold c_start, c_end in *; rewrite R' in *; lia.
  - destruct (gap_disjoint t q i j p' Lf Bt N X N' (not_eq_sym D)); lia.
  - destruct (gap_disjoint t q i j _ Lf Bt N X N' (not_eq_sym D)); [|lia]. destruct (gap_disjoint t q' i' j' _ Lf Bt' N' X' N D); lia.
  - destruct (gap_disjoint t q i j (q' ++ [j'; m']) Lf Bt N X Nn') as [Z|Z]; [congruence| |]; unfold c_start, c_end in *; rewrite R' in *; lia.
  - destruct (names_disjoint t p' (q ++ [j; m]) Lf N' Nn) as [Z|Z]; [congruence| |]; unfold c_start, c_end in *; rewrite R in *; lia.
  - destruct (gap_disjoint t q' i' j' (q ++ [j; m]) Lf Bt' N' X' Nn) as [Z|Z]; [congruence| |]; unfold c_start, c_end in *; rewrite R in *; lia.
  - destruct (list_eq_dec Nat.eq_dec (q ++ [j; m]) (q' ++ [j'; m'])) as [Eq|Ne].
    + exfalso. apply D. replace (q ++ [j; m]) with ((q ++ [j]) ++ [m]) in Eq by now rewrite <- app_assoc. replace (q' ++ [j'; m']) with ((q' ++ [j']) ++ [m']) in Eq by now rewrite <- app_assoc. apply app_inj_tail in Eq as [Eq _]. apply app_inj_tail in Eq as [<- _]. now rewrite (first_unique t _ q i i' Fn Fn').
    + destruct (names_disjoint t _ _ Lf Nn Nn' Ne) as [Z|Z]; unfold c_start, c_end in *; rewrite R, R' in *; lia.
Qed.
Lemma disjoint_sym a b : disjoint a b -> disjoint b a. Proof. unfold disjoint. tauto. Qed.
Lemma pairwise_app a b : pairwise_disjoint a -> pairwise_disjoint b -> (forall x y, In x a -> In y b -> disjoint x y) -> pairwise_disjoint (a ++ b).
Proof.
  intros A B C. induction A as [|x a X A IH]; [exact B|]. cbn. constructor; [apply Forall_app; split; [exact X|apply Forall_forall; intros y Y; apply C; [now left|exact Y]]|]. apply IH. intros; apply C; [now right|assumption].
Qed.
Lemma refs_sound t tg new refs : solid t -> utf8_tokens t -> name_leaf t -> segments_in_paths t -> fields_ok t -> starts_at_char new -> Forall (fun p => name_node t p /\ text_at t p <> new) refs -> NoDup refs ->
  exists css, refs_changes t tg new refs = Ok (concat css) /\ Forall2 (ref_edit t tg new) refs css /\ Forall wf_change (concat css) /\ Forall (fits (elem_text t)) (concat css) /\ pairwise_disjoint (concat css) /\
    forall c, In c (concat css) -> exists p, In p refs /\ part t new p c.
Proof.
  intros So U Lf Sg F S Ns ND. induction refs as [|p refs IH]; [exists []; cbn; refine (conj eq_refl (conj _ (conj _ (conj _ (conj _ _))))); try constructor; intros c []|].
  inversion Ns as [|? ? [Np Tp] Nr]; subst. inversion ND as [|? ? Ni Nd]; subst. destruct (IH Nr Nd) as (css & R & F2 & W & Ft & P & In1). destruct (ref_sound t tg new p So U Lf Sg F S Np) as (cs & E & (Pt & Wc & Fc & Pc)).
  exists (cs :: css). cbn [refs_changes concat]. rewrite E, R. cbn [bind]. split; [reflexivity|]. split; [constructor; [now apply ref_changes_spec|exact F2]|]. split; [apply Forall_app; auto|]. split; [apply Forall_app; auto|]. split.
  - apply pairwise_app; [exact Pc|exact P|]. intros x y X Y. destruct (In1 y Y) as (p' & I' & Py). rewrite Forall_forall in Nr, Pt, Wc, W. destruct (Nr p' I') as [Np' Tp']. apply (parts_disjoint t new p p'); auto; [intros ->; contradiction|apply (Wc x X)|apply (W y Y)].
  - intros c Ic. apply in_app_or in Ic as [Ic|Ic]; [exists p; split; [now left|rewrite Forall_forall in Pt; now apply Pt]|]. destruct (In1 c Ic) as (p' & I' & Py). exists p'. split; [now right|exact Py].
Qed.
(** The edits of all references and of the definition do not overlap; applied together they replace the name of the
    definition and do at every reference what [ref_edit] says. *)
Theorem rename_applies : forall t tg new refs def, solid t -> utf8_tokens t -> name_leaf t -> segments_in_paths t -> fields_ok t -> starts_at_char new ->
  NoDup (def :: refs) -> Forall (fun p => name_node t p /\ text_at t p <> new) (def :: refs) ->
  exists e css s out, rename_edit t tg new refs def = Ok (e, true) /\ Forall2 (ref_edit t tg new) refs css /\
    document_order (concat css ++ [mkChange (range_at t def) new]) s /\ edited 0 (elem_text t) s out /\ edit_apply e (elem_text t) = Ok out.
Proof.
  intros t tg new refs def So U Lf Sg F S ND Ns. inversion ND as [|? ? Ni Nd]; subst. inversion Ns as [|? ? [Np Tp] Nr]; subst. destruct (refs_sound t tg new refs So U Lf Sg F S Nr Nd) as (css & R & F2 & W & Ft & P & In1).
  pose proof (name_exists _ _ Np) as Xd. destruct (edges t def U Xd) as (B1 & B2 & B3). pose proof (name_len t def So Lf Np) as Ld. set (d := mkChange (range_at t def) new).
  assert (Wd : wf_change d) by (split; [apply range_order|exact S]). assert (Fd : fits (elem_text t) d) by (split; [exact B3|split; assumption]).
  assert (Dd : Forall (fun c => disjoint c d) (concat css)). { apply Forall_forall. intros c Ic. destruct (In1 c Ic) as (p & Ip & Pc). rewrite Forall_forall in Nr, W. destruct (Nr p Ip) as [N T]. apply (parts_disjoint t new p def); auto; [intros ->; contradiction|apply (W c Ic)|apply range_order|apply part_in; apply le_n]. }
  assert (Bd : build_edit [d] = Ok [d]) by reflexivity.
  destruct (add_one (concat css) d (elem_text t)) as (e & r & s & out & Be & Un & Do & Ed & Ap); auto; try (apply Forall_app; auto).
  unfold rename_edit. rewrite R. cbn [bind]. rewrite Be. cbn [bind]. unfold def_change, replace_change. fold d. rewrite Bd. cbn [bind]. destruct refs as [|p refs].
  - inversion F2; subst css. cbn in Be. injection Be as <-. cbn in Un. injection Un as <-. exists [d], [], s, out. auto.
  - rewrite Un. exists r, css, s, out. auto.
Qed.

(** * What a field of a struct literal or pattern means *)
(** blanks and comments around one colon *)
Definition trivial (k : kind) : Prop := k = WHITESPACE \/ k = COMMENT.
Definition colon_gap (l : list tree) : Prop :=
  exists a b, l = a ++ TTok COLON (str ":") :: b /\ Forall (fun e => exists k x, e = TTok k x /\ trivial k) (a ++ b).
(** the text [x] gives the field [f] the value [v] (or binds it to [v]): `f: v`, or `f` for `f: f` *)
Definition reads (x f v : text) : Prop := (exists g, colon_gap g /\ x = f ++ flat_map elem_text g ++ v) \/ (x = f /\ v = f).
Lemma space_gap : colon_gap [TTok COLON (str ":"); TTok WHITESPACE (str " ")].
Proof. exists [], [TTok WHITESPACE (str " ")]. split; [reflexivity|]. constructor; [|constructor]. exists WHITESPACE, (str " "). split; [reflexivity|now left]. Qed.
Lemma reads_inserted f v : reads (f ++ str ": " ++ v) f v.
Proof. left. exists [TTok COLON (str ":"); TTok WHITESPACE (str " ")]. split; [exact space_gap|reflexivity]. Qed.
Lemma gap_tokens g m e : colon_gap g -> nth_error g m = Some e -> exists k x, e = TTok k x.
Proof.
  intros (a & b & -> & H) E. apply nth_error_In in E. apply in_app_or in E. rewrite Forall_forall in H. destruct E as [I|[<-|I]]; [|eauto|]; destruct (H e) as (k & x & -> & _); eauto; apply in_or_app; auto.
Qed.
Lemma child_start t q k l c r : element_at t q = Some (TNode k (l ++ c :: r)) -> r_start (range_at t (q ++ [length l])) = r_start (range_at t q) + length (flat_map elem_text l) /\ text_at t (q ++ [length l]) = elem_text c.
Proof.
  intros E. unfold range_at, text_at. cbn [r_start]. rewrite (offset_at_app q [length l] t _ E), element_at_app, E. cbn. rewrite nth_error_app2, Nat.sub_diag by lia. cbn. rewrite firstn_app, Nat.sub_diag, firstn_all. cbn. rewrite app_nil_r, Nat.add_0_r. auto.
Qed.
(** the field `f: e` of a struct literal is renamed: it becomes `new: e`, or `e` if e is `new` *)
Theorem literal_field_renamed : forall t tg new q k f g ke ce cs, element_at t q = Some (TNode STRUCT_LIT_FIELD (TNode NAME_REF [TTok k f] :: g ++ [TNode ke ce])) -> colon_gap g -> expr_kind ke ->
  ref_edit t tg new (q ++ [0]) cs -> reads (text_at t q) f (elem_text (TNode ke ce)) /\ exists y, edited (r_start (range_at t q)) (text_at t q) cs y /\ reads y new (elem_text (TNode ke ce)).
Proof.
  intros t tg new q k f g ke ce cs E G X R. set (ex := TNode ke ce) in *. assert (Tq : text_at t q = f ++ flat_map elem_text g ++ elem_text ex). { unfold text_at. rewrite E. cbn. rewrite app_nil_r, flat_map_app. f_equal. f_equal. cbn. now rewrite app_nil_r. }
  split; [rewrite Tq; left; exists g; auto|]. assert (Kq : kind_at t q = Some STRUCT_LIT_FIELD) by (unfold kind_at; now rewrite E).
  destruct (child_start t q STRUCT_LIT_FIELD [] (TNode NAME_REF [TTok k f]) (g ++ [ex]) E) as [S0 T0]. cbn [length flat_map] in S0, T0. rewrite Nat.add_0_r in S0. cbn in T0. rewrite app_nil_r in T0.
  assert (R0 : r_end (range_at t (q ++ [0])) = r_start (range_at t (q ++ [0])) + length f) by (unfold range_at at 1; cbn [r_end r_start]; rewrite T0; reflexivity).
  destruct (child_start t q STRUCT_LIT_FIELD (TNode NAME_REF [TTok k f] :: g) ex [] E) as [S1 T1]. cbn [length] in S1, T1. cbn [flat_map] in S1. cbn [elem_text flat_map] in S1. rewrite app_nil_r, app_length in S1.
  assert (Fe : first_node t expr_kind q (S (length g))).
  { split; [exists ke, ce; split; [rewrite element_at_app, E; cbn; rewrite nth_error_app2, Nat.sub_diag by lia; reflexivity|exact X]|]. intros i k' c' L Ei Xi. rewrite element_at_app, E in Ei. destruct i as [|i]; cbn in Ei.
    - injection Ei as <- <-. unfold expr_kind in Xi. cbn [In] in Xi. repeat (destruct Xi as [Xi|Xi]; [discriminate Xi|]). destruct Xi.
    - rewrite nth_error_app1 in Ei by lia. destruct (nth_error g i) as [z|] eqn:Z; [|discriminate]. injection Ei as ->. destruct (gap_tokens g i _ G Z) as (kk & xx & H). discriminate. }
  assert (Lf : lit_full t (q ++ [0]) (q ++ [S (length g)])) by (exists q, 0, (S (length g)); auto). assert (Kp : kind_at t (q ++ [0]) = Some NAME_REF) by (unfold kind_at; rewrite element_at_app, E; reflexivity).
  assert (NoS : ~ lit_short t (q ++ [0])). { intros (q' & a & c & cs' & b & d & Ep & _ & _ & _ & _ & Ks). replace (q' ++ [a] ++ (c :: cs') ++ [b; d]) with ((q' ++ [a] ++ (c :: cs') ++ [b]) ++ [d]) in Ep by (rewrite <- !app_assoc; reflexivity). apply app_inj_tail in Ep as [Ep _]. rewrite <- Ep in Ks. congruence. }
  destruct R as [e _ (q' & i & j & Ep & _ & Fe' & ->) Te| _ Sh _| _ Sh _|ip nm _ (q' & i & j & m & Ep & Kq' & _) _|Kn _|Pl _ _ _].
  - apply app_inj_tail in Ep as [<- _]. rewrite (first_unique t _ q _ _ Fe' Fe) in *. exists (elem_text ex). rewrite T1 in Te. split; [|right; split; [exact Te|exact Te]]. rewrite Tq, S0, S1.
    replace (elem_text ex) with ([] ++ [] ++ elem_text ex) at 2 by reflexivity. replace (f ++ flat_map elem_text g ++ elem_text ex) with ([] ++ (f ++ flat_map elem_text g) ++ elem_text ex) by (cbn; now rewrite <- app_assoc). econstructor; [cbn; lia|cbn; rewrite app_length; lia|constructor].
  - contradiction.
  - contradiction.
  - apply app_inj_tail in Ep as [<- _]. congruence.
  - congruence.
  - exists (new ++ flat_map elem_text g ++ elem_text ex). split; [|left; exists g; auto]. rewrite Tq. change (new ++ flat_map elem_text g ++ elem_text ex) with ([] ++ new ++ flat_map elem_text g ++ elem_text ex). change (f ++ flat_map elem_text g ++ elem_text ex) with ([] ++ f ++ flat_map elem_text g ++ elem_text ex).
    replace (range_at t (q ++ [0])) with (mkRange (r_start (range_at t q)) (r_start (range_at t q) + length f)); [econstructor; [cbn; lia|cbn; lia|constructor]|]. rewrite <- S0, <- R0. reflexivity.
Qed.
(** the field `f` of a struct literal: renaming the field gives `new: f`, renaming the variable `f: new` *)
Theorem literal_shorthand_renamed : forall t new q p f cs tg, lit_short t p -> kind_at t p = Some NAME_REF -> text_at t q = f -> range_at t p = range_at t q -> text_at t p = f -> tg <> OtherItem ->
  ref_edit t tg new p cs -> reads (text_at t q) f f /\ exists y, edited (r_start (range_at t q)) (text_at t q) cs y /\ match tg with Field => reads y new f | _ => reads y f new end.
Proof.
  intros t new q p f cs tg Sh Kp Tq Rq Tp Nt R. split; [right; auto|].
  assert (NoF : forall q' i, p = q' ++ [i] -> kind_at t q' <> Some STRUCT_LIT_FIELD /\ kind_at t q' <> Some STRUCT_PAT_FIELD). { intros q' i Ep. destruct Sh as (z & a & c & cs' & b & d & Ep' & _ & _ & _ & _ & Ks). replace (z ++ [a] ++ (c :: cs') ++ [b; d]) with ((z ++ [a] ++ (c :: cs') ++ [b]) ++ [d]) in Ep' by (rewrite <- !app_assoc; reflexivity). rewrite Ep in Ep'. apply app_inj_tail in Ep' as [-> _]. rewrite Ks. split; discriminate. }
  assert (Le : r_end (range_at t q) = r_start (range_at t q) + length f) by (unfold range_at; cbn; now rewrite Tq).
  destruct R as [e _ (q' & i & j & Ep & K & _) _|_ _ ->|_ _ ->|ip nm _ (q' & i & j & m & Ep & K & _) _|Kn _|_ Ot _ _].
  - destruct (NoF q' i Ep) as [H _]. contradiction.
  - exists (new ++ str ": " ++ f). rewrite Tq, Rq. split; [|apply reads_inserted]. change f with ([] ++ [] ++ f) at 1. replace (new ++ str ": " ++ f) with ([] ++ (new ++ str ": ") ++ f) by (cbn; now rewrite <- app_assoc). econstructor; [cbn; lia|cbn; lia|constructor].
  - exists (f ++ str ": " ++ new). rewrite Tq, Rq. split; [|apply reads_inserted]. replace f with (f ++ [] ++ []) at 1 by now rewrite !app_nil_r. replace (f ++ str ": " ++ new) with (f ++ (str ": " ++ new) ++ []) by now rewrite app_nil_r. econstructor; [exact Le|cbn; lia|constructor].
  - destruct (NoF q' i Ep) as [_ H]. contradiction.
  - congruence.
  - destruct (Nt (Ot Kp Sh)).
Qed.
(** the field of a struct pattern is renamed: `f: x` becomes `new: x`, or `x` if x is `new`; `f` becomes `new: f` *)
Theorem pattern_field_renamed : forall t tg new q k f g kx x cs, element_at t q = Some (TNode STRUCT_PAT_FIELD (TNode NAME_REF [TTok k f] :: g ++ [TNode IDENT_PAT [TNode NAME [TTok kx x]]])) -> colon_gap g ->
  ref_edit t tg new (q ++ [0]) cs -> reads (text_at t q) f x /\ exists y, edited (r_start (range_at t q)) (text_at t q) cs y /\ reads y new x.
Proof.
  intros t tg new q k f g kx x cs E G R. set (ip := TNode IDENT_PAT [TNode NAME [TTok kx x]]) in *. assert (Ti : elem_text ip = x) by (cbn; now rewrite !app_nil_r). assert (Tq : text_at t q = f ++ flat_map elem_text g ++ x). { unfold text_at. rewrite E. cbn. rewrite app_nil_r, flat_map_app. f_equal. f_equal. cbn. now rewrite !app_nil_r. }
  split; [rewrite Tq; left; exists g; auto|]. assert (Kq : kind_at t q = Some STRUCT_PAT_FIELD) by (unfold kind_at; now rewrite E).
  destruct (child_start t q STRUCT_PAT_FIELD [] (TNode NAME_REF [TTok k f]) (g ++ [ip]) E) as [S0 T0]. cbn [length flat_map] in S0, T0. rewrite Nat.add_0_r in S0. cbn in T0. rewrite app_nil_r in T0.
  assert (R0 : r_end (range_at t (q ++ [0])) = r_start (range_at t (q ++ [0])) + length f) by (unfold range_at at 1; cbn [r_end r_start]; rewrite T0; reflexivity).
  destruct (child_start t q STRUCT_PAT_FIELD (TNode NAME_REF [TTok k f] :: g) ip [] E) as [S1 T1]. cbn [length] in S1, T1. cbn [flat_map] in S1. cbn [elem_text flat_map] in S1. rewrite app_nil_r, app_length in S1. rewrite Ti in T1.
  assert (Ei : element_at t (q ++ [S (length g)]) = Some ip) by (rewrite element_at_app, E; cbn; rewrite nth_error_app2, Nat.sub_diag by lia; reflexivity).
  assert (Fn : first_node t (eq NAME_REF) q 0). { split; [exists NAME_REF, [TTok k f]; split; [rewrite element_at_app, E; reflexivity|reflexivity]|]. intros i k' c' L. lia. }
  assert (Fi : first_node t (eq IDENT_PAT) q (S (length g))).
  { split; [eexists _, _; split; [exact Ei|reflexivity]|]. intros i k' c' L Ei' <-. rewrite element_at_app, E in Ei'. destruct i as [|i]; cbn in Ei'; [discriminate|]. rewrite nth_error_app1 in Ei' by lia. destruct (nth_error g i) as [z|] eqn:Z; [|discriminate]. injection Ei' as ->. destruct (gap_tokens g i _ G Z) as (kk & xx & H). discriminate. }
  assert (En : element_at t ((q ++ [S (length g)]) ++ [0]) = Some (TNode NAME [TTok kx x])) by (rewrite element_at_app, Ei; reflexivity).
  assert (Fm : first_node t (eq NAME) (q ++ [S (length g)]) 0). { split; [eexists _, _; split; [exact En|reflexivity]|]. intros i k' c' L. lia. }
  assert (Pf : pat_full t (q ++ [0]) (q ++ [S (length g)]) ((q ++ [S (length g)]) ++ [0])) by (exists q, 0, (S (length g)), 0; auto 10). assert (Kp : kind_at t (q ++ [0]) = Some NAME_REF) by (unfold kind_at; rewrite element_at_app, E; reflexivity).
  assert (NoS : ~ lit_short t (q ++ [0])). { intros (q' & a & c & cs' & b & d & Ep & _ & _ & _ & _ & Ks). replace (q' ++ [a] ++ (c :: cs') ++ [b; d]) with ((q' ++ [a] ++ (c :: cs') ++ [b]) ++ [d]) in Ep by (rewrite <- !app_assoc; reflexivity). apply app_inj_tail in Ep as [Ep _]. rewrite <- Ep in Ks. congruence. }
  assert (Sm : r_start (range_at t ((q ++ [S (length g)]) ++ [0])) = r_start (range_at t (q ++ [S (length g)]))). { unfold range_at. cbn [r_start]. rewrite (offset_at_app (q ++ [S (length g)]) [0] t _ Ei). cbn. lia. }
  assert (Tm : text_at t ((q ++ [S (length g)]) ++ [0]) = x) by (unfold text_at; rewrite En; cbn; apply app_nil_r).
  destruct R as [e _ (q' & i & j & Ep & Kq' & _) _| _ Sh _| _ Sh _|ip' nm _ (q' & i & j & m & Ep & _ & _ & Fj & -> & Fm' & ->) Te|Kn _|_ _ Pl _].
  - apply app_inj_tail in Ep as [<- _]. congruence.
  - contradiction.
  - contradiction.
  - apply app_inj_tail in Ep as [<- _]. rewrite (first_unique t _ q _ _ Fj Fi) in *. rewrite (first_unique t _ _ _ _ Fm' Fm) in *. rewrite Tm in Te. subst new. exists x. split; [|right; auto]. rewrite Tq, S0, S1.
    replace x with ([] ++ [] ++ [] ++ x ++ []) at 3 by (cbn; apply app_nil_r). replace (f ++ flat_map elem_text g ++ x) with ([] ++ (f ++ flat_map elem_text g) ++ [] ++ x ++ []) by (cbn; now rewrite app_nil_r, <- app_assoc). econstructor; [cbn; lia|rewrite app_length; lia|].
    replace (range_at t ((q ++ [S (length g)]) ++ [0])) with (mkRange (r_start (range_at t q) + (length f + length (flat_map elem_text g))) (r_start (range_at t q) + (length f + length (flat_map elem_text g)) + length x)); [econstructor; [cbn; lia|lia|constructor]|].
    rewrite <- S1, <- Sm. unfold range_at at 3. rewrite Tm. reflexivity.
  - congruence.
  - exists (new ++ flat_map elem_text g ++ x). split; [|left; exists g; auto]. rewrite Tq. change (new ++ flat_map elem_text g ++ x) with ([] ++ new ++ flat_map elem_text g ++ x). change (f ++ flat_map elem_text g ++ x) with ([] ++ f ++ flat_map elem_text g ++ x).
    replace (range_at t (q ++ [0])) with (mkRange (r_start (range_at t q)) (r_start (range_at t q) + length f)); [econstructor; [cbn; lia|cbn; lia|constructor]|]. rewrite <- S0, <- R0. reflexivity.
Qed.
Theorem pattern_shorthand_renamed : forall t tg new q i j f cs, kind_at t q = Some STRUCT_PAT_FIELD -> kind_at t (q ++ [i]) = Some IDENT_PAT -> kind_at t (q ++ [i; j]) = Some NAME -> text_at t q = f -> range_at t (q ++ [i; j]) = range_at t q ->
  ref_edit t tg new (q ++ [i; j]) cs -> reads (text_at t q) f f /\ exists y, edited (r_start (range_at t q)) (text_at t q) cs y /\ reads y new f.
Proof.
  intros t tg new q i j f cs Kq Ki Kp Tq Rq R. split; [right; auto|]. destruct R as [e Kn _ _|Kn _ _|Kn _ _|ip nm Kn _ _|_ _|_ _ _ Np]; try congruence.
  - exists (new ++ str ": " ++ f). rewrite Tq, Rq. split; [|apply reads_inserted]. change f with ([] ++ [] ++ f) at 1. replace (new ++ str ": " ++ f) with ([] ++ (new ++ str ": ") ++ f) by (cbn; now rewrite <- app_assoc). econstructor; [cbn; lia|cbn; lia|constructor].
  - destruct (Np Kp). exists q, i, j. auto.
Qed.

(** * Checking the hypotheses on an example *)
Fixpoint every (ok : kind -> list tree -> bool) (t : tree) : bool := match t with TTok _ _ => true | TNode k ch => ok k ch && forallb (every ok) ch end.
Lemma every_sound ok t p k ch : every ok t = true -> element_at t p = Some (TNode k ch) -> ok k ch = true.
Proof.
  revert t. induction p as [|i p IH]; intros t H E; cbn in E.
  - injection E as ->. cbn in H. now apply andb_true_iff in H as [H _].
  - destruct t as [k' c|]; [|discriminate]. destruct (nth_error c i) as [d|] eqn:D; [|discriminate]. cbn in H. apply andb_true_iff in H as [_ H]. rewrite forallb_forall in H. apply (IH d (H d (nth_error_In _ _ D)) E).
Qed.
Definition is_node (k : kind) (e : option tree) : bool := match e with Some (TNode k' _) => kind_eqb k k' | _ => false end.
Definition is_leaf (e : option tree) : bool := match e with Some (TTok _ _) => true | _ => false end.
Definition between_b (ch : list tree) (i j : nat) : bool := (i <? j) && forallb (fun m => is_leaf (nth_error ch m)) (seq (S i) (j - S i)).
Definition expr_b (e : tree) : bool := match e with TNode k _ => is_expr k | _ => false end.
Definition idx (ch : list tree) : list nat := seq 0 (length ch).
Definition names_ok (k : kind) (ch : list tree) : bool :=
  match k with
  | NAME | NAME_REF => match ch with [TTok _ _] => true | _ => false end
  | PATH => true
  | IDENT_PAT => match ch with [TNode NAME _] => true | _ => false end
  | STRUCT_LIT_FIELD => forallb (fun i => negb (is_node NAME_REF (nth_error ch i)) || match find_index expr_b 0 ch with Some j => between_b ch i j | None => true end) (idx ch)
  | STRUCT_PAT_FIELD => forallb (fun j => negb (is_node IDENT_PAT (nth_error ch j)) || forallb (fun i => (negb (is_node NAME_REF (nth_error ch i)) || between_b ch i j) && (negb (is_node IDENT_PAT (nth_error ch i)) || (i =? j))) (idx ch)) (idx ch)
  | _ => true
  end && (kind_eqb PATH k || forallb (fun e => negb (is_node PATH_SEGMENT (Some e))) ch).
Lemma between_sound t q k ch i j : element_at t q = Some (TNode k ch) -> between_b ch i j = true -> between t q i j.
Proof.
  intros E B. apply andb_true_iff in B as [L B]. apply Nat.ltb_lt in L. split; [exact L|]. intros m M. rewrite forallb_forall in B. specialize (B m ltac:(apply in_seq; lia)). rewrite element_at_app, E. cbn. destruct (nth_error ch m) as [[|k' x]|]; try discriminate. eauto.
Qed.
Lemma child_nth t q i k ch e : element_at t q = Some (TNode k ch) -> element_at t (q ++ [i]) = Some e -> nth_error ch i = Some e.
Proof. intros E H. rewrite element_at_app, E in H. cbn in H. destruct (nth_error ch i); [exact H|discriminate]. Qed.
Lemma idx_in (ch : list tree) i e : nth_error ch i = Some e -> In i (idx ch).
Proof. intros H. apply in_seq. pose proof (proj1 (nth_error_Some ch i) ltac:(congruence)). lia. Qed.
Lemma kind_under t q i k : kind_at t q = Some k -> exists_at t (q ++ [i]) -> exists ch, element_at t q = Some (TNode k ch).
Proof.
  intros K X. unfold kind_at in K. destruct (element_at t q) as [[k' c|k' x]|] eqn:E; cbn in K; [injection K as ->; eauto| |discriminate]. discriminate (under_token _ _ _ _ _ E X).
Qed.
Lemma names_ok_sound t : every names_ok t = true -> is_node PATH_SEGMENT (Some t) = false -> name_leaf t /\ segments_in_paths t /\ fields_ok t.
Proof.
  intros H Rt. assert (L : forall p k ch, element_at t p = Some (TNode k ch) -> names_ok k ch = true) by (intros p k ch; apply every_sound; exact H).
  assert (Nd : forall q i e, element_at t (q ++ [i]) = Some e -> exists_at t (q ++ [i])) by (intros q i e E; unfold exists_at; congruence).
  split; [|split; [|split; [|split; [|split]]]].
  - intros p k ch E K. specialize (L p k ch E). apply andb_true_iff in L as [L _]. destruct K as [-> | ->]; destruct ch as [|[|k' x] [|? ?]]; try discriminate; eauto.
  - intros p ch E. destruct (rev p) as [|i r] eqn:Rp. { assert (p = []) by (rewrite <- (rev_involutive p), Rp; reflexivity). subst p. cbn in E. injection E as ->. cbn in Rt. discriminate. }
    assert (Ep : p = rev r ++ [i]) by (rewrite <- (rev_involutive p), Rp; reflexivity). exists (rev r), i. split; [exact Ep|]. rewrite Ep in E. assert (X := prefix_exists t _ _ (Nd _ _ _ E)). unfold exists_at in X. destruct (element_at t (rev r)) as [[k c|k x]|] eqn:Q; [| |congruence].
    + pose proof (L _ _ _ Q) as B. apply andb_true_iff in B as [_ B]. unfold kind_at. rewrite Q. cbn. destruct (kind_eqb PATH k) eqn:K; [apply kind_eqb_spec in K; now subst k|]. cbn [orb] in B. rewrite forallb_forall in B. specialize (B _ (nth_error_In _ _ (child_nth _ _ _ _ _ _ Q E))). discriminate.
    + discriminate (under_token _ _ _ _ _ Q (Nd _ _ _ E)).
  - intros q i j ch K E F. destruct (kind_under t q i _ K (Nd _ _ _ E)) as (c & Q). pose proof (L _ _ _ Q) as B. apply andb_true_iff in B as [B _]. rewrite forallb_forall in B. pose proof (child_nth _ _ _ _ _ _ Q E) as Z. specialize (B i (idx_in _ _ _ Z)). rewrite Z in B. cbn in B.
    assert (Fc : first_child t is_expr q = Some (q ++ [j])) by (apply (first_child_spec t is_expr expr_kind q j is_expr_spec); exact F). unfold first_child in Fc. unfold children_of in Fc. rewrite Q in Fc.
    change (option_map (fun i => q ++ [i]) (find_index expr_b 0 c) = Some (q ++ [j])) in Fc. destruct (find_index expr_b 0 c) as [j'|]; [|discriminate]. cbn in Fc. injection Fc as Fc. apply app_inv_head in Fc. injection Fc as ->. exact (between_sound t q _ c i j Q B).
  - intros q i j ch ch' K E F. destruct (kind_under t q i _ K (Nd _ _ _ E)) as (c & Q). pose proof (L _ _ _ Q) as B. apply andb_true_iff in B as [B _]. rewrite forallb_forall in B. pose proof (child_nth _ _ _ _ _ _ Q E) as Z. pose proof (child_nth _ _ _ _ _ _ Q F) as Y.
    specialize (B j (idx_in _ _ _ Y)). rewrite Y in B. cbn [is_node] in B. rewrite (proj2 (kind_eqb_spec IDENT_PAT IDENT_PAT) eq_refl) in B. cbn [negb orb] in B. rewrite forallb_forall in B. specialize (B i (idx_in _ _ _ Z)). rewrite Z in B. apply andb_true_iff in B as [B _]. cbn in B. exact (between_sound t q _ c i j Q B).
  - intros q i j ch ch' K E F. destruct (kind_under t q i _ K (Nd _ _ _ E)) as (c & Q). pose proof (L _ _ _ Q) as B. apply andb_true_iff in B as [B _]. rewrite forallb_forall in B. pose proof (child_nth _ _ _ _ _ _ Q E) as Z. pose proof (child_nth _ _ _ _ _ _ Q F) as Y.
    specialize (B j (idx_in _ _ _ Y)). rewrite Y in B. cbn [is_node] in B. rewrite (proj2 (kind_eqb_spec IDENT_PAT IDENT_PAT) eq_refl) in B. cbn [negb orb] in B. rewrite forallb_forall in B. specialize (B i (idx_in _ _ _ Z)). rewrite Z in B. apply andb_true_iff in B as [_ B]. cbn in B. now apply Nat.eqb_eq.
  - intros p ch E. specialize (L p _ ch E). apply andb_true_iff in L as [L _]. destruct ch as [|[[] c|] [|? ?]]; try discriminate. eauto.
Qed.
Definition starts_b (x : text) : bool := match x with [] => true | b :: _ => negb (is_cont b) end.
Lemma starts_b_sound x : starts_b x = true -> starts_at_char x.
Proof. destruct x; cbn; [auto|]. destruct (is_cont _); [discriminate|auto]. Qed.
Lemma utf8_sound t : forallb (fun l => starts_b (snd l)) (leaves t) = true -> utf8_tokens t.
Proof. rewrite forallb_forall. intros H. apply Forall_forall. intros l I. apply starts_b_sound. auto. Qed.

(** the new name is one token, and the token is an identifier, a label or `_` *)
Theorem new_name_one_token : forall cl new k, sensible cl -> classify cl new = Some (Ok (Some k)) ->
  exists r, tokenize cl new = Some (Ok [(r, new)]) /\ rt_kind r = match k with IkIdent => IDENT | IkLabel => QUOTE_IDENT | IkUnderscore => UNDERSCORE end.
Proof.
  intros cl new k Se H. unfold classify in H. destruct (parse_single_token cl new) as [[o|]|] eqn:P; cbn in H; try discriminate. destruct o as [r|]; [|discriminate]. destruct (single_token_exact cl new r Se P) as (_ & _ & T). exists r. split; [exact T|]. destruct (rt_kind r); try discriminate; injection H as <-; reflexivity.
Qed.
(** and every identifier is accepted *)
Theorem identifier_accepted : forall cl new r, tokenize cl new = Some (Ok [(r, new)]) -> rt_kind r = IDENT -> classify cl new = Some (Ok (Some IkIdent)).
Proof. intros cl new r T K. unfold classify. rewrite (single_token_found cl new r new T). cbn. now rewrite K. Qed.

(** * Examples *)
Definition ex_rn : text := str "module 0x1::m { struct S { f: u8, g: u8 } fun h(s: S, g: u8): S { let f = g; let S { f: g2, g } = s; S { f: h, g }; S { f, g: f } } }".
Definition ex_rn_tree : tree := match parsed ex_rn with Some t => t | None => TTok COMMENT [] end.
Lemma ex_rn_parsed : parsed ex_rn = Some ex_rn_tree.
Proof. assert (H : match parsed ex_rn with Some _ => true | None => false end = true) by (vm_compute; reflexivity). unfold ex_rn_tree. destruct (parsed ex_rn); [reflexivity|discriminate]. Qed.
Lemma ex_rn_solid : solid ex_rn_tree. Proof. apply solid_b_sound. vm_compute. reflexivity. Qed.
Lemma ex_rn_utf8 : utf8_tokens ex_rn_tree. Proof. apply utf8_sound. vm_compute. reflexivity. Qed.
Lemma ex_rn_shape : name_leaf ex_rn_tree /\ segments_in_paths ex_rn_tree /\ fields_ok ex_rn_tree. Proof. apply names_ok_sound; vm_compute; reflexivity. Qed.
Definition name_b (t : tree) (new : text) (p : place_path) : bool := (is_node NAME (element_at t p) || is_node NAME_REF (element_at t p)) && negb (text_eqb (text_at t p) new).
Lemma name_b_sound t new l : forallb (name_b t new) l = true -> Forall (fun p => name_node t p /\ text_at t p <> new) l.
Proof.
  rewrite forallb_forall. intros H. apply Forall_forall. intros p I. specialize (H p I). apply andb_true_iff in H as [A B]. split.
  - unfold name_node. destruct (element_at t p) as [[k ch|]|]; try discriminate. exists k, ch. split; [reflexivity|]. apply orb_true_iff in A as [A|A]; apply kind_eqb_spec in A; auto.
  - unfold text_eqb in B. destruct (list_eq_dec _ _ _); [discriminate|assumption].
Qed.
Ltac distinct := repeat (apply NoDup_cons; [cbn [In]; intuition discriminate|]); apply NoDup_nil.
(** the field f becomes h: in its definition, `f: g2`, `f: h` and `f` *)
Definition ex_f : place_path := [0; 8; 4; 2; 0].
Definition ex_f_refs : list place_path := [[0; 10; 6; 4; 2; 2; 2; 0]; [0; 10; 6; 6; 0; 2; 2; 0]; [0; 10; 6; 8; 2; 2; 0; 0; 0; 0]].
Definition applied (r : res (list change * bool)) (x : text) : res text := bind r (fun p => edit_apply (fst p) x).
Example rename_applies_example : starts_at_char (str "h") /\ NoDup (ex_f :: ex_f_refs) /\ Forall (fun p => name_node ex_rn_tree p /\ text_at ex_rn_tree p <> str "h") (ex_f :: ex_f_refs) /\
  applied (rename_edit ex_rn_tree Field (str "h") ex_f_refs ex_f) ex_rn =
    Ok (str "module 0x1::m { struct S { h: u8, g: u8 } fun h(s: S, g: u8): S { let f = g; let S { h: g2, g } = s; S { h, g }; S { h: f, g: f } } }").
Proof. refine (conj _ (conj _ (conj _ _))); [reflexivity|unfold ex_f, ex_f_refs; distinct|apply name_b_sound; vm_compute; reflexivity|vm_compute; reflexivity]. Qed.
(** the variable f becomes n *)
Example rename_variable_example :
  applied (rename_edit ex_rn_tree Binding (str "n") [[0; 10; 6; 8; 2; 2; 0; 0; 0; 0]; [0; 10; 6; 8; 2; 5; 3; 0; 0; 0]] [0; 10; 6; 2; 2; 0]) ex_rn =
    Ok (str "module 0x1::m { struct S { f: u8, g: u8 } fun h(s: S, g: u8): S { let n = g; let S { f: g2, g } = s; S { f: h, g }; S { f: n, g: n } } }").
Proof. vm_compute. reflexivity. Qed.
(** the field g becomes g3, in a pattern and a literal without a colon and in a literal with one *)
Example rename_shorthand_example :
  applied (rename_edit ex_rn_tree Field (str "g3") [[0; 10; 6; 4; 2; 2; 5; 0; 0]; [0; 10; 6; 6; 0; 2; 5; 0; 0; 0; 0]; [0; 10; 6; 8; 2; 5; 0]] [0; 8; 4; 5; 0]) ex_rn =
    Ok (str "module 0x1::m { struct S { f: u8, g3: u8 } fun h(s: S, g: u8): S { let f = g; let S { f: g2, g3: g } = s; S { f: h, g3: g }; S { f, g3: f } } }").
Proof. vm_compute. reflexivity. Qed.
Lemma ex_rn_edits tg new p : starts_at_char new -> name_node ex_rn_tree p -> exists cs, ref_edit ex_rn_tree tg new p cs.
Proof. intros H N. destruct ex_rn_shape as (A & B & C). destruct (ref_sound ex_rn_tree tg new p ex_rn_solid ex_rn_utf8 A B C H N) as (cs & E & _). exists cs. exact (ref_changes_spec ex_rn_tree tg new p cs A C N E). Qed.
Example literal_field_renamed_example : element_at ex_rn_tree [0; 10; 6; 6; 0; 2; 2] = Some (TNode STRUCT_LIT_FIELD (TNode NAME_REF [TTok IDENT (str "f")] :: [TTok COLON (str ":"); TTok WHITESPACE (str " ")] ++
    [TNode PATH_EXPR [TNode PATH [TNode PATH_SEGMENT [TNode NAME_REF [TTok IDENT (str "h")]]]]])) /\
  colon_gap [TTok COLON (str ":"); TTok WHITESPACE (str " ")] /\ expr_kind PATH_EXPR.
Proof. split; [vm_compute; reflexivity|]. split; [exact space_gap|]. apply is_expr_spec. reflexivity. Qed.
Example literal_shorthand_renamed_example : lit_short ex_rn_tree [0; 10; 6; 8; 2; 2; 0; 0; 0; 0] /\ text_at ex_rn_tree [0; 10; 6; 8; 2; 2] = str "f" /\
  range_at ex_rn_tree [0; 10; 6; 8; 2; 2; 0; 0; 0; 0] = range_at ex_rn_tree [0; 10; 6; 8; 2; 2].
Proof.
  split; [|split; vm_compute; reflexivity]. exists [0; 10; 6; 8; 2; 2], 0, 0, [], 0, 0. refine (conj eq_refl (conj _ (conj _ (conj _ (conj _ _))))); [vm_compute; reflexivity| |vm_compute; reflexivity| |vm_compute; reflexivity].
  - intros i ch H. assert (Z : element_at ex_rn_tree [0; 10; 6; 8; 2; 2] = Some (TNode STRUCT_LIT_FIELD [TNode PATH_EXPR [TNode PATH [TNode PATH_SEGMENT [TNode NAME_REF [TTok IDENT (str "f")]]]]])) by (vm_compute; reflexivity).
    rewrite element_at_app, Z in H. destruct i as [|[|i]]; discriminate H.
  - intros u v H Nu. destruct u as [|x u]; [contradiction|]. destruct u as [|y u]; [|destruct u; discriminate H]. injection H as <- _. vm_compute. reflexivity.
Qed.
Example pattern_field_renamed_example : element_at ex_rn_tree [0; 10; 6; 4; 2; 2; 2] = Some (TNode STRUCT_PAT_FIELD (TNode NAME_REF [TTok IDENT (str "f")] :: [TTok COLON (str ":"); TTok WHITESPACE (str " ")] ++ [TNode IDENT_PAT [TNode NAME [TTok IDENT (str "g2")]]])).
Proof. vm_compute. reflexivity. Qed.
Example pattern_shorthand_renamed_example : kind_at ex_rn_tree [0; 10; 6; 4; 2; 2; 5] = Some STRUCT_PAT_FIELD /\ kind_at ex_rn_tree ([0; 10; 6; 4; 2; 2; 5] ++ [0]) = Some IDENT_PAT /\ kind_at ex_rn_tree ([0; 10; 6; 4; 2; 2; 5] ++ [0; 0]) = Some NAME /\
  text_at ex_rn_tree [0; 10; 6; 4; 2; 2; 5] = str "g" /\ range_at ex_rn_tree ([0; 10; 6; 4; 2; 2; 5] ++ [0; 0]) = range_at ex_rn_tree [0; 10; 6; 4; 2; 2; 5].
Proof. vm_compute. auto. Qed.
Example new_name_example : sensible LexerProps.one /\ classify LexerProps.one (str "abc") = Some (Ok (Some IkIdent)) /\ classify LexerProps.one (str "a b") = Some (Ok None) /\ classify LexerProps.one (str "fun") = Some (Ok None).
Proof. split; [exact one_sensible|]. vm_compute. auto. Qed.

(** * What is not kept *)
(** A variable bound by the field of a struct pattern: `S { x }` becomes `S { y }`, which is the pattern of another
    field.  source_edit_from_def, rename.rs:185-191, replaces the name whatever it is part of. *)
Definition ex_pb : text := str "module 0x1::m { struct S { x: u8 } fun f(s: S) { let S { x } = s; x; } }".
Definition ex_pb_tree : tree := match parsed ex_pb with Some t => t | None => TTok COMMENT [] end.
Theorem pattern_binding_refuted : exists src t q def ref e out y, parsed src = Some t /\ elem_text t = src /\ solid t /\ utf8_tokens t /\ name_leaf t /\ segments_in_paths t /\ fields_ok t /\ pat_short t def /\ kind_at t q = Some STRUCT_PAT_FIELD /\ prefix q def /\
  name_node t def /\ name_node t ref /\ reads (text_at t q) (str "x") (str "x") /\ rename_edit t Binding (str "y") [ref] def = Ok (e, true) /\ edit_apply e src = Ok out /\
  out = str "module 0x1::m { struct S { x: u8 } fun f(s: S) { let S { y } = s; y; } }" /\
  edited (r_start (range_at t q)) (text_at t q) [mkChange (range_at t def) (str "y")] y /\ ~ reads y (str "x") (str "y").
Proof.
  exists ex_pb, ex_pb_tree, [0; 10; 5; 2; 2; 2; 2], [0; 10; 5; 2; 2; 2; 2; 0; 0], [0; 10; 5; 4; 0; 0; 0; 0], [mkChange (mkRange 57 58) (str "y"); mkChange (mkRange 66 67) (str "y")], (str "module 0x1::m { struct S { x: u8 } fun f(s: S) { let S { y } = s; y; } }"), (str "y").
  assert (Sh : name_leaf ex_pb_tree /\ segments_in_paths ex_pb_tree /\ fields_ok ex_pb_tree) by (apply names_ok_sound; vm_compute; reflexivity). destruct Sh as (A & B & C).
  assert (Nm : forall p, name_b ex_pb_tree (str "y") p = true -> name_node ex_pb_tree p). { intros p H. pose proof (name_b_sound ex_pb_tree (str "y") [p]) as Z. cbn [forallb] in Z. rewrite H in Z. specialize (Z eq_refl). inversion Z as [|? ? [Q _] _]. exact Q. }
  refine (conj _ (conj _ (conj _ (conj _ (conj A (conj B (conj C (conj _ (conj _ (conj _ (conj _ (conj _ (conj _ (conj _ (conj _ (conj eq_refl (conj _ _))))))))))))))))).
  - assert (H : match parsed ex_pb with Some _ => true | None => false end = true) by (vm_compute; reflexivity). unfold ex_pb_tree. destruct (parsed ex_pb); [reflexivity|discriminate].
  - vm_compute. reflexivity.
  - apply solid_b_sound. vm_compute. reflexivity.
  - apply utf8_sound. vm_compute. reflexivity.
  - exists [0; 10; 5; 2; 2; 2; 2], 0, 0. vm_compute. auto.
  - vm_compute. reflexivity.
  - exists [0; 0]. reflexivity.
  - apply Nm. vm_compute. reflexivity.
  - apply Nm. vm_compute. reflexivity.
  - right. split; [vm_compute; reflexivity|reflexivity].
  - vm_compute. reflexivity.
  - vm_compute. reflexivity.
  - change (str "y") with ([] ++ str "y" ++ []) at 2. assert (Z : text_at ex_pb_tree [0; 10; 5; 2; 2; 2; 2] = [] ++ str "x" ++ []) by (vm_compute; reflexivity). rewrite Z. assert (R : range_at ex_pb_tree [0; 10; 5; 2; 2; 2; 2; 0; 0] = mkRange (r_start (range_at ex_pb_tree [0; 10; 5; 2; 2; 2; 2])) (r_start (range_at ex_pb_tree [0; 10; 5; 2; 2; 2; 2]) + 1)) by (vm_compute; reflexivity). rewrite R. econstructor; [|reflexivity|constructor]. cbn [length]. lia.
  - intros [(g & _ & H)|[H _]]; discriminate H.
Qed.
(** `_` and labels are accepted as the name of any item, ide/src/rename.rs:43: the edited file has no such item *)
Definition ex_un : text := str "module 0x1::m { fun f() {} }".
Definition ex_un_tree : tree := match parsed ex_un with Some t => t | None => TTok COMMENT [] end.
Definition new_tree (x : text) : tree := match parsed x with Some t => t | None => TTok COMMENT [] end.
Theorem new_name_refuted : exists src t def new e out t', parsed src = Some t /\ kind_at t def = Some NAME /\ classify LexerProps.one new = Some (Ok (Some IkUnderscore)) /\
  rename_edit t OtherItem new [] def = Ok (e, true) /\ edit_apply e src = Ok out /\ parsed out = Some t' /\ kind_at t (removelast def) = Some FUN /\
  (forall p i ch, kind_at t' p = Some FUN -> element_at t' (p ++ [i]) <> Some (TNode NAME ch)).
Proof.
  assert (P : forall x, match parsed x with Some _ => true | None => false end = true -> parsed x = Some (new_tree x)). { intros x H. unfold new_tree. destruct (parsed x); [reflexivity|discriminate]. }
  exists ex_un, (new_tree ex_un), [0; 8; 2], (str "_"), [mkChange (mkRange 20 21) (str "_")], (str "module 0x1::m { fun _() {} }"), (new_tree (str "module 0x1::m { fun _() {} }")).
  refine (conj (P _ _) (conj _ (conj _ (conj _ (conj _ (conj (P _ _) (conj _ _))))))); try (vm_compute; reflexivity).
  intros p i ch K H. destruct (kind_under _ p i _ K) as (c & E). { unfold exists_at. rewrite H. discriminate. }
  assert (Z : every (fun k ch => negb (kind_eqb FUN k) || forallb (fun e => negb (is_node NAME (Some e))) ch) (new_tree (str "module 0x1::m { fun _() {} }")) = true) by (vm_compute; reflexivity).
  pose proof (every_sound _ _ _ _ _ Z E) as Q. cbv beta in Q. rewrite (proj2 (kind_eqb_spec FUN FUN) eq_refl) in Q. cbn [negb orb] in Q. rewrite forallb_forall in Q. specialize (Q _ (nth_error_In _ _ (child_nth _ _ _ _ _ _ E H))). discriminate Q.
Qed.

Print Assumptions rename_applies.
Print Assumptions literal_field_renamed.
Print Assumptions literal_shorthand_renamed.
Print Assumptions pattern_field_renamed.
Print Assumptions pattern_shorthand_renamed.
Print Assumptions new_name_one_token.
Print Assumptions identifier_accepted.
Print Assumptions pattern_binding_refuted.
Print Assumptions new_name_refuted.
