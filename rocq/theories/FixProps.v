(** The quick fixes that rewrite expressions build the expressions they mean (C62).

    What is meant is a tree of PrecSpec.v.  The factory spells it and parses the text, so it must have parentheses wherever the order of operators asks for
    them; otherwise the parsed node is another one or, if its kind is not the expected one, the factory panics. *)
From Coq Require Import String.
From Verif Require Import Base SyntaxKind ParserModel ParserProps GrammarBase AddressModel LexerModel GrammarModel GrammarProps GrammarSafeProps PrecSpec ShapeSpec PrecProps ShapeProps FixModel.
Close Scope string_scope.
Close Scope N_scope.
Open Scope nat_scope.
Open Scope list_scope.

Ltac shape := unfold N, NREF, NAME_, tk; cbn [calls app]; rewrite <- ?app_assoc; cbn [app]; rewrite <- ?app_assoc; cbn [app]; rewrite <- ?app_assoc; cbn [app]; reflexivity.
Section Frame.
Variables (T : toks) (X : list text).
(** no name is one of the words that end lists of declarations and the like *)
Definition no_reserved : Prop := forall i s, In s reserved -> nth i X [] <> str s.
(** the tokens of [module 0x1::m { fun main() { ... } }], with the expression up to [j] *)
Definition framed (j : nat) : Prop :=
  K T 0 MODULE_KW /\ K T 1 INT_NUMBER /\ K T 2 COLON_COLON /\ K T 3 IDENT /\ K T 4 L_CURLY /\ K T 5 FUN_KW /\ K T 6 IDENT /\ K T 7 L_PAREN /\ K T 8 R_PAREN /\ K T 9 L_CURLY /\
  K T j R_CURLY /\ K T (S j) R_CURLY /\ List.length T = S (S j).
Definition frame_calls (c : list call) : list call :=
  N MODULE ([] ++ tk MODULE_KW :: N VALUE_ADDRESS [tk INT_NUMBER] ++ tk COLON_COLON :: NAME_ ++ tk L_CURLY ::
    (N FUN ([] ++ [] ++ [] ++ tk FUN_KW :: NAME_ ++ [] ++ N PARAM_LIST (tk L_PAREN :: [] ++ [tk R_PAREN]) ++ [] ++ [] ++ N BLOCK_EXPR (tk L_CURLY :: (c ++ []) ++ [tk R_CURLY])) ++ []) ++ [tk R_CURLY]) ++ [].
Hypothesis NR : no_reserved.
Lemma id_of : forall i, K T i IDENT -> id T X i.
Proof. intros i H. split; [exact H|]. intros s I. now apply NR. Qed.
Ltac diff := let H := fresh in intros H; unfold K in *; congruence.
Lemma frame_der : forall t c j, framed j -> ~ blockish T X 10 -> der T X (Ex 1 t) 10 c j -> der T X File 0 (frame_calls c) (List.length T).
Proof.
  intros t c j (K0 & K1 & K2 & K3 & K4 & K5 & K6 & K7 & K8 & K9 & Kj & Kj' & L) NB D. rewrite L. unfold frame_calls.
  assert (NK : forall i k s, K T i k -> k <> IDENT -> ~ kw T X i s) by (intros i k s H N [H' _]; unfold K in *; congruence).
  apply file_cons with (j := S (S j)); [|apply file_nil; unfold K, kind_at; rewrite (proj2 (nth_error_None T (S (S j)))) by lia; reflexivity].
  apply top_module with (j := 0); [apply attrs_nil; diff|].
  apply module_addr with (j := 2); auto; [now apply addr_num|now apply id_of|].
  apply items_cons with (j := S j); [|diff|now apply items_nil].
  apply i_fun with (j := 5) (k := 5) (m := 5) (n := 7) (q := 9) (w := 9) (x := 9); auto.
  - apply attrs_nil; diff.
  - apply ov_none.
  - left. unfold among. unfold K in K5. rewrite K5. now left.
  - now apply mods_nil.
  - now apply id_of.
  - apply tparams_none; diff.
  - apply params; [exact K7|]. apply c_end. exact K8.
  - apply ret_none; diff.
  - apply acq_none; diff.
  - apply fb_block. apply block; [exact K9|]. apply stmts_cons with (j := j); [|now apply stmts_nil]. eapply s_last; eauto.
Qed.
(** ** Trees that are spelled with their parentheses are trees of the grammar *)
Definition tail (e : expr) : nat := match e with Bin k _ _ => match power k with Some q => q | None => 0 end | _ => 255 end.
Lemma not_in : forall i l, ~ In (kind_at T i) l -> ~ among T i l.
Proof. intros i l H. exact H. Qed.
Lemma power_bound : forall k q, power k = Some q -> 1 <= q /\ q <= 12.
Proof. intros k q H. destruct k; vm_compute in H; inversion H; lia. Qed.
Lemma first_token : forall i e j, spells T X i e j -> ordered e -> In (kind_at T i) (IDENT :: L_PAREN :: AMP :: MOVE_KW :: STAR :: BANG :: MINUS :: literals) /\ (K T i IDENT -> plain X i).
Proof.
  intros i e j H. induction H; intros O; cbn [ordered] in O.
  - rewrite H. split; [do 7 right; exact O|]. unfold K. intros E. assert (E' : k = IDENT) by congruence. rewrite E' in O. exfalso. cbn in O. repeat (destruct O as [O|O]; [discriminate|]). exact O.
  - rewrite H. split; [now left|auto].
  - rewrite H. split; [now right; left|auto].
  - rewrite H. destruct O as (I & _). cbn in I. split; [|unfold K; rewrite H; intros ->; repeat (destruct I as [I|I]; [discriminate|]); destruct I]. cbn. tauto.
  - rewrite H. split; [cbn; tauto|]. unfold K. congruence.
  - apply IHspells. apply O.
  - apply IHspells1. apply O.
  - destruct O as (q & _ & _ & _ & O & _). auto.
Qed.
Lemma start_not_curly : forall i e j, spells T X i e j -> ordered e -> kind_at T i <> L_CURLY.
Proof. intros i e j H O E. destruct (first_token i e j H O) as [I _]. rewrite E in I. cbn in I. repeat (destruct I as [I|I]; [discriminate|]). exact I. Qed.
Lemma not_blockish : forall i e j, spells T X i e j -> ordered e -> ~ blockish T X i.
Proof.
  intros i e j H O. destruct (first_token i e j H O) as [I P]. intros [B|[[E W]|[E W]]].
  - unfold among in B. cbn in B. cbn in I. repeat (destruct B as [B|B]; [rewrite <- B in I; repeat (destruct I as [I|I]; [discriminate|]); exact I|]). exact B.
  - apply (P E "match"%string); [cbn; tauto|exact W].
  - apply (P E "for"%string); [cbn; tauto|exact W].
Qed.
Lemma var_der : forall i, kind_at T i = IDENT -> plain X i -> ~ In (kind_at T (S i)) [COLON_COLON; L_CURLY] -> (kind_at T (S i) = L_ANGLE -> no_args T (S i)) -> der T X (Prim false) i (calls Var) (S i).
Proof.
  intros i E P NI NA. assert (W : forall s, In s special_names -> word X i <> str s) by (intros s I; now apply P). apply pr_atom.
  assert (NC : kind_at T (S i) <> COLON_COLON) by (intros F; apply NI; rewrite F; now left).
  apply (a_path T X i (N PATH (N PATH_SEGMENT (NREF ++ []))) (S i)).
  - intros F. unfold K in F. congruence.
  - intros _. split; [now apply id_of|]. split; [apply W; cbn; tauto|]. split; [intros s I F; exfalso; revert F; apply W; cbn in I |- *; tauto|]. split; [intros F; exfalso; revert F; apply W; cbn; tauto|].
    split; intros s I F; exfalso; revert F; apply W; cbn in I |- *; tauto.
  - apply path; [|intros F; contradiction]. apply segs_one. apply seg_name; [now apply id_of|]. apply args_no_expr; [intros F; contradiction|exact NA].
  - intros F. unfold K in F. apply NI. rewrite F. right. now left.
Qed.
Lemma der_eq : forall x i c c' j, c = c' -> der T X x i c j -> der T X x i c' j.
Proof. intros x i c c' j <- D. exact D. Qed.
Lemma of_prim : forall i e j, tail e = 255 -> der T X (Prim false) i (calls e) j ->
  (primary e = true -> der T X (Prim false) i (calls e) j) /\ forall bp, 1 <= bp -> bp <= 255 -> binds bp e -> der T X (Ex bp (tail e)) i (calls e) j.
Proof. intros i e j TE D. split; [auto|]. intros bp B1 B2 _. rewrite TE. apply e_opnd; auto. now apply o_prim with (bl := false). Qed.
Theorem spelled_in_grammar : forall i e j, spells T X i e j -> ordered e ->
  (primary e = true -> der T X (Prim false) i (calls e) j) /\ forall bp, 1 <= bp -> bp <= 255 -> binds bp e -> der T X (Ex bp (tail e)) i (calls e) j.
Proof.
  intros i e j H. induction H as [i k Kk NC|i Kk P NI NA|i e j Kk P H IH Kj|i k e j Kk NM H IH|i e j Kk Km H IH|i e j H IH Kd Ki NI NA|i e j x k H IH Kb Hx IHx Ke|i l j k r m Hl IHl OP ND Hr IHr]; intros O; cbn [ordered] in O.
  - apply of_prim; [reflexivity|]. apply pr_atom. apply a_lit. apply lit_tok; auto.
  - apply of_prim; [reflexivity|]. now apply var_der.
  - apply of_prim; [reflexivity|]. destruct (IH O) as [_ X1]. apply pr_atom. refine (der_eq _ _ _ _ _ _ (a_paren T X i (tail e) (calls e) j _ _ _)); auto; [shape|]. apply X1; try lia. destruct e; cbn; auto. destruct O as (q & Q & _). exists q. split; auto. now apply power_bound in Q.
  - destruct O as (I & OP & O). destruct (IH O) as [_ X1]. assert (B : binds 255 e) by (destruct e; cbn in OP |- *; auto; discriminate). specialize (X1 255 ltac:(lia) ltac:(lia) B). assert (TE : tail e = 255) by (destruct e; cbn in OP |- *; auto; discriminate). rewrite TE in X1.
    split; [discriminate|]. intros bp B1 B2 _. apply e_opnd; auto. cbn [tail]. cbn in I. destruct I as [<-|[<-|[<-|[<-|[<-|[]]]]]].
    + refine (der_eq _ _ _ _ _ _ (o_borrow T X 255 i (calls e) j _ _ _)); auto.
    + refine (der_eq _ _ _ _ _ _ (o_prefix T X 255 MOVE_KW RESOURCE_EXPR i (calls e) j _ _ _)); auto; cbn; auto.
    + refine (der_eq _ _ _ _ _ _ (o_prefix T X 255 STAR DEREF_EXPR i (calls e) j _ _ _)); auto; cbn; auto.
    + refine (der_eq _ _ _ _ _ _ (o_prefix T X 255 BANG BANG_EXPR i (calls e) j _ _ _)); auto; cbn; auto.
    + refine (der_eq _ _ _ _ _ _ (o_prefix T X 255 MINUS MINUS_EXPR i (calls e) j _ _ _)); auto; cbn; auto.
  - destruct O as (OP & O). destruct (IH O) as [_ X1]. assert (B : binds 255 e) by (destruct e; cbn in OP |- *; auto; discriminate). specialize (X1 255 ltac:(lia) ltac:(lia) B). assert (TE : tail e = 255) by (destruct e; cbn in OP |- *; auto; discriminate). rewrite TE in X1.
    split; [discriminate|]. intros bp B1 B2 _. apply e_opnd; auto. refine (der_eq _ _ _ _ _ _ (o_borrow_mut T X 255 i (calls e) j _ _ _)); auto.
  - apply of_prim; [reflexivity|]. destruct O as (PE & O). destruct (IH O) as [X1 _]. refine (der_eq _ _ _ _ _ _ (pr_field T X false i (calls e) j _ _ _ _ _)); auto; shape.
  - apply of_prim; [reflexivity|]. destruct O as (PE & O & Ox). destruct (IH O) as [X1 _]. destruct (IHx Ox) as [_ X2]. refine (der_eq _ _ _ _ _ _ (pr_index T X i (calls e) j (tail x) (calls x) k _ _ _ _)); auto; [shape|]. apply X2; try lia. destruct x; cbn; auto. destruct Ox as (q & Q & _). exists q. split; auto. now apply power_bound in Q.
  - destruct O as (q & Q & Bl & Br & Ol & Or). split; [discriminate|]. intros bp B1 B2 (q' & Q' & LE). rewrite Q in Q'. injection Q' as <-. pose proof (power_bound _ _ Q) as PB.
    destruct (IHl Ol) as [_ X1]. destruct (IHr Or) as [_ X2]. assert (Bl' : binds bp l) by (destruct l; cbn in *; auto; destruct Bl as (q'' & Q'' & LE'); exists q''; split; auto; lia).
    assert (TL : q <= tail l) by (destruct l; cbn in *; try lia; destruct Bl as (q'' & -> & LE'); lia). assert (TR : q <= tail r) by (destruct r; cbn in *; try lia; destruct Br as (q'' & -> & LE'); lia).
    cbn [tail]. rewrite Q. replace q with (Nat.min q (tail r)) by lia.
    refine (der_eq _ _ _ _ _ _ (e_bin T X bp (tail l) i (calls l) j k q (tail r) (calls r) m _ OP Q TL LE _ _)); [shape|apply X1; auto| |apply X2; auto; lia].
    intros -> F. destruct F as [F|[F|[]]]; [now apply ND|]. revert F. change (S j) with (S j). replace (S j) with (j + width DOT_DOT) by (cbn; lia). intros F. symmetry in F. eapply start_not_curly; eauto.
Qed.
End Frame.

(** * An expression of the grammar is one node *)
Definition balanced (c : list call) : Prop := (forall d r, take_node (S d) (c ++ r) = c ++ take_node (S d) r) /\ forall d r, first_expr (S d) (c ++ r) = first_expr (S d) r.
Definition node (c : list call) : Prop := exists k b, c = N k b /\ balanced b /\ is_expr k = true.
Lemma balanced_nil : balanced [].
Proof. split; reflexivity. Qed.
Lemma balanced_app : forall a b, balanced a -> balanced b -> balanced (a ++ b).
Proof. intros a b [A A'] [B B']. split; intros d r; rewrite <- app_assoc; [now rewrite A, B, app_assoc|now rewrite A', B']. Qed.
Lemma balanced_token : forall k n c, balanced c -> balanced (CToken k n :: c).
Proof. intros k n c [B B']. split; intros d r; cbn [app take_node first_expr]; [now rewrite B|now rewrite B']. Qed.
Lemma balanced_n : forall k c, balanced c -> balanced (N k c).
Proof. intros k c [B B']. unfold N. split; intros d r; cbn [app take_node first_expr]; rewrite <- app_assoc; [rewrite B|rewrite B']; cbn [app take_node first_expr]; [rewrite <- app_assoc|]; reflexivity. Qed.
Lemma node_balanced : forall c, node c -> balanced c.
Proof. intros c (k & b & -> & B & _). now apply balanced_n. Qed.
Definition one_node (x : nt) (c : list call) : Prop := match x with Expr | Ex _ _ | Opnd _ | Prim _ | Atom _ _ | Block | Lit_ => node c | Loop k _ => is_expr k = true | _ => True end.
Lemma node_n : forall k b, balanced b -> is_expr k = true -> node (N k b).
Proof. intros k b B I. exists k, b. auto. Qed.
Ltac bal := repeat first [assumption | apply balanced_nil | apply balanced_token | apply balanced_n | apply balanced_app].
Lemma der_balanced : forall T X x i cs j, der T X x i cs j -> balanced cs.
Proof. intros T X x i cs j H. induction H; bal. all: match goal with |- balanced (if ?b then _ else _) => destruct b | _ => idtac end; bal. Qed.
Lemma der_node : forall T X x i cs j, der T X x i cs j -> one_node x cs.
Proof.
  intros T X x i cs j H. induction H; cbn [one_node] in *; try exact I; try assumption; try reflexivity.
  all: apply node_n; [repeat match goal with D : der _ _ _ _ _ _ |- _ => apply der_balanced in D end; bal|try assumption; try reflexivity].
  - destruct (kind_eqb k DOT_DOT); reflexivity.
  - cbn [In] in *. repeat match goal with D : _ \/ _ |- _ => destruct D as [D|D] | D : (_, _) = (_, _) |- _ => inversion D; clear D; subst | D : False |- _ => destruct D end; reflexivity.
Qed.
Theorem expression_is_node : forall T X bp t i c j, der T X (Ex bp t) i c j -> exists k b, c = N k b /\ balanced b /\ is_expr k = true.
Proof. intros T X bp t i c j D. exact (der_node _ _ _ _ _ _ D). Qed.

(** * The syntax factory gives the node it is asked for *)
Lemma first_block_frame : forall c, first_block (CStart SOURCE_FILE :: frame_calls c ++ [CFinish]) = Some (tk L_CURLY :: c ++ [tk R_CURLY; CFinish; CFinish; tk R_CURLY; CFinish; CFinish]).
Proof. intros c. unfold frame_calls, N, NAME_, tk. cbn [app first_block kind_eqb]. cbn. rewrite <- !app_assoc. cbn [app]. rewrite ?app_nil_r, <- ?app_assoc. cbn [app]. reflexivity. Qed.
Theorem factory_builds : forall debug l t k b j, no_eof_in l -> words_are_names l -> no_reserved (texts_of l) -> framed (tokens_of l) j -> ~ blockish (tokens_of l) (texts_of l) 10 ->
  der (tokens_of l) (texts_of l) (Ex 1 t) 10 (N k b) j -> make debug k l = Some (N k b).
Proof.
  intros debug l t k b j NE WN NR F NB D. pose proof (frame_der _ _ NR t (N k b) j F NB D) as DF. destruct (well_formed_file_parses debug l _ NE WN DF) as (p & EP & _ & PR). unfold make. rewrite EP, PR.
  destruct (der_node _ _ _ _ _ _ D) as (k' & b' & E & [B _] & I). injection E as <- E. apply app_inj_tail in E. destruct E as [<- _].
  unfold node_from. rewrite first_block_frame. cbn [first_expr tk]. unfold N. cbn [app first_expr]. rewrite I. cbn [take_node]. rewrite <- app_assoc, B. cbn [app take_node]. now rewrite kind_eqb_refl.
Qed.
Lemma calls_kind : forall e, exists b, calls e = N (kind_of e) b.
Proof.
  intros e. unfold N. destruct e; cbn [calls kind_of].
  - now exists [CToken k 1].
  - eexists. change [CStart PATH_EXPR; CStart PATH; CStart PATH_SEGMENT; CStart NAME_REF; CToken IDENT 1; CFinish; CFinish; CFinish; CFinish] with (CStart PATH_EXPR :: [CStart PATH; CStart PATH_SEGMENT; CStart NAME_REF; CToken IDENT 1; CFinish; CFinish; CFinish] ++ [CFinish]). reflexivity.
  - exists (CToken L_PAREN 1 :: calls e ++ [CToken R_PAREN 1]). cbn [app]. now rewrite <- app_assoc.
  - exists (CToken k 1 :: calls e). reflexivity.
  - exists (CToken AMP 1 :: CToken MUT_KW 1 :: calls e). reflexivity.
  - exists (calls e ++ [CToken DOT 1; CStart NAME_REF; CToken IDENT 1; CFinish]). now rewrite <- app_assoc.
  - exists (calls e1 ++ CToken L_BRACK 1 :: calls e2 ++ [CToken R_BRACK 1]). rewrite <- app_assoc. cbn [app]. now rewrite <- app_assoc.
  - exists (calls e1 ++ CToken k (width k) :: calls e2). rewrite <- app_assoc. reflexivity.
Qed.
Lemma binds_one : forall e, ordered e -> binds 1 e.
Proof. intros e O. destruct e; cbn in *; auto. destruct O as (q & Q & _). exists q. split; auto. now apply power_bound in Q. Qed.
Theorem factory_builds_spelled : forall debug l e j, no_eof_in l -> words_are_names l -> no_reserved (texts_of l) -> framed (tokens_of l) j -> spells (tokens_of l) (texts_of l) 10 e j -> ordered e ->
  make debug (kind_of e) l = Some (calls e).
Proof.
  intros debug l e j NE WN NR F H O. destruct (calls_kind e) as [b E]. rewrite E. apply (factory_builds debug l (tail e) (kind_of e) b j); auto.
  - now apply not_blockish with (e := e) (j := j).
  - rewrite <- E. apply (spelled_in_grammar _ _ NR _ _ _ H O); try lia. now apply binds_one.
Qed.

(** * Assignments *)
Theorem compound_fix_meaning : forall same e e', compound_fix same e = Some e' -> exists l k a r k', e = Bin EQ l (Bin k a r) /\ same l a = true /\ e' = Bin k' l r /\ In (k, k') compound_ops.
Proof.
  intros same e e' H. destruct e as [| | | | | | |k l r]; try discriminate. destruct r as [| | | | | | |k1 a r]; try discriminate. cbn [compound_fix] in H.
  destruct (compound_warns same (Bin k l (Bin k1 a r))) eqn:W; [|discriminate]. cbn [compound_warns] in W. apply andb_prop in W. destruct W as [W S1]. apply andb_prop in W. destruct W as [W _].
  destruct (compound_of k1) as [k2|] eqn:C; [|discriminate]. injection H as <-. exists l, k1, a, r, k2. rewrite kind_eqb_spec in W. subst k. repeat split; auto.
  unfold compound_of in C. destruct (find (fun p => kind_eqb k1 (fst p)) compound_ops) as [[x y]|] eqn:F; [|discriminate]. cbn in C. injection C as <-. apply find_some in F. destruct F as [I E]. cbn in E. rewrite kind_eqb_spec in E. now subst.
Qed.
(** how the operators are written *)
Definition op_text (k : kind) : option string :=
  match k with
  | PLUS => Some "+" | MINUS => Some "-" | STAR => Some "*" | SLASH => Some "/" | PERCENT => Some "%" | SHL => Some "<<" | SHR => Some ">>" | CARET => Some "^" | PIPE => Some "|" | AMP => Some "&"
  | PLUS_EQ => Some "+=" | MINUS_EQ => Some "-=" | STAR_EQ => Some "*=" | SLASH_EQ => Some "/=" | PERCENT_EQ => Some "%=" | SHL_EQ => Some "<<=" | SHR_EQ => Some ">>=" | CARET_EQ => Some "^="
  | PIPE_EQ => Some "|=" | AMP_EQ => Some "&="
  | _ => None
  end%string.
(** the operator of the fix is the operator of the expression followed by an equals sign, and every arithmetic operator has one *)
Theorem compound_text : forall k s k', op_text k = Some s -> (compound_of k = Some k' <-> op_text k' = Some (s ++ "=")%string).
Proof. intros k s k' H. destruct k; cbn in H; try discriminate; injection H as <-; destruct k'; vm_compute; split; congruence. Qed.
Lemma compound_power : forall k k' q, In (k, k') compound_ops -> power k = Some q -> exists q', power k' = Some q' /\ q' <= q /\ power EQ = Some q'.
Proof. intros k k' q I Q. cbn in I. repeat (destruct I as [I|I]; [inversion I; subst; vm_compute in Q; injection Q as <-; exists 1; split; [reflexivity|split; [lia|reflexivity]]|]). destruct I. Qed.
Theorem compound_fix_ordered : forall same e e', ordered e -> compound_fix same e = Some e' -> ordered e'.
Proof.
  intros same e e' O H. destruct (compound_fix_meaning _ _ _ H) as (l & k & a & r & k' & -> & _ & -> & I). cbn [ordered] in O. destruct O as (q & Q & Bl & _ & Ol & q2 & Q2 & _ & Br & _ & Or).
  destruct (compound_power _ _ _ I Q2) as (q' & Q' & LE & QE). rewrite Q in QE. injection QE as ->. cbn [ordered]. exists q'. repeat split; auto. destruct r; cbn in *; auto. destruct Br as (q3 & Q3 & LE3). exists q3. split; auto. lia.
Qed.
Theorem compound_fix_builds : forall same debug l e e' j, ordered e -> compound_fix same e = Some e' -> no_eof_in l -> words_are_names l -> no_reserved (texts_of l) -> framed (tokens_of l) j ->
  spells (tokens_of l) (texts_of l) 10 e' j -> make debug BIN_EXPR l = Some (calls e').
Proof.
  intros same debug l e e' j O H NE WN NR F HS. pose proof (compound_fix_ordered _ _ _ O H) as O'. replace BIN_EXPR with (kind_of e'); [now apply factory_builds_spelled with (j := j)|].
  destruct (compound_fix_meaning _ _ _ H) as (l0 & k & a & r & k' & _ & _ & -> & I). cbn in I. cbn [kind_of]. repeat (destruct I as [I|I]; [inversion I; subst; reflexivity|]). destruct I.
Qed.
(** an operator without an assignment of its own: there is a warning, but nothing to replace the assignment with *)
Theorem compound_warning_has_fix_refuted : exists e, ordered e /\ compound_warns (fun _ _ => true) e = true /\ compound_fix (fun _ _ => true) e = None.
Proof. exists (Bin EQ Var (Bin AMP_AMP Var Var)). split; [|split; reflexivity]. cbn. exists 1. repeat split; auto; [exists 5; split; [reflexivity|lia]|]. exists 5. repeat split; auto. Qed.

(** * Indices *)
Theorem index_fix_ordered_partial : forall recv arg, ordered recv -> ordered arg -> primary (index_base recv) = true -> ordered (index_fix recv arg).
Proof.
  intros recv arg Or Oa P. unfold index_fix. cbn [ordered]. split; [exact P|]. split; [|exact Oa]. destruct recv; cbn [index_base ordered] in *; auto; [|now destruct Or].
  destruct (kind_eqb k AMP); [now destruct Or as (_ & _ & O)|]. exact Or.
Qed.
Theorem index_base_primary : forall recv, (forall e, recv = Un AMP e \/ recv = BorrowMut e -> primary e = true) -> primary (index_base recv) = true.
Proof. intros recv H. destruct recv; cbn [index_base]; auto. destruct (kind_eqb k AMP) eqn:E; auto. rewrite kind_eqb_spec in E. subst. apply H. now left. Qed.
(** what is borrowed, or the expression itself, in parentheses or not, is the base; the index is the same *)
Definition not_borrow (e : expr) : Prop := forall b, e <> Un AMP b /\ e <> BorrowMut b.
Theorem index_fix_meaning : forall recv arg, exists b, index_fix recv arg = Index b arg /\
  ((recv = Un AMP b \/ recv = BorrowMut b) \/ not_borrow recv /\ (b = recv /\ (recv = Var \/ exists e, recv = Paren e) \/ b = Paren recv)).
Proof.
  intros recv arg. exists (index_base recv). split; [reflexivity|]. destruct recv as [k| |e|k e|e|e|e x|k l r]; cbn [index_base].
  4: { destruct (kind_eqb k AMP) eqn:E; [apply kind_eqb_spec in E; subst; left; now left|]. apply kind_eqb_neq in E. right. split; [|now right]. intros b. split; congruence. }
  4: { left. now right. }
  all: right; split; [intros b; split; discriminate|]; try (now right); left; split; eauto.
Qed.
Example index_meaning_example : index_fix (Un STAR Var) Var = Index (Paren (Un STAR Var)) Var /\ index_fix (BorrowMut (Dot Var)) Var = Index (Dot Var) Var /\ index_fix (Paren Var) Var = Index (Paren Var) Var.
Proof. repeat split. Qed.
(** it is the index expression the factory is asked for, provided that what is borrowed is a name, a field, an index or in parentheses *)
Theorem index_fix_builds_partial : forall debug l recv arg j, ordered recv -> ordered arg -> (forall e, recv = Un AMP e \/ recv = BorrowMut e -> primary e = true) ->
  no_eof_in l -> words_are_names l -> no_reserved (texts_of l) -> framed (tokens_of l) j -> spells (tokens_of l) (texts_of l) 10 (index_fix recv arg) j ->
  make debug INDEX_EXPR l = Some (calls (index_fix recv arg)).
Proof. intros debug l recv arg j Or Oa P NE WN NR F HS. apply (factory_builds_spelled debug l (index_fix recv arg) j); auto. apply index_fix_ordered_partial; auto. now apply index_base_primary. Qed.

(** * Method calls *)
Theorem receiver_primary : forall e, primary (receiver_of e) = true.
Proof.
  intros e. unfold receiver_of. destruct (strip_borrow e) as [| | |k e'| | | |k l r]; try reflexivity; cbn [kind_of].
  - destruct (find (fun p : kind * kind => kind_eqb (fst p) k) prefixes) as [[x y]|] eqn:F; [|reflexivity].
    apply find_some in F. destruct F as [I _]. cbn [In prefixes] in I. repeat (destruct I as [I|I]; [inversion I; subst; reflexivity|]). destruct I.
  - destruct (kind_eqb k DOT_DOT); reflexivity.
Qed.
(** what is borrowed, or the expression itself, in parentheses if and only if it needs them *)
Theorem receiver_meaning : forall e, ordered e -> exists r, ((e = Un AMP r \/ e = BorrowMut r) \/ not_borrow e /\ r = e) /\ receiver_of e = if primary r then r else Paren r.
Proof.
  intros e O. assert (R : forall r, ordered r -> (if existsb (kind_eqb (kind_of r)) atom_kinds then r else Paren r) = if primary r then r else Paren r).
  { intros r Or. destruct r; try reflexivity; cbn [kind_of]; [|destruct (kind_eqb k DOT_DOT); reflexivity].
    cbn [ordered] in Or. destruct Or as (I & _). cbn in I. repeat (destruct I as [<-|I]; [reflexivity|]). destruct I. }
  exists (strip_borrow e). destruct e as [k| |e|k e|e|e|e x|k l r]; unfold receiver_of; cbn [strip_borrow].
  4: { destruct (kind_eqb k AMP) eqn:E; [apply kind_eqb_spec in E; subst; split; [left; now left|]; apply R; apply O|]. apply kind_eqb_neq in E. split; [right; split; [|reflexivity]; intros b; split; congruence|]. now apply R. }
  4: { split; [left; now right|]. apply R. apply O. }
  all: split; [right; split; [intros b; split; discriminate|reflexivity]|]; now apply R.
Qed.
Theorem receiver_ordered : forall e, ordered e -> ordered (receiver_of e).
Proof.
  intros e O. assert (S1 : ordered (strip_borrow e)). { destruct e; cbn [strip_borrow ordered] in *; auto; [destruct (kind_eqb k AMP); [now destruct O as (_ & _ & O)|exact O]|now destruct O]. }
  unfold receiver_of. destruct (existsb _ atom_kinds); exact S1.
Qed.
Theorem method_fix_builds : forall debug l e j a m, ordered e -> no_eof_in l -> words_are_names l -> no_reserved (texts_of l) -> framed (tokens_of l) m ->
  spells (tokens_of l) (texts_of l) 10 (receiver_of e) j -> K (tokens_of l) j DOT -> K (tokens_of l) (S j) IDENT -> der (tokens_of l) (texts_of l) Args (S (S j)) a m ->
  make debug METHOD_CALL_EXPR l = Some (N METHOD_CALL_EXPR (calls (receiver_of e) ++ tk DOT :: NREF ++ a)).
Proof.
  intros debug l e j a m O NE WN NR F HS Kd Ki A. pose proof (receiver_ordered _ O) as O'. apply (factory_builds debug l 255 METHOD_CALL_EXPR _ m); auto.
  - now apply not_blockish with (e := receiver_of e) (j := j).
  - apply e_opnd; try lia. apply o_prim with (bl := false). apply (pr_method _ _ false) with (j := j); auto. apply (spelled_in_grammar _ _ NR _ _ _ HS O'). apply receiver_primary.
Qed.

(** * Casts *)
Theorem cast_fix_operand : forall T X bp t i c j ty k, der T X (Ex bp t) i c j -> der T X (Type_ true) (S j) ty k -> cast_fix (N CAST_EXPR (c ++ tk AS_KW :: ty)) = Some c.
Proof.
  intros T X bp t i c j ty k D _. destruct (der_node _ _ _ _ _ _ D) as (k' & b & -> & [B _] & I). unfold cast_fix, N. cbn [app]. rewrite kind_eqb_refl. cbn [first_expr]. rewrite I. cbn [take_node]. rewrite <- !app_assoc. rewrite B. cbn [app take_node]. reflexivity.
Qed.

(** * Texts *)
Definition factory_text (s : string) : string := ("module 0x1::m { fun main() { " ++ s ++ " } }")%string.
Definition of_text (s : string) : list (raw_token * text) := tokens (factory_text s).
(** the first expression of the function *)
Definition read_as (s : string) : option (list call) :=
  match parse_events true (of_text s) with Ret _ p => match process (p_events p) with Ok cs => match first_block cs with Some r => first_expr 0 r | None => None end | _ => None end | _ => None end.
Ltac plain_ := let s := fresh in let H := fresh in intros s H; cbn in H; repeat (destruct H as [<-|H]; [let G := fresh in intros G; vm_compute in G; discriminate G|]); destruct H.
Ltac nin := let H := fresh in vm_compute; intros H; repeat (destruct H as [H|H]; [discriminate H|]); destruct H.
Ltac nk := let H := fresh in intros H; vm_compute in H; discriminate H.
Lemma no_eof_check : forall l, forallb (fun x : raw_token * text => negb (kind_eqb (rt_kind (fst x)) EOF)) l = true -> no_eof_in l.
Proof. intros l H. unfold no_eof_in, no_eof. rewrite forallb_forall in H. apply Forall_forall. intros t I. apply in_map_iff in I. destruct I as (x & <- & I). specialize (H x I). apply negb_true_iff in H. now apply kind_eqb_neq. Qed.
Lemma reserved_check : forall X, forallb (fun x => forallb (fun s => negb (text_eqb x (str s))) reserved) ([] :: X) = true -> no_reserved X.
Proof.
  intros X H i s I E. rewrite forallb_forall in H. assert (M : In (nth i X []) ([] :: X)). { destruct (Nat.lt_ge_cases i (List.length X)) as [L|L]; [right; now apply nth_In|left; now rewrite nth_overflow]. }
  specialize (H _ M). rewrite forallb_forall in H. specialize (H s I). apply negb_true_iff in H. unfold text_eqb in H. match type of H with (if ?d then _ else _) = _ => destruct d as [D|D] end; [discriminate|]. now apply D.
Qed.
Ltac framed_ := unfold framed; repeat split; vm_compute; reflexivity.
Ltac side := first [apply no_eof_check; vm_compute; reflexivity | apply names_check; vm_compute; reflexivity | apply reserved_check; vm_compute; reflexivity | framed_].
Ltac oper := split; [vm_compute; reflexivity|]; let k := fresh in intros k; destruct k; intros ? P J; vm_compute in P; try discriminate P; vm_compute in J; try discriminate J; vm_compute; lia.
Ltac var_sp := apply sp_var; [vm_compute; reflexivity|plain_|nin|nk].
(** x = x + y * z becomes x += y * z *)
Definition ex_assign : expr := Bin EQ Var (Bin PLUS Var (Bin STAR Var Var)).
Definition ex_compound : expr := Bin PLUS_EQ Var (Bin STAR Var Var).
Example compound_example : ordered ex_assign /\ compound_fix (fun _ _ => true) ex_assign = Some ex_compound /\ no_eof_in (of_text "x += y * z") /\ words_are_names (of_text "x += y * z") /\
  no_reserved (texts_of (of_text "x += y * z")) /\ framed (tokens_of (of_text "x += y * z")) 15 /\ spells (tokens_of (of_text "x += y * z")) (texts_of (of_text "x += y * z")) 10 ex_compound 15.
Proof.
  split; [|split; [reflexivity|split; [side|split; [side|split; [side|split; [side|]]]]]].
  - cbn. exists 1. repeat split; auto; [exists 11; split; [reflexivity|lia]|]. exists 11. repeat split; auto; [exists 12; split; [reflexivity|lia]|]. exists 12. repeat split; auto.
  - apply sp_bin with (j := 11); [var_sp|oper|discriminate|]. change (11 + width PLUS_EQ) with 12. apply sp_bin with (j := 13); [var_sp|oper|discriminate|]. change (13 + width STAR) with 14. var_sp.
Qed.
Example compound_example_built : make true BIN_EXPR (of_text "x += y * z") = Some (calls ex_compound).
Proof. vm_compute. reflexivity. Qed.
(** *vector::borrow(&x.f, i + 1) becomes x.f[i + 1] *)
Example index_example : let recv := Un AMP (Dot Var) in let arg := Bin PLUS Var (Lit INT_NUMBER) in let l := of_text "x.f[i + 1]" in
  ordered recv /\ ordered arg /\ (forall e, recv = Un AMP e \/ recv = BorrowMut e -> primary e = true) /\ no_eof_in l /\ words_are_names l /\ no_reserved (texts_of l) /\ framed (tokens_of l) 18 /\
  spells (tokens_of l) (texts_of l) 10 (index_fix recv arg) 18.
Proof.
  intros recv arg l. split; [cbn; auto 10|]. split; [cbn; exists 11; auto 10|]. split; [intros e [H|H]; inversion H; reflexivity|]. split; [side|]. split; [side|]. split; [side|]. split; [side|].
  unfold recv, arg, index_fix. cbn [index_base]. rewrite kind_eqb_refl. apply sp_index with (j := 13); [|reflexivity| |reflexivity].
  - apply sp_dot; [var_sp|reflexivity|reflexivity|nin|nk].
  - apply sp_bin with (j := 15); [var_sp|oper|discriminate|]. change (15 + width PLUS) with 16. apply sp_lit; [reflexivity|intros _; nk].
Qed.
(** f(&a + b ...): the receiver (x + y) of a method call with an argument *)
Example method_example : let e := Bin PLUS Var Var in let l := of_text "(x + y).g(z)" in
  ordered e /\ no_eof_in l /\ words_are_names l /\ no_reserved (texts_of l) /\ framed (tokens_of l) 20 /\ spells (tokens_of l) (texts_of l) 10 (receiver_of e) 15 /\
  K (tokens_of l) 15 DOT /\ K (tokens_of l) 16 IDENT /\ exists a, der (tokens_of l) (texts_of l) Args 17 a 20.
Proof.
  intros e l. split; [cbn; exists 11; auto 10|]. split; [side|]. split; [side|]. split; [side|]. split; [side|]. split.
  - change (receiver_of e) with (Paren e). apply sp_paren; [reflexivity|plain_| |reflexivity]. apply sp_bin with (j := 12); [var_sp|oper|discriminate|]. change (12 + width PLUS) with 13. var_sp.
  - split; [reflexivity|]. split; [reflexivity|]. eexists. apply args; [reflexivity|]. apply c_one; [|reflexivity]. eapply arg. eapply e_opnd; [lia|lia|]. eapply o_prim. assert (NR : no_reserved (texts_of l)) by side. apply (var_der _ _ NR); [reflexivity|plain_|nin|nk].
Qed.
(** an operand of a borrow that is itself a prefix: the text of *vector::borrow(&*x, i) is *x[i], which is not an index expression, and the server panics *)
Theorem index_fix_builds_refuted : exists recv arg l j, ordered recv /\ ordered arg /\ no_eof_in l /\ words_are_names l /\ no_reserved (texts_of l) /\ framed (tokens_of l) j /\
  spells (tokens_of l) (texts_of l) 10 (index_fix recv arg) j /\ make true INDEX_EXPR l = None.
Proof.
  exists (Un AMP (Un STAR Var)), Var, (of_text "*x[i]"), 15. split; [cbn; auto 10|]. split; [cbn; auto|]. split; [side|]. split; [side|]. split; [side|]. split; [side|]. split; [|vm_compute; reflexivity].
  unfold index_fix. cbn [index_base]. rewrite kind_eqb_refl. apply sp_index with (j := 12); [|reflexivity|var_sp|reflexivity]. apply sp_un; [reflexivity|discriminate|]. var_sp.
Qed.
(** a cast is taken out without parentheses: the tree then says (a + b) * c, its text a + b * c *)
Theorem cast_fix_keeps_meaning_refuted : exists s s' pre n post inner, read_as s = Some (pre ++ n ++ post) /\ cast_fix n = Some inner /\
  calls_tokens (pre ++ inner ++ post) = calls_tokens (match read_as s' with Some c => c | None => [] end) /\ read_as s' <> Some (pre ++ inner ++ post).
Proof.
  exists "a + b as u64 * c"%string, "a + b * c"%string, [CStart BIN_EXPR], (N CAST_EXPR (calls (Bin PLUS Var Var) ++ tk AS_KW :: type_)), (tk STAR :: calls Var ++ [CFinish]), (calls (Bin PLUS Var Var)).
  split; [vm_compute; reflexivity|]. split; [vm_compute; reflexivity|]. split; [vm_compute; reflexivity|]. vm_compute. discriminate.
Qed.
(** in parentheses a cast can be taken out *)
Theorem cast_fix_in_parens : forall debug l e j, ordered e -> no_eof_in l -> words_are_names l -> no_reserved (texts_of l) -> framed (tokens_of l) j -> spells (tokens_of l) (texts_of l) 10 (Paren e) j ->
  make debug PAREN_EXPR l = Some (calls (Paren e)).
Proof. intros debug l e j O NE WN NR F H. now apply (factory_builds_spelled debug l (Paren e) j). Qed.
Example cast_example : let pre := [CStart BIN_EXPR; CStart PAREN_EXPR; tk L_PAREN] in let post := [tk R_PAREN; CFinish; tk STAR] ++ calls Var ++ [CFinish] in let n := N CAST_EXPR (calls (Bin PLUS Var Var) ++ tk AS_KW :: type_) in
  read_as "(a + b as u64) * c" = Some (pre ++ n ++ post) /\ cast_fix n = Some (calls (Bin PLUS Var Var)) /\ read_as "(a + b) * c" = Some (pre ++ calls (Bin PLUS Var Var) ++ post).
Proof. split; [vm_compute; reflexivity|]. split; vm_compute; reflexivity. Qed.
Print Assumptions spelled_in_grammar.
Print Assumptions factory_builds.
Print Assumptions factory_builds_spelled.
Print Assumptions compound_fix_meaning.
Print Assumptions compound_text.
Print Assumptions compound_fix_builds.
Print Assumptions compound_warning_has_fix_refuted.
Print Assumptions index_fix_builds_partial.
Print Assumptions index_fix_builds_refuted.
Print Assumptions index_fix_meaning.
Print Assumptions receiver_meaning.
Print Assumptions receiver_primary.
Print Assumptions method_fix_builds.
Print Assumptions cast_fix_operand.
Print Assumptions cast_fix_in_parens.
Print Assumptions cast_fix_keeps_meaning_refuted.
