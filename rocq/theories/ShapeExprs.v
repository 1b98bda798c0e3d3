(** Atoms, blocks and statements: what the parser does on them. *)
From Coq Require Import String.
From Verif Require Import Base SyntaxKind ParserModel GrammarBase AddressModel TreeSinkModel TreeSinkSpec TreeSinkProps ParserSpec ParserProofs ParserProofs2 ParserProps GrammarDisc PrecSpec PrecRun PrecBasics PrecProofs ShapeSpec ShapeBasics ShapeFacts GrammarModel ShapeDefs ShapeTypes ShapeOps.
Close Scope string_scope.
Close Scope N_scope.
Open Scope nat_scope.
Open Scope gram_scope.
Arguments op_seen : simpl never.

(** what [atom_expr] does when there is no literal *)
Definition after_literal (R : recs) : M (option ex) :=
  IF ask (t_and (t_kwi "vector") (t_nth_ts 1 [L_BRACK; L_ANGLE])) THEN GrammarModel.plain (vector_lit_expr R) ELSE
  IF ask (t_and (t_kw "match") (t_nth_at 1 L_PAREN)) THEN
    (c <- match_expr R ;; match c with Some c => ret (Some (c, true)) | None => atom_rest R end)
  ELSE atom_rest R.
Definition struct_step (R : recs) (_ : unit) : M (bool * unit) :=
  struct_lit_field R ;; (IF at_ R_CURLY THEN skip ELSE (expect COMMA ;; skip)) ;; ret (true, tt).
Definition paren_step (R : recs) : bool * bool * bool * bool -> M (bool * (bool * bool * bool * bool)) := fun s =>
  let '(outer, saw_comma, _, saw_ann) := s in
  IF expr R THEN
    (IF ask (t_and (fun _ _ => outer) (t_at COLON)) THEN (type_annotation R ;; ret (false, (outer, saw_comma, true, true))) ELSE
     IF at_ R_PAREN THEN ret (true, (false, saw_comma, true, saw_ann)) ELSE
     (expect COMMA ;; ret (true, (false, true, true, saw_ann))))
  ELSE ret (false, (outer, saw_comma, true, saw_ann)).

Lemma inner_out : forall X e rs k, inner X e -> GrammarBase.mem k (rs_kinds rs) = false -> k <> R_CURLY -> ~ In k (rs_kinds (e_rs (under rs e))).
Proof. intros X e rs k (_ & _ & H & _) M N I. cbn in I. apply in_app_or in I. destruct I as [I|I]; [apply H in I; destruct I as [I|[]]; congruence|apply mem_true in I; congruence]. Qed.
Ltac comma := match goal with |- _ -> ~ In COMMA (rs_kinds (e_rs (under _ _))) => intros _; eapply inner_out; [first [eassumption | apply inner_under; eassumption | apply inner_under; apply inner_under; eassumption]|vm_compute; reflexivity|discriminate] end.
Ltac wrs := lazymatch goal with |- rd _ _ _ (mbind (with_rs _ _) (fun _ => _)) _ _ _ => eapply r_then; [apply r_with|] end.
Ltac go ::= repeat first [stp | wrs | ih].
Ltac side ::= first [envs | lia | assumption | inc | comma | ends].
Section Cases.
Context {T : toks} {X : list text} {G : good T X}.
Notation der := (ShapeSpec.der T X).
Notation P := (ShapeDefs.P T X).
Notation K := (ShapeSpec.K T).
Notation among := (ShapeSpec.among T).
Notation id := (ShapeSpec.id T X).
Notation kw := (ShapeSpec.kw T X).
Notation head := (ShapeSpec.head T).
Notation ordinary := (ShapeSpec.ordinary T X).
Notation ends_at := (ShapeSpec.ends_at T X).
Notation blockish := (ShapeSpec.blockish T X).
Notation ok := (ShapeBasics.ok X).

(** * Atoms *)
Definition unlit (i : nat) : Prop := ~ In (kind_at T i) (AT :: BAD_CHARACTER :: tokens_of_literals) \/ (kind_at T i = INT_NUMBER /\ kind_at T (S i) = COLON_COLON).
Lemma no_lit : forall e i, unlit i -> yields e T i [] literal i (fun o l => o = None /\ blank l).
Proof.
  intros e i U. unfold literal. eapply y_bind.
  - apply (y_marked_a e T _ i i (fun (b : bool) l => b = false /\ l = [])). destruct U as [U|[U1 U2]]; [do 4 yno|yyes]; apply y_ret; cbn; auto.
  - cbn beta. intros x l (a & ch & g & -> & -> & B & -> & ->). apply y_ret. split; auto. rewrite app_nil_r. exact B.
Qed.
Lemma atom_of : forall n e i j bl cs, unlit i -> yields e T i [] (after_literal (run n)) j (fun o l => exists c, o = Some (c, bl) /\ shape c l cs) ->
  yields e T i [] (atom_expr (run n)) j (fun o l => exists c, o = Some (c, bl) /\ shape c l cs).
Proof.
  intros n e i j bl cs U H. unfold atom_expr. eapply y_bind; [apply no_lit; exact U|]. cbn beta. intros o l [-> B]. fold (after_literal (run n)). eapply y_weaken; [eapply y_frame; exact H|]. cbn beta. intros o l' (x & -> & c & -> & Sh). exists c. split; auto. now apply shape_blank.
Qed.
Ltac unl := solve [left; nin | left; let W := fresh in intros W; match goal with H : kind_at T _ = _ |- _ => rewrite H in W; cbn in W; intuition discriminate end | right; split; assumption].
Ltac atom := intros; cbn [P]; intros; prep; facts; open_facts; prep; solo; apply atom_of; [unl|unfold after_literal, atom_rest; repeat yno; yyes].
Ltac body := eapply rc_eq; [eapply c_node; [reflexivity|go]|fin|fin].
Lemma case_a_lit : forall i c j, der Lit_ i c j -> P Lit_ i c j -> P (Atom 255 false) i c j.
Proof. intros i c j D H n e O L E. unfold atom_expr. eapply y_bind; [eapply H; envs|]. cbn beta. intros o l (c' & -> & Sh). apply y_ret. eauto. Qed.
(** no test before that for a path succeeds *)
Lemma at_path : forall n e i j cs, e_texts e = X -> head i -> (K i IDENT -> ordinary i) -> In (kind_at T i) [IDENT; INT_NUMBER] -> (exists k, rc T e i (path_expr (run n)) j cs k) ->
  yields e T i [] (atom_expr (run n)) j (fun o l => exists c, o = Some (c, false) /\ shape c l cs).
Proof.
  intros n e i j cs EX HD HO I [k H]. assert (PS : sees e T i is_path_start true) by (apply path_start; [exact HD|cbn in I |- *; tauto]).
  assert (UN : unlit i) by (cbn in I; destruct I as [I|[I|[]]]; [left; intros W; rewrite <- I in W; cbn in W; intuition discriminate|right; split; [now symmetry|apply HD; symmetry; exact I]]).
  apply atom_of; [exact UN|]. unfold after_literal, atom_rest.
  assert (Q4 : sees e T i (t_and (t_kwi "vector") (t_nth_ts 1 [L_BRACK; L_ANGLE])) false /\ sees e T i (t_and (t_kw "match") (t_nth_at 1 L_PAREN)) false /\ sees e T i (t_and is_assert_ident (t_nth_at 1 BANG)) false /\ sees e T i (t_and (t_kw "for") (t_nth_at 1 L_PAREN)) false).
  { cbn in I. destruct I as [I|[I|[]]]; symmetry in I; [|repeat split; look]. destruct (HO I) as (_ & _ & _ & HV & HM & HA). split; [|split; [|split]].
    - destruct (word_dec (X := X) i "vector") as [W|W]; [specialize (HV W); unfold ShapeSpec.among in HV; look|assert (word X i <> str "vector") by (intros Q; rewrite Q in W; discriminate W); look].
    - destruct (word_dec (X := X) i "match") as [W|W]; [specialize (HM "match"%string ltac:(cbn; tauto) W); unfold ShapeSpec.K in HM; look|assert (word X i <> str "match") by (intros Q; rewrite Q in W; discriminate W); look].
    - destruct (kind_eqb_reflect (kind_at T (S i)) BANG) as [Q|Q]; [|look]. assert (W : forall s, In s assert_names -> word X i <> str s) by (intros s IS E; exact (HA s IS E Q)). look.
    - destruct (word_dec (X := X) i "for") as [W|W]; [specialize (HM "for"%string ltac:(cbn; tauto) W); unfold ShapeSpec.K in HM; look|assert (word X i <> str "for") by (intros Q; rewrite Q in W; discriminate W); look]. }
  destruct Q4 as (Q1 & Q2 & Q3 & Q4). do 2 (apply y_ask with false; [assumption|cbv iota]). do 2 (apply y_ask with false; [assumption|cbv iota]). apply y_ask with true; [exact PS|cbv iota]. eapply y_plain. exact H.
Qed.
Lemma case_a_path : forall i p j, head i -> (K i IDENT -> ordinary i) -> der (Path MEx) i p j -> P (Path MEx) i p j -> ~ K j L_CURLY -> P (Atom 255 false) i (N PATH_EXPR p) j.
Proof. intros i p j HD HO D H NC n e O L E. pose proof HD as HD'. pose proof HO as HO'. facts. open_facts. prep. eapply at_path; [apply O|exact HD'|exact HO'|assumption|]. eexists. eapply rc_eq; [unfold path_expr; eapply (c_marked_cm _ _ PATH_EXPR tt); [reflexivity|unfold GrammarModel.path; go]|fin|fin]. Qed.
Lemma case_sf_named : forall i t c j, K i IDENT -> K (S i) COLON -> der (Ex 1 t) (S (S i)) c j -> P (Ex 1 t) (S (S i)) c j -> P SField i (N STRUCT_LIT_FIELD (NREF ++ tk COLON :: c)) j.
Proof. case (unfold struct_lit_field; eapply r_any; stps). Qed.
Lemma case_sf_short : forall i t c j, K i IDENT -> ~ K (S i) COLON -> der (Ex 1 t) i c j -> P (Ex 1 t) i c j -> P SField i (N STRUCT_LIT_FIELD c) j.
Proof. case (unfold struct_lit_field; eapply r_any; stps). Qed.
Lemma r_fields : forall n e j l k, ok EK e -> K j L_CURLY -> der (Comma SField R_CURLY) (S j) l k -> P (Comma SField R_CURLY) (S j) l k -> 3 * (S k - j) < n ->
  rd T e j (struct_lit_field_list (run n)) (S k) (N STRUCT_LIT_FIELD_LIST (tk L_CURLY :: l ++ [tk R_CURLY])) any.
Proof.
  intros n e j l k O KL D H L. facts. open_facts. prep. eapply r_eq. { unfold struct_lit_field_list. fold (struct_lit_field (run n)). fold (struct_step (run n)). stps. eapply r_then; [elements H (fun _ : unit => True) (fun _ : unit => True)|].
    - exists tt. split; auto. unfold struct_step. eapply r_eq; [ih; stps|fin|fin].
    - exists true, tt. split; auto. unfold struct_step. eapply r_eq; [ih; stps|fin|fin].
    - stps. }
  fin. fin.
Qed.
Lemma case_a_struct : forall i p j l k, head i -> (K i IDENT -> ordinary i) -> der (Path MEx) i p j -> P (Path MEx) i p j -> K j L_CURLY -> der (Comma SField R_CURLY) (S j) l k -> P (Comma SField R_CURLY) (S j) l k -> P (Atom 255 false) i (N STRUCT_LIT (p ++ N STRUCT_LIT_FIELD_LIST (tk L_CURLY :: l ++ [tk R_CURLY]))) (S k).
Proof.
  intros i p j l k HD HO D H KL D2 H2 n e O L E. pose proof HD as HD'. pose proof HO as HO'. facts. open_facts. prep. eapply at_path; [apply O|exact HD'|exact HO'|assumption|]. eexists. eapply rc_eq; [unfold path_expr; eapply (c_marked_cm _ _ STRUCT_LIT tt); [reflexivity|unfold GrammarModel.path; ih; stp; eapply r_then; [eapply r_fields; eauto; lia|]; stps]|fin|fin].
Qed.
Lemma case_a_unit : forall i, K i L_PAREN -> K (S i) R_PAREN -> P (Atom 255 false) i (N UNIT_EXPR [tk L_PAREN; tk R_PAREN]) (S (S i)).
Proof. atom. eapply (y_done _ _ _ _ _ UNIT_EXPR). unfold paren_or_tuple_or_annotated_expr. apply c_assert; [look|]. eapply rc_eq; [eapply (c_marked_cm _ _ UNIT_EXPR tt); [reflexivity|go]|fin|fin]. Qed.
Ltac paren n k := atom; eapply (y_done _ _ _ _ _ k); unfold paren_or_tuple_or_annotated_expr; fold (paren_step (run n)); apply c_assert; [look|]; eapply rc_eq; [eapply (c_marked_cm _ _ k tt); [reflexivity|]| |].
Lemma case_a_paren : forall i t c j, K i L_PAREN -> der (Ex 1 t) (S i) c j -> P (Ex 1 t) (S i) c j -> K j R_PAREN -> P (Atom 255 false) i (N PAREN_EXPR (tk L_PAREN :: c ++ [tk R_PAREN])) (S j).
Proof.
  intros i t c j K1 D H K2 n e O L E. paren n PAREN_EXPR.
  - stps. eapply r_seq; [apply (r_iter e); rewrite <- (app_nil_r c); eapply it_go; [nin|eapply r_eq; [unfold paren_step; go|fin|fin]|lia|lia|rewrite K2; cbn; tauto|apply it_stop; rewrite K2; cbn; tauto]|]. all: stps.
  - fin.
  - fin.
Qed.
Lemma case_a_annot : forall i t c j ty k, K i L_PAREN -> der (Ex 1 t) (S i) c j -> P (Ex 1 t) (S i) c j -> K j COLON -> der (Type_ true) (S j) ty k -> P (Type_ true) (S j) ty k -> K k R_PAREN -> P (Atom 255 false) i (N ANNOTATED_EXPR (tk L_PAREN :: c ++ tk COLON :: ty ++ [tk R_PAREN])) (S k).
Proof.
  intros i t c j ty k K1 D H K2 D2 H2 K3 n e O L E. paren n ANNOTATED_EXPR.
  - stps. eapply r_seq; [apply (r_iter e); eapply it_break; [nin|eapply r_eq; [unfold paren_step, type_annotation; go|fin|fin]]|]. all: stps.
  - fin.
  - fin.
Qed.
Lemma case_a_tuple : forall i t c j l k, K i L_PAREN -> der (Ex 1 t) (S i) c j -> P (Ex 1 t) (S i) c j -> K j COMMA -> der (Comma Expr R_PAREN) (S j) l k -> P (Comma Expr R_PAREN) (S j) l k -> P (Atom 255 false) i (N TUPLE_EXPR (tk L_PAREN :: c ++ tk COMMA :: l ++ [tk R_PAREN])) (S k).
Proof.
  intros i t c j l k K1 D H K2 D2 H2 n e O L E. paren n TUPLE_EXPR.
  - stps. eapply r_seq; [eapply (r_iter_cons e [R_PAREN] _ (eq (false, true, true, false)) (eq (false, true, true, false))); [nin|eapply r_eq; [unfold paren_step; go|fin|fin]|lia|apply next_at; congruence|exact (lst_in _ _ _ _ _ _ _ H2)|cbn; tauto|auto|reflexivity|one| |]|].
    + intros s0 a ds b0 <- (D0 & HP & ? & ?) KC. exists (false, true, true, false). split; auto. eapply r_eq; [unfold paren_step; go|fin|fin].
    + intros s0 a ds b0 <- (D0 & HP & ? & ?) KC. exists true, (false, true, true, false). split; auto. eapply r_eq; [unfold paren_step; go|fin|fin].
    + stps.
  - fin.
  - fin.
Qed.
Lemma case_a_vector : forall i a j l k, kw i "vector" -> among (S i) [L_BRACK; L_ANGLE] -> der (SegArgs (MTy true)) (S i) a j -> P (SegArgs (MTy true)) (S i) a j -> K j L_BRACK -> der (Comma Expr R_BRACK) (S j) l k -> P (Comma Expr R_BRACK) (S j) l k -> P (Atom 255 false) i (N VECTOR_LIT_EXPR (tk IDENT :: a ++ tk L_BRACK :: l ++ [tk R_BRACK])) (S k).
Proof.
  intros i a j l k K1 A D H K2 D2 H2 n e O L E. atom. eapply (y_plain _ _ _ _ _ VECTOR_LIT_EXPR). eapply rc_eq; [unfold vector_lit_expr; eapply c_node; [reflexivity|go]|fin|fin].
Qed.
Lemma case_a_assert : forall i s a j, In s assert_names -> kw i s -> K (S i) BANG -> der Args (S (S i)) a j -> P Args (S (S i)) a j -> P (Atom 255 false) i (N ASSERT_MACRO_EXPR (tk IDENT :: tk BANG :: a)) j.
Proof.
  intros i s a j I K1 K2 D H n e O L E. cbn [In assert_names] in I. repeat destruct I as [<-|I]; try destruct I; atom; eapply (y_plain _ _ _ _ _ ASSERT_MACRO_EXPR); unfold assert_macro_expr; (apply c_assert; [look|]); (eapply rc_eq; [eapply c_node; [reflexivity|go]|fin|fin]).
Qed.
Lemma case_a_block : forall i c j, der Block i c j -> P Block i c j -> P (Atom 255 true) i c j.
Proof. intros i c j D H n e O L E. atom. eapply (y_done _ _ _ _ _ BLOCK_EXPR). eapply H; side. Qed.
Ltac fin_done := (apply c_assert; [look|]); (eapply rc_eq; [eapply c_node; [reflexivity|]; go|fin|fin]).
Lemma case_a_if : forall i c j t b k, K i IF_KW -> der Cond (S i) c j -> P Cond (S i) c j -> der (Branch t) j b k -> P (Branch t) j b k -> ~ K k ELSE_KW -> P (Atom t true) i (N IF_EXPR (tk IF_KW :: c ++ b)) k.
Proof. intros i c j t b k K1 D H D2 H2 K2 n e O L E. atom. eapply (y_done _ _ _ _ _ IF_EXPR). unfold if_expr. fin_done. Qed.
Lemma case_a_if_else : forall i c j t b k t' d m, K i IF_KW -> der Cond (S i) c j -> P Cond (S i) c j -> der (Branch t) j b k -> P (Branch t) j b k -> K k ELSE_KW -> der (Branch t') (S k) d m -> P (Branch t') (S k) d m -> P (Atom t' true) i (N IF_EXPR (tk IF_KW :: c ++ b ++ tk ELSE_KW :: d)) m.
Proof. intros i c j t b k t' d m K1 D H D2 H2 K2 D3 H3 n e O L E. atom. eapply (y_done _ _ _ _ _ IF_EXPR). unfold if_expr. fin_done. Qed.
Lemma loop_kinds : forall k t i c j, der (Loop k t) i c j -> In k [LOOP_EXPR; WHILE_EXPR; FOR_EXPR] /\ (k = LOOP_EXPR -> kind_at T i = LOOP_KW) /\ (k = WHILE_EXPR -> kind_at T i = WHILE_KW) /\ (k = FOR_EXPR -> kw i "for" /\ K (S i) L_PAREN).
Proof. intros k t i c j H. inversion H; subst; (split; [cbn; tauto|split; [|split]]); intros Q; first [discriminate Q | assumption | split; assumption]. Qed.
Lemma with_loop : forall n e k t i c j, der (Loop k t) i c j -> P (Loop k t) i c j -> ok EK e -> 3 * (j - i) + 0 < n -> (t = 0 -> ends_at 1 j) -> rc T e i (with_marker (loop_of (run n) k)) j (N k c) k.
Proof.
  intros n e k t i c j D H O L E. destruct (loop_kinds _ _ _ _ _ D) as (I & _). unfold with_marker. eapply rc_eq; [eapply (c_marked_cm _ _ k tt); [destruct I as [<-|[<-|[<-|[]]]]; reflexivity|]; eapply r_seq; [eapply H; side|]; stps|fin|fin].
Qed.
Lemma case_a_loop : forall k t i c j, der (Loop k t) i c j -> P (Loop k t) i c j -> P (Atom t true) i (N k c) j.
Proof.
  intros k t i c j D H n e O L E. pose proof (with_loop n e _ _ _ _ _ D H O L E) as W. destruct (loop_kinds _ _ _ _ _ D) as (I & I1 & I2 & I3). destruct I as [<-|[<-|[<-|[]]]]; [specialize (I1 eq_refl)|specialize (I2 eq_refl)|specialize (I3 eq_refl)]; clear D H.
  - atom. eapply (y_done _ _ _ _ _ LOOP_EXPR). exact W.
  - atom. eapply (y_done _ _ _ _ _ WHILE_EXPR). exact W.
  - atom. eapply y_bind; [exact W|]. cbn beta. intros c0 l [Sh _]. apply y_ret. eauto.
Qed.
Ltac label H k := atom; unfold labelled, label_decl; eapply y_bind; [eapply (c_marked _ _ k true); [reflexivity|stps; eapply r_seq; [eapply H; side|]; stps]|cbn beta; let Sh := fresh in intros ? ? (? & -> & -> & Sh); apply y_ret; eexists; split; [reflexivity|]; cbn [app] in Sh |- *; rewrite ?app_nil_r in Sh; exact Sh].
Lemma case_a_labelled : forall k t i c j, K i QUOTE_IDENT -> K (S i) COLON -> der (Loop k t) (S (S i)) c j -> P (Loop k t) (S (S i)) c j -> P (Atom t true) i (N k (N LABEL_DECL [tk QUOTE_IDENT; tk COLON] ++ c)) j.
Proof.
  intros k t i c j K1 K2 D H n e O L E. destruct (loop_kinds _ _ _ _ _ D) as (I & I1 & I2 & I3). destruct I as [<-|[<-|[<-|[]]]]; [specialize (I1 eq_refl); clear I2 I3|specialize (I2 eq_refl); clear I1 I3|specialize (I3 eq_refl); clear I1 I2].
  - label H LOOP_EXPR.
  - label H WHILE_EXPR.
  - label H FOR_EXPR.
Qed.
Lemma case_a_return : forall i t c j, K i RETURN_KW -> der (MExpr t) (S i) c j -> P (MExpr t) (S i) c j -> P (Atom 0 false) i (N RETURN_EXPR (tk RETURN_KW :: c)) j.
Proof. intros i t c j K1 D H n e O L E. specialize (E eq_refl). atom. eapply (y_done _ _ _ _ _ RETURN_EXPR). unfold return_expr. fin_done. Qed.
Lemma case_a_abort : forall i t c j, K i ABORT_KW -> der (MExpr t) (S i) c j -> P (MExpr t) (S i) c j -> P (Atom 0 false) i (N ABORT_EXPR (tk ABORT_KW :: c)) j.
Proof. intros i t c j K1 D H n e O L E. specialize (E eq_refl). atom. eapply (y_done _ _ _ _ _ ABORT_EXPR). unfold abort_expr. fin_done. Qed.
Lemma case_a_break : forall i t c j, K i BREAK_KW -> ~ K (S i) QUOTE_IDENT -> der (MExpr t) (S i) c j -> P (MExpr t) (S i) c j -> P (Atom 0 false) i (N BREAK_EXPR (tk BREAK_KW :: c)) j.
Proof. intros i t c j K1 K2 D H n e O L E. specialize (E eq_refl). atom. eapply (y_done _ _ _ _ _ BREAK_EXPR). unfold break_expr, opt_label. fin_done. Qed.
Lemma case_a_break_label : forall i t c j, K i BREAK_KW -> K (S i) QUOTE_IDENT -> der (MExpr t) (S (S i)) c j -> P (MExpr t) (S (S i)) c j -> P (Atom 0 false) i (N BREAK_EXPR (tk BREAK_KW :: N LABEL [tk QUOTE_IDENT] ++ c)) j.
Proof. intros i t c j K1 K2 D H n e O L E. specialize (E eq_refl). atom. eapply (y_done _ _ _ _ _ BREAK_EXPR). unfold break_expr, opt_label. fin_done. Qed.
Lemma case_a_continue : forall i, K i CONTINUE_KW -> ~ K (S i) QUOTE_IDENT -> P (Atom 0 false) i (N CONTINUE_EXPR [tk CONTINUE_KW]) (S i).
Proof. intros i K1 K2 n e O L E. specialize (E eq_refl). atom. eapply (y_done _ _ _ _ _ CONTINUE_EXPR). unfold continue_expr, opt_label. fin_done. Qed.
Lemma case_a_continue_label : forall i, K i CONTINUE_KW -> K (S i) QUOTE_IDENT -> P (Atom 0 false) i (N CONTINUE_EXPR (tk CONTINUE_KW :: N LABEL [tk QUOTE_IDENT])) (S (S i)).
Proof. intros i K1 K2 n e O L E. specialize (E eq_refl). atom. eapply (y_done _ _ _ _ _ CONTINUE_EXPR). unfold continue_expr, opt_label. fin_done. Qed.
Lemma case_me_none : forall i, ~ among i starts_operand -> P (MExpr 0) i [] i.
Proof. case (unfold opt_expr). Qed.
Lemma case_me_some : forall t i c j, ~ K i MINUS -> der (Ex 1 t) i c j -> P (Ex 1 t) i c j -> P (MExpr t) i c j.
Proof. enter. assert (I : In (kind_at T i) EXPR_FIRST) by (eapply (in_minus _ MINUS OK_); [assumption|assumption|vm_compute; reflexivity]). eapply r_eq; [unfold opt_expr; yes; go|fin|fin]. Qed.
Lemma case_cond : forall i t c j, K i L_PAREN -> der (Ex 1 t) (S i) c j -> P (Ex 1 t) (S i) c j -> K j R_PAREN -> P Cond i (N CONDITION (tk L_PAREN :: c ++ [tk R_PAREN])) (S j).
Proof. case (unfold condition). Qed.
Lemma case_br_block : forall i c j, der Block i c j -> P Block i c j -> P (Branch 255) i c j.
Proof. enter. solo. eapply r_eq; [unfold block_or_inline_expr; go|fin|fin]. Qed.
Lemma case_br_inline : forall i t c j, ~ K i L_CURLY -> der (Ex 1 t) i c j -> P (Ex 1 t) i c j -> P (Branch 0) i (N INLINE_EXPR c) j.
Proof. enter. specialize (H4 eq_refl). eapply r_eq; [unfold block_or_inline_expr, inline_expr; go|fin|fin]. Qed.
Lemma case_l_loop : forall i t c j, K i LOOP_KW -> der (Branch t) (S i) c j -> P (Branch t) (S i) c j -> P (Loop LOOP_EXPR t) i (tk LOOP_KW :: c) j.
Proof. case (unfold loop_of, loop_rest). Qed.
Lemma case_l_while : forall i c j t b k, K i WHILE_KW -> der Cond (S i) c j -> P Cond (S i) c j -> der (Branch t) j b k -> P (Branch t) j b k -> ~ K k SPEC_KW -> P (Loop WHILE_EXPR t) i (tk WHILE_KW :: c ++ b) k.
Proof. case (unfold loop_of, while_rest, opt_spec_block_expr). Qed.
Lemma case_l_for : forall i t0 c j t b k, kw i "for" -> K (S i) L_PAREN -> id (S (S i)) -> kw (S (S (S i))) "in" -> der (Ex 1 t0) (S (S (S (S i)))) c j -> P (Ex 1 t0) (S (S (S (S i)))) c j -> K j R_PAREN -> der (Branch t) (S j) b k -> P (Branch t) (S j) b k -> P (Loop FOR_EXPR t) i (tk FOR_KW :: N FOR_CONDITION (tk L_PAREN :: IPAT ++ tk IN_KW :: c ++ [tk R_PAREN]) ++ b) k.
Proof. case (unfold loop_of, for_rest, for_condition, ident_pat_or_recover, opt_spec_block_expr). Qed.
(** * Arms *)
Lemma case_arms_nil : forall i, K i R_CURLY -> P Arms i [] i.
Proof. enter. apply it_stop. rewrite H. cbn. tauto. Qed.
Lemma arms_next : forall j l k, der Arms j l k -> In (kind_at T j) (R_CURLY :: PK).
Proof. intros j l k H. inversion H; subst; facts; open_facts; prep; [left; symmetry; assumption|right; assumption]. Qed.
Lemma nrs_inner : forall e l i, inner X e -> In (kind_at T i) (R_CURLY :: l) -> ~ In (kind_at T i) (rs_kinds (e_rs e)) \/ In (kind_at T i) [EOF; R_CURLY].
Proof. intros e l i (_ & _ & H & _) I. destruct (kind_eqb_reflect (kind_at T i) R_CURLY) as [Q|Q]; [right; rewrite Q; cbn; tauto|]. left. intros J. apply H in J. destruct J as [J|[]]. congruence. Qed.
Lemma case_arms_cons : forall i a j l k, der Arm i a j -> P Arm i a j -> der Arms j l k -> P Arms j l k -> P Arms i (a ++ l) k.
Proof. enter. pose proof (arms_next _ _ _ H1) as A. eapply it_go; [nin|unfold arm_step; eapply r_eq; [go|reflexivity|fin]|lia|lia|eapply nrs_inner; eassumption|apply H2; [assumption|lia]]. Qed.
Lemma case_guard_none : forall i, ~ K i IF_KW -> P Guard i [] i.
Proof. case (unfold arm_guard). Qed.
Lemma case_guard : forall i t c j, K i IF_KW -> der (Ex 1 t) (S i) c j -> P (Ex 1 t) (S i) c j -> K j FAT_ARROW -> P Guard i (N MATCH_GUARD (tk IF_KW :: c)) j.
Proof. case (unfold arm_guard). Qed.
Lemma case_arm : forall i p j g k b m, der (Pat true) i p j -> P (Pat true) i p j -> der Guard j g k -> P Guard j g k -> K k FAT_ARROW -> der ABody (S k) b m -> P ABody (S k) b m -> P Arm i (N MATCH_ARM (p ++ g ++ tk FAT_ARROW :: b)) m.
Proof.
  enter. eapply r_eq. { unfold match_arm, pattern. fold (arm_guard (run n)). fold (arm_tail (run n)). go. } fin. fin.
Qed.
(** * Expressions as statements *)
Lemma not_block : forall t i cs j, der (Ex 1 t) i cs j -> P (Ex 1 t) i cs j -> ~ blockish i -> forall n e r, ok EK e -> 3 * (j - i) + 1 < n -> ends_at 1 j -> yields e T i [] (expr_bp (run n) r 1) j (fun o l => exists c, o = Some (c, false) /\ shape c l cs).
Proof.
  intros t i cs j D H NB n e r O L E. eapply y_weaken; [eapply (ex_reads _ _ _ _ _ D H); eauto; ends|]. cbn beta. intros o l (c & b & -> & HB & Sh). destruct b; [elim NB; auto|]. eauto.
Qed.
Notation ends_stmt := (ShapeSpec.ends_stmt T X).
Notation ends_block := (ShapeSpec.ends_block T X).
Lemma at1_stmt : forall j, ends_at 1 j -> ends_stmt j.
Proof.
  intros j (H1 & H2 & H3 & H4). split; [|split].
  - intros k q O W. specialize (H1 k q O W). destruct (op_facts T j k q O W) as (_ & _ & _ & Q & _). lia.
  - unfold ShapeSpec.among, ShapeSpec.K in *. intros [I|[I|[]]]; [apply H2; rewrite <- I; cbn; tauto|specialize (H3 (eq_sym I)); lia].
  - intros W. specialize (H4 W). lia.
Qed.
Lemma block_stmt : forall t j, ends_block t j -> ends_stmt j /\ (t = 0 -> ends_at 1 j).
Proof. intros t j H. unfold ShapeSpec.ends_block in H. destruct (Nat.eqb_spec t 0) as [->|N]; [split; auto; now apply at1_stmt|split; auto; intros Q; contradiction]. Qed.
Lemma op_stmt : forall e j p, e_texts e = X -> ends_stmt j -> p_toks p = T -> p_pos p = j -> fst (op_seen e p) < 1.
Proof.
  intros e j p EX (H1 & H2 & H4) HT Hp. unfold op_seen. assert (C : t_cur IDENT e p = kind_eqb (kind_at T j) IDENT) by (unfold t_cur; rewrite cur_at, HT, Hp; reflexivity). rewrite C. rewrite (t_kw_word X e p j "is" EX Hp) by (vm_compute; discriminate).
  assert (Z : fst (op_of p) < 1). { destruct (op_of_spec p) as [(k' & q' & O' & P' & ->)|[[E C']|[-> _]]]; [rewrite HT, Hp in O'; elim (H1 _ q' O' P')| |cbn; lia]. rewrite cur_at, HT, Hp in C'. elim H2. unfold ShapeSpec.among. rewrite C'. cbn. tauto. }
  destruct (kind_eqb_reflect (kind_at T j) IDENT) as [Q|Q]; cbn [andb]; [|exact Z]. destruct (text_eqb (word X j) (str "is")) eqn:W; [apply text_eqb_spec in W; elim H4; split; assumption|exact Z].
Qed.
Lemma blk : forall t i cs j, der (Atom t true) i cs j -> P (Atom t true) i cs j -> ends_stmt j -> (t = 0 -> ends_at 1 j) -> forall n e, ok EK e -> 3 * (j - i) + 1 < n -> yields e T i [] (expr_bp (run n) (mkR false true) 1) j (fun o l => exists c, o = Some (c, true) /\ shape c l cs).
Proof.
  intros t i cs j D HP ES E1 n e O L. assert (EX : e_texts e = X) by apply O. destruct n as [|n]; [lia|]. change (expr_bp (run (S n)) (mkR false true) 1) with (expr_bp_body (run n) (mkR false true) 1).
  pose proof (HP n e O ltac:(lia) E1) as HA. unfold expr_bp_body. eapply (y_bind j).
  - apply (y_marked e T _ i j (fun c (b : bool) l => b = true /\ exists c', c = Extend c' /\ shape c' l cs)). eapply y_bind; [eapply (lhs_atom _ _ _ _ _ D n e (mkR false true) j cs true j (fun x l => exists c', x = (c', true) /\ shape c' l cs) O HA)|].
    + intros c l Sh. unfold postfix_expr. fold (postfix_step (run n)). cbn [prefer_stmt andb negb]. change (c, true, false) with ((fun c => (c, true, false)) c). eapply (walk_loop e _ _ _ _ _ _ _ (w_nil e _ _ _ _)); [|exact Sh]. intros c3 l3 Sh3. cbv beta. destruct ES as (_ & N & _). assert (ND : kind_at T j <> DOT) by (intros Q; apply N; unfold ShapeSpec.among; rewrite Q; cbn; tauto). unfold postfix_step. do 2 (apply y_ask with false; [apply sees_and_r; apply sees_const|cbv iota]). yno. apply y_ret. exists (c3, true). split; auto. exists c3. auto.
    + cbn beta. intros o l (x & -> & c & -> & Sh). apply y_ret. cbn [fst snd]. split; [split; auto; exists c; auto|]. intros m. destruct Sh as (g & k & ch & -> & _). eexists. cbn. exists g, k, ch. split; reflexivity.
  - cbn beta. intros [o b] l (m & c & ch & l2 & -> & EN & CL & HB' & c' & -> & Sh). cbn [fst snd closed] in *. subst o b. cbn [ended] in EN. destruct EN as (g & k & cc & -> & ->). destruct Sh as (g' & k' & cc' & EQ & Bg & C).
    apply app_inj_tail in EQ. destruct EQ as [<- EQ]. injection EQ as <- <-. assert (Sh : shape c' ([] ++ [INode (c_pos c') false k (IGone m :: g ++ cc)]) cs).
    { exists [], k, (IGone m :: g ++ cc). split; auto. split; [reflexivity|]. rewrite <- C. cbn. rewrite flat_map_app, Bg. reflexivity. }
    intros p f rest HT Hp So Op I. unfold mbind at 1, current_op. fold (op_seen e p). pose proof (op_stmt e j p EX ES HT Hp) as LT. destruct (op_seen e p) as [ob ok'] eqn:OE. cbn [fst] in LT. destruct (Nat.ltb_spec ob 1) as [_|]; [|lia]. cbn [prefer_stmt andb].
    refine (y_ret e T j _ (Some (c', true)) (fun o l => exists c, o = Some (c, true) /\ shape c l cs) _ p f rest HT Hp So Op I). exists c'. auto.
Qed.
(** the token after *)
Lemma done_stmt : forall j k, kind_at T j = k -> GrammarBase.mem k goes_on = false -> ends_stmt j /\ forall t, t = 0 -> ends_at 1 j.
Proof. intros j k H M. assert (E : ends_at 1 j) by (eapply ends_is; eauto). split; auto. now apply at1_stmt. Qed.
Lemma ex_drop : forall n e i j cs b, yields e T i [] (expr_bp (run n) (mkR false true) 1) j (fun o l => exists c, o = Some (c, b) /\ shape c l cs) -> rd T e i (top_level_expr_in_stmt (run n)) j cs (fun o => exists c, o = Some (c, b)).
Proof. intros n e i j cs b H. eapply y_weaken; [exact H|]. cbn beta. intros o l (c & -> & Sh). split; [now apply (shape_calls c)|eauto]. Qed.
Lemma case_ab_expr : forall i t c j, ~ blockish i -> der (Ex 1 t) i c j -> P (Ex 1 t) i c j -> K j COMMA -> P ABody i (c ++ [tk COMMA]) (S j).
Proof. intros i t c j NB D H K1 n e O L. facts. open_facts. prep. eapply r_eq. { unfold arm_tail. eapply r_bind; [apply ex_drop; eapply (not_block _ _ _ _ D H NB); side|]. cbn beta. intros o (c0 & ->). cbv iota beta zeta. stps. } fin. fin. Qed.
Lemma case_ab_last : forall i t c j, ~ blockish i -> der (Ex 1 t) i c j -> P (Ex 1 t) i c j -> K j R_CURLY -> P ABody i c j.
Proof. intros i t c j NB D H K1 n e O L. facts. open_facts. prep. eapply r_eq. { unfold arm_tail. eapply r_bind; [apply ex_drop; eapply (not_block _ _ _ _ D H NB); side|]. cbn beta. intros o (c0 & ->). cbv iota beta zeta. stps. } fin. fin. Qed.
Lemma case_ab_block : forall i t c j, der (Atom t true) i c j -> P (Atom t true) i c j -> ends_block t j -> ~ K j COMMA -> P ABody i c j.
Proof. intros i t c j D H EB K1 n e O L. facts. open_facts. prep. destruct (block_stmt _ _ EB) as [B1 B2]. eapply r_eq. { unfold arm_tail. eapply r_bind; [apply ex_drop; eapply (blk _ _ _ _ D H B1 B2); side|]. cbn beta. intros o (c0 & ->). cbv iota beta zeta. stp. apply r_ask with (b := false); [apply sees_and_l; apply sees_const|]. stps. } fin. fin. Qed.
Lemma case_ab_block_comma : forall i t c j, der (Atom t true) i c j -> P (Atom t true) i c j -> K j COMMA -> P ABody i (c ++ [tk COMMA]) (S j).
Proof. intros i t c j D H K1 n e O L. facts. open_facts. prep. destruct (done_stmt _ _ K1 eq_refl) as [B1 B2]. eapply r_eq. { unfold arm_tail. eapply r_bind; [apply ex_drop; eapply (blk _ _ _ _ D H B1 (B2 _)); side|]. cbn beta. intros o (c0 & ->). cbv iota beta zeta. stps. } fin. fin. Qed.
(** * Blocks *)
Lemma case_stmts_nil : forall i, K i R_CURLY -> P Stmts i [] i.
Proof. enter. apply it_stop. rewrite H. cbn. tauto. Qed.
Lemma stmts_next : forall j l k, der Stmts j l k -> In (kind_at T j) (R_CURLY :: [SEMICOLON; LET_KW; USE_KW] ++ OK_).
Proof. intros j l k H. inversion H; subst; facts; open_facts; prep; [left; symmetry; assumption|right; assumption]. Qed.
Lemma case_stmts_cons : forall i s j l k, der Stmt i s j -> P Stmt i s j -> der Stmts j l k -> P Stmts j l k -> P Stmts i (s ++ l) k.
Proof. enter. pose proof (stmts_next _ _ _ H1) as A. eapply it_go; [nin|eapply H0; [envs|lia]|lia|lia|eapply nrs_inner; eassumption|apply H2; [assumption|lia]]. Qed.
Lemma case_block : forall i l j, K i L_CURLY -> der Stmts (S i) l j -> P Stmts (S i) l j -> P Block i (N BLOCK_EXPR (tk L_CURLY :: l ++ [tk R_CURLY])) (S j).
Proof.
  intros i l j K1 D H n e O L. facts. open_facts. prep. unfold block_expr. apply c_assert; [look|]. change (rc T (reset e) i (node BLOCK_EXPR (bump L_CURLY ;; stmt_list (run n) ;; expect R_CURLY)) (S j) (N BLOCK_EXPR (tk L_CURLY :: l ++ [tk R_CURLY])) BLOCK_EXPR).
  eapply rc_eq; [eapply c_node; [reflexivity|]; stp; eapply r_seq; [unfold stmt_list; fold (stmt_step (run n)); apply (r_iter (reset e)); apply H; [envs|lia]|]; stps|fin|fin].
Qed.
(** * Statements *)
Lemma no_attrs : forall n e i, kind_at T i <> POUND -> rd T e i (attrs (run n)) i [] (eq None).
Proof. intros n e i H. unfold attrs. apply r_loop. apply turn_end. eapply r_eq; [stps|fin|fin]. Qed.
Lemma stmt_in : forall n e i j cs, inner X e -> kind_at T i <> POUND -> kind_at T i <> SEMICOLON -> 0 < n -> rd T (under (rs_of [R_CURLY]) e) i (stmt_rest (run (pred n))) j cs any -> rd T e i (stmt_step (run n) tt) j cs (eq (true, tt)).
Proof.
  intros n e i j cs O K1 K2 L H. destruct n as [|n]; [lia|]. eapply r_eq. { unfold stmt_step. stp. stp. { change (stmt (run (S n))) with (stmt_body (run n)). unfold stmt_body. eapply r_seq; [apply no_attrs; exact K1|]. exact H. } stps. } fin. fin.
Qed.
Lemma case_s_empty : forall i, K i SEMICOLON -> P Stmt i [tk SEMICOLON] (S i).
Proof. case (unfold stmt_step). Qed.
Ltac in_stmt := enter; apply stmt_in; [assumption|kn|kn|lia|]; match goal with |- rd _ _ _ (stmt_rest (run (pred ?n))) _ _ _ => unroll n; cbn [pred] end; unfold stmt_rest; eapply r_eq; [apply r_kind; match goal with O : inner X ?e |- _ => change (e_sk (under (rs_of [R_CURLY]) e)) with (e_sk e); rewrite (proj1 (proj2 O)) end; cbv iota|..].
Lemma case_s_let : forall i p j, K i LET_KW -> der (Pat true) (S i) p j -> P (Pat true) (S i) p j -> K j SEMICOLON -> P Stmt i (N LET_STMT (tk LET_KW :: p ++ [tk SEMICOLON])) (S j).
Proof. in_stmt. unfold let_stmt, pattern, type_annotation, opt_initializer_expr. go. fin. fin. Qed.
Lemma case_s_let_type : forall i p j t k, K i LET_KW -> der (Pat true) (S i) p j -> P (Pat true) (S i) p j -> K j COLON -> der (Type_ true) (S j) t k -> P (Type_ true) (S j) t k -> K k SEMICOLON -> P Stmt i (N LET_STMT (tk LET_KW :: p ++ tk COLON :: t ++ [tk SEMICOLON])) (S k).
Proof. in_stmt. unfold let_stmt, pattern, type_annotation, opt_initializer_expr. go. fin. fin. Qed.
Lemma case_s_let_init : forall i p j t c k, K i LET_KW -> der (Pat true) (S i) p j -> P (Pat true) (S i) p j -> K j EQ -> der (Ex 1 t) (S j) c k -> P (Ex 1 t) (S j) c k -> K k SEMICOLON -> P Stmt i (N LET_STMT (tk LET_KW :: p ++ tk EQ :: c ++ [tk SEMICOLON])) (S k).
Proof. in_stmt. unfold let_stmt, pattern, type_annotation, opt_initializer_expr. go. fin. fin. Qed.
Lemma case_s_let_all : forall i p j t k t' c m, K i LET_KW -> der (Pat true) (S i) p j -> P (Pat true) (S i) p j -> K j COLON -> der (Type_ true) (S j) t k -> P (Type_ true) (S j) t k -> K k EQ -> der (Ex 1 t') (S k) c m -> P (Ex 1 t') (S k) c m -> K m SEMICOLON -> P Stmt i (N LET_STMT (tk LET_KW :: p ++ tk COLON :: t ++ tk EQ :: c ++ [tk SEMICOLON])) (S m).
Proof. in_stmt. unfold let_stmt, pattern, type_annotation, opt_initializer_expr. go. fin. fin. Qed.
Lemma case_s_use : forall i u j, K i USE_KW -> der USpeck (S i) u j -> P USpeck (S i) u j -> K j SEMICOLON -> P Stmt i (N USE_STMT (tk USE_KW :: u ++ [tk SEMICOLON])) (S j).
Proof. in_stmt. unfold inline_use, use_rest, use_speck. stp. stp. stp. { eapply r_seq; [apply r_with; go|]. stps. } all: stps. fin. fin. Qed.
(** an expression and what follows it *)
Lemma es_last : forall n e i j cs b, yields (under (rs_of [SEMICOLON]) e) T i [] (expr_bp (run n) (mkR false true) 1) j (fun o l => exists c, o = Some (c, b) /\ shape c l cs) -> kind_at T j = R_CURLY -> rd T e i (expr_stmt (run n)) j cs any.
Proof.
  intros n e i j cs b H K1. unfold expr_stmt. eapply y_bind; [exact H|]. cbn beta. intros o l (c & -> & Sh). cbv iota beta. yyes. apply y_ret. split; [eapply shape_calls; eauto|exact Logic.I].
Qed.
Lemma es_more : forall n e i j cs b k ds, yields (under (rs_of [SEMICOLON]) e) T i [] (expr_bp (run n) (mkR false true) 1) j (fun o l => exists c, o = Some (c, b) /\ shape c l cs) -> kind_at T j <> R_CURLY ->
  rd T e j ((if b then eat_ SEMICOLON else expect SEMICOLON) ;; ret (EXPR_STMT, tt)) k ds (eq (EXPR_STMT, tt)) -> rd T e i (expr_stmt (run n)) k (N EXPR_STMT (cs ++ ds)) any.
Proof.
  intros n e i j cs b k ds H K1 W. unfold expr_stmt. eapply y_bind; [exact H|]. cbn beta. intros o l (c & -> & Sh). cbv iota beta. yno. eapply y_bind; [eapply (y_pre e _ EXPR_STMT tt); [reflexivity|exact Sh|exact W]|]. cbn beta. intros [c' u] l' [_ Sh']. cbn [fst] in Sh'. apply y_ret. split; [eapply shape_calls; eauto|exact Logic.I].
Qed.
Lemma case_s_expr : forall i t c j, ~ blockish i -> der (Ex 1 t) i c j -> P (Ex 1 t) i c j -> K j SEMICOLON -> P Stmt i (N EXPR_STMT (c ++ [tk SEMICOLON])) (S j).
Proof. in_stmt. stps. eapply es_more; [eapply (not_block _ _ _ _ H0 H1 H); side|congruence|cbv iota; eapply r_eq; [stps|reflexivity|reflexivity]]. fin. fin. Qed.
Lemma case_s_last : forall i t c j, ~ blockish i -> der (Ex 1 t) i c j -> P (Ex 1 t) i c j -> K j R_CURLY -> P Stmt i c j.
Proof. in_stmt. stps. eapply es_last; [eapply (not_block _ _ _ _ H0 H1 H); side|congruence]. fin. fin. Qed.
Lemma case_s_block : forall i t c j, der (Atom t true) i c j -> P (Atom t true) i c j -> ends_block t j -> ~ among j [SEMICOLON; R_CURLY] -> P Stmt i (N EXPR_STMT c) j.
Proof. enter. destruct (block_stmt _ _ H1) as [B1 B2]. assert (KS : kind_at T j <> SEMICOLON) by (intros Q; apply H2; rewrite Q; cbn; tauto). assert (KC : kind_at T j <> R_CURLY) by (intros Q; apply H2; rewrite Q; cbn; tauto).
  in_stmt. stps. eapply es_more; [eapply (blk _ _ _ _ H H0 B1 B2); side|congruence|cbv iota; eapply r_eq; [stps|reflexivity|reflexivity]]. fin. fin.
Qed.
Lemma case_s_block_semi : forall i t c j, der (Atom t true) i c j -> P (Atom t true) i c j -> K j SEMICOLON -> P Stmt i (N EXPR_STMT (c ++ [tk SEMICOLON])) (S j).
Proof. enter. destruct (done_stmt _ _ H1 eq_refl) as [B1 B2]. in_stmt. stps. eapply es_more; [eapply (blk _ _ _ _ H H0 B1 (B2 _)); side|congruence|cbv iota; eapply r_eq; [stps|reflexivity|reflexivity]]. fin. fin. Qed.
Lemma case_s_block_last : forall i t c j, der (Atom t true) i c j -> P (Atom t true) i c j -> K j R_CURLY -> P Stmt i c j.
Proof. enter. destruct (done_stmt _ _ H1 eq_refl) as [B1 B2]. in_stmt. stps. eapply es_last; [eapply (blk _ _ _ _ H H0 B1 (B2 _)); side|congruence]. fin. fin. Qed.
(** * Match *)
Lemma case_a_match : forall i t c j l k, kw i "match" -> K (S i) L_PAREN -> der (Ex 1 t) (S (S i)) c j -> P (Ex 1 t) (S (S i)) c j -> K j R_PAREN -> K (S j) L_CURLY -> der Arms (S (S j)) l k -> P Arms (S (S j)) l k -> P (Atom 255 true) i (N MATCH_EXPR (tk MATCH_KW :: tk L_PAREN :: c ++ tk R_PAREN :: N MATCH_ARM_LIST (tk L_CURLY :: l ++ [tk R_CURLY]))) (S k).
Proof.
  intros i t c j l k K1 K2 D H K3 K4 D2 H2 n e O L E. atom. eapply (y_bind (S k) (Q := fun o l0 => exists c', o = Some c' /\ shape c' l0 (N MATCH_EXPR (tk MATCH_KW :: tk L_PAREN :: c ++ tk R_PAREN :: N MATCH_ARM_LIST (tk L_CURLY :: l ++ [tk R_CURLY]))))).
  - unfold match_expr. eapply y_bind; [eapply (c_marked _ _ MATCH_EXPR tt); [reflexivity|]|].
    + stps. ih. unfold match_arm_list. fold (arm_step (run n)). stps. { eapply r_then; [apply r_reset; eapply r_any; apply (r_iter (reset e)); apply H2; [envs|lia]|]. stps. } all: stps.
    + cbn beta. intros x l' (c' & -> & _ & Sh). apply y_ret. exists c'. split; [reflexivity|]. cbn [app] in Sh. rewrite ?app_nil_r in Sh. exact Sh.
  - cbn beta. intros x l' (c' & -> & Sh). cbv iota. apply y_ret. exists c'. split; [reflexivity|exact Sh].
Qed.
End Cases.
