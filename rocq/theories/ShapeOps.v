(** Operators, operands, calls, indices and fields: what the parser does on them. *)
From Coq Require Import String.
From Verif Require Import Base SyntaxKind ParserModel GrammarBase AddressModel TreeSinkModel TreeSinkSpec TreeSinkProps ParserSpec ParserProofs ParserProofs2 ParserProps GrammarDisc PrecSpec PrecRun PrecBasics PrecProofs ShapeSpec ShapeBasics ShapeFacts GrammarModel ShapeDefs ShapeTypes.
Close Scope string_scope.
Close Scope N_scope.
Open Scope nat_scope.
Open Scope gram_scope.
Arguments op_seen : simpl never.

(** * Expressions as parts *)
Ltac texts ::= cbn [e_texts under reset set_rs]; first [eassumption | eapply ok_texts; eassumption | eapply inner_texts; eassumption].
Ltac yyes := apply y_ask with true; [solve [look]|cbv iota].
Ltac yno := apply y_ask with false; [solve [look]|cbv iota].
Section Reads.
Context {T : toks} {X : list text} {G : good T X}.
Notation der := (ShapeSpec.der T X).
Notation P := (ShapeDefs.P T X).
Notation ok := (ShapeBasics.ok X).
Notation ends_at := (ShapeSpec.ends_at T X).
Notation blockish := (ShapeSpec.blockish T X).
Lemma op_end : forall e bp j p, e_texts e = X -> 1 <= bp -> ends_at bp j -> p_toks p = T -> p_pos p = j -> fst (op_seen e p) < bp.
Proof.
  intros e bp j p EX L (H1 & H2 & H3 & H4) HT Hp. unfold op_seen. assert (C : t_cur IDENT e p = kind_eqb (kind_at T j) IDENT) by (unfold t_cur; rewrite cur_at, HT, Hp; reflexivity). rewrite C. rewrite (t_kw_word X e p j "is" EX Hp) by (vm_compute; discriminate).
  destruct (kind_eqb_reflect (kind_at T j) IDENT) as [Q|Q]; cbn [andb].
  - destruct (text_eqb (word X j) (str "is")) eqn:W; [apply text_eqb_spec in W; cbn; apply H4; split; assumption|].
    destruct (op_of_spec p) as [(k' & q' & O' & P' & ->)|[[E C']|[-> _]]]; [rewrite HT, Hp in O'; cbn; eauto| |cbn; lia]. rewrite cur_at, HT, Hp in C'. rewrite E. cbn. now apply H3.
  - destruct (op_of_spec p) as [(k' & q' & O' & P' & ->)|[[E C']|[-> _]]]; [rewrite HT, Hp in O'; cbn; eauto| |cbn; lia]. rewrite cur_at, HT, Hp in C'. rewrite E. cbn. now apply H3.
Qed.
Lemma op_seen_at : forall e j k q p, op_at T j k -> power k = Some q -> p_toks p = T -> p_pos p = j -> op_seen e p = (q, k).
Proof. intros e j k q p O H HT Hp. unfold op_seen. now apply (current_op_at e T j k q p). Qed.
Lemma op_seen_as : forall e j p, kind_at T j = AS_KW -> p_toks p = T -> p_pos p = j -> op_seen e p = (2, AS_KW).
Proof. intros e j p H HT Hp. unfold op_seen, t_cur, op_of. rewrite cur_at, HT, Hp, H. reflexivity. Qed.
Lemma op_seen_is : forall e j p, e_texts e = X -> kw T X j "is" -> p_toks p = T -> p_pos p = j -> op_seen e p = (2, IS_KW).
Proof. intros e j p EX [KK W] HT Hp. unfold K in KK. unfold op_seen, t_cur. rewrite cur_at, HT, Hp, KK. rewrite (t_kw_word X e p j "is" EX Hp) by (vm_compute; discriminate). rewrite W. reflexivity. Qed.
Lemma no_op : forall j k q, op_at T j k -> power k = Some q -> In (kind_at T j) [L_PAREN; L_BRACK; DOT; AS_KW; IDENT; EOF] -> False.
Proof. intros j k q O H I. destruct (op_facts T j k q O H) as [N _]. now apply N. Qed.
Lemma ends_op : forall j k q t, op_at T j k -> power k = Some q -> q <= t -> ends_at (least t) j.
Proof.
  intros j k q t O H L. destruct (op_facts T j k q O H) as (NI & _ & L2 & _). split; [|split; [|split]].
  - intros k' q' O' H'. assert (k' = k) by (eapply op_unique; eauto). subst k'. assert (q' = q) by congruence. subst q'. unfold least. lia.
  - intros I. apply NI. unfold among in I. cbn in I |- *. tauto.
  - unfold K. intros E. elim NI. rewrite E. cbn. tauto.
  - intros [E _]. unfold K in E. elim NI. rewrite E. cbn. tauto.
Qed.
Lemma ends_word : forall j t, kind_at T j = AS_KW \/ kind_at T j = IDENT -> 2 <= t -> ends_at (least t) j.
Proof.
  intros j t H L. split; [|split; [|split]]; [|destruct H as [H|H]; unfold among; rewrite H; cbn; intuition discriminate|unfold least; lia|unfold least; lia].
  intros k q O W. exfalso. eapply no_op; eauto. destruct H as [H|H]; rewrite H; cbn; tauto.
Qed.
Lemma ex_pos : forall bp t i cs j, der (Ex bp t) i cs j -> 1 <= bp /\ bp <= 255.
Proof. intros bp t i cs j H. remember (Ex bp t) as x eqn:E. revert bp t E. induction H; intros b0 tt0 E; try discriminate; injection E as <- <-; eauto. Qed.
Lemma at_end : forall e r bp n cs c l j, e_texts e = X -> 1 <= bp -> ends_at bp j -> shape c l cs -> yields e T j l (expr_step (run n) r bp c) j (fun x l' => exists c, x = inr c /\ shape c l' cs).
Proof.
  intros e r bp n cs c l j EX L E Sh. unfold expr_step, at_. apply y_ask_any. intros b. intros p f rest HT Hp So Op I. unfold mbind at 1, current_op. fold (op_seen e p). pose proof (op_end e bp j p EX L E HT Hp) as LT. destruct (op_seen e p) as [ob ok']. cbn [fst] in LT.
  destruct (Nat.ltb_spec ob bp) as [_|]; [|lia]. exact (y_ret e T j l (inr c) (fun x l' => exists c, x = inr c /\ shape c l' cs) (ex_intro _ c (conj eq_refl Sh)) p f rest HT Hp So Op I).
Qed.
Definition read (i j : nat) (cs : list call) : option ex -> list ParserSpec.item -> Prop := fun o l => exists c b, o = Some (c, b) /\ (b = true -> blockish i) /\ shape c l cs.
Lemma ex_reads : forall bp t i cs j, der (Ex bp t) i cs j -> P (Ex bp t) i cs j -> forall n e r, ok EK e -> 3 * (j - i) + 1 < n -> ends_at bp j -> ends_at (least t) j -> yields e T i [] (r_expr (run n) r bp) j (read i j cs).
Proof.
  intros bp t i cs j D HP n e r O L E1 E2. destruct (ex_pos _ _ _ _ _ D) as [L1 _]. assert (EX : e_texts e = X) by apply O. destruct n as [|n]; [lia|]. change (r_expr (run (S n)) r bp) with (expr_bp_body (run n) r bp).
  destruct (HP n e r O) as (j0 & c0 & bl & LT & LE & HB & HA & W & HD); [lia|exact E2|]. unfold expr_bp_body. eapply (y_bind j0).
  - apply (y_marked e T _ i j0 (fun c (b : bool) l => b = bl /\ exists c', c = Extend c' /\ shape c' l c0)). eapply y_bind; [exact HA|]. cbn beta. intros o l (c & -> & Sh). apply y_ret. cbn [fst snd]. split; [split; auto; exists c; auto|]. intros m. destruct Sh as (g & k & ch & -> & _). eexists. cbn. exists g, k, ch. split; reflexivity.
  - cbn beta. intros [o b] l (m & c & ch & l2 & -> & EN & CL & HB' & c' & -> & Sh). cbn [fst snd closed] in *. subst o b. cbn [ended] in EN. destruct EN as (g & k & cc & -> & ->). destruct Sh as (g' & k' & cc' & EQ & Bg & C).
    apply app_inj_tail in EQ. destruct EQ as [<- EQ]. injection EQ as <- <-. assert (Sh : shape c' ([] ++ [INode (c_pos c') false k (IGone m :: g ++ cc)]) c0).
    { exists [], k, (IGone m :: g ++ cc). split; auto. split; [reflexivity|]. rewrite <- C. cbn. rewrite flat_map_app, Bg. reflexivity. }
    intros p f rest HT Hp So Op I. unfold mbind at 1, current_op. fold (op_seen e p). destruct (op_seen e p) as [ob ok'] eqn:OE. destruct (prefer_stmt r && bl && (ob <? bp)) eqn:B.
    + rewrite !andb_true_iff in B. destruct B as [[_ ->] B]. apply Nat.ltb_lt in B. destruct HD as [[-> ->]|HD]; [|specialize (HD p HT Hp); rewrite OE in HD; cbn in HD; lia].
      refine (y_ret e T j _ (Some (c', true)) (read i j cs) _ p f rest HT Hp So Op I). exists c', true. auto.
    + clear OE B. revert p f rest HT Hp So Op I. cut (yields e T j0 ([] ++ [INode (c_pos c') false k (IGone m :: g ++ cc)]) (c'0 <- expr_loop (run n) r bp c' ;; ret (Some (c'0, false))) j (read i j cs)); [intros Y; exact Y|].
      eapply (y_bind j (Q := fun c l => shape c l cs)); [|cbn beta; intros c l Sh'; apply y_ret; exists c, false; split; auto; split; [discriminate|exact Sh']].
      unfold expr_loop. change (yields e T j0 ([] ++ [INode (c_pos c') false k (IGone m :: g ++ cc)]) (loop (expr_step (run n) r bp) (id_cm c')) j (fun c l => shape c l cs)). eapply (walk_loop e _ _ _ _ _ _ _ W); [|exact Sh].
      intros c l Sh'. unfold id_cm. now apply at_end.
Qed.
Lemma ex_rd : forall bp t i cs j, der (Ex bp t) i cs j -> P (Ex bp t) i cs j -> forall n e r, ok EK e -> 3 * (j - i) + 1 < n -> ends_at bp j -> ends_at (least t) j -> rd T e i (expr_bp (run n) r bp) j cs any.
Proof. intros. eapply y_weaken; [eapply ex_reads; eauto|]. cbn beta. intros o l (c & b & -> & _ & Sh). split; [eapply shape_calls; eauto|exact Logic.I]. Qed.
Lemma ex_is : forall bp t i cs j, der (Ex bp t) i cs j -> P (Ex bp t) i cs j -> forall n e r, ok EK e -> 3 * (j - i) + 1 < n -> ends_at bp j -> ends_at (least t) j -> rd T e i (expr_bp (run n) r bp) j cs (fun o => is_some o = true).
Proof. intros. eapply y_weaken; [eapply ex_reads; eauto|]. cbn beta. intros o l (c & b & -> & _ & Sh). split; [eapply shape_calls; eauto|reflexivity]. Qed.
Lemma e_rd : forall t i cs j, der (Ex 1 t) i cs j -> P (Ex 1 t) i cs j -> forall n e, ok EK e -> 3 * (j - i) + 1 < n -> ends_at 1 j -> rd T e i (expr (run n)) j cs (eq true).
Proof.
  intros t i cs j D H n e O L E. unfold expr. rewrite <- (app_nil_r cs). eapply r_bind; [eapply ex_is; eauto|]. - eapply ends_more; [|exact E]. unfold least. lia. - intros o HO. apply r_ret. now rewrite HO.
Qed.
Lemma expect_rd : forall t i cs j, der (Ex 1 t) i cs j -> P (Ex 1 t) i cs j -> forall n e, ok EK e -> 3 * (j - i) + 1 < n -> ends_at 1 j -> rd T e i (expect_expr (run n)) j cs any.
Proof. intros t i cs j D H n e O L E. unfold expect_expr. rewrite <- (app_nil_r cs). eapply r_seq; [eapply e_rd; eauto|]. cbv iota. now apply r_ret. Qed.
(** ** Completed markers as parts *)
Lemma y_done : forall e i m j cs k, rc T e i m j cs k -> yields e T i [] (done m) j (fun o l => exists c, o = Some (c, is_blocklike k) /\ shape c l cs).
Proof. intros e i m j cs k H. unfold done. eapply y_bind; [exact H|]. cbn beta. intros c l [Sh <-]. apply y_ret. eauto. Qed.
Lemma y_plain : forall e i m j cs k, rc T e i m j cs k -> yields e T i [] (GrammarModel.plain m) j (fun o l => exists c, o = Some (c, false) /\ shape c l cs).
Proof. intros e i m j cs k H. unfold GrammarModel.plain. eapply y_bind; [exact H|]. cbn beta. intros c l [Sh _]. apply y_ret. eauto. Qed.
Lemma rc_eq : forall e i m j j' cs cs' k, rc T e i m j' cs' k -> j' = j -> cs' = cs -> rc T e i m j cs k.
Proof. intros e i m j j' cs cs' k H <- <-. exact H. Qed.
Lemma y_assert : forall {A} e i l t (m : M A) j Q, sees e T i t true -> yields e T i l m j Q -> yields e T i l (assert_ t ;; m) j Q.
Proof. intros A e i l t m j Q S H p f rest HT Hp So Op I. unfold assert_, mbind, ask. rewrite (S p HT Hp). now apply H. Qed.
Lemma c_assert : forall e i t m j cs k, sees e T i t true -> rc T e i m j cs k -> rc T e i (assert_ t ;; m) j cs k.
Proof. intros e i t m j cs k S H. unfold rc in *. eapply y_bind; [apply (r_assert e i t S)|]. cbn beta. intros a l [E _]. eapply y_weaken; [eapply y_frame; exact H|]. cbn beta. intros c l' (z & -> & Sh & Kc). split; [|exact Kc]. now apply shape_blank. Qed.
End Reads.
Ltac ihe :=
  match goal with
  | H : P _ _ (Ex 1 _) ?i _ _, D : ShapeSpec.der _ _ (Ex 1 _) ?i _ _ |- rd _ _ ?i (mbind (expr _) _) _ _ _ => eapply r_seq; [eapply (e_rd _ _ _ _ D H); side|]; cbv iota
  | H : P _ _ (Ex 1 _) ?i _ _, D : ShapeSpec.der _ _ (Ex 1 _) ?i _ _ |- rd _ _ ?i (expr _) _ _ _ => first [eapply (e_rd _ _ _ _ D H); side | eapply r_any; eapply (e_rd _ _ _ _ D H); side]
  | H : P _ _ (Ex 1 _) ?i _ _, D : ShapeSpec.der _ _ (Ex 1 _) ?i _ _ |- rd _ _ ?i (mbind (expect_expr _) _) _ _ _ => eapply r_then; [eapply (expect_rd _ _ _ _ D H); side|]
  | H : P _ _ (Ex 1 _) ?i _ _, D : ShapeSpec.der _ _ (Ex 1 _) ?i _ _ |- rd _ _ ?i (expect_expr _) _ _ _ => eapply (expect_rd _ _ _ _ D H); side
  | H : P _ _ (Ex ?b _) ?i _ _, D : ShapeSpec.der _ _ (Ex ?b _) ?i _ _ |- rd _ _ ?i (mbind (expr_bp _ _ ?b) (fun _ => _)) _ _ _ => eapply r_then; [eapply (ex_rd _ _ _ _ _ D H); side|]
  | H : P _ _ (Ex ?b _) ?i _ _, D : ShapeSpec.der _ _ (Ex ?b _) ?i _ _ |- rd _ _ ?i (expr_bp _ _ ?b) _ _ _ => eapply (ex_rd _ _ _ _ _ D H); side
  end.
Ltac ih ::= first [ihe | ih0].

Ltac solo := repeat match goal with H : In (kind_at ?T ?i) [?k] |- _ => lazymatch goal with _ : kind_at T i = k |- _ => fail | _ => assert (kind_at T i = k) by (destruct H as [H|[]]; symmetry; exact H) end end.
Section Cases.
Context {T : toks} {X : list text} {G : good T X}.
Notation der := (ShapeSpec.der T X).
Notation P := (ShapeDefs.P T X).
Notation K := (ShapeSpec.K T).
Notation among := (ShapeSpec.among T).
Notation id := (ShapeSpec.id T X).
Notation kw := (ShapeSpec.kw T X).
Notation head := (ShapeSpec.head T).
Notation ordinary := (ShapeSpec.ordinary T X).
Notation ends_at := (ShapeSpec.ends_at T X).
Notation blockish := (ShapeSpec.blockish T X).
Notation ok := (ShapeBasics.ok X).
Lemma case_e_any : forall t i c j, der (Ex 1 t) i c j -> P (Ex 1 t) i c j -> P Expr i c j.
Proof. enter. eapply e_rd; eauto. Qed.
Lemma case_e_opnd : forall bp t i c j, 1 <= bp -> bp <= 255 -> der (Opnd t) i c j -> P (Opnd t) i c j -> P (Ex bp t) i c j.
Proof.
  intros bp t i c j L1 L2 D H n e r O L E. facts. open_facts. prep. destruct (H n e r O L E) as (bl & HB & HA). exists j, c, bl. split; [lia|]. split; [lia|]. split; [exact HB|]. split; [exact HA|]. split; [apply w_nil|]. now left.
Qed.
Lemma r_op : forall e j k, okk k = true -> joined T j (parts k) = true -> rd T e j (bump k) (j + width k) [CToken k (width k)] any.
Proof. intros e j k O J. eapply y_weaken; [apply (y_bump e T (@g_end T X G) j [] k O J)|]. cbn beta. intros u l ->. split; [reflexivity|exact Logic.I]. Qed.
(** one more operator *)
Lemma one_more : forall bp t i cs0 j n e r q k' k cs, der (Ex bp t) i cs0 j -> P (Ex bp t) i cs0 j -> ok EK e -> 3 * (j - i) < n -> ends_at (least t) j -> bp <= q -> (forall p, p_toks p = T -> p_pos p = j -> op_seen e p = (q, k')) ->
  onestep (T := T) e (expr_step (run n) r bp) j cs0 id_cm k cs id_cm -> j < k -> k <= length T ->
  exists j0 c0 bl, i < j0 /\ j0 <= k /\ (bl = true -> blockish i) /\
      yields e T i [] (lhs (run n) r) j0 (fun o l => exists c, o = Some (c, bl) /\ shape c l c0) /\
      walk (T := T) e (expr_step (run n) r bp) j0 c0 id_cm k cs id_cm /\
      ((j0 = k /\ c0 = cs) \/ forall p, p_toks p = T -> p_pos p = j0 -> bp <= fst (op_seen e p)).
Proof.
  intros bp t i cs0 j n e r q k' k cs D H O L E LE OP ST L1 L2. facts. open_facts. prep. destruct (H n e r O) as (j0 & c0 & bl & LT & LE0 & HB & HA & W & HD); [lia|exact E|]. exists j0, c0, bl. split; [lia|]. split; [lia|]. split; [exact HB|]. split; [exact HA|]. split; [eapply w_snoc; eauto|].
  right. destruct HD as [[-> ->]|HD]; [|exact HD]. intros p HT Hp. rewrite (OP p HT Hp). exact LE.
Qed.
Lemma range_ok : forall i e r, In (kind_at T i) OK_ -> ~ In (kind_at T i) [MINUS; L_CURLY] -> sees e T i (range_operand r) true.
Proof.
  intros i e r I N. assert (I2 : In (kind_at T i) EXPR_FIRST). { eapply in_wider with (l := filter (fun x => negb (GrammarBase.mem x [MINUS; L_CURLY])) OK_); [|vm_compute; reflexivity]. apply filter_In. split; auto. now rewrite mem_false. }
  assert (N2 : kind_at T i <> L_CURLY) by (intros Q; apply N; rewrite Q; cbn; tauto). look.
Qed.
Lemma case_e_bin : forall bp t i l j k q t' r m, der (Ex bp t) i l j -> P (Ex bp t) i l j -> op_at T j k -> power k = Some q -> q <= t -> bp <= q -> (k = DOT_DOT -> ~ among (S j) [MINUS; L_CURLY]) -> der (Ex (S q) t') (j + width k) r m -> P (Ex (S q) t') (j + width k) r m -> P (Ex bp (Nat.min q t')) i (N (if kind_eqb k DOT_DOT then RANGE_EXPR else BIN_EXPR) (l ++ CToken k (width k) :: r)) m.
Proof.
  intros bp t i l j k q t' r m D H O Pk L1 L2 DD D2 H2 n e r0 OK L E. pose proof (op_len _ _ _ O Pk) as LJ. facts. open_facts. prep. destruct (op_facts T j k q O Pk) as (NK & DQ & Q1 & Q2 & OKK). assert (W : 1 <= width k) by (destruct k; cbn; lia). assert (EX : e_texts e = X) by apply OK.
  eapply (one_more bp t i l j n e r0 q k); eauto; [lia|eapply ends_op; eauto|intros p HT Hp; eapply op_seen_at; eauto| |lia].
  intros c l0 Sh. unfold expr_step, at_, id_cm. apply y_ask with (kind_eqb k DOT_DOT). { rewrite <- DQ. now apply sees_at1. }
  unfold current_op. eapply (y_read_bind e T j _ (fun e p => op_seen e p) (q, k)); [intros p HT Hp; eapply op_seen_at; eauto|]. cbn beta iota zeta. destruct (Nat.ltb_spec q bp) as [|_]; [lia|].
  assert (NA : kind_at T j <> AS_KW) by (intros Q; apply NK; rewrite Q; cbn; tauto). assert (NI : kind_at T j <> IDENT) by (intros Q; apply NK; rewrite Q; cbn; tauto). yno. yno.
  eapply y_bind; [eapply (y_pre e _ (if kind_eqb k DOT_DOT then RANGE_EXPR else BIN_EXPR) false); [destruct (kind_eqb k DOT_DOT); reflexivity|exact Sh|]|].
  - eapply r_eq.
    { eapply r_then; [apply r_op; [exact OKK|apply O]|]. apply r_ask with (b := false).
      { destruct (kind_eqb_reflect k DOT_DOT) as [QD|_]; [|apply sees_and_l; apply sees_const]. subst k. apply sees_and_r. change false with (negb true). apply sees_not. change (width DOT_DOT) with 1 in *. rewrite Nat.add_1_r in *. apply range_ok; [assumption|]. now apply DD. }
      cbv iota. eapply r_bind; [eapply ex_is; [exact D2|exact H2|exact OK|lia| |]|].
      - eapply ends_more; [|exact E]. unfold least. lia.
      - eapply ends_more; [|exact E]. unfold least. lia.
      - intros o HO. rewrite HO. apply r_skip. apply r_ret. reflexivity. }
    reflexivity. reflexivity.
  - cbn beta. intros [c' u] l' [EU Sh']. cbn [fst snd] in *. subst u. apply y_ret. exists c'. split; auto. cbn [app] in Sh'. rewrite ?app_nil_r in Sh'. exact Sh'.
Qed.
Lemma case_e_cast : forall bp t i c j ty k, der (Ex bp t) i c j -> P (Ex bp t) i c j -> K j AS_KW -> bp <= 2 -> 2 <= t -> der (Type_ true) (S j) ty k -> P (Type_ true) (S j) ty k -> P (Ex bp 255) i (N CAST_EXPR (c ++ tk AS_KW :: ty)) k.
Proof.
  intros bp t i c j ty k D H A L1 L2 D2 H2 n e r0 OK L E. facts. open_facts. prep. assert (EX : e_texts e = X) by apply OK.
  eapply (one_more bp t i c j n e r0 2 AS_KW); eauto; [lia|apply ends_word; auto|intros p HT Hp; eapply op_seen_as; eauto|].
  intros c0 l0 Sh. unfold expr_step, id_cm. yno. unfold current_op. eapply (y_read_bind e T j _ (fun e p => op_seen e p) (2, AS_KW)); [intros p HT Hp; eapply op_seen_as; eauto|]. cbn beta iota zeta. destruct (Nat.ltb_spec 2 bp) as [|_]; [lia|]. yyes.
  eapply (y_bind k).
  - unfold cast_expr. apply y_assert; [look|]. eapply (y_pre_c e _ CAST_EXPR tt); [reflexivity|exact Sh|]. eapply r_eq. { go. } fin. reflexivity.
  - cbn beta. intros c' l' Sh'. apply y_ret. exists c'. split; auto. rewrite ?app_nil_r in Sh'. exact Sh'.
Qed.

Lemma case_e_is : forall bp t i c j ty k, der (Ex bp t) i c j -> P (Ex bp t) i c j -> kw j "is" -> bp <= 2 -> 2 <= t -> der IsTys (S j) ty k -> P IsTys (S j) ty k -> P (Ex bp 255) i (N IS_EXPR (c ++ tk IS_KW :: ty)) k.
Proof.
  intros bp t i c j ty k D H A L1 L2 D2 H2 n e r0 OK L E. pose proof A as A'. facts. open_facts. prep. assert (EX : e_texts e = X) by apply OK.
  eapply (one_more bp t i c j n e r0 2 IS_KW); eauto; [lia|apply ends_word; auto|intros p HT Hp; eapply op_seen_is; eauto; now split|].
  intros c0 l0 Sh. unfold expr_step, id_cm. yno. unfold current_op. eapply (y_read_bind e T j _ (fun e p => op_seen e p) (2, IS_KW)); [intros p HT Hp; eapply op_seen_is; eauto; now split|]. cbn beta iota zeta. destruct (Nat.ltb_spec 2 bp) as [|_]; [lia|]. yno. yyes.
  destruct (H2 n e) as (j0 & c1 & d & J1 & J2 & -> & R1 & R2); [side|lia|]. eapply (y_bind k).
  - unfold is_expr. fold (is_step (run n)). eapply (y_pre_c e _ IS_EXPR tt); [reflexivity|exact Sh|]. eapply r_eq. { stp. eapply r_then; [exact R1|]. eapply r_then; [apply r_loop; exact R2|]. stps. } fin. reflexivity.
  - cbn beta. intros c' l' Sh'. apply y_ret. exists c'. split; auto. rewrite ?app_nil_r in Sh'. exact Sh'.
Qed.
Lemma case_is_one : forall i t j, der (Type_ true) i t j -> P (Type_ true) i t j -> ~ K j PIPE -> P IsTys i t j.
Proof. enter. exists j, t, []. split; [lia|]. split; [lia|]. split; [fin|]. split; [eapply (ty _ _ _ _ _ _ H0); side|]. apply turn_end. unfold is_step. eapply r_eq; [stps|fin|fin]. Qed.
Lemma case_is_more : forall i t j l k, der (Type_ true) i t j -> P (Type_ true) i t j -> K j PIPE -> der IsTys (S j) l k -> P IsTys (S j) l k -> P IsTys i (t ++ tk PIPE :: l) k.
Proof.
  enter. destruct (H3 n e) as (j0 & c0 & d & J1 & J2 & EQ & R1 & R2); [side|lia|]. exists j, t, (tk PIPE :: l). split; [lia|]. split; [lia|]. split; [fin|]. split; [eapply (ty _ _ _ _ _ _ H0); side|]. rewrite EQ. change (tk PIPE :: c0 ++ d) with ((tk PIPE :: c0) ++ d). eapply (turn_go _ _ _ _ j0); [|lia|lia|exact R2]. unfold is_step. eapply r_eq; [stps; eapply r_then; [exact R1|]; stps|fin|fin].
Qed.

(** * Operands *)
Lemma word_dec : forall i s, word X i = str s \/ text_eqb (word X i) (str s) = false.
Proof. intros i s. destruct (text_eqb (word X i) (str s)) eqn:E; [left; now apply text_eqb_spec|now right]. Qed.
Lemma no_quant : forall e i, e_texts e = X -> ordinary i -> sees e T i (t_and (t_cur IDENT) is_at_quant_kw) false.
Proof.
  intros e i EX (_ & _ & H & _). destruct (kind_eqb (kind_at T (S i)) COLON || kind_eqb (kind_at T (S i)) IDENT) eqn:Q.
  - assert (A : among (S i) [COLON; IDENT]) by (apply orb_true_iff in Q; destruct Q as [Q|Q]; apply kind_eqb_spec in Q; unfold ShapeSpec.among; rewrite Q; cbn; tauto).
    assert (W : forall s, In s ["forall"; "exists"; "choose"]%string -> word X i <> str s) by (intros s I E; exact (H s I E A)). look.
  - apply orb_false_iff in Q. destruct Q as [Q1 Q2]. intros p HT Hp. unfold t_and, is_at_quant_kw. rewrite !nth_at_joined, HT, Hp. cbn [parts spelling joined]. rewrite Nat.add_1_r, Q1, Q2. cbn [orb andb]. now rewrite !andb_false_r.
Qed.
Lemma atom_quiet : forall t bl i c j, der (Atom t bl) i c j -> forall e, e_texts e = X -> sees e T i (t_and (t_cur IDENT) is_at_quant_kw) false.
Proof.
  intros t bl i c j H. facts. open_facts. destruct (kind_eqb_reflect (kind_at T i) IDENT) as [Q|Q]; [|intros e EX; look].
  inversion H; subst; try match goal with D : ShapeSpec.der _ _ (Loop _ _) _ _ _ |- _ => inversion D; subst end; intros e EX. all: try (match goal with O : _ -> ordinary _ |- _ => apply no_quant; [exact EX|apply O; exact Q] end). all: clear H; facts; open_facts; prep; try congruence. all: try (exfalso; match goal with I : In (kind_at T _) ?l, Q : kind_at T _ = IDENT |- _ => rewrite Q in I; cbn in I; intuition discriminate end).
  all: try match goal with I : In _ assert_names |- _ => cbn [In assert_names] in I; repeat destruct I as [<-|I]; try destruct I end.
  all: [> look ..].
Qed.

Lemma atom_blockish : forall t i c j, der (Atom t true) i c j -> blockish i.
Proof.
  intros t i c j H. unfold ShapeSpec.blockish, ShapeSpec.kw, ShapeSpec.among, ShapeSpec.K. inversion H; subst; try match goal with D : ShapeSpec.der _ _ (Loop _ _) _ _ _ |- _ => inversion D; subst end; facts; open_facts; prep.
  all: [> match goal with Q : In (kind_at T ?x) [L_CURLY] |- In (kind_at T ?x) _ \/ _ => left; cbn in Q |- *; tauto | Q : kind_at T ?x = _ |- In (kind_at T ?x) _ \/ _ => rewrite Q; cbn; tauto end ..].
Qed.
Lemma prim_atom : forall bl i c j, der (Prim bl) i c j -> exists t bl0 c0 j0, der (Atom t bl0) i c0 j0 /\ (bl = true -> bl0 = true).
Proof.
  intros bl i c j H. remember (Prim bl) as x eqn:E. revert bl E. induction H; intros b0 E; try discriminate; injection E as <-; eauto 6. all: match goal with IH : forall _, Prim _ = Prim _ -> _ |- _ => destruct (IH _ eq_refl) as (? & ? & ? & ? & ? & _) end; do 4 eexists; split; [eassumption|discriminate].
Qed.
Lemma prim_blockish : forall i c j, der (Prim true) i c j -> blockish i.
Proof. intros i c j H. destruct (prim_atom _ _ _ _ H) as (t & b & c0 & j0 & D & E). rewrite (E eq_refl) in D. eapply atom_blockish; eauto. Qed.
Lemma lhs_atom : forall t b0 i d k, der (Atom t b0) i d k -> forall n e r j0 c0 bl0 j (Q : ex -> list ParserSpec.item -> Prop), ok EK e ->
  yields e T i [] (atom_expr (run n)) j0 (fun o l => exists c, o = Some (c, bl0) /\ shape c l c0) ->
  (forall c l, shape c l c0 -> yields e T j0 l (postfix_expr (run n) (c, bl0, negb (prefer_stmt r && bl0))) j Q) ->
  yields e T i [] (lhs (run n) r) j (fun o l => exists x, o = Some x /\ Q x l).
Proof.
  intros t b0 i d k D n e r j0 c0 bl0 j Q O HA HP. assert (EX : e_texts e = X) by apply O. assert (SK : e_sk e = SMove) by apply O. unfold lhs. pose proof (atom_quiet _ _ _ _ _ D e EX) as NQ. facts. open_facts. prep. yno. yno. apply y_ask with false; [exact NQ|cbv iota].
  apply y_ask with false. { destruct (kind_eqb_reflect (kind_at T i) IDENT) as [QI|QI]; [match goal with W : _ -> forall s, _ |- _ => specialize (W QI) end; look|look]. } cbv iota. do 5 yno.
  eapply (y_read_bind e T i _ (fun e _ => e_sk e) SMove); [intros; exact SK|]. cbn beta. apply y_ask with false; [look|cbv iota]. eapply y_bind; [exact HA|]. cbn beta. intros o l (c & -> & Sh). eapply y_bind; [apply HP; exact Sh|]. cbn beta. intros x l' q. apply y_ret. eauto.
Qed.
Lemma post_ends : forall e n c bl a j l cs, ends_at 255 j -> shape c l cs -> yields e T j l (postfix_step (run n) (c, bl, a)) j (fun r l' => exists x, r = inr x /\ x = (c, bl) /\ shape c l' cs).
Proof. intros e n c bl a j l cs (_ & N & _) Sh. unfold ShapeSpec.among in N. unfold postfix_step. yno. yno. yno. apply y_ret. exists (c, bl). auto. Qed.
Lemma case_o_prim : forall bl i c j, der (Prim bl) i c j -> P (Prim bl) i c j -> P (Opnd 255) i c j.
Proof.
  intros bl i c j D H n e r O L E. destruct (H n e O L) as (j0 & c0 & bl0 & L1 & L2 & HA & W). exists bl. split; [intros ->; eapply prim_blockish; eauto|].
  destruct (prim_atom _ _ _ _ D) as (t0 & b0 & c1 & j1 & DA & _). eapply y_weaken; [eapply (lhs_atom _ _ _ _ _ DA n e r j0 c0 bl0 j (fun x l => exists c', x = (c', bl) /\ shape c' l c) O HA)|cbn beta; intros o l (x & -> & c' & -> & Sh); eauto].
  intros c2 l2 Sh. unfold postfix_expr. fold (postfix_step (run n)). change (c2, bl0, negb (prefer_stmt r && bl0)) with ((fun c => (c, bl0, negb (prefer_stmt r && bl0))) c2).
  eapply (walk_loop e _ _ _ _ _ _ _ (W _ _)); [|exact Sh]. intros c3 l3 Sh3. eapply y_weaken; [eapply post_ends; [exact E|exact Sh3]|]. cbn beta. intros y l4 (x & -> & -> & Sh4). exists (c3, bl). split; auto. exists c3. auto.
  Unshelve. intros ->. now rewrite andb_false_r.
Qed.
Lemma case_o_greedy : forall bl i c j, der (Atom 0 bl) i c j -> P (Atom 0 bl) i c j -> P (Opnd 0) i c j.
Proof.
  intros bl i c j D H n e r O L E. pose proof (H n e O L (fun _ => E)) as HA. exists bl. split; [intros ->; eapply atom_blockish; eauto|].
  eapply y_weaken; [eapply (lhs_atom _ _ _ _ _ D n e r j c bl j (fun x l => exists c', x = (c', bl) /\ shape c' l c) O HA)|cbn beta; intros o l (x & -> & c' & -> & Sh); eauto].
  intros c2 l2 Sh. unfold postfix_expr. fold (postfix_step (run n)). change (c2, bl, negb (prefer_stmt r && bl)) with ((fun c => (c, bl, negb (prefer_stmt r && bl))) c2).
  eapply (walk_loop e _ _ _ _ _ _ _ (w_nil e _ _ _ _)); [|exact Sh]. intros c3 l3 Sh3. eapply y_weaken; [eapply post_ends; [|exact Sh3]; eapply ends_more; [|exact E]; unfold least; lia|]. cbn beta. intros y l4 (x & -> & -> & Sh4). exists (c3, bl). split; auto. exists c3. auto.
Qed.
Ltac unary := exists false; split; [discriminate|]; unfold lhs, unary; repeat first [yyes|yno]; eapply y_plain; eapply rc_eq; [eapply c_node; [reflexivity|go]|fin|fin].
Lemma case_o_borrow : forall t i c j, K i AMP -> ~ K (S i) MUT_KW -> der (Ex 255 t) (S i) c j -> P (Ex 255 t) (S i) c j -> P (Opnd t) i (N BORROW_EXPR (tk AMP :: c)) j.
Proof. intros t i c j K1 K2 D H n e r O L E. enter. unary. Qed.
Lemma case_o_borrow_mut : forall t i c j, K i AMP -> K (S i) MUT_KW -> der (Ex 255 t) (S (S i)) c j -> P (Ex 255 t) (S (S i)) c j -> P (Opnd t) i (N BORROW_EXPR (tk AMP :: tk MUT_KW :: c)) j.
Proof. intros t i c j K1 K2 D H n e r O L E. enter. unary. Qed.
Lemma case_o_prefix : forall t k n i c j, In (k, n) [(MOVE_KW, RESOURCE_EXPR); (STAR, DEREF_EXPR); (BANG, BANG_EXPR); (MINUS, MINUS_EXPR)] -> K i k -> der (Ex 255 t) (S i) c j -> P (Ex 255 t) (S i) c j -> P (Opnd t) i (N n (tk k :: c)) j.
Proof. intros t k m i c j I K1 D H n e r O L E. enter. cbn [In] in I. destruct I as [I|[I|[I|[I|[]]]]]; injection I as <- <-; unary. Qed.
Lemma case_o_copy : forall t i c j, kw i "copy" -> der (Ex 255 t) (S i) c j -> P (Ex 255 t) (S i) c j -> P (Opnd t) i (N RESOURCE_EXPR (tk COPY_KW :: c)) j.
Proof. intros t i c j K1 D H n e r O L E. enter. unary. Qed.
(** * Lambdas *)
Lemma case_lam_id : forall i, id i -> ~ K (S i) COLON -> P LamP i (N LAMBDA_PARAM IPAT) (S i).
Proof. case (unfold lambda_param, ident_pat_or_recover; stps). Qed.
Lemma case_lam_wild : forall i, K i UNDERSCORE -> ~ K (S i) COLON -> P LamP i (N LAMBDA_PARAM WPAT) (S i).
Proof. case (unfold lambda_param, ident_pat_or_recover; stps). Qed.
Lemma case_lam_typed : forall i t j, id i -> K (S i) COLON -> der (Type_ true) (S (S i)) t j -> P (Type_ true) (S (S i)) t j -> P LamP i (N LAMBDA_PARAM (IPAT ++ tk COLON :: t)) j.
Proof. case (unfold lambda_param, ident_pat_or_recover, type_annotation; stps). Qed.
Lemma case_o_lambda : forall i l j t c k, K i PIPE -> der (Comma LamP PIPE) (S i) l j -> P (Comma LamP PIPE) (S i) l j -> der (Ex 1 t) (S j) c k -> P (Ex 1 t) (S j) c k -> ~ K k SPEC_KW -> P (Opnd 0) i (N LAMBDA_EXPR (N LAMBDA_PARAM_LIST (tk PIPE :: l ++ [tk PIPE]) ++ c)) k.
Proof.
  intros i l j t c k K1 D H D2 H2 K2 n e r O L E. pose proof (list_head _ _ _ _ _ _ D eq_refl) as HC. facts. open_facts. prep. exists false. split; [discriminate|]. unfold lhs. yyes. eapply y_bind; [eapply (c_marked _ _ LAMBDA_EXPR tt); [reflexivity|]|].
  - eapply r_eq. { eapply r_seq; [unfold lambda_param_list; eapply r_eq; [go|fin|fin]|]. cbv iota. unfold opt_spec_block_expr. go. } fin. fin.
  - cbn beta. intros x l' (c' & -> & _ & Sh). apply y_ret. exists c'. split; [reflexivity|]. cbn [app] in Sh. rewrite ?app_nil_r in Sh. exact Sh.
Qed.
(** * Calls, indices, fields *)
Lemma case_args : forall i l j, K i L_PAREN -> der (Comma Arg R_PAREN) (S i) l j -> P (Comma Arg R_PAREN) (S i) l j -> P Args i (N VALUE_ARG_LIST (tk L_PAREN :: l ++ [tk R_PAREN])) (S j).
Proof. case (unfold value_arg_list; fold (value_arg (run n)); stps). Qed.
Lemma case_arg : forall t i c j, der (Ex 1 t) i c j -> P (Ex 1 t) i c j -> P Arg i (N VALUE_ARG c) j.
Proof. case (unfold value_arg; stps). Qed.
Lemma case_pr_atom : forall bl i c j, der (Atom 255 bl) i c j -> P (Atom 255 bl) i c j -> P (Prim bl) i c j.
Proof.
  intros bl i c j D H n e O L. facts. open_facts. prep. exists j, c, bl. split; [lia|]. split; [lia|]. split; [apply H; auto; discriminate|]. intros a A. destruct bl; [apply w_nil|]. rewrite (A eq_refl). apply w_nil.
Qed.
(** one more step *)
Lemma prim_more : forall bl i f j k cs n e, der (Prim bl) i f j -> P (Prim bl) i f j -> ok EK e -> 3 * (j - i) + 0 < n -> j < k -> k <= length T ->
  (forall a, (bl = false -> a = true) -> onestep (T := T) e (postfix_step (run n)) j f (fun c => (c, bl, a)) k cs (fun c => (c, false, true))) ->
  exists j0 c0 bl0, i < j0 /\ j0 <= k /\
      yields e T i [] (atom_expr (run n)) j0 (fun o l => exists c, o = Some (c, bl0) /\ shape c l c0) /\
      (forall a, (bl0 = false -> a = true) -> walk (T := T) e (postfix_step (run n)) j0 c0 (fun c => (c, bl0, a)) k cs (fun c => (c, false, true))).
Proof.
  intros bl i f j k cs n e D H O L L1 L2 ST. destruct (H n e O L) as (j0 & c0 & bl0 & M1 & M2 & HA & W). exists j0, c0, bl0. split; [lia|]. split; [lia|]. split; [exact HA|]. intros a A. eapply w_snoc; [apply W; exact A| |exact L1|exact L2]. apply ST. destruct bl; [discriminate|auto].
Qed.
Lemma case_pr_call : forall i f j a k, der (Prim false) i f j -> P (Prim false) i f j -> der Args j a k -> P Args j a k -> P (Prim false) i (N CALL_EXPR (f ++ a)) k.
Proof.
  intros i f j a k D H D2 H2 n e O L. facts. open_facts. prep. solo. eapply (prim_more _ i f j); [exact D|exact H|exact O|lia|lia|lia|]. intros a0 A. rewrite (A eq_refl). intros c l Sh. unfold postfix_step. yyes. eapply y_bind.
  - unfold call_expr. apply y_assert; [look|]. eapply (y_pre_c e _ CALL_EXPR tt); [reflexivity|exact Sh|]. eapply r_eq. { go. } fin. reflexivity.
  - cbn beta. intros c' l' Sh'. apply y_ret. exists c'. split; [reflexivity|]. cbn [app] in Sh'. rewrite ?app_nil_r in Sh'. exact Sh'.
Qed.
Lemma case_pr_index : forall i f j t c k, der (Prim false) i f j -> P (Prim false) i f j -> K j L_BRACK -> der (Ex 1 t) (S j) c k -> P (Ex 1 t) (S j) c k -> K k R_BRACK -> P (Prim false) i (N INDEX_EXPR (f ++ tk L_BRACK :: c ++ [tk R_BRACK])) (S k).
Proof.
  intros i f j t c k D H K1 D2 H2 K2 n e O L. facts. open_facts. prep. assert (k < length T) by (apply next_at; congruence). eapply (prim_more _ i f j); [exact D|exact H|exact O|lia|lia|lia|]. intros a0 A. rewrite (A eq_refl). intros c0 l Sh. unfold postfix_step. yno. yyes. eapply y_bind.
  - unfold index_expr. apply y_assert; [look|]. eapply (y_pre_c e _ INDEX_EXPR tt); [reflexivity|exact Sh|]. eapply r_eq. { go. } fin. reflexivity.
  - cbn beta. intros c' l' Sh'. apply y_ret. exists c'. split; [reflexivity|]. cbn [app] in Sh'. rewrite ?app_nil_r in Sh'. exact Sh'.
Qed.
Ltac dot K := eapply y_bind; [unfold postfix_dot_expr; apply y_assert; [look|]; eapply (y_pre_c _ _ K tt); [reflexivity|eassumption|eapply r_eq]|].
Ltac undot := cbn beta; intros c' l' Sh'; apply y_ret; exists c'; split; [reflexivity|]; cbn [app] in Sh'; repeat rewrite app_nil_r in Sh'; exact Sh'.
Lemma case_pr_pos : forall bl i f j, der (Prim bl) i f j -> P (Prim bl) i f j -> K j DOT -> K (S j) INT_NUMBER -> P (Prim false) i (N DOT_EXPR (f ++ tk DOT :: N NAME_REF [tk INT_NUMBER])) (S (S j)).
Proof.
  intros bl i f j D H K1 K2 n e O L. facts. open_facts. prep. assert (S j < length T) by (apply next_at; congruence). eapply (prim_more _ i f j); [exact D|exact H|exact O|lia|lia|lia|]. intros a0 A c0 l Sh. unfold postfix_step. yno. yno. yyes. dot DOT_EXPR. { stps. eapply r_bump_any; [eassumption|discriminate]. } reflexivity. reflexivity. undot.
Qed.
Lemma case_pr_field : forall bl i f j, der (Prim bl) i f j -> P (Prim bl) i f j -> K j DOT -> K (S j) IDENT -> ~ among (S (S j)) [L_PAREN; COLON_COLON] -> (K (S (S j)) L_ANGLE -> apart T (S j) \/ no_args T (S (S j))) -> P (Prim false) i (N DOT_EXPR (f ++ tk DOT :: NREF)) (S (S j)).
Proof.
  intros bl i f j D H K1 K2 N1 N2 n e O L. facts. open_facts. prep. assert (S j < length T) by (apply next_at; congruence). eapply (prim_more _ i f j); [exact D|exact H|exact O|lia|lia|lia|]. intros a0 A c0 l Sh. unfold postfix_step. yno. yno. yyes. destruct n as [|n]; [lia|]. dot DOT_EXPR. { stps. eapply y_weaken; [apply (y_field_end e T (@g_end T X G) (run (S n)) (run n) eq_refl eq_refl j [])|]; auto. cbn beta. intros x l0 [-> ->]. split; reflexivity. } reflexivity. reflexivity. undot.
Qed.
Lemma case_pr_method : forall bl i f j a k, der (Prim bl) i f j -> P (Prim bl) i f j -> K j DOT -> K (S j) IDENT -> der Args (S (S j)) a k -> P Args (S (S j)) a k -> P (Prim false) i (N METHOD_CALL_EXPR (f ++ tk DOT :: NREF ++ a)) k.
Proof.
  intros bl i f j a k D H K1 K2 D2 H2 n e O L. facts. open_facts. prep. solo. eapply (prim_more _ i f j); [exact D|exact H|exact O|lia|lia|lia|]. intros a0 A c0 l Sh. unfold postfix_step. yno. yno. yyes. dot METHOD_CALL_EXPR. { stp. stp. stp. apply r_ask with (b := true). { intros p HT Hp. unfold t_or. assert (LA : t_ts [L_PAREN; COLON_COLON] e p = true) by (revert p HT Hp; change (sees e T (S (S j)) (t_ts [L_PAREN; COLON_COLON]) true); look). now rewrite LA. } cbv iota. unfold opt_type_arg_list_for_expr. go. } reflexivity. reflexivity. undot.
Qed.
Lemma case_pr_method_t : forall bl i f j b k a m, der (Prim bl) i f j -> P (Prim bl) i f j -> K j DOT -> K (S j) IDENT -> (K (S (S j)) L_ANGLE -> ~ apart T (S j)) -> der EArgs (S (S j)) b k -> P EArgs (S (S j)) b k -> der Args k a m -> P Args k a m -> P (Prim false) i (N METHOD_CALL_EXPR (f ++ tk DOT :: NREF ++ b ++ a)) m.
Proof.
  intros bl i f j b k a m D H K1 K2 NA D2 H2 D3 H3 n e O L. facts. open_facts. prep. solo. eapply (prim_more _ i f j); [exact D|exact H|exact O|lia|lia|lia|]. intros a0 A c0 l Sh. unfold postfix_step. yno. yno. yyes. dot METHOD_CALL_EXPR.
  { stp. stp. stp. apply r_ask with (b := true).
    { destruct (kind_eqb_reflect (kind_at T (S (S j))) L_ANGLE) as [Q|Q]; [|assert (kind_at T (S (S j)) = COLON_COLON) by (match goal with I : In (kind_at T (S (S j))) [L_ANGLE; COLON_COLON] |- _ => cbn in I; intuition congruence end); intros p HT Hp; unfold t_or; assert (LA : t_ts [L_PAREN; COLON_COLON] e p = true) by (revert p HT Hp; change (sees e T (S (S j)) (t_ts [L_PAREN; COLON_COLON]) true); look); now rewrite LA].
      intros p HT Hp. unfold t_or, t_and. rewrite (close e (S j) ltac:(rewrite Q; discriminate) (NA Q) p HT Hp). assert (LA : t_at L_ANGLE e p = true) by (revert p HT Hp; change (sees e T (S (S j)) (t_at L_ANGLE) true); look). rewrite LA. apply orb_true_r. }
    cbv iota. eapply r_seq; [eapply H2; [envs|lia|]|]. { intros _ Q. exists (S j). split; auto. } cbv iota. go. }
  reflexivity. reflexivity. undot.
Qed.
End Cases.
