(** The parser reads an expression as its spelling demands (C20). *)
From Coq Require Import String.
From Verif Require Import Base SyntaxKind ParserModel GrammarBase GrammarModel AddressModel TreeSinkModel TreeSinkSpec TreeSinkProps ParserSpec ParserProofs ParserProofs2 ParserProps GrammarDisc PrecSpec PrecRun PrecBasics.
Close Scope string_scope.
Close Scope N_scope.
Open Scope nat_scope.


Section Parse.
Variables (e : env) (T : toks).
Hypothesis NE : no_end T.
Let X := e_texts e.
#[local] Notation y_marked_c := (PrecBasics.y_marked_c e T).
#[local] Notation y_marked_a := (PrecBasics.y_marked_a e T).
#[local] Notation sees_cur := (PrecBasics.sees_cur e T).
#[local] Notation sees_at := (PrecBasics.sees_at e T).
#[local] Notation sees_nth_at := (PrecBasics.sees_nth_at e T).
#[local] Notation sees_nth := (PrecBasics.sees_nth e T).
#[local] Notation sees_ts := (PrecBasics.sees_ts e T).
#[local] Notation sees_nth_ts := (PrecBasics.sees_nth_ts e T).
#[local] Notation sees_and := (PrecBasics.sees_and e T).
#[local] Notation sees_or := (PrecBasics.sees_or e T).
#[local] Notation sees_not := (PrecBasics.sees_not e T).
#[local] Notation sees_const := (PrecBasics.sees_const e T).
#[local] Notation sees_and_l := (PrecBasics.sees_and_l e T).
#[local] Notation sees_and_r := (PrecBasics.sees_and_r e T).
#[local] Notation sees_kw := (PrecBasics.sees_kw e T).
#[local] Notation y_no_literal := (PrecBasics.y_no_literal e T).
#[local] Notation sees_at1 := (PrecBasics.sees_at1 e T).
#[local] Notation sees_nth_at1 := (PrecBasics.sees_nth_at1 e T).
#[local] Notation sees_is := (PrecBasics.sees_is e T).
#[local] Notation one := (PrecBasics.one T).
#[local] Notation y_literal := (PrecBasics.y_literal e T NE).
#[local] Notation y_name_ref := (PrecBasics.y_name_ref e T NE).
#[local] Notation y_path_mode := (PrecBasics.y_path_mode e T NE).
Lemma sees_kwi : forall i s, nth i X [] <> str s -> sees e T i (t_kwi s) false.
Proof. intros i s N p HT Hp. unfold t_kwi. rewrite (sees_kw i s N p HT Hp). apply andb_false_r. Qed.
Ltac name_no H := apply sees_kwi; apply H; cbn; tauto.
Lemma sees_no_assert : forall i, plain X i -> sees e T i is_assert_ident false.
Proof.
  intros i H p HT Hp. unfold is_assert_ident.
  assert (N : forall s, In s special_names -> t_kwi s e p = false) by (intros s IN; apply (sees_kwi i s); auto).
  rewrite !N by (cbn; tauto). reflexivity.
Qed.
Section Atoms.
Variables (R R0 R1 : recs).
Hypothesis RP : r_path R = path_body R0.
Hypothesis RP0 : r_path R0 = path_body R1.
Hypothesis RT0 : r_type R0 = type_body R1.
Hypothesis RT : r_type R = type_body R0.
Lemma y_path_expr : forall i, kind_at T i = IDENT -> ~ In (kind_at T (S i)) [COLON_COLON; L_CURLY] -> (kind_at T (S i) = L_ANGLE -> no_args T (S i)) -> yields e T i [] (path_expr R) (S i) (fun c l => shape c l (calls Var)).
Proof.
  intros i K N NA. unfold path_expr, path. rewrite RP. eapply y_bind.
  - apply (y_marked_c _ PATH_EXPR i (S i) (fun (_ : unit) l => flat_map build l = path_calls)); [reflexivity|]. eapply y_bind; [apply y_path_mode; [exact K|intros Q; apply N; rewrite Q; cbn; tauto|]; intros l0; cbn [opt_path_type_arg_list]; eapply y_bind; [eapply (y_no_type_args T NE R0 R1); eauto; intros Q; apply N; rewrite Q; cbn; tauto|cbn beta; intros r l1 [_ ->]; now apply y_ret]|]. cbn beta. intros b l [-> B].
    unfold cur. no; [eapply sees_is; [apply sees_cur; reflexivity|]; destruct (kind_eqb_reflect (kind_at T (S i)) L_CURLY) as [Q|]; auto; elim N; rewrite Q; cbn; tauto|]. apply y_ret. cbn. auto.
  - cbn beta. intros x l (c & a & ch & -> & _ & -> & B). apply y_ret. exists [], PATH_EXPR, ch. split; auto. split; [reflexivity|]. cbn. rewrite B. reflexivity.
Qed.
Lemma y_atom_var : forall i, kind_at T i = IDENT -> plain X i -> ~ In (kind_at T (S i)) [COLON_COLON; L_CURLY] -> (kind_at T (S i) = L_ANGLE -> no_args T (S i)) -> yields e T i [] (atom_expr R) (S i) (fun o l => exists c, o = Some (c, false) /\ shape c l (calls Var)).
Proof.
  intros i K P N NA. unfold atom_expr. eapply y_bind; [apply (y_no_literal i IDENT); auto; cbn; tauto|]. cbn beta. intros o l [-> B].
  no; [apply sees_and_l; apply sees_kwi; apply P; cbn; tauto|]. no; [apply sees_and_l; apply sees_kw; apply P; cbn; tauto|]. unfold atom_rest.
  no; [apply sees_and_l; now apply sees_no_assert|]. no; [apply sees_and_l; apply sees_kw; apply P; cbn; tauto|].
  yes. { intros p HT Hp. unfold is_path_start. rewrite (sees_cur i IDENT IDENT K p HT Hp). rewrite kind_eqb_refl, orb_true_r. reflexivity. }
  unfold plain. eapply y_bind; [apply y_frame; apply y_path_expr; auto|]. cbn beta. intros c l' (x & -> & g & k & ch & -> & Bg & Bn). apply y_ret. exists c. split; auto. exists (l ++ g), k, ch. split; [now rewrite app_assoc|]. split; auto. unfold blank in *. rewrite flat_map_app, B, Bg. reflexivity.
Qed.
Lemma y_atom_lit : forall i k, In k literals -> kind_at T i = k -> (k = INT_NUMBER -> kind_at T (S i) <> COLON_COLON) -> yields e T i [] (atom_expr R) (S i) (fun o l => exists c, o = Some (c, false) /\ shape c l (calls (Lit k))).
Proof. intros i k L K N. unfold atom_expr. eapply y_bind; [apply y_literal; eauto|]. cbn beta. intros o l (c & -> & S). apply y_ret. eauto. Qed.

(** ** Parentheses *)
(** what the recursive calls do *)
Definition reads (i : nat) (x : expr) (j bp : nat) : Prop :=
  forall e' r, e_texts e' = e_texts e -> yields e' T i [] (r_expr R r bp) j (fun o l => exists c, o = Some (c, false) /\ shape c l (calls x)).
Lemma y_expr : forall e' i x j, e_texts e' = e_texts e -> reads i x j 1 -> yields e' T i [] (GrammarModel.expr R) j (fun b l => b = true /\ flat_map build l = calls x).
Proof.
  intros e' i x j E H. unfold GrammarModel.expr, expr_bp. eapply y_bind; [apply H; exact E|]. cbn beta. intros o l (c & -> & g & k & ch & -> & B & C). apply y_ret. split; auto. rewrite flat_map_app, B. cbn [flat_map app]. rewrite app_nil_r. exact C.
Qed.
Lemma y_local : forall {A} g (m : M A) i l j Q, yields (g e) T i l m j Q -> yields e T i l (local g m) j Q.
Proof. intros A g m i l j Q H. exact H. Qed.
Lemma y_assert : forall {B} i l k (m : M B) j Q, spelling k = None -> kind_at T i = k -> yields e T i l m j Q -> yields e T i l (assert_ (t_at k) ;; m)%gram j Q.
Proof.
  intros B i l k m j Q S K H. eapply (y_bind i).
  - unfold assert_. apply y_ask with true; [eapply sees_is; [now apply sees_at1|rewrite K; apply kind_eqb_refl]|]. apply (y_ret e T i l tt (fun _ l' => l' = l)). reflexivity.
  - cbn beta. intros _ l' ->. exact H.
Qed.
Lemma joined1 : forall i k, spelling k = None -> kind_at T i = k -> joined T i (parts k) = true.
Proof. intros i k S K. rewrite one by exact S. rewrite K. apply kind_eqb_refl. Qed.
Lemma y_bump1 : forall i l k, okk k = true -> spelling k = None -> kind_at T i = k -> yields e T i l (bump k) (S i) (fun _ l' => l' = l ++ [ITok k 1]).
Proof. intros i l k O Sp K. pose proof (y_bump e T NE i l k O (joined1 i k Sp K)) as H. unfold width, parts in H. rewrite Sp in H. cbn [length] in H. rewrite Nat.add_1_r in H. exact H. Qed.
Lemma y_expect1 : forall i l k, okk k = true -> spelling k = None -> kind_at T i = k -> yields e T i l (expect k) (S i) (fun _ l' => l' = l ++ [ITok k 1]).
Proof. intros i l k O Sp K. pose proof (y_expect e T NE i l k O (joined1 i k Sp K)) as H. unfold width, parts in H. rewrite Sp in H. cbn [length] in H. rewrite Nat.add_1_r in H. exact H. Qed.
Lemma y_pos : forall {B} i l (k : nat -> M B) j Q, yields e T i l (k i) j Q -> yields e T i l (mbind pos_ k) j Q.
Proof. intros B i l k j Q H. unfold pos_. eapply (y_read_bind e T i l (fun _ p => p_pos p)); eauto. Qed.
Lemma y_outer : forall {B} i l (k : rset -> M B) j Q, yields e T i l (k (e_rs e)) j Q -> yields e T i l (mbind outer_rs k) j Q.
Proof. intros B i l k j Q H. unfold outer_rs. eapply (y_read_bind e T i l (fun e _ => e_rs e)); eauto. Qed.
Lemma y_ask_any : forall {B} i l t (k : bool -> M B) n Q, (forall b, yields e T i l (k b) n Q) -> yields e T i l (mbind (ask t) k) n Q.
Proof. intros B i l t k n Q H p f rest HT Hp So O I. unfold mbind, ask. now apply H. Qed.
Lemma y_paren : forall i x j, kind_at T i = L_PAREN -> kind_at T (S i) <> R_PAREN -> kind_at T (S i) <> EOF -> S i < j -> reads (S i) x j 1 -> kind_at T j = R_PAREN ->
  yields e T i [] (paren_or_tuple_or_annotated_expr R) (S j) (fun c l => c_kind c = PAREN_EXPR /\ shape c l (calls (Paren x))).
Proof.
  intros i x j K1 K2 K3 L H K4. unfold paren_or_tuple_or_annotated_expr. apply y_assert; auto. eapply y_bind.
  - apply (y_marked_c _ PAREN_EXPR i (S j) (fun (_ : unit) l => flat_map build l = CToken L_PAREN 1 :: calls x ++ [CToken R_PAREN 1])); [reflexivity|].
    eapply y_bind; [apply y_bump1; auto|]. cbn beta. intros _ l ->. cbn [app]. unfold at_. no; [eapply sees_is; [now apply sees_at1|destruct (kind_eqb_reflect (kind_at T (S i)) R_PAREN); congruence]|].
    assert (Body : yields e T (S i) [ITok L_PAREN 1] (iterate_to_EOF [R_PAREN] (fun s : bool * bool * bool * bool =>
       let '(outer, saw_comma, _, saw_ann) := s in
       IF GrammarModel.expr R THEN
         (IF ask (t_and (fun _ _ => outer) (t_at COLON)) THEN (type_annotation R ;; ret (false, (outer, saw_comma, true, true))) ELSE
          IF ask (t_at R_PAREN) THEN ret (true, (false, saw_comma, true, saw_ann)) ELSE
          (expect COMMA ;; ret (true, (false, true, true, saw_ann))))
       ELSE ret (false, (outer, saw_comma, true, saw_ann)))%gram (true, false, false, false)) j (fun s l => s = (false, false, true, false) /\ flat_map build l = CToken L_PAREN 1 :: calls x)).
    { apply y_loop. assert (LT : j < length T) by (apply next_at; rewrite K4; discriminate). assert (FU : exists n, length T - S i = S n) by (exists (length T - S i - 1); lia). destruct FU as [n ->]. cbn [loop_]. eapply (y_bind j).
      - unfold iter_step. no; [eapply sees_is; [apply sees_or; [now apply sees_at1|apply sees_ts; reflexivity]|]; destruct (kind_eqb_reflect (kind_at T (S i)) EOF); [contradiction|]; cbn; destruct (kind_eqb_reflect (kind_at T (S i)) R_PAREN); [contradiction|reflexivity]|].
        apply y_pos. eapply (y_bind j).
        + unfold with_ts, with_rs. apply y_local. eapply y_bind; [apply y_frame; apply y_expr; [reflexivity|exact H]|]. cbn beta. intros b l (y & -> & -> & B).
          set (e' := set_rs _ e). apply (y_ask e' T j _ _ false). { intros p HT Hp. unfold t_and, t_at. cbn. rewrite look_at, HT, Hp, Nat.add_0_r, K4. reflexivity. }
          apply (y_ask e' T j _ _ true). { intros p HT Hp. unfold t_at. cbn. rewrite look_at, HT, Hp, Nat.add_0_r, K4. reflexivity. }
          apply (y_ret e' T j _ (true, (false, false, true, false)) (fun r l => r = (true, (false, false, true, false)) /\ flat_map build l = CToken L_PAREN 1 :: calls x)). split; auto. cbn. rewrite B. reflexivity.
        + cbn beta. intros r l [-> B]. cbn [negb]. apply y_outer. unfold at_ts. apply y_ask_any. intros b.
          assert (Q : forall (s : bool * bool * bool * bool + bool * bool * bool * bool), s = inl (false, false, true, false) \/ s = inr (false, false, true, false) -> yields e T j l (ret s) j (fun r l => (r = inl (false, false, true, false) \/ r = inr (false, false, true, false)) /\ flat_map build l = CToken L_PAREN 1 :: calls x)) by (intros s D; apply y_ret; auto).
          destruct b; [apply Q; auto|]. apply y_pos. destruct (Nat.eqb_spec j (S i)) as [->|_]; [lia|]. apply Q. auto.
      - cbn beta. intros r l [[->| ->] B].
        + cbn [loop_]. eapply (y_bind j).
          * unfold iter_step. yes; [eapply sees_is; [apply sees_or; [now apply sees_at1|apply sees_ts; reflexivity]|]; rewrite K4; reflexivity|].
            apply (y_ret e T j _ _ (fun r l => r = inr (false, false, true, false) /\ flat_map build l = CToken L_PAREN 1 :: calls x)). auto.
          * cbn beta. intros r l' [-> B']. apply y_ret. auto.
        + apply y_ret. auto. }
    eapply y_bind; [exact Body|]. cbn beta. intros s l [-> B]. eapply y_bind; [apply y_expect1; auto|]. cbn beta. intros _ l' ->. apply y_ret. cbn [fst snd]. split; auto. rewrite flat_map_app, B. cbn. now rewrite <- ?app_assoc.
  - cbn beta. intros y l (c & a & ch & -> & CK & -> & B). apply y_ret. split; auto. exists [], PAREN_EXPR, ch. split; auto. split; [reflexivity|]. cbn. rewrite B. cbn. now rewrite <- app_assoc.
Qed.
Lemma y_atom_paren : forall i x j, kind_at T i = L_PAREN -> plain X i -> kind_at T (S i) <> R_PAREN -> kind_at T (S i) <> EOF -> S i < j -> reads (S i) x j 1 -> kind_at T j = R_PAREN ->
  yields e T i [] (atom_expr R) (S j) (fun o l => exists c, o = Some (c, false) /\ shape c l (calls (Paren x))).
Proof.
  intros i x j K P N1 N2 L H K2. unfold atom_expr. eapply y_bind; [apply (y_no_literal i L_PAREN); auto; cbn; tauto|]. cbn beta. intros o l [-> B].
  no; [apply sees_and_l; apply sees_kwi; apply P; cbn; tauto|]. no; [apply sees_and_l; apply sees_kw; apply P; cbn; tauto|]. unfold atom_rest.
  no; [apply sees_and_l; now apply sees_no_assert|]. no; [apply sees_and_l; apply sees_kw; apply P; cbn; tauto|].
  no. { intros p HT Hp. unfold is_path_start. rewrite !(sees_cur i _ L_PAREN K p HT Hp). reflexivity. }
  unfold cur. yes; [eapply sees_is; [apply sees_cur; exact K|reflexivity]|]. unfold done. eapply y_bind; [apply y_frame; eapply y_paren; eauto|]. cbn beta. intros c l' (y & -> & CK & g & k & ch & -> & Bg & Bn).
  rewrite CK. apply y_ret. exists c. split; auto. exists (l ++ g), k, ch. split; [now rewrite app_assoc|]. split; auto. unfold blank in *. rewrite flat_map_app, B, Bg. reflexivity.
Qed.

(** ** What begins and what follows *)
Definition firsts : list kind := literals ++ [IDENT; L_PAREN; AMP; MOVE_KW; STAR; BANG; MINUS].
Lemma first_token : forall i x j, spells T X i x j -> ordered x -> In (kind_at T i) firsts.
Proof.
  intros i x j H. induction H; intros O; cbn [ordered] in O; auto.
  - subst k. unfold firsts. apply in_or_app. auto.
  - rewrite H. cbn. tauto.
  - rewrite H. cbn. tauto.
  - destruct O as (O & _). subst k. cbn in O. cbn. tauto.
  - rewrite H. cbn. tauto.
  - apply IHspells. tauto.
  - apply IHspells1. tauto.
  - destruct O as (q & _ & _ & _ & O & _). auto.
Qed.
Lemma first_real : forall k, In k firsts -> k <> EOF /\ k <> R_PAREN /\ k <> R_BRACK.
Proof. intros k H. cbn in H. repeat (destruct H as [<-|H]; [repeat split; discriminate|]). destruct H. Qed.
Lemma spells_lt : forall i x j, spells T X i x j -> i < j.
Proof. intros i x j H. induction H; lia. Qed.
Lemma spells_len : forall i x j, spells T X i x j -> ordered x -> j <= length T.
Proof.
  intros i x j H. induction H; intros O; cbn [ordered] in O.
  - apply next_at. subst k. intros Q. rewrite Q in O. cbn in O. repeat (destruct O as [O|O]; [discriminate|]). destruct O.
  - apply next_at. rewrite H. discriminate.
  - apply next_at. rewrite H2. discriminate.
  - tauto.
  - tauto.
  - apply next_at. rewrite H1. discriminate.
  - apply next_at. rewrite H2. discriminate.
  - destruct O as (q & _ & _ & _ & _ & O). auto.
Qed.
Definition good_op (a : kind * nat) : bool :=
  let k := fst a in let h := hd EOF (parts k) in
  negb (existsb (kind_eqb h) [L_PAREN; L_BRACK; DOT; AS_KW; IDENT; EOF]) && Bool.eqb (kind_eqb h DOT_DOT) (kind_eqb k DOT_DOT) && (snd a <? 255) && (1 <=? snd a) && okk k.
Lemma joined_head : forall i k, joined T i (parts k) = true -> kind_at T i = hd EOF (parts k).
Proof.
  intros i k H. assert (N : parts k <> []) by (destruct k; discriminate). destruct (parts k) as [|a [|b l]]; [congruence| |]; cbn [joined] in H; cbn [hd].
  - now apply kind_eqb_spec.
  - rewrite !andb_true_iff, kind_eqb_spec in H. tauto.
Qed.
Lemma op_facts : forall i k q, op_at T i k -> power k = Some q ->
  ~ In (kind_at T i) [L_PAREN; L_BRACK; DOT; AS_KW; IDENT; EOF] /\ kind_eqb (kind_at T i) DOT_DOT = kind_eqb k DOT_DOT /\ q < 255 /\ 1 <= q /\ okk k = true.
Proof.
  intros i k q [J _] P. apply joined_head in J. apply power_in in P. change (In (k, q) op_list) in P. assert (G : forallb good_op op_list = true) by (vm_compute; reflexivity).
  rewrite forallb_forall in G. specialize (G _ P). unfold good_op in G. cbn [fst snd] in G. rewrite <- J in G. rewrite !andb_true_iff in G. destruct G as ((((G1 & G2) & G3) & G4) & G5).
  split; [|split; [now apply Bool.eqb_prop|split; [now apply Nat.ltb_lt|split; [now apply Nat.leb_le|exact G5]]]].
  intros IN. apply negb_true_iff in G1. assert (Y : existsb (kind_eqb (kind_at T i)) [L_PAREN; L_BRACK; DOT; AS_KW; IDENT; EOF] = true) by (apply existsb_exists; exists (kind_at T i); split; auto; apply kind_eqb_refl). congruence.
Qed.
Lemma power_small : forall k q, power k = Some q -> q < 255.
Proof. intros k q P. apply power_in in P. change (In (k, q) op_list) in P. assert (G : forallb good_op op_list = true) by (vm_compute; reflexivity). rewrite forallb_forall in G. specialize (G _ P). unfold good_op in G. rewrite !andb_true_iff in G. cbn [snd] in G. apply Nat.ltb_lt. tauto. Qed.
Lemma ends_more : forall a b j, a <= b -> ends T X a j -> ends T X b j.
Proof. intros a b j L (H1 & H2 & H3). split; auto. intros k q O P. specialize (H1 k q O P). lia. Qed.
Lemma ends_255 : forall a j, ends T X a j -> ends T X 255 j.
Proof. intros a j (_ & H2 & H3). split; auto. intros k q O P. now apply power_small in P. Qed.
Lemma ends_op : forall j k q, op_at T j k -> power k = Some q -> ends T X (S q) j.
Proof.
  intros j k q O P. destruct (op_facts j k q O P) as (N & _). split; [|split].
  - intros k' q' O' P'. pose proof (op_unique T j k' k q' q O' O P' P) as Q. subst k'. assert (q = q') by congruence. lia.
  - intros IN. apply N. cbn in *. tauto.
  - intros Q. elim N. rewrite Q. cbn. tauto.
Qed.
Lemma current_op_at : forall j k q p, op_at T j k -> power k = Some q -> p_toks p = T -> p_pos p = j -> (if t_cur IDENT e p && t_kw "is" e p then (2, IS_KW) else op_of p) = (q, k).
Proof.
  intros j k q p O P HT Hp. destruct (op_facts j k q O P) as (N & _). rewrite (sees_cur j IDENT _ eq_refl p HT Hp). destruct (kind_eqb_reflect (kind_at T j) IDENT) as [Q|_]; [elim N; rewrite Q; cbn; tauto|]. cbn [andb].
  destruct (op_of_spec p) as [(k' & q' & O' & P' & ->)|[[_ C]|[_ C]]].
  - rewrite HT, Hp in O'. pose proof (op_unique T j k' k q' q O' O P' P) as Q. subst k'. congruence.
  - rewrite cur_at, HT, Hp in C. elim N. rewrite C. cbn. tauto.
  - rewrite HT, Hp in C. destruct O as [O _]. rewrite (C k q P) in O. discriminate.
Qed.
Lemma current_op_end : forall j bp p, 1 <= bp -> ends T X bp j -> p_toks p = T -> p_pos p = j -> fst (if t_cur IDENT e p && t_kw "is" e p then (2, IS_KW) else op_of p) < bp.
Proof.
  intros j bp p L (H1 & H2 & H3) HT Hp. assert (I : t_cur IDENT e p && t_kw "is" e p = false).
  { rewrite (sees_cur j IDENT _ eq_refl p HT Hp). destruct (kind_eqb_reflect (kind_at T j) IDENT) as [Q|_]; [|reflexivity]. rewrite (sees_kw j "is" (H3 Q) p HT Hp). reflexivity. }
  rewrite I. destruct (op_of_spec p) as [(k' & q' & O' & P' & ->)|[[_ C]|[-> _]]].
  - rewrite HT, Hp in O'. cbn. eauto.
  - rewrite cur_at, HT, Hp in C. elim H2. rewrite C. cbn. tauto.
  - cbn. lia.
Qed.

(** ** Postfixes *)
Fixpoint depth (x : expr) : nat :=
  match x with
  | Lit _ | Var => 0
  | Paren x | Un _ x | BorrowMut x => S (depth x)
  | Dot x => depth x
  | Index x i => Nat.max (depth x) (S (depth i))
  | Bin _ l r => Nat.max (depth l) (S (depth r))
  end.
Variable n : nat.
Hypothesis RD : forall x i j bp, spells T X i x j -> ordered x -> binds bp x -> 1 <= bp -> ends T X bp j -> depth x < n -> reads i x j bp.
Definition postfix_step (s : cm * bool * bool) : M ((cm * bool * bool) + ex) :=
  (let '(c, bl, allow) := s in
    IF ask (t_and (t_cur L_PAREN) (fun _ _ => allow)) THEN (c' <- call_expr R c ;; ret (inl (c', false, true))) ELSE
    IF ask (t_and (t_cur L_BRACK) (fun _ _ => allow)) THEN (c' <- index_expr R c ;; ret (inl (c', false, true))) ELSE
    IF cur DOT THEN (c' <- postfix_dot_expr R c ;; ret (inl (c', false, true))) ELSE
    ret (inr (c, bl)))%gram.
Lemma ends_closer : forall bp j, 1 <= bp -> In (kind_at T j) [R_PAREN; R_BRACK] -> ends T X bp j.
Proof.
  intros bp j L H. split; [|split].
  - intros k q [J _] P. apply joined_head in J. apply power_in in P. change (In (k, q) op_list) in P. exfalso.
    assert (G : forallb (fun a => negb (existsb (kind_eqb (hd EOF (parts (fst a)))) [R_PAREN; R_BRACK])) op_list = true) by (vm_compute; reflexivity).
    rewrite forallb_forall in G. specialize (G _ P). cbn [fst] in G. rewrite <- J in G. apply negb_true_iff in G. assert (Y : existsb (kind_eqb (kind_at T j)) [R_PAREN; R_BRACK] = true) by (apply existsb_exists; exists (kind_at T j); split; auto; apply kind_eqb_refl). congruence.
  - cbn in H. destruct H as [H|[H|[]]]; rewrite <- H; cbn; intros Q; repeat (destruct Q as [Q|Q]; [discriminate|]); exact Q.
  - intros Q. rewrite Q in H. cbn in H. destruct H as [H|[H|[]]]; discriminate.
Qed.
Lemma binds_1 : forall x, ordered x -> binds 1 x.
Proof.
  intros x O. destruct x; cbn [binds]; auto. destruct O as (q & P & _). exists q. split; auto. apply power_in in P. change (In (k, q) op_list) in P. assert (G : forallb good_op op_list = true) by (vm_compute; reflexivity). rewrite forallb_forall in G. specialize (G _ P). unfold good_op in G. rewrite !andb_true_iff in G. cbn [snd] in G. apply Nat.leb_le. tauto.
Qed.
Lemma inner : forall i x j k, spells T X i x j -> ordered x -> depth x < n -> In k [R_PAREN; R_BRACK] -> kind_at T j = k -> reads i x j 1.
Proof. intros i x j k H O D IN K. apply RD; auto; [now apply binds_1|]. apply ends_closer; auto. now rewrite K. Qed.
Lemma y_field_end : forall j l, ~ In (kind_at T (S (S j))) [L_PAREN; COLON_COLON] -> (kind_at T (S (S j)) = L_ANGLE -> apart T (S j) \/ no_args T (S (S j))) ->
  yields e T (S (S j)) l (IF ask (t_or (t_ts [L_PAREN; COLON_COLON]) (t_and (t_at L_ANGLE) t_no_ws)) THEN
         (ok <- opt_type_arg_list_for_expr R true ;;
          if negb ok then ret (DOT_EXPR, tt) else
          IF at_ L_PAREN THEN (value_arg_list R ;; ret (METHOD_CALL_EXPR, tt)) ELSE ret (DOT_EXPR, tt))
       ELSE ret (DOT_EXPR, tt))%gram (S (S j)) (fun x l' => x = (DOT_EXPR, tt) /\ l' = l).
Proof.
  intros j l N NA. assert (E1 : GrammarBase.mem (kind_at T (S (S j))) [L_PAREN; COLON_COLON] = false) by (cbn; rewrite !(fun a H => not_in_eqb _ _ a N H) by (cbn; tauto); reflexivity).
  assert (Fin : yields e T (S (S j)) l (ret (DOT_EXPR, tt)) (S (S j)) (fun x l' => x = (DOT_EXPR, tt) /\ l' = l)) by (apply y_ret; auto).
  destruct (kind_eqb_reflect (kind_at T (S (S j))) L_ANGLE) as [K|K].
  - destruct (NA K) as [AP|NO].
    + no; [|exact Fin]. eapply sees_is; [apply sees_or; [apply sees_ts; reflexivity|apply sees_and_r]|rewrite E1; reflexivity]. intros p HT Hp. unfold t_no_ws. rewrite Hp, HT. unfold apart in AP.
      destruct (nth_error T (S j)) as [[t o]|]; [|destruct AP]. destruct (nth_error T (S (S j))) as [[t' o']|]; [|destruct AP]. apply Nat.eqb_neq. lia.
    + apply y_ask_any. intros [|]; [|exact Fin]. eapply y_bind; [eapply (y_no_type_args T NE R R0); eauto; intros Q; apply N; rewrite Q; cbn; tauto|]. cbn beta. intros r l' [_ ->]. destruct r; cbn [negb]; [|exact Fin].
      unfold at_. no; [|exact Fin]. eapply sees_is; [now apply sees_at1|eapply not_in_eqb; [exact N|cbn; tauto]].
  - no; [|exact Fin]. eapply sees_is; [apply sees_or; [apply sees_ts; reflexivity|apply sees_and_l; eapply sees_is; [now apply sees_at1|now apply eqb_false]]|]. rewrite E1. reflexivity.
Qed.
Lemma y_base : forall x i j, spells T X i x j -> primary x = true -> ordered x -> depth x <= n -> exists j0 a0, i < j0 /\ j0 <= j /\
  yields e T i [] (atom_expr R) j0 (fun o l => exists c, o = Some (c, false) /\ shape c l (calls a0)) /\ In (kind_at T i) (literals ++ [IDENT; L_PAREN]) /\ (In (kind_at T i) [IDENT; L_PAREN] -> plain X i) /\
  forall j2 Q N, (forall m c l, N <= m -> shape c l (calls x) -> yields e T j l (loop_ m postfix_step (c, false, true)) j2 Q) ->
  forall m c l, N + (j - j0) <= m -> shape c l (calls a0) -> yields e T j0 l (loop_ m postfix_step (c, false, true)) j2 Q.
Proof.
  intros x i j H. induction H as [i k K N|i K P N NA|i x j K P H IH K2|i k x j K N H IH|i x j K K2 H IH|i x j H IH K1 K2 N NA|i x j y k H IH K1 H2 IH2 K2|i x j k y m H IH O N H2 IH2]; intros Pr Or D; try discriminate; cbn [ordered] in Or; cbn [depth] in D.
  - exists (S i), (Lit k). repeat split; try lia; [now apply y_atom_lit|subst k; apply in_or_app; auto| |].
    + intros IN. subst k. cbn in IN. destruct IN as [IN|[IN|[]]]; rewrite <- IN in Or; cbn in Or; repeat (destruct Or as [Or|Or]; [discriminate|]); destruct Or.
    + intros j2 Q N' HK m c l L. apply HK. lia.
  - exists (S i), Var. repeat split; try lia; auto; [now apply y_atom_var|rewrite K; cbn; tauto|]. intros j2 Q N' HK m c l L. apply HK. lia.
  - pose proof (first_real _ (first_token _ _ _ H Or)) as (F1 & F2 & _). exists (S j), (Paren x). pose proof (spells_lt _ _ _ H). repeat split; try lia; auto.
    + apply y_atom_paren; auto. eapply inner; eauto. cbn. tauto.
    + rewrite K. cbn. tauto.
    + intros j2 Q N' HK m c l L. apply HK. lia.
  - destruct Or as [Pr' Or]. destruct (IH Pr' Or D) as (j0 & a0 & L1 & L2 & HA & F & PL & HP). exists j0, a0. repeat split; auto; try lia. intros j2 Q N' HK. 
    intros m c l L Sh. apply (HP j2 Q (S (S N'))); [|lia|exact Sh]. clear m c l L Sh. intros m c l L (g & k0 & ch0 & -> & B & C). destruct m as [|m]; [lia|]. cbn [loop_]. eapply (y_bind (S (S j))).
    + unfold postfix_step. no; [apply sees_and_l; eapply sees_is; [apply sees_cur; exact K1|reflexivity]|]. no; [apply sees_and_l; eapply sees_is; [apply sees_cur; exact K1|reflexivity]|]. unfold cur. yes; [eapply sees_is; [apply sees_cur; exact K1|reflexivity]|].
      eapply y_bind.
      * unfold postfix_dot_expr. apply y_assert; auto. eapply y_bind.
        -- apply (y_preceded e T _ c g k0 ch0 j (S (S j)) (fun k (_ : unit) ch => k = DOT_EXPR /\ flat_map build ch = calls x ++ [CToken DOT 1; CStart NAME_REF; CToken IDENT 1; CFinish])).
           eapply y_bind; [apply y_bump1; auto|]. cbn beta. intros _ l ->. unfold cur. yes; [eapply sees_is; [apply sees_cur; exact K2|reflexivity]|]. eapply y_bind; [apply y_name_ref; exact K2|]. cbn beta. intros _ l (z & -> & BZ).
           eapply y_weaken; [apply y_field_end; auto|]. cbn beta. intros r l [-> ->].
           cbn [fst snd]. repeat split. rewrite !flat_map_app. cbn [flat_map app]. change (CStart k0 :: flat_map build ch0 ++ [CFinish]) with (build (INode (c_pos c) false k0 ch0)). rewrite BZ, ?app_nil_r.
           change (build (INode (c_pos c) true k0 ch0)) with (build (INode (c_pos c) false k0 ch0)). rewrite C. rewrite <- app_assoc. reflexivity.
        -- cbn beta. intros [c' u] l (k' & ch' & -> & -> & BC). cbn [fst snd]. apply (y_ret e T (S (S j)) _ c' (fun c' l => shape c' l (calls (Dot x)))). exists g, DOT_EXPR, ch'. split; auto. split; auto. cbn. rewrite BC. rewrite <- app_assoc. reflexivity.
      * cbn beta. intros c' l Sh. apply (y_ret e T (S (S j)) _ (inl (c', false, true)) (fun r l => exists c', r = inl (c', false, true) /\ shape c' l (calls (Dot x)))). eauto.
    + cbn beta. intros r l (c' & -> & Sh). apply HK; [lia|exact Sh].
  - destruct Or as (Pr' & Or & Oy). destruct (IH Pr' Or ltac:(lia)) as (j0 & a0 & L1 & L2 & HA & F & PL & HP). pose proof (spells_lt _ _ _ H2) as LT. exists j0, a0. repeat split; auto; try lia. intros j2 Q N' HK. 
    intros m c l L Sh. apply (HP j2 Q (S N')); [|lia|exact Sh]. clear m c l L Sh. intros m c l L (g & k0 & ch0 & -> & B & C). destruct m as [|m]; [lia|]. cbn [loop_]. eapply (y_bind (S k)).
    + unfold postfix_step. no; [apply sees_and_l; eapply sees_is; [apply sees_cur; exact K1|reflexivity]|]. yes; [eapply sees_is; [apply sees_and; [apply sees_cur; exact K1|apply sees_const]|reflexivity]|].
      eapply y_bind.
      * unfold index_expr. apply y_assert; auto. eapply y_bind.
        -- apply (y_preceded e T _ c g k0 ch0 j (S k) (fun k (_ : unit) ch => k = INDEX_EXPR /\ flat_map build ch = calls x ++ CToken L_BRACK 1 :: calls y ++ [CToken R_BRACK 1])).
           eapply y_bind; [apply y_bump1; auto|]. cbn beta. intros _ l ->. eapply y_bind; [apply y_frame; apply y_expr; [reflexivity|]; eapply inner; eauto; [lia|cbn; tauto]|]. cbn beta. intros b l (z & -> & -> & BZ).
           eapply y_bind; [apply y_expect1; auto|]. cbn beta. intros _ l ->. apply y_ret. cbn [fst snd]. repeat split. rewrite !flat_map_app. cbn [flat_map app]. rewrite BZ, ?app_nil_r.
           change (build (INode (c_pos c) true k0 ch0)) with (build (INode (c_pos c) false k0 ch0)). rewrite C. rewrite <- !app_assoc. reflexivity.
        -- cbn beta. intros [c' u] l (k' & ch' & -> & -> & BC). cbn [fst snd]. apply (y_ret e T (S k) _ c' (fun c' l => shape c' l (calls (Index x y)))). exists g, INDEX_EXPR, ch'. split; auto. split; auto. cbn. rewrite BC. rewrite <- app_assoc. cbn. rewrite <- app_assoc. reflexivity.
      * cbn beta. intros c' l Sh. apply (y_ret e T (S k) _ (inl (c', false, true)) (fun r l => exists c', r = inl (c', false, true) /\ shape c' l (calls (Index x y)))). eauto.
    + cbn beta. intros r l (c' & -> & Sh). apply HK; [lia|exact Sh].
Qed.

(** ** Operands *)
Ltac seek K := unfold cur, cur_kw; repeat (no; [first [eapply sees_is; [apply sees_cur; exact K|reflexivity]|apply sees_and_l; eapply sees_is; [apply sees_cur; exact K|reflexivity]]|]).
Ltac found K := yes; [eapply sees_is; [apply sees_cur; exact K|reflexivity]|].
Lemma y_unary : forall i i' j x r k' first toks0, okk k' = true -> yields e T i [] first i' (fun _ l => l = toks0) -> spells T X i' x j -> operand x = true -> ordered x -> depth x < n -> ends T X 255 j ->
  forall cs, cs = CStart k' :: flat_map build toks0 ++ calls x ++ [CFinish] ->
  yields e T i [] (unary R k' r first) j (fun o l => exists c, o = Some (c, false) /\ shape c l cs).
Proof.
  intros i i' j x r k' first toks0 OK HF H OP O D E cs ->. unfold unary, GrammarModel.plain. eapply y_bind.
  - eapply y_node; [exact OK|]. eapply y_bind; [exact HF|]. cbn beta. intros u l ->. unfold expr_bp. eapply y_weaken; [apply y_frame; apply (RD x i' j 255); auto; [destruct x; try discriminate; exact Logic.I|lia]|].
    cbn beta. intros o l (z & -> & c & -> & g & k0 & ch0 & -> & B & C). instantiate (1 := fun _ l => flat_map build l = flat_map build toks0 ++ calls x). cbn beta. rewrite !flat_map_app, B. cbn [flat_map app]. rewrite C, app_nil_r. reflexivity.
  - cbn beta. intros c l (o & ch & -> & B). apply y_ret. exists c. split; auto. exists [], k', ch. split; auto. split; [reflexivity|]. cbn. rewrite B, <- app_assoc. reflexivity.
Qed.
Lemma y_lhs : forall x i j r, spells T X i x j -> operand x = true -> ordered x -> depth x <= n -> ends T X 255 j -> yields e T i [] (lhs R r) j (fun o l => exists c, o = Some (c, false) /\ shape c l (calls x)).
Proof.
  intros x i j r H OP O D E. destruct (primary x) eqn:PR.
  - destruct (y_base x i j H PR O D) as (j0 & a0 & L1 & L2 & HA & F & PL & HP). pose proof (spells_len _ _ _ H O) as LEN. unfold lhs.
    assert (NC : forall k, In k [PIPE; AMP; MOVE_KW; STAR; BANG; MINUS; DOT_DOT] -> sees e T i (t_cur k) false).
    { intros k IN. eapply sees_is; [apply sees_cur; reflexivity|]. apply eqb_false. intros Q. rewrite Q in F. cbn in F, IN. clear - F IN. repeat (destruct IN as [<-|IN]; [repeat (destruct F as [F|F]; [discriminate|]); exact F|]). exact IN. }
    assert (NS : forall s, In s special_names -> sees e T i (t_and (t_cur IDENT) (t_kw s)) false).
    { intros s IN. destruct (kind_eqb_reflect (kind_at T i) IDENT) as [Q|Q]; [|apply sees_and_l; eapply sees_is; [apply sees_cur; reflexivity|now apply eqb_false]]. apply sees_and_r. apply sees_kw. apply PL; auto. rewrite Q. cbn. tauto. }
    assert (KI : forall p, t_at IDENT e p = t_cur IDENT e p) by (intros p; unfold t_at, t_cur; rewrite nth_at_joined, cur_at, Nat.add_0_r; reflexivity).
    assert (NI : forall s, In s special_names -> sees e T i (t_kwi s) false) by (intros s IN p HT Hp; unfold t_kwi; rewrite KI; apply (NS s IN p HT Hp)).
    unfold cur, cur_kw. no; [apply NC; cbn; tauto|]. no; [apply NC; cbn; tauto|].
    no. { intros p HT Hp. unfold t_and, is_at_quant_kw. pose proof (NS "forall"%string ltac:(cbn; tauto) p HT Hp) as A1. pose proof (NS "exists"%string ltac:(cbn; tauto) p HT Hp) as A2. pose proof (NS "choose"%string ltac:(cbn; tauto) p HT Hp) as A3. unfold t_and in A1, A2, A3. destruct (t_cur IDENT e p); [|reflexivity]. cbn in A1, A2, A3. rewrite A1, A2, A3. reflexivity. }
    no; [apply NS; cbn; tauto|]. do 5 (no; [apply NC; cbn; tauto|]). unfold stmt_kind_. eapply (y_read_bind e T i [] (fun e _ => e_sk e)); [reflexivity|].
    no. { apply sees_and_r. intros p HT Hp. unfold is_behavior. rewrite !(fun s IN => NI s IN p HT Hp) by (cbn; tauto). reflexivity. }
    eapply y_bind; [exact HA|]. cbn beta. intros o l (c & -> & Sh). rewrite andb_false_r. cbn [negb]. apply (y_bind j (Q := fun y l => exists c, y = (c, false) /\ shape c l (calls x))).
    + unfold postfix_expr. change (yields e T j0 l (loop postfix_step (c, false, true)) j (fun y l => exists c, y = (c, false) /\ shape c l (calls x))). apply y_loop. apply (HP j _ 1); [|lia|exact Sh].
      clear c l Sh. intros m c l L Sh. destruct m as [|m]; [lia|]. cbn [loop_]. destruct E as (_ & E & _). assert (ST : forall k, In k [L_PAREN; L_BRACK; DOT] -> sees e T j (t_cur k) false).
      { intros k IN. eapply sees_is; [apply sees_cur; reflexivity|]. apply eqb_false. intros Q. apply E. rewrite Q. cbn in *. tauto. }
      eapply y_bind.
      * unfold postfix_step, cur. no; [apply sees_and_l; apply ST; cbn; tauto|]. no; [apply sees_and_l; apply ST; cbn; tauto|]. no; [apply ST; cbn; tauto|]. apply (y_ret e T j l (inr (c, false)) (fun r l' => r = inr (c, false) /\ l' = l)). auto.
      * cbn beta. intros y l' [-> ->]. apply y_ret. eauto.
    + cbn beta. intros y l' (c' & -> & Sh'). apply y_ret. eauto.
  - inversion H; subst; try discriminate; cbn [ordered] in O; cbn [depth] in D.
    + destruct O as (IN & OP' & O). destruct (okk_spec BORROW_EXPR eq_refl) as [_ _]. unfold lhs.
      assert (EX : exists k0, kind_at T i = k0 /\ In k0 (map fst prefixes)) by eauto. destruct EX as (k0 & K & IN'). rewrite K. cbn in IN'.
      repeat (destruct IN' as [<-|IN']); [| | | | |destruct IN']; seek K; found K.
      * eapply (y_unary i (S i) j e0 r _ _ [ITok AMP 1]); auto. eapply y_bind; [apply y_bump1; auto|]. cbn beta. intros _ l ->. eapply y_bind; [apply y_eat_no; rewrite one by reflexivity; apply eqb_false; auto|]. cbn beta. intros b l [-> ->]. now apply y_ret.
      * eapply (y_unary i (S i) j e0 r _ _ [ITok MOVE_KW 1]); auto. apply y_bump1; auto.
      * eapply (y_unary i (S i) j e0 r _ _ [ITok STAR 1]); auto. apply y_bump1; auto.
      * eapply (y_unary i (S i) j e0 r _ _ [ITok BANG 1]); auto. apply y_bump1; auto.
      * eapply (y_unary i (S i) j e0 r _ _ [ITok MINUS 1]); auto. apply y_bump1; auto.
    + destruct O as (OP' & O). unfold lhs. seek H0. found H0. eapply (y_unary i (S (S i)) j e0 r _ _ [ITok AMP 1; ITok MUT_KW 1]); auto. eapply y_bind; [apply y_bump1; auto|]. cbn beta. intros _ l ->.
      eapply y_bind; [apply (y_eat e T NE (S i) _ MUT_KW); [reflexivity|apply joined1; auto]|]. cbn beta. intros b l [-> ->]. change (width MUT_KW) with 1. rewrite Nat.add_1_r. now apply y_ret.
Qed.

(** ** Operators *)
Definition expr_step (r : restr) (bp : nat) (c : cm) : M (cm + cm) :=
  (is_range <- at_ DOT_DOT ;;
   '(op_bp, op) <- current_op ;;
   if op_bp <? bp then ret (inr c) else
   IF at_ AS_KW THEN (c' <- cast_expr R c ;; ret (inl c')) ELSE
   IF kwi "is" THEN (c' <- is_expr R c ;; ret (inl c')) ELSE
   ('(c', stop) <- preceded c (
      bump op ;;
      IF ask (t_and (fun _ _ => is_range) (t_not (range_operand r))) THEN ret (RANGE_EXPR, true) ELSE
      (x <- expr_bp R (mkR (forbid_structs r) false) (S op_bp) ;;
       (if is_some x then skip else err "expected expression") ;;
       ret (if (is_range : bool) then RANGE_EXPR else BIN_EXPR, false))) ;;
    if (stop : bool) then ret (inr c') else ret (inl c')))%gram.
Definition after (x : expr) (j : nat) : Prop := match x with Bin k _ _ => exists q, power k = Some q /\ ends T X (S q) j | _ => ends T X 255 j end.
Lemma y_spine : forall r bp x i j, spells T X i x j -> ordered x -> binds bp x -> depth x <= n -> after x j -> exists j0 x0, i < j0 /\ j0 <= j /\
  yields e T i [] (lhs R r) j0 (fun o l => exists c, o = Some (c, false) /\ shape c l (calls x0)) /\
  forall j2 Q N, (forall m c l, N <= m -> shape c l (calls x) -> yields e T j l (loop_ m (expr_step r bp) c) j2 Q) ->
  forall m c l, N + (j - j0) <= m -> shape c l (calls x0) -> yields e T j0 l (loop_ m (expr_step r bp) c) j2 Q.
Proof.
  intros r bp x. induction x as [k| |x IH|k x IH|x IH|x IH|x IH y IH2|k x IH y IH2]; intros i j H O B D A;
    try (exists j; eexists; pose proof (spells_lt _ _ _ H); repeat split; [lia|lia|apply y_lhs; eauto|]; intros j2 Q N HK m c l L; apply HK; lia).
  inversion H as [| | | | | | |i' l' j1 k' y' m' H1 OP NM H2]; subst. cbn [ordered] in O. destruct O as (q & P & B1 & B2 & O1 & O2). cbn [depth] in D. cbn [after] in A. destruct A as (q' & P' & A). assert (q' = q) by congruence. subst q'. clear P'.
  cbn [binds] in B. destruct B as (q' & P' & LE). assert (q' = q) by congruence. subst q'. clear P'.
  assert (A1 : after x j1). { pose proof (ends_op j1 k q OP P) as EO. destruct x as [k0| |x0|k0 x0|x0|x0|x0 y0|k0 x0 y0]; cbn [after]; try (eapply ends_255; exact EO). cbn [binds] in B1. destruct B1 as (q0 & P0 & L0). exists q0. split; auto. eapply ends_more; [|exact EO]. lia. }
  assert (B1' : binds bp x). { destruct x; cbn [binds] in *; auto. destruct B1 as (q0 & P0 & L0). exists q0. split; auto. lia. }
  destruct (IH i j1 H1 O1 B1' ltac:(lia) A1) as (j0 & x0 & L1 & L2 & HA & HP). pose proof (spells_lt _ _ _ H2) as LT. destruct (op_facts j1 k q OP P) as (NK & DD & Q1 & Q2 & OK). assert (W : 1 <= width k) by (destruct k; cbn; lia).
  exists j0, x0. repeat split; try lia; [exact HA|]. intros j2 Q N HK m c l L Sh. apply (HP j2 Q (S N)); [|lia|exact Sh]. clear m c l L Sh. intros m c l L (g & k0 & ch0 & -> & Bg & C). destruct m as [|m]; [lia|]. cbn [loop_].
  apply (y_bind j (Q := fun r l => exists c, r = inl c /\ shape c l (calls (Bin k x y)))); [|cbn beta; intros r' l (c' & -> & Sh); apply HK; [lia|exact Sh]].
  unfold expr_step, at_. apply y_ask with (kind_eqb k DOT_DOT). { rewrite <- DD. now apply sees_at1. }
  unfold current_op. eapply (y_read_bind e T j1 _ (fun e p => if t_cur IDENT e p && t_kw "is" e p then (2, IS_KW) else op_of p)); [intros p HT Hp; apply (current_op_at j1 k q p); auto|]. cbn beta iota zeta.
  destruct (Nat.ltb_spec q bp) as [|_]; [lia|]. no; [eapply sees_is; [now apply sees_at1|]; apply eqb_false; intros Q0; apply NK; rewrite Q0; cbn; tauto|].
  unfold kwi. no. { intros p HT Hp. unfold t_kwi. rewrite (sees_at1 j1 IDENT eq_refl p HT Hp), eqb_false; [reflexivity|]. intros Q0. apply NK. rewrite Q0. cbn. tauto. }
  eapply (y_bind j).
  - apply (y_preceded e T _ c g k0 ch0 j1 j (fun k' (stop : bool) ch => k' = (if kind_eqb k DOT_DOT then RANGE_EXPR else BIN_EXPR) /\ stop = false /\ flat_map build ch = calls x ++ CToken k (width k) :: calls y)).
    eapply y_bind; [apply y_bump; auto; apply OP|]. cbn beta. intros _ l ->. no.
    { destruct (kind_eqb_reflect k DOT_DOT) as [->|_]; [|apply sees_and_l; apply sees_const]. apply sees_and_r. change false with (negb true). apply sees_not. unfold range_operand. change (width DOT_DOT) with 1 in *. rewrite Nat.add_1_r in *. specialize (NM eq_refl). pose proof (first_token _ _ _ H2 O2) as F.
      eapply sees_is; [apply sees_and; [apply sees_ts; reflexivity|apply sees_not; apply sees_and_r; eapply sees_is; [now apply sees_at1|]]|].
      - apply eqb_false. intros Q0. rewrite Q0 in F. cbn in F. repeat (destruct F as [F|F]; [discriminate|]). exact F.
      - cbn [negb]. rewrite andb_true_r. cbn in F. repeat (destruct F as [F|F]; [rewrite <- F in *; first [reflexivity|congruence]|]). destruct F. }
    unfold expr_bp. eapply y_bind; [apply y_frame; apply (RD y (j1 + width k) j (S q)); auto; lia|]. cbn beta. intros o l (z & -> & c' & -> & g' & k' & ch' & -> & Bg' & C'). cbn [is_some]. match goal with |- yields _ _ _ ?l0 _ _ _ => apply (y_bind j (Q := fun _ l => l = l0)); [now apply y_ret|] end. cbn beta. intros _ l ->.
    apply y_ret. cbn [fst snd]. split; [split; auto; split; auto|destruct (kind_eqb k DOT_DOT); reflexivity]. rewrite !flat_map_app, Bg'. cbn [flat_map app]. change (build (INode (c_pos c) true k0 ch0)) with (build (INode (c_pos c) false k0 ch0)). rewrite C, C', ?app_nil_r. cbn [build]. rewrite <- ?app_assoc. reflexivity.
  - cbn beta. intros [c' stop] l (k' & ch' & -> & -> & Hs & BC). cbn [fst snd] in *. subst stop. apply y_ret. exists c'. split; auto. exists g. eexists. exists ch'. split; [reflexivity|]. split; auto. cbn. rewrite BC. rewrite <- app_assoc. reflexivity.
Qed.
Lemma y_body : forall r bp x i j, spells T X i x j -> ordered x -> binds bp x -> 1 <= bp -> depth x <= n -> ends T X bp j ->
  yields e T i [] (expr_bp_body R r bp) j (fun o l => exists c, o = Some (c, false) /\ shape c l (calls x)).
Proof.
  intros r bp x i j H O B L1 D E. assert (A : after x j). { destruct x; cbn [after]; try (eapply ends_255; exact E). cbn [binds] in B. destruct B as (q & P & L). exists q. split; auto. eapply ends_more; [|exact E]. lia. }
  destruct (y_spine r bp x i j H O B D A) as (j0 & x0 & LT & LE & HA & HP). pose proof (spells_len _ _ _ H O) as LEN. unfold expr_bp_body. eapply (y_bind j0).
  - apply (y_marked e T _ i j0 (fun c (bl : bool) l => bl = false /\ exists c', c = Extend c' /\ shape c' l (calls x0))). eapply y_bind; [exact HA|]. cbn beta. intros o l (c & -> & Sh). apply y_ret. cbn [fst snd]. split; [split; auto; exists c; auto|]. intros m. destruct Sh as (g & k & ch & -> & _). eexists. cbn. exists g, k, ch. split; reflexivity.
  - cbn beta. intros [o bl] l (m & c & ch & l2 & -> & EN & CL & HB & c' & -> & Sh). cbn [fst snd closed] in *. subst o bl. cbn [ended] in EN. destruct EN as (g & k & cc & -> & ->). destruct Sh as (g' & k' & cc' & EQ & Bg & C).
    apply app_inj_tail in EQ. destruct EQ as [<- EQ]. injection EQ as <- <-. assert (Sh : shape c' ([] ++ [INode (c_pos c') false k (IGone m :: g ++ cc)]) (calls x0)).
    { exists [], k, (IGone m :: g ++ cc). split; auto. split; [reflexivity|]. rewrite <- C. cbn. rewrite flat_map_app, Bg. reflexivity. }
    unfold current_op. intros p f rest HT Hp So Op I. unfold mbind at 1. destruct (if t_cur IDENT e p && t_kw "is" e p then (2, IS_KW) else op_of p) as [ob ok]. rewrite andb_false_r. cbn [andb].
    revert p f rest HT Hp So Op I. change (yields e T j0 ([] ++ [INode (c_pos c') false k (IGone m :: g ++ cc)]) (c'0 <- expr_loop R r bp c' ;; ret (Some (c'0, false)))%gram j (fun o l => exists c, o = Some (c, false) /\ shape c l (calls x))).
    eapply (y_bind j (Q := fun c l => shape c l (calls x))); [|cbn beta; intros c l Sh'; apply y_ret; eauto]. unfold expr_loop. change (yields e T j0 ([] ++ [INode (c_pos c') false k (IGone m :: g ++ cc)]) (loop (expr_step r bp) c') j (fun c l => shape c l (calls x))).
    apply y_loop. apply (HP j _ 1); [|lia|exact Sh]. intros m0 c l L Sh'. destruct m0 as [|m0]; [lia|]. cbn [loop_]. eapply (y_bind j (Q := fun r l => exists c, r = inr c /\ shape c l (calls x))); [|cbn beta; intros y l' (c0 & -> & S0); apply y_ret; exact S0].
    unfold expr_step, at_. apply y_ask_any. intros b. unfold current_op. intros p f rest HT Hp So Op I. unfold mbind at 1. pose proof (current_op_end j bp p L1 E HT Hp) as LT'.
    destruct (if t_cur IDENT e p && t_kw "is" e p then (2, IS_KW) else op_of p) as [ob' ok']. cbn [fst] in LT'. destruct (Nat.ltb_spec ob' bp) as [_|]; [|lia].
    revert p f rest HT Hp So Op I LT'. intros p f rest HT Hp So Op I _. exact (y_ret e T j l (inr c) (fun r l => exists c, r = inr c /\ shape c l (calls x)) (ex_intro _ c (conj eq_refl Sh')) p f rest HT Hp So Op I).
Qed.
End Atoms.
End Parse.

(** ** The whole expression *)
Theorem y_run : forall T, no_end T -> forall n e r bp x i j, spells T (e_texts e) i x j -> ordered x -> binds bp x -> 1 <= bp -> depth x <= n -> ends T (e_texts e) bp j ->
  yields e T i [] (r_expr (run (S (S (S n)))) r bp) j (fun o l => exists c, o = Some (c, false) /\ shape c l (calls x)).
Proof.
  intros T NE. induction n as [|n IH]; intros e r bp x i j H O B L D E.
  - change (r_expr (run 3) r bp) with (expr_bp_body (run 2) r bp). eapply (y_body e T NE (run 2) (run 1) (run 0)); eauto; intros; lia.
  - change (r_expr (run (S (S (S (S n))))) r bp) with (expr_bp_body (run (S (S (S n)))) r bp). eapply (y_body e T NE (run (S (S (S n)))) (run (S (S n))) (run (S n))); eauto.
    intros x' i' j' bp' H' O' B' L' E' D' e' r' ET. apply (IH e'); rewrite ?ET; auto. lia.
Qed.
