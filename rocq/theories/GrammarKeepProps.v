(** Error recovery stays inside braces (C47): the theorems. *)
From Coq Require Import String.
From Verif Require Import Base SyntaxKind ParserModel AddressModel LexerModel LexerSpec LexerProps TreeSinkModel TreeSinkSpec TreeSinkProps ParserSpec ParserProofs ParserProofs2 ParserProps GrammarDisc GrammarDiscAll GrammarTot GrammarProps PrecSpec PrecRun GrammarSafe GrammarSafeAll GrammarSafeProps GrammarKeep GrammarKeepAll GrammarBase GrammarModel.
Close Scope string_scope.
Close Scope N_scope.
Open Scope nat_scope.

Section Contained.
Variables (T : toks) (X : list text).
Notation K i k := (kind_at T i = k).
(** [p] is a state of the parser on the tokens [T] with the texts [X], at token [i] *)
Definition parses_at (e : env) (p : parser) (i : nat) : Prop := e_texts e = X /\ p_toks p = T /\ sound p /\ p_pos p = i.
(** a function that returns has not gone past token [j] *)
Definition stops_by {A} (j : nat) (o : out A) : Prop := match o with Ret _ p' => p_pos p' <= j | _ => True end.

(** from [i] a function moves at most to [j] *)
Definition over {A} (j i : nat) (b : M A) : Prop :=
  forall e p, kbase T X e p -> p_pos p = i -> match b e p with Ret _ p' => sound p' /\ grows p p' /\ p_pos p' <= j | _ => True end.
Lemma over_ret : forall A j i (a : A), i <= j -> over j i (ret a).
Proof. intros A j i a L e p B P. cbn. split; [apply B|]. split; [apply grows_refl|lia]. Qed.
Lemma over_eat : forall B j i k (g : bool -> M B), okk k = true -> n_raw k = 1 -> (joined T i (parts k) = true -> over j (i + 1) (g true)) -> over j i (g false) -> over j i (mbind (eat_ k) g).
Proof.
  intros B j i k g KK N H1 H2 e p B0 P. unfold mbind, eat_, eat. apply okk_spec in KK. destruct KK as (_ & _ & KK). assert (S : sound p) by apply B0.
  pose proof (kv_raw T X e p i B0 P 0 k) as V. rewrite Nat.add_0_r in V. rewrite V. destruct (joined T i (parts k)) eqn:J; [|apply H2; auto].
  destruct (bump_sound p k (n_raw k) S (eat_in p k KK V)) as (U & G & W). specialize (H1 eq_refl e _ (kbase_next _ _ _ _ _ B0 U G)). rewrite W, P, <- N in H1. specialize (H1 eq_refl). destruct (g true e _) as [b p2| | |]; auto. destruct H1 as (S2 & G2 & r). split; auto. split; auto. eapply grows_trans; eauto.
Qed.
Lemma over_seq : forall A B j i (b : M A) (g : A -> M B) (Q : nat -> Prop),
  (forall e p, kbase T X e p -> p_pos p = i -> match b e p with Ret _ p' => sound p' /\ grows p p' /\ Q (p_pos p') | _ => True end) -> (forall a k, Q k -> over j k (g a)) -> over j i (mbind b g).
Proof.
  intros A B j i b g Q H1 H2 e p B0 P. unfold mbind. specialize (H1 e p B0 P). destruct (b e p) as [a p1| | |]; auto. destruct H1 as (S1 & G1 & q). specialize (H2 a _ q e p1 (kbase_next _ _ _ _ _ B0 S1 G1) eq_refl).
  destruct (g a e p1) as [c p2| | |]; auto. destruct H2 as (S2 & G2 & r). split; auto. split; auto. eapply grows_trans; eauto.
Qed.
Lemma over_skip : forall A j i (b : M A), over j i b -> over j i (b ;; skip).
Proof. intros A j i b H. apply (over_seq _ _ _ _ _ _ (fun k => k <= j) H). intros. now apply over_ret. Qed.
Lemma over_err : forall A j i x (b : M A), over j i b -> over j i (err x ;; b).
Proof.
  intros A j i x b H. apply (over_seq _ _ _ _ _ _ (fun k => k = i)); [|intros; subst; exact H]. intros e p B P. cbn. split; [apply sound_push; auto; apply B|]. split; [apply grows_push|exact P].
Qed.
Lemma over_node : forall A j i k (b : M A), over j i b -> over j i (node k b).
Proof.
  intros A j i k b H e p B0 P. unfold node. cbn [start]. specialize (H e _ (kbase_start _ _ _ _ B0) P). destruct (b e _) as [a p2| | |]; auto. destruct H as (S2 & G2 & L).
  destruct (complete _ k p2) as [p3|] eqn:C; auto. destruct (complete_sound _ _ _ _ S2 C) as (S3 & G3 & P3). split; auto. split; [eapply grows_trans; [apply grows_push|]; eapply grows_trans; eauto|]. now rewrite P3.
Qed.
Lemma over_assert : forall A j i t (b : M A), over j i b -> over j i (assert_ t ;; b).
Proof. intros A j i t b H e p B P. unfold mbind at 1, assert_, mbind, ask. destruct (t e p); [|exact Logic.I]. cbn. now apply H. Qed.
Lemma over_reset : forall A j i (b : M A), over j i b -> over j i (reset_rs b).
Proof. intros A j i b H e p (B1 & B2) P. apply (H (set_rs rs_empty e) p); auto. split; auto. Qed.
Lemma over_bump : forall A j i (b : M A), over j (i + 1) b -> over j i (bump L_CURLY ;; b).
Proof.
  intros A j i b H. apply (over_seq _ _ _ _ _ _ (fun k => k = i + 1)); [|intros; subst; exact H].
  intros e p B0 P. unfold bump. unfold mbind, eat_, eat. assert (S : sound p) by apply B0. pose proof (kv_raw T X e p i B0 P 0 L_CURLY) as V. rewrite V. destruct (joined T (i + 0) (parts L_CURLY)) eqn:J; [|exact Logic.I].
  destruct (bump_sound p L_CURLY 1 S (eat_in p L_CURLY ltac:(discriminate) V)) as (U & G & W). change (n_raw L_CURLY) with 1. unfold skip, ret. rewrite W, P. auto.
Qed.
Lemma over_list : forall A B i m (body : M A) (g : A -> M B), matching T i m -> keep T X false m (i + 1) body any -> (forall a k, k <= m -> over (m + 1) k (g a)) -> over (m + 1) (i + 1) (mbind body g).
Proof.
  intros A B i m body g (KI & BA & KM) H H2. assert (IM : inside T X m (i + 1)) by (split; [now apply balanced_le in BA|]; split; [exists (i + 1); auto|auto]).
  apply (over_seq _ _ _ _ _ _ (fun k => k <= m)); auto. intros e p B0 P. specialize (H IM e p B0 P ltac:(discriminate)). destruct (body e p); auto. tauto.
Qed.
Lemma over_expect : forall m k, k <= m -> over (m + 1) k (expect R_CURLY).
Proof. intros m k L. unfold expect, expect_msg. apply over_eat; auto; [intros _; apply over_ret; lia|]. apply over_err, over_ret. lia. Qed.

Hypothesis TM : tame T X.
Section Run.
Variable n : nat.
Let HR : held T X (run n) := held_run T X TM n.

(** A block that starts at the brace [i] does not go past the brace [m] that closes it, whatever is between
    them and whatever encloses it. *)
Theorem block_contained : forall e p i m, parses_at e p i -> matching T i m -> stops_by (m + 1) (block_expr (run n) e p).
Proof.
  intros e p i m (TX & TT & S & P) M. assert (H : over (m + 1) i (block_expr (run n))).
  { unfold block_expr. apply over_assert, over_reset, over_node, over_bump. apply over_list; auto; [|intros; now apply over_expect]. eapply k_stmt_list; eauto. apply M. }
  unfold stops_by. specialize (H e p (conj TX (conj TT S)) P). destruct (block_expr _ _ _); auto. tauto.
Qed.
(** the same for the items of a module *)
Theorem item_list_contained : forall e p i m, tame_items T X -> parses_at e p i -> matching T i m -> stops_by (m + 1) (item_list (run n) e p).
Proof.
  intros e p i m TI (TX & TT & S & P) M. assert (H : over (m + 1) i (item_list (run n))).
  { unfold item_list. apply over_assert, over_bump. apply over_list; auto; [|intros; now apply over_skip, over_expect]. eapply k_items; eauto. apply M. }
  unfold stops_by. specialize (H e p (conj TX (conj TT S)) P). destruct (item_list _ _ _); auto. tauto.
Qed.
Lemma stops_keep : forall A f s i (b : M A) Q e p, keep T X f s i b Q -> inside T X s i -> parses_at e p i -> (f = true -> In (kind_at T s) (rs_kinds (e_rs e))) -> stops_by s (b e p).
Proof.
  intros A f s i b Q e p H I (TX & TT & S & P) RS. unfold stops_by. specialize (H I e p (conj TX (conj TT S)) P). destruct (b e p) eqn:E; auto. apply H. intros F. apply existsb_exists. exists (kind_at T s). split; auto. now destruct (kind_eqb_reflect (kind_at T s) (kind_at T s)).
Qed.
(** what is inside braces: a statement and an item at [i] do not go past the closing brace [s] when the recovery
    set has it *)
Theorem stmt_contained : forall e p i s, parses_at e p i -> inside T X s i -> K s R_CURLY -> i < s -> kind_at T i <> R_CURLY -> In R_CURLY (rs_kinds (e_rs e)) -> stops_by s (stmt (run n) e p).
Proof. intros e p i s P I KS L N RS. eapply (stops_keep _ true); eauto; [apply (h_stmt T X _ HR); auto|rewrite KS; auto]. Qed.
Theorem item_contained : forall e p i s, tame_items T X -> parses_at e p i -> inside T X s i -> K s R_CURLY -> kind_at T i <> R_CURLY -> In R_CURLY (rs_kinds (e_rs e)) -> stops_by s (item (run n) e p).
Proof. intros e p i s TI P I KS N RS. eapply (stops_keep _ true); eauto; [eapply k_item; eauto|rewrite KS; auto]. Qed.
(** an expression, a type, a pattern and a path do not go past a closing brace, or a semicolon, that the recovery
    set has *)
Theorem expr_contained : forall e p i s, parses_at e p i -> inside T X s i -> In (kind_at T s) (rs_kinds (e_rs e)) ->
  (forall r bp, stops_by s (expr_bp (run n) r bp e p)) /\ (forall rs, stops_by s (type_or_recover (run n) rs e p)) /\ stops_by s (pattern (run n) e p) /\ (forall mode, stops_by s (path (run n) mode e p)).
Proof.
  intros e p i s P I RS. repeat split; intros; (eapply (stops_keep _ true); [|eassumption|eassumption|auto]); [apply (h_expr T X _ HR)|apply (h_type T X _ HR)|apply (h_pattern T X _ HR)|apply (h_path T X _ HR)].
Qed.
End Run.

(** * Deciding that a file is tame *)
Definition spots : list nat := seq 0 (length T).
Definition is_ (k : kind) (i : nat) : bool := kind_eqb (kind_at T i) k.
Definition between (i k : nat) : list nat := seq (i + 1) (k - (i + 1)).
Definition quantifier_b (i : nat) : bool := is_ IDENT i && (reads X i "forall" || (reads X i "exists" && (is_ COLON (i + 1) || is_ IDENT (i + 1)))).
Definition tame_b : bool :=
  forallb (fun i => implb (is_ R_CURLY i) (reads X i "}")) spots &&
  forallb (fun i => implb (is_ SEMICOLON i) (reads X i ";")) spots &&
  forallb (fun i => negb (is_ BAD_CHARACTER i && is_ R_CURLY (i + 1))) spots &&
  forallb (fun i => negb (is_ QUOTE_IDENT i && is_ COLON (i + 1) && is_ R_CURLY (i + 2))) spots &&
  forallb (fun i => negb (is_ IDENT i && reads X i "post" && is_ R_CURLY (i + 1))) spots &&
  forallb (fun i => implb (quantifier_b i) (forallb (fun k => implb (is_ L_CURLY k) (existsb (fun x => is_ R_CURLY x || is_ SEMICOLON x) (between i k))) (between i (length T)))) spots.
(** for items, with no attributes after an enum at all *)
Definition tame_items_b : bool :=
  forallb (fun i => implb (is_ IDENT i && reads X i "enum") (forallb (fun y => negb (is_ POUND y)) (between i (length T)))) spots &&
  forallb (fun i => implb (is_ SPEC_KW i) (forallb (fun k => implb (is_ L_ANGLE k) (existsb (fun x => is_ L_CURLY x || is_ R_CURLY x) (between i k))) (between i (length T)))) spots.
Lemma is_spec : forall k i, is_ k i = true <-> K i k.
Proof. intros k i. unfold is_. destruct (kind_eqb_reflect (kind_at T i) k); split; intros; auto; try discriminate; contradiction. Qed.
Lemma in_spots : forall i k, K i k -> k <> EOF -> In i spots.
Proof. intros i k E N. apply in_seq. unfold kind_at in E. destruct (nth_error T i) eqn:H; [|congruence]. assert (i < length T) by (apply nth_error_Some; congruence). lia. Qed.
Lemma in_between : forall i k x, In x (between i k) <-> i < x /\ x < k.
Proof. intros i k x. unfold between. rewrite in_seq. lia. Qed.
Lemma quantifier_spec : forall i, quantifier T X i -> quantifier_b i = true.
Proof.
  intros i (H1 & H2). unfold quantifier_b. apply is_spec in H1. rewrite H1. destruct H2 as [H2|(H2 & H3)]; rewrite H2; [reflexivity|]. destruct H3 as [H3|H3]; apply is_spec in H3; rewrite H3; rewrite ?orb_true_r; reflexivity.
Qed.
Ltac at_spot H i := rewrite forallb_forall in H; specialize (H i); cbv beta in H.
Lemma tame_b_spec : tame_b = true -> tame T X.
Proof.
  unfold tame_b. intros H. repeat (apply andb_prop in H; destruct H as [H ?]). rename H0 into Hq, H1 into Hp, H2 into Hl, H3 into Hb, H4 into Hs. constructor.
  - intros i E. at_spot H i. specialize (H (in_spots _ _ E ltac:(discriminate))). apply is_spec in E. rewrite E in H. exact H.
  - intros i E. at_spot Hs i. specialize (Hs (in_spots _ _ E ltac:(discriminate))). apply is_spec in E. rewrite E in Hs. exact Hs.
  - intros i E E2. at_spot Hb i. specialize (Hb (in_spots _ _ E ltac:(discriminate))). apply is_spec in E, E2. rewrite E, E2 in Hb. discriminate.
  - intros i E E2 E3. at_spot Hl i. specialize (Hl (in_spots _ _ E ltac:(discriminate))). apply is_spec in E, E2, E3. rewrite E, E2, E3 in Hl. discriminate.
  - intros i E E2 E3. at_spot Hp i. specialize (Hp (in_spots _ _ E ltac:(discriminate))). apply is_spec in E, E3. rewrite E, E2, E3 in Hp. discriminate.
  - intros i k Q L E. at_spot Hq i. specialize (Hq (in_spots _ _ (proj1 Q) ltac:(discriminate))). rewrite (quantifier_spec _ Q) in Hq. cbn [implb] in Hq. at_spot Hq k.
    assert (IK : In k (between i (length T))) by (apply in_between; split; auto; pose proof (in_spots _ _ E ltac:(discriminate)) as IS; apply in_seq in IS; lia).
    specialize (Hq IK). apply is_spec in E. rewrite E in Hq. cbn [implb] in Hq. apply existsb_exists in Hq. destruct Hq as (x & Ix & Hx). apply in_between in Ix. exists x. split; [apply Ix|]. split; [apply Ix|]. apply orb_prop in Hx. destruct Hx as [Hx|Hx]; apply is_spec in Hx; auto.
Qed.
Lemma tame_items_b_spec : tame_items_b = true -> tame_items T X.
Proof.
  unfold tame_items_b. intros H. apply andb_prop in H. destruct H as [He Hs]. constructor.
  - intros i k m s E E2 _ L1 M _ y L2 L3 EY. at_spot He i. specialize (He (in_spots _ _ E ltac:(discriminate))). apply is_spec in E. rewrite E, E2 in He. cbn [implb andb] in He. at_spot He y.
    assert (IY : In y (between i (length T))) by (apply in_between; split; [lia|]; pose proof (in_spots _ _ EY ltac:(discriminate)) as IS; apply in_seq in IS; lia). specialize (He IY). apply is_spec in EY. rewrite EY in He. discriminate.
  - intros i k E L EK. at_spot Hs i. specialize (Hs (in_spots _ _ E ltac:(discriminate))). apply is_spec in E. rewrite E in Hs. cbn [implb] in Hs. at_spot Hs k.
    assert (IK : In k (between i (length T))) by (apply in_between; split; auto; pose proof (in_spots _ _ EK ltac:(discriminate)) as IS; apply in_seq in IS; lia).
    specialize (Hs IK). apply is_spec in EK. rewrite EK in Hs. cbn [implb] in Hs. apply existsb_exists in Hs. destruct Hs as (x & Ix & Hx). apply in_between in Ix. exists x. split; [apply Ix|]. split; [apply Ix|]. apply orb_prop in Hx. destruct Hx as [Hx|Hx]; apply is_spec in Hx; auto.
Qed.
(** the place after a stretch with matching braces *)
Fixpoint skip_balanced (fuel i : nat) : nat :=
  match fuel with
  | O => i
  | Datatypes.S f =>
      if is_ L_CURLY i then let m := skip_balanced f (i + 1) in if is_ R_CURLY m then skip_balanced f (m + 1) else i
      else if is_ R_CURLY i || is_ EOF i then i else skip_balanced f (i + 1)
  end.
Lemma skip_balanced_spec : forall f i, balanced T i (skip_balanced f i).
Proof.
  induction f as [|f IH]; intros i; cbn [skip_balanced]; [constructor|]. destruct (is_ L_CURLY i) eqn:EL.
  - cbv zeta. destruct (is_ R_CURLY (skip_balanced f (i + 1))) eqn:ER; [|constructor]. apply is_spec in EL, ER. eapply bal_braces; eauto.
  - destruct (is_ R_CURLY i) eqn:ER; cbn [orb]; [constructor|]. destruct (is_ EOF i); [constructor|]. apply bal_tok; auto; intros E; apply is_spec in E; congruence.
Qed.
Definition matching_b (i m : nat) : bool := is_ L_CURLY i && (skip_balanced (length T) (i + 1) =? m) && is_ R_CURLY m.
Lemma matching_b_spec : forall i m, matching_b i m = true -> matching T i m.
Proof.
  intros i m H. unfold matching_b in H. apply andb_prop in H. destruct H as [H H3]. apply andb_prop in H. destruct H as [H1 H2]. apply is_spec in H1, H3. apply Nat.eqb_eq in H2. subst m. split; auto. split; auto. apply skip_balanced_spec.
Qed.
End Contained.

(** * Examples and refutations *)
(** the parser on a file, with the first [i] tokens read *)
Definition parser_at (l : list (raw_token * text)) (i : nat) : parser := do_bump ERROR i (parser_new (map fst l)).
Lemma parser_at_spec : forall l i, no_eof (map fst l) -> i <= length (tokens_of l) -> parses_at (tokens_of l) (texts_of l) (file_env false l) (parser_at l i) i.
Proof.
  intros l i NE L. unfold parser_at. destruct (bump_sound (parser_new (map fst l)) ERROR i (new_sound _ NE) L) as (S & G & P). split; [reflexivity|]. split; [apply G|]. split; auto.
Qed.
Ltac no_eof_tac := unfold no_eof; rewrite Forall_forall; let x := fresh in let H := fresh in intros x H; vm_compute in H; repeat (destruct H as [<-|H]; [discriminate|]); destruct H.
(** a function with errors of many kinds; its block is from token 9 to token 41, and is parsed to exactly there *)
Definition broken_src : string := "module 0x1::m { fun f() { let = 1 + ; a.b( ; if (x 1 while { [ } match { ; fun } #[a] forall : ; let } fun g() {} }"%string.
Example block_contained_example :
  let l := lex broken_src in
  tame (tokens_of l) (texts_of l) /\ matching (tokens_of l) 9 41 /\ parses_at (tokens_of l) (texts_of l) (file_env false l) (parser_at l 9) 9 /\
  exists c p, block_expr (run 30) (file_env false l) (parser_at l 9) = Ret c p /\ p_pos p = 42.
Proof.
  cbv zeta. split; [apply tame_b_spec; vm_compute; reflexivity|]. split; [apply matching_b_spec; vm_compute; reflexivity|]. split; [apply parser_at_spec; [no_eof_tac|vm_compute; lia]|].
  eexists _, _. split; [vm_compute; reflexivity|reflexivity].
Qed.
(** the items of the module, from token 4 to token 48 *)
Example item_list_contained_example :
  let l := lex broken_src in
  tame (tokens_of l) (texts_of l) /\ tame_items (tokens_of l) (texts_of l) /\ matching (tokens_of l) 4 48 /\ parses_at (tokens_of l) (texts_of l) (file_env false l) (parser_at l 4) 4 /\
  exists c p, item_list (run 30) (file_env false l) (parser_at l 4) = Ret c p /\ p_pos p = 49.
Proof.
  cbv zeta. split; [apply tame_b_spec; vm_compute; reflexivity|]. split; [apply tame_items_b_spec; vm_compute; reflexivity|]. split; [apply matching_b_spec; vm_compute; reflexivity|]. split; [apply parser_at_spec; [no_eof_tac|vm_compute; lia]|].
  eexists _, _. split; [vm_compute; reflexivity|reflexivity].
Qed.
(** the statement [a.b( ; ...] at token 15 and the item at token 5, under the closing brace; the expression at token
    12 under the semicolon *)
Lemma parses_under : forall T X e p i rs, parses_at T X e p i -> parses_at T X (set_rs rs e) p i.
Proof. intros T X e p i rs H. exact H. Qed.
Definition under (ks : list kind) (l : list (raw_token * text)) : env := set_rs (rs_of ks) (file_env false l).
Example stmt_contained_example :
  let l := lex broken_src in
  inside (tokens_of l) (texts_of l) 41 15 /\ kind_at (tokens_of l) 41 = R_CURLY /\ kind_at (tokens_of l) 15 <> R_CURLY /\ parses_at (tokens_of l) (texts_of l) (under [R_CURLY] l) (parser_at l 15) 15 /\ In R_CURLY (rs_kinds (e_rs (under [R_CURLY] l))).
Proof.
  cbv zeta. split.
  - split; [lia|]. split; [exists 10; split; [lia|]; apply (skip_balanced_spec (tokens_of (lex broken_src)) 80 10)|]. left. reflexivity.
  - split; [reflexivity|]. split; [vm_compute; discriminate|]. split; [|now left]. apply parses_under, parser_at_spec; [no_eof_tac|vm_compute; lia].
Qed.
Example expr_contained_example :
  let l := lex broken_src in
  inside (tokens_of l) (texts_of l) 14 12 /\ parses_at (tokens_of l) (texts_of l) (under [SEMICOLON] l) (parser_at l 12) 12 /\ In (kind_at (tokens_of l) 14) (rs_kinds (e_rs (under [SEMICOLON] l))).
Proof.
  cbv zeta. split.
  - split; [lia|]. split; [exists 12; split; [lia|]; do 2 (apply bal_tok; [vm_compute; discriminate..|]); constructor|]. right. split; [reflexivity|]. intros q k L1 L2 L3 _. assert (k = 13) as -> by lia. vm_compute. discriminate.
  - split; [|now left]. apply parses_under, parser_at_spec; [no_eof_tac|vm_compute; lia].
Qed.
Example item_contained_example :
  let l := lex broken_src in
  tame_items (tokens_of l) (texts_of l) /\ inside (tokens_of l) (texts_of l) 48 5 /\ kind_at (tokens_of l) 48 = R_CURLY /\ kind_at (tokens_of l) 5 = FUN_KW.
Proof.
  cbv zeta. split; [apply tame_items_b_spec; vm_compute; reflexivity|]. split; [|split; reflexivity]. split; [lia|]. split; [exists 5; split; [lia|]; apply (skip_balanced_spec (tokens_of (lex broken_src)) 80 5)|]. left. reflexivity.
Qed.

(** Without the conditions it is false: a block whose braces match swallows its closing brace, and the function
    after it, *)
Definition swallowing_blocks : list (string * nat * nat) := [
  ("module 0x1::m { fun f() { 'a: } fun g() {} }", 9, 12);
  ("module 0x1::m { fun f() { ` } fun g() {} }", 9, 11);
  ("module 0x1::m { spec f {} proof { post } fun g() {} }", 10, 12);
  ("module 0x1::m { spec f { invariant forall x: u8 { + } : x; } fun g() {} fun h(a: u8, b: u8) {} }", 7, 19)]%string.
Theorem block_contained_refuted : Forall (fun '(s, i, m) =>
  let l := lex s in
  matching (tokens_of l) i m /\ exists e p, parses_at (tokens_of l) (texts_of l) e p i /\ exists n, ~ stops_by (m + 1) (block_expr (run n) e p)) swallowing_blocks.
Proof.
  assert (W : forall s i m k, let l := lex s in matching_b (tokens_of l) i m = true -> no_eof (map fst l) -> i <= length (tokens_of l) ->
    (exists n, match block_expr (run n) (mkEnv (texts_of l) false rs_empty k) (parser_at l i) with Ret _ p' => p_pos p' <=? m + 1 | _ => true end = false) ->
    matching (tokens_of l) i m /\ exists e p, parses_at (tokens_of l) (texts_of l) e p i /\ exists n, ~ stops_by (m + 1) (block_expr (run n) e p)).
  { intros s i m k l H1 H2 H3 (n & H4). split; [now apply matching_b_spec|]. exists (mkEnv (texts_of l) false rs_empty k), (parser_at l i). split.
    - exact (parser_at_spec l i H2 H3).
    - exists n. unfold stops_by. destruct (block_expr _ _ _); try discriminate. apply Nat.leb_gt in H4. lia. }
  unfold swallowing_blocks. constructor; [apply (W _ _ _ SMove); [vm_compute; reflexivity|no_eof_tac|apply Nat.leb_le; vm_compute; reflexivity|exists 30; vm_compute; reflexivity]|]. constructor; [apply (W _ _ _ SMove); [vm_compute; reflexivity|no_eof_tac|apply Nat.leb_le; vm_compute; reflexivity|exists 30; vm_compute; reflexivity]|].
  constructor; [apply (W _ _ _ SProof); [vm_compute; reflexivity|no_eof_tac|apply Nat.leb_le; vm_compute; reflexivity|exists 30; vm_compute; reflexivity]|]. constructor; [apply (W _ _ _ SSpec); [vm_compute; reflexivity|no_eof_tac|apply Nat.leb_le; vm_compute; reflexivity|exists 30; vm_compute; reflexivity]|constructor].
Qed.
(** and so do the items of a module *)
Definition swallowing_modules : list (string * nat * nat) := [
  ("address 0x1 { module m { enum E { #[a] } } fun g() {} }", 5, 14);
  ("address 0x1 { module m { spec f<} fun g() {} }", 5, 9)]%string.
Theorem item_list_contained_refuted : Forall (fun '(s, i, m) =>
  let l := lex s in
  tame (tokens_of l) (texts_of l) /\ matching (tokens_of l) i m /\ exists e p, parses_at (tokens_of l) (texts_of l) e p i /\ exists n, ~ stops_by (m + 1) (item_list (run n) e p)) swallowing_modules.
Proof.
  assert (W : forall s i m, let l := lex s in tame_b (tokens_of l) (texts_of l) = true -> matching_b (tokens_of l) i m = true -> no_eof (map fst l) -> i <= length (tokens_of l) ->
    (exists n, match item_list (run n) (file_env false l) (parser_at l i) with Ret _ p' => p_pos p' <=? m + 1 | _ => true end = false) ->
    tame (tokens_of l) (texts_of l) /\ matching (tokens_of l) i m /\ exists e p, parses_at (tokens_of l) (texts_of l) e p i /\ exists n, ~ stops_by (m + 1) (item_list (run n) e p)).
  { intros s i m l H0 H1 H2 H3 (n & H4). split; [now apply tame_b_spec|]. split; [now apply matching_b_spec|]. exists (file_env false l), (parser_at l i). split; [now apply parser_at_spec|].
    exists n. unfold stops_by. destruct (item_list _ _ _); try discriminate. apply Nat.leb_gt in H4. lia. }
  unfold swallowing_modules. constructor; [apply W; [vm_compute; reflexivity|vm_compute; reflexivity|no_eof_tac|apply Nat.leb_le; vm_compute; reflexivity|exists 30; vm_compute; reflexivity]|]. constructor; [apply W; [vm_compute; reflexivity|vm_compute; reflexivity|no_eof_tac|apply Nat.leb_le; vm_compute; reflexivity|exists 30; vm_compute; reflexivity]|constructor].
Qed.
(** these files are not tame *)
Example swallowing_not_tame : Forall (fun '(s, _, _) => tame_b (tokens_of (lex s)) (texts_of (lex s)) = false) swallowing_blocks /\ Forall (fun '(s, _, _) => tame_items_b (tokens_of (lex s)) (texts_of (lex s)) = false) swallowing_modules.
Proof. split; repeat (constructor; [vm_compute; reflexivity|]); constructor. Qed.

Print Assumptions block_contained.
Print Assumptions item_list_contained.
Print Assumptions stmt_contained.
Print Assumptions item_contained.
Print Assumptions expr_contained.
Print Assumptions block_contained_refuted.
Print Assumptions item_list_contained_refuted.
