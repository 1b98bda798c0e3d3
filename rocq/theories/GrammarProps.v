(** What the grammar guarantees for every source file (C16, C17, C21, C44, C45). *)
From Coq Require Import String.
From Verif Require Import Base SyntaxKind ParserModel ParserSpec ParserProofs ParserProofs2 ParserProps TreeSinkModel TreeSinkSpec TreeSinkProps AddressModel LexerModel LexerSpec LexerProofs LexerProps GrammarBase GrammarModel GrammarDisc GrammarDiscAll GrammarTot GrammarTotAll.
Close Scope string_scope.
Close Scope N_scope.
Open Scope nat_scope.

(** * The whole parser *)
Inductive outcome := PTree (t : tree) (errs : list (text * nat)) | PPanic | PEndless.
(** after tokenizing; parse_text, crates/syntax/src/parse.rs:39-56, without the errors of the lexer *)
Definition parse_tokens (debug : bool) (src : text) (l : list (raw_token * text)) : outcome :=
  match parse_events debug l with
  | Fuel => PEndless
  | Crash | Broken => PPanic
  | Ret _ p =>
      match process (p_events p) with
      | Panic => PPanic
      | Ok calls => match build_tree src (map fst l) calls with Ok (t, errs) => PTree t errs | Panic => PPanic end
      end
  end.
Definition parse_text (cl : text -> nat) (debug : bool) (t : text) : outcome :=
  match tokenize cl t with
  | None => PEndless
  | Some Panic => PPanic
  | Some (Ok l) => parse_tokens debug (encode t) l
  end.

(** * Lists (C21) *)
(** an element parser that only moves forward; [sound]: the position is where the token events say *)
Definition steady {A} (m : M A) : Prop := forall e p, sound p -> not_eof p ->
  match m e p with Ret _ p' => sound p' /\ grows p p' | Crash | Broken => True | Fuel => False end.
Lemma steady_tot : forall {A} (m : M A) n d, steady m -> tot n d true m ff.
Proof. intros A m n d H e p S F Z. specialize (H e p S (Z eq_refl)). destruct (m e p); auto. destruct H. split; auto. split; auto. discriminate. Qed.
Theorem list_terminates : forall element delim msg list_end e p, steady element -> okk delim = true -> sound p ->
  match delimited element delim msg list_end e p with
  | Ret _ p' => sound p' /\ p_toks p' = p_toks p /\ p_pos p <= p_pos p' <= length (p_toks p)
  | Crash | Broken => True
  | Fuel => False
  end.
Proof.
  intros element delim msg list_end e p SE K S. pose proof (t_delimited (3 * left_ p) 0 false element delim msg list_end K (steady_tot _ _ _ SE) e p S ltac:(lia) ltac:(discriminate)) as H.
  destruct (delimited element delim msg list_end e p) as [a p'| | |]; auto. destruct H as (S1 & G & _). split; auto. split; [apply G|]. pose proof (grows_pos _ _ S S1 G). destruct S1 as (_ & _ & L). rewrite (proj1 G) in L. auto.
Qed.
(** every turn consumes something or is the last *)
Theorem list_turn_progresses : forall element delim msg list_end outer is_empty e p s p', steady element -> okk delim = true -> sound p ->
  delim_step element delim msg list_end outer is_empty e p = Ret (inl s) p' -> p_pos p < p_pos p'.
Proof.
  intros element delim msg list_end outer is_empty e p s p' SE K S H. pose proof (t_delim_step (3 * left_ p) 0 element delim msg list_end outer is_empty K (steady_tot _ _ _ SE) e p S ltac:(lia) ltac:(discriminate)) as T. rewrite H in T. apply T. reflexivity.
Qed.
Theorem iterate_terminates : forall {T} stop (f : T -> M (bool * T)) s e p, (forall s, steady (f s)) -> sound p ->
  match iterate_to_EOF stop f s e p with
  | Ret _ p' => sound p' /\ p_toks p' = p_toks p /\ p_pos p <= p_pos p' <= length (p_toks p)
  | Crash | Broken => True
  | Fuel => False
  end.
Proof.
  intros T stop f s e p SE S. pose proof (t_iterate (3 * left_ p) 0 false stop f s (fun s => steady_tot _ _ _ (SE s)) e p S ltac:(lia) ltac:(discriminate)) as H.
  destruct (iterate_to_EOF stop f s e p) as [a p'| | |]; auto. destruct H as (S1 & G & _). split; auto. split; [apply G|]. pose proof (grows_pos _ _ S S1 G). destruct S1 as (_ & _ & L). rewrite (proj1 G) in L. auto.
Qed.

(** * The whole grammar *)
Lemma new_sound : forall raw, no_eof raw -> sound (parser_new raw).
Proof. intros raw N. split; [apply significant_kinds; exact N|]. split; [reflexivity|cbn; lia]. Qed.
Lemma new_solid : forall raw, solid (parser_new raw).
Proof.
  intros raw. unfold solid. cbn. generalize 0. induction raw as [|t raw IH]; intros off; cbn; [constructor|]. destruct (is_trivia (rt_kind t)) eqn:T; [apply IH|]. constructor; auto.
Qed.
Definition no_eof_in (l : list (raw_token * text)) : Prop := no_eof (map fst l).
(** the parser stops at the end of the file *)
Lemma top_loop_end : forall n fuel e p u p', sound p -> 3 * left_ p + 3 <= n -> e_rs e = rs_empty ->
  loop_ fuel (iter_step [] (fun _ : unit => top_item (run n) ;; ret (true, tt))) u e p = Ret tt p' -> p_pos p' = length (p_toks p').
Proof.
  intros n. induction fuel as [|fuel IH]; intros e p u p' S F E H; [discriminate|]. cbn [loop_] in H. unfold mbind at 1 in H. unfold iter_step in H. unfold mbind at 1, ask at 1 in H.
  destruct (t_or (t_at EOF) (t_ts []) e p) eqn:B.
  - cbn [ret] in H. injection H as _ <-. unfold t_or in B. apply orb_prop in B. destruct B as [B|B]; [|discriminate]. unfold t_at in B. cbn [nth_at] in B.
    destruct (Nat.eq_dec (p_pos p) (length (p_toks p))) as [|NE]; auto. exfalso. destruct S as (S1 & S2 & S3). apply (in_not_eof p); [split; auto|lia|]. unfold current.
    destruct (kind_eqb_reflect (t_kind (lookahead_nth p 0)) EOF); [assumption|discriminate].
  - assert (N : not_eof p) by (unfold t_or, t_at in B; apply orb_false_iff in B; destruct B as [B _]; cbn [nth_at] in B; intros Q; unfold current in Q; rewrite Q in B; discriminate).
    unfold mbind at 1, pos_ at 1 in H. unfold mbind at 1 in H. unfold with_ts at 1, with_rs at 1, local at 1 in H. unfold mbind at 1 in H.
    pose proof (t_top_item n (run n) (tot_run n) 3 (le_n _) (set_rs (rs_union (e_rs e) (rs_of [])) e) p S F (fun _ => N)) as T.
    destruct (top_item (run n) _ p) as [v p1| | |]; try discriminate. destruct T as (S1 & G1 & P1). specialize (P1 eq_refl). cbn [ret negb] in H. unfold mbind at 1, outer_rs at 1 in H. unfold mbind at 1, at_ts at 1, ask at 1 in H. rewrite E in H. cbn [t_ts rs_kinds rs_empty mem existsb] in H.
    unfold mbind at 1, pos_ at 1 in H. destruct (Nat.eqb_spec (p_pos p1) (p_pos p)) as [|_]; [lia|]. cbn [ret] in H. eapply (IH e p1); [exact S1| |exact E|exact H].
    pose proof (grows_left _ _ G1 ltac:(lia)). lia.
Qed.
Lemma parse_run : forall debug l, no_eof_in l ->
  match parse_events debug l with
  | Ret _ p => exists os f h u ch, steps (begin (map fst l)) os = Some (Ok (p, [f])) /\ careful_run (begin (map fst l)) os /\ f_items f = [INode h u SOURCE_FILE ch] /\ p_pos p = length (p_toks p)
  | Crash => True
  | Broken | Fuel => False
  end.
Proof.
  intros debug l N. unfold parse_events, source_file. set (p0 := parser_new (map fst l)). set (n := enough p0). set (e := file_env debug l).
  assert (S0 : sound p0) by (apply new_sound; exact N). assert (I0 : Inv p0 [base_frame]) by (apply begin_inv; exact N).
  set (body := iterate_to_EOF [] (fun _ : unit => top_item (run n) ;; ret (true, tt)) tt).
  assert (F0 : 3 * left_ p0 + 3 <= n) by (unfold n, enough, left_; lia).
  assert (T : tot n 3 false body ff).
  { apply t_iterate. intros s. eapply (t_bind _ _ _ _ _ yes); [apply t_top_item; [apply tot_run|lia]|]. intros a. cbn. apply t_ret. reflexivity. }
  assert (D : disc None body).
  { change (disc (hnd tt) body). apply d_iterate; [exact Logic.I|]. intros s _. apply (@d_bind unit _ _ _ None); [apply d_top_item; apply disc_run|]. intros a _. apply d_ret; cbn; auto. }
  unfold mbind at 1. unfold node. pose proof (T e (push_event tombstone p0) (sound_push _ tombstone S0 eq_refl) F0 ltac:(discriminate)) as TB. cbn [start].
  pose proof (body_ok body e p0 base_frame [] D (new_solid _) I0) as NB. cbn [start snd] in NB. destruct (body e (push_event tombstone p0)) as [v p2| | |] eqn:EB; auto.
  destruct (node_ok body SOURCE_FILE e p0 base_frame [] v p2 D eq_refl (new_solid _) I0 EB) as (p3 & ch & C & (os & ST & CR)). cbn [fst start] in C. rewrite C. cbn [skip ret].
  exists os. eexists. exists (length (p_events p0)), false, ch. split; [exact ST|]. split; [exact CR|]. split; [reflexivity|].
  destruct v. assert (P2 : p_pos p2 = length (p_toks p2)) by exact (top_loop_end n _ e _ tt p2 (sound_push _ tombstone S0 eq_refl) F0 eq_refl EB).
  destruct TB as (S2 & _ & _). destruct (complete_sound _ _ _ _ S2 C) as (_ & [T3 _] & P3). now rewrite P3, T3.
Qed.

(** Parsing terminates *)
Theorem parse_terminates : forall debug l, no_eof_in l -> parse_events debug l <> Fuel.
Proof. intros debug l N E. pose proof (parse_run debug l N) as H. rewrite E in H. exact H. Qed.
(** No operation on a marker panics: what remains are the assertions of the grammar *)
Theorem parse_markers_fine : forall debug l, no_eof_in l -> parse_events debug l <> Broken.
Proof. intros debug l N E. pose proof (parse_run debug l N) as H. rewrite E in H. exact H. Qed.
(** Parsing ends with one root, every node closed, at the end of the file *)
Theorem parse_one_root : forall debug l p, no_eof_in l -> parse_events debug l = Ret tt p ->
  p_pos p = length (p_toks p) /\ exists inner, process (p_events p) = Ok (CStart SOURCE_FILE :: inner ++ [CFinish]) /\ nested 0 inner.
Proof.
  intros debug l p N E. pose proof (parse_run debug l N) as H. rewrite E in H. destruct H as (os & f & h & u & ch & ST & CR & FI & P). split; auto. eapply replay_one_root; eauto.
Qed.
(** The tree contains the source, whatever the input *)
Theorem parse_tokens_lossless : forall debug ts txt, lexed ts -> Forall (fun x : kind * text => 0 < length (snd x)) ts -> Forall (fun x : kind * text => fst x <> EOF) ts -> map fst txt = raw_of ts ->
  parse_events debug txt = Crash \/ exists ch errs, parse_tokens debug (source ts) txt = PTree (TNode SOURCE_FILE ch) errs /\ tree_text (TNode SOURCE_FILE ch) = source ts.
Proof.
  intros debug ts txt LX PL NE ET. assert (N : no_eof (map fst txt)) by (rewrite ET; unfold no_eof, raw_of; rewrite Forall_map; exact NE).
  pose proof (parse_run debug txt N) as H. unfold parse_tokens. destruct (parse_events debug txt) as [v p| | |]; auto; [right|tauto|tauto]. destruct H as (os & f & h & u & ch & ST & CR & FI & P). rewrite ET in *.
  destruct (parse_keeps_source ts os p f h u SOURCE_FILE ch LX PL NE CR ST FI P) as (out & t & errs & PR & BT & TX & (ttx & _ & MK)). rewrite PR, BT.
  destruct t as [k chs|k x]; [|cbn in MK; discriminate]. cbn [strip_trivia marks build marks_of] in MK. injection MK as MK _. subst k. exists chs, errs. auto.
Qed.
(** The same from the text on *)
Theorem parse_text_lossless_partial : forall cl debug t, sensible cl -> ascii_comments t ->
  parse_text cl debug t = PPanic \/ exists ch errs, parse_text cl debug t = PTree (TNode SOURCE_FILE ch) errs /\ tree_text (TNode SOURCE_FILE ch) = encode t.
Proof.
  intros cl debug t SC AC. destruct (tokens_fit_sink_partial cl t SC AC) as (l & EQ & SR & RW & LX & PL & NE). unfold parse_text. rewrite EQ.
  destruct (parse_tokens_lossless debug (sink_tokens l) l LX PL NE (eq_sym RW)) as [C|(ch & errs & PT & TX)].
  - left. unfold parse_tokens. now rewrite C.
  - right. rewrite SR in *. eauto.
Qed.

(** * Panics (C45) *)
(** In release builds the parser panics on these files: the address of [module { ::] is an assertion; so is the
    argument list after the type arguments of a behavior predicate, the one after [apply] in a proof, and the
    second half of an [include] whose lookahead saw [&&]. *)
Definition bad_files : list string :=
  ["module { ::"; "module 0x1::m { spec f { requires_of<bad } }"; "module 0x1::m { spec f {} proof { apply foo; } }"; "module 0x1::m { spec f { include a + b && c; } }"]%string.
Theorem parse_never_panics_refuted : exists cl, sensible cl /\ forall s, In s bad_files -> parse_text cl false (str s) = PPanic.
Proof. exists one. split; [apply one_sensible|]. intros s H. repeat (destruct H as [<-|H]; [vm_compute; reflexivity|]). destruct H. Qed.
(** With debug assertions also where an iteration does not consume anything; in release builds it ends. *)
Definition stuck_files : list string := ["#[fun"; "#[use"; "module 0x1::m{const A:vector<|"]%string.
Theorem no_stuck_iteration_refuted : exists cl, sensible cl /\ forall s, In s stuck_files -> parse_text cl true (str s) = PPanic /\ exists t errs, parse_text cl false (str s) = PTree t errs.
Proof. exists one. split; [apply one_sensible|]. intros s H. repeat (destruct H as [<-|H]; [split; [vm_compute; reflexivity|do 2 eexists; vm_compute; reflexivity]|]). destruct H. Qed.
(** A function pattern of 256 joined tokens: the counter is a u8.  Debug builds panic; in release builds the
    pattern is not recognised. *)
Definition long_pattern : list (raw_token * text) :=
  match tokenize one (str "module 0x1::m { spec module { apply S to ") with Some (Ok a) => a | _ => [] end ++ repeat (mkRaw STAR 1, str "*") 256 ++ [(mkRaw SEMICOLON 1, str ";")].
Theorem wildcard_counter_refuted : parse_events true long_pattern = Crash /\
  exists p, parse_events false long_pattern = Ret tt p /\ ~ In WILDCARD_PATTERN (map (fun x => match x with EStart k _ => k | _ => TOMBSTONE end) (p_events p)).
Proof.
  split; [vm_compute; reflexivity|]. destruct (parse_events false long_pattern) as [[] p| | |] eqn:E; [|vm_compute in E; discriminate|vm_compute in E; discriminate|vm_compute in E; discriminate]. exists p. split; auto.
  assert (B : match parse_events false long_pattern with Ret _ p => existsb (kind_eqb WILDCARD_PATTERN) (map (fun x => match x with EStart k _ => k | _ => TOMBSTONE end) (p_events p)) | _ => true end = false) by (vm_compute; reflexivity).
  rewrite E in B. intros H. apply not_true_iff_false in B. apply B. apply existsb_exists. eexists. split; [exact H|reflexivity].
Qed.

(** * Examples *)
Fixpoint shape (t : tree) : list (nat * kind) :=
  match t with TTok k _ => if is_trivia k then [] else [(0, k)] | TNode k l => (0, k) :: map (fun x => (S (fst x), snd x)) (flat_map shape l) end.
Definition ex_src : text := str "script { fun f() { a + b * c } }".
Example ex_ascii : ascii_comments ex_src.
Proof.
  intros a b c E _. exfalso. assert (H : In 47%N ex_src) by (rewrite E; apply in_or_app; right; left; reflexivity). cbv in H. repeat (destruct H as [H|H]; [discriminate H|]). exact H.
Qed.
Example parse_example : exists t errs, parse_text one true ex_src = PTree t errs /\ errs = [] /\ tree_text t = encode ex_src /\ shape t =
  [(0, SOURCE_FILE); (1, SCRIPT); (2, SCRIPT_KW); (2, L_CURLY); (2, FUN); (3, FUN_KW); (3, NAME); (4, IDENT); (3, PARAM_LIST); (4, L_PAREN); (4, R_PAREN);
   (3, BLOCK_EXPR); (4, L_CURLY); (4, BIN_EXPR); (5, PATH_EXPR); (6, PATH); (7, PATH_SEGMENT); (8, NAME_REF); (9, IDENT); (5, PLUS);
   (5, BIN_EXPR); (6, PATH_EXPR); (7, PATH); (8, PATH_SEGMENT); (9, NAME_REF); (10, IDENT); (6, STAR); (6, PATH_EXPR); (7, PATH); (8, PATH_SEGMENT); (9, NAME_REF); (10, IDENT);
   (4, R_CURLY); (2, R_CURLY)].
Proof. do 2 eexists. split; [vm_compute; reflexivity|]. split; [reflexivity|]. split; vm_compute; reflexivity. Qed.
(** nothing of a file the grammar does not understand is lost *)
Example parse_garbage_example : exists t errs, parse_text one false (str "} fun ( 0x 'a module { && # [") = PTree t errs /\ tree_text t = str "} fun ( 0x 'a module { && # [" /\ 0 < length errs.
Proof. do 2 eexists. split; [vm_compute; reflexivity|]. split; [vm_compute; reflexivity|vm_compute; lia]. Qed.
Example parse_terminates_example : no_eof_in long_pattern.
Proof. unfold no_eof_in, no_eof. rewrite Forall_forall. intros x H. apply in_map_iff in H. destruct H as (y & <- & H). unfold long_pattern in H. cbn in H. repeat (destruct H as [<-|H]; [discriminate|]). destruct H. Qed.
(** an element parser that consumes an identifier or nothing *)
Example steady_example : steady ability /\ sound (parser_new (map fst long_pattern)) /\ okk COMMA = true.
Proof.
  split; [|split; [apply new_sound; exact parse_terminates_example|reflexivity]]. intros e p S N. pose proof (t_ability (3 * left_ p) 0 false e p S ltac:(lia) ltac:(discriminate)) as T. destruct (ability e p); auto. destruct T as (X & Y & _). auto.
Qed.
Example list_turn_example : exists e p s p', delim_step ability COMMA "x" None rs_empty true e p = Ret (inl s) p' /\ sound p /\ p_pos p = 0 /\ p_pos p' = 2.
Proof.
  exists (mkEnv [] false rs_empty SMove), (parser_new [mkRaw IDENT 1; mkRaw COMMA 1; mkRaw IDENT 1]). do 2 eexists. split; [vm_compute; reflexivity|]. split; [apply new_sound; repeat constructor; discriminate|auto].
Qed.

Print Assumptions list_terminates.
Print Assumptions list_turn_progresses.
Print Assumptions iterate_terminates.
Print Assumptions parse_terminates.
Print Assumptions parse_markers_fine.
Print Assumptions parse_one_root.
Print Assumptions parse_tokens_lossless.
Print Assumptions parse_text_lossless_partial.
Print Assumptions parse_never_panics_refuted.
Print Assumptions no_stuck_iteration_refuted.
Print Assumptions wildcard_counter_refuted.
