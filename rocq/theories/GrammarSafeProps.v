(** When the parser does not panic (C45): the theorems. *)
From Coq Require Import String.
From Verif Require Import Base SyntaxKind ParserModel AddressModel LexerModel LexerSpec LexerProps TreeSinkModel TreeSinkSpec TreeSinkProps ParserSpec ParserProofs ParserProofs2 ParserProps GrammarDisc GrammarDiscAll GrammarTot GrammarProps PrecSpec PrecRun GrammarSafe GrammarSafeAll GrammarBase GrammarModel.
Close Scope string_scope.
Close Scope N_scope.
Open Scope nat_scope.

(** the significant tokens of a file and their texts *)
Definition tokens_of (l : list (raw_token * text)) : toks := significant 0 (map fst l).
Definition texts_of (l : list (raw_token * text)) : list text := map snd (significant_ l).
Definition benign_file (l : list (raw_token * text)) : Prop := benign (tokens_of l) (texts_of l).

Lemma texts_tokens : forall l o, length (map snd (significant_ l)) = length (significant o (map fst l)).
Proof.
  induction l as [|[t x] l IH]; intros o; auto. cbn [map significant significant_ filter fst].
  destruct (is_trivia (rt_kind t)); cbn [negb map length]; [apply IH|f_equal; apply IH].
Qed.

(** In a release build no assertion of the parser fails on a benign file: whatever else is wrong with it, the
    parser runs to the end. *)
Theorem parse_assertions_hold : forall l, no_eof_in l -> benign_file l -> exists p, parse_events false l = Ret tt p.
Proof.
  intros l N BN. pose proof (parse_terminates false l N) as NF. pose proof (parse_markers_fine false l N) as NB.
  assert (S : safe (tokens_of l) (texts_of l) 0 (source_file (run (enough (parser_new (map fst l))))) any).
  { apply s_source_file; auto. - unfold texts_of, tokens_of. apply texts_tokens. - apply good_run; auto. unfold texts_of, tokens_of. apply texts_tokens. }
  unfold parse_events in *. specialize (S (file_env false l) (parser_new (map fst l))).
  destruct (source_file _ _ _) as [[] p| | |]; [eauto|exfalso; apply S|tauto|tauto].
  - split; [reflexivity|]. split; [reflexivity|]. split; [reflexivity|]. split; [now apply new_sound|]. intros E. discriminate E.
  - reflexivity.
Qed.
(** So it makes a tree, and the tree has every character of the file. *)
Theorem benign_tokens_lossless : forall ts txt, lexed ts -> Forall (fun x : kind * text => 0 < length (snd x)) ts -> Forall (fun x : kind * text => fst x <> EOF) ts -> map fst txt = raw_of ts -> benign_file txt ->
  exists ch errs, parse_tokens false (source ts) txt = PTree (TNode SOURCE_FILE ch) errs /\ tree_text (TNode SOURCE_FILE ch) = source ts.
Proof.
  intros ts txt LX PL NE ET BN. assert (N : no_eof (map fst txt)) by (rewrite ET; unfold no_eof, raw_of; rewrite Forall_map; exact NE).
  destruct (parse_assertions_hold txt N BN) as (p & E). destruct (parse_tokens_lossless false ts txt LX PL NE ET) as [C|H]; auto. congruence.
Qed.
Theorem benign_text_lossless : forall cl t, sensible cl -> ascii_comments t -> (forall l, tokenize cl t = Some (Ok l) -> benign_file l) ->
  exists ch errs, parse_text cl false t = PTree (TNode SOURCE_FILE ch) errs /\ tree_text (TNode SOURCE_FILE ch) = encode t.
Proof.
  intros cl t SC AC BN. destruct (tokens_fit_sink_partial cl t SC AC) as (l & EQ & SR & RW & LX & PL & NE). unfold parse_text. rewrite EQ.
  rewrite <- SR. apply benign_tokens_lossless; auto.
Qed.

(** * Deciding [benign] *)
Section Decide.
Variables (T : toks) (X : list text).
Fixpoint name_ends (fuel i : nat) : list nat :=
  match fuel with
  | 0 => []
  | S f => if kind_eqb (kind_at T i) IDENT then (i + 1) :: (if kind_eqb (kind_at T (i + 1)) COLON_COLON then name_ends f (i + 2) else []) else []
  end.
Definition positions : list nat := seq 0 (length T).
Definition word_b (i : nat) (s : string) : bool := kind_eqb (kind_at T i) IDENT && reads X i s.
Definition benign_b : bool :=
  (length X =? length T) &&
  forallb (fun i => implb (reads X i "for") (kind_eqb (kind_at T i) IDENT)) positions &&
  forallb (fun i => implb (kind_eqb (kind_at T i) MODULE_KW && kind_eqb (kind_at T (i + 2)) COLON_COLON) (kind_eqb (kind_at T (i + 1)) INT_NUMBER || kind_eqb (kind_at T (i + 1)) IDENT)) positions &&
  forallb (fun i => implb (existsb (word_b i) ["requires_of"; "aborts_of"; "ensures_of"; "result_of"]%string && kind_eqb (kind_at T (i + 1)) L_ANGLE)
    (existsb (fun j => kind_eqb (kind_at T j) R_ANGLE && kind_eqb (kind_at T (j + 1)) L_PAREN) (name_ends (length T) (i + 2)))) positions &&
  forallb (fun i => implb (existsb (fun j => word_b j "proof") (seq 0 i) && word_b i "apply") (existsb (fun j => kind_eqb (kind_at T j) L_PAREN) (name_ends (length T) (i + 1)))) positions &&
  forallb (fun i => implb (word_b i "include")
    (existsb (fun j => joined T j [AMP; AMP]) (name_ends (length T) (i + 1)) || forallb (fun j => negb (joined T j [AMP; AMP])) (seq (i + 1) (length T)))) positions.

Lemma kb : forall a b, kind_eqb a b = true -> a = b. Proof. intros a b. destruct (kind_eqb_reflect a b); congruence. Qed.
Lemma name_ends_spec : forall f i j, In j (name_ends f i) -> names T i j.
Proof.
  induction f as [|f IH]; intros i j H; [destruct H|]. cbn [name_ends] in H. destruct (kind_eqb (kind_at T i) IDENT) eqn:E; [|destruct H]. apply kb in E.
  destruct H as [<-|H]; [now constructor|]. destruct (kind_eqb (kind_at T (i + 1)) COLON_COLON) eqn:E2; [|destruct H]. apply kb in E2. eapply names_more; eauto.
Qed.
Lemma in_positions : forall i k, kind_at T i = k -> k <> EOF -> In i positions.
Proof. intros i k E N. apply in_seq. split; [lia|]. cbn. unfold kind_at in E. destruct (nth_error T i) eqn:Q; [|congruence]. apply nth_error_Some. congruence. Qed.
Lemma reads_in : forall i s, length X = length T -> reads X i s = true -> In i positions.
Proof. intros i s L H. apply andb_prop in H. destruct H as [H _]. apply Nat.ltb_lt in H. apply in_seq. lia. Qed.
Lemma word_in : forall i s, word T X i s -> In i positions. Proof. intros i s [E _]. eapply in_positions; eauto. discriminate. Qed.
Lemma word_b_true : forall i s, word T X i s -> word_b i s = true. Proof. intros i s [E R]. unfold word_b. rewrite E, R. reflexivity. Qed.
Lemma benign_b_spec : benign_b = true -> benign T X.
Proof.
  unfold benign_b. intros H. do 5 (apply andb_prop in H; destruct H as [H ?F]). apply Nat.eqb_eq in H. rewrite forallb_forall in F, F0, F1, F2, F3. constructor.
  - intros i R. specialize (F3 i (reads_in i _ H R)). rewrite R in F3. now apply kb.
  - intros i M C. specialize (F2 i (in_positions i _ M ltac:(discriminate))). rewrite M, C in F2. cbn [kind_eqb andb implb] in F2. apply orb_prop in F2. destruct F2; [left|right]; now apply kb.
  - intros i s I W A. specialize (F1 i (word_in _ _ W)). rewrite A in F1.
    assert (E : existsb (word_b i) ["requires_of"; "aborts_of"; "ensures_of"; "result_of"]%string = true) by (apply existsb_exists; exists s; split; [exact I|now apply word_b_true]).
    rewrite E in F1. cbn [kind_eqb andb implb] in F1. apply existsb_exists in F1. destruct F1 as (j & IJ & Q). apply andb_prop in Q. destruct Q as [Q1 Q2]. exists j. split; [eapply name_ends_spec; eauto|split; now apply kb].
  - intros i (j & LJ & PJ) W. specialize (F0 i (word_in _ _ W)). rewrite (word_b_true _ _ W) in F0.
    assert (E : existsb (fun j => word_b j "proof") (seq 0 i) = true) by (apply existsb_exists; exists j; split; [apply in_seq; lia|now apply word_b_true]).
    rewrite E in F0. cbn [andb implb] in F0. apply existsb_exists in F0. destruct F0 as (q & IQ & Q). exists q. split; [eapply name_ends_spec; eauto|now apply kb].
  - intros i W. specialize (F i (word_in _ _ W)). rewrite (word_b_true _ _ W) in F. cbn [implb] in F. apply orb_prop in F. destruct F as [F|F].
    + left. apply existsb_exists in F. destruct F as (j & IJ & Q). exists j. split; auto. eapply name_ends_spec; eauto.
    + right. intros j L. rewrite forallb_forall in F. destruct (Nat.lt_ge_cases j (i + 1 + length T)) as [L2|L2]; [specialize (F j ltac:(apply in_seq; lia)); now apply negb_true_iff|].
      cbn [joined]. unfold kind_at. destruct (nth_error T j) as [x|] eqn:Q; [|reflexivity]. exfalso. assert (j < length T) by (apply nth_error_Some; congruence). lia.
Qed.
End Decide.
Definition benign_file_b (l : list (raw_token * text)) : bool := benign_b (tokens_of l) (texts_of l).
Definition lex (s : string) : list (raw_token * text) := match tokenize LexerProps.one (str s) with Some (Ok l) => l | _ => [] end.

(** * Examples *)
(** a file with each of the constructs, and with errors *)
Definition benign_src : string := "module 0x1::m { fun f() { a && for ( } spec f { requires_of<a::f>(x); include B && C; } spec f {} proof { apply a::foo(x); } spec { include 0x1::A; } module { :"%string.
Example benign_example : benign_file (lex benign_src) /\ no_eof_in (lex benign_src) /\ parse_text LexerProps.one false (str benign_src) <> PPanic.
Proof.
  split; [apply benign_b_spec; vm_compute; reflexivity|]. split; [|vm_compute; discriminate].
  unfold no_eof_in, no_eof. rewrite Forall_forall. intros x H. apply in_map_iff in H. destruct H as (y & <- & H). vm_compute in H. repeat (destruct H as [<-|H]; [discriminate|]). destruct H.
Qed.
(** the files on which the parser panics are not benign *)
Example bad_files_example : Forall (fun s => benign_file_b (lex s) = false) bad_files.
Proof. repeat (constructor; [vm_compute; reflexivity|]). constructor. Qed.

Print Assumptions parse_assertions_hold.
Print Assumptions benign_tokens_lossless.
Print Assumptions benign_text_lossless.
