(** Operator precedence (C20): operands separated by binary operators are parsed into the one tree in which
    tighter operators are nested deeper and equal ones to the left. *)
From Coq Require Import String.
From Verif Require Import Base SyntaxKind ParserModel GrammarBase GrammarModel AddressModel TreeSinkModel TreeSinkSpec TreeSinkProps ParserSpec ParserProofs ParserProofs2 ParserProps LexerModel LexerSpec LexerProps GrammarDisc GrammarProps PrecSpec PrecRun PrecBasics PrecProofs.
Close Scope string_scope.
Close Scope N_scope.
Open Scope nat_scope.

(** * One tree for every sequence *)
(** operands and operators in turn *)
Fixpoint alternates (s : list (expr + kind)) : Prop :=
  match s with
  | [inl x] => operand x = true /\ ordered x
  | inl x :: inr k :: s' => operand x = true /\ ordered x /\ (exists q, power k = Some q) /\ alternates s'
  | _ => False
  end.
Definition powers (s : list (expr + kind)) (P : nat -> Prop) : Prop := forall k, In (inr k) s -> exists q, power k = Some q /\ P q.
Lemma ordered_powers : forall x b, ordered x -> binds b x -> powers (flat x) (fun q => b <= q).
Proof.
  induction x as [k| |x IH|k x IH|x IH|x IH|x IH y IH2|k x IH y IH2]; intros b O B k' IN; try (cbn in IN; destruct IN as [IN|[]]; discriminate).
  cbn [flat] in IN. cbn [ordered] in O. destruct O as (q & P & B1 & B2 & O1 & O2). cbn [binds] in B. destruct B as (q' & P' & L). assert (q' = q) by congruence. subst q'.
  apply in_app_or in IN. destruct IN as [IN|[IN|IN]].
  - destruct (IH q O1 B1 k' IN) as (q' & P1 & L1). exists q'. split; auto. lia.
  - injection IN as <-. exists q. auto.
  - destruct (IH2 (S q) O2 B2 k' IN) as (q' & P1 & L1). exists q'. split; auto. lia.
Qed.
Lemma split_twice : forall {A} (a b c d : list A) x y, a ++ x :: b = c ++ y :: d ->
  (a = c /\ x = y /\ b = d) \/ (exists m, c = a ++ x :: m /\ b = m ++ y :: d) \/ (exists m, a = c ++ y :: m /\ d = m ++ x :: b).
Proof.
  intros A. induction a as [|u a IH]; intros b [|v c] d x y H; cbn in H; injection H as -> H.
  - subst. auto.
  - right. left. exists c. subst. auto.
  - right. right. exists a. subst. auto.
  - destruct (IH _ _ _ _ _ H) as [(-> & -> & ->)|[(m & -> & ->)|(m & -> & ->)]]; [auto|right; left; exists m; auto|right; right; exists m; auto].
Qed.
Lemma flat_operand : forall x, operand x = true -> flat x = [inl x]. Proof. intros x H. destruct x; try reflexivity. discriminate. Qed.
Lemma flat_bin_length : forall k l r, 3 <= length (flat (Bin k l r)).
Proof.
  assert (H : forall x, 1 <= length (flat x)) by (induction x; cbn [flat]; rewrite ?app_length; cbn; lia). intros k l r. cbn [flat]. rewrite app_length. cbn. specialize (H l) as H1. specialize (H r) as H2. lia.
Qed.
(** At most one *)
Theorem tree_unique : forall x y, ordered x -> ordered y -> flat x = flat y -> x = y.
Proof.
  induction x as [k| |x IH|k x IH|x IH|x IH|x IH x2 IH2|k x IH x2 IH2]; intros y Ox Oy E;
    try (destruct y as [k'| |y'|k' y'|y'|y'|y' y2|k' y' y2]; cbn [flat] in E; try congruence; pose proof (flat_bin_length k' y' y2) as L; cbn [flat] in L; rewrite <- E in L; cbn in L; lia).
  destruct y as [k'| |y'|k' y'|y'|y'|y' y2|k' y' y2]; try (pose proof (flat_bin_length k x x2) as L; rewrite E in L; cbn in L; lia).
  cbn [ordered] in Ox, Oy. destruct Ox as (q & P & B1 & B2 & O1 & O2). destruct Oy as (q' & P' & B1' & B2' & O1' & O2'). cbn [flat] in E.
  destruct (split_twice _ _ _ _ _ _ E) as [(E1 & E2 & E3)|[(m & E1 & E2)|(m & E1 & E2)]].
  - injection E2 as ->. f_equal; auto.
  - exfalso. destruct (ordered_powers _ _ O1' B1' k) as (a & Pa & La); [rewrite E1; apply in_or_app; right; left; reflexivity|]. destruct (ordered_powers _ _ O2 B2 k') as (b & Pb & Lb); [rewrite E2; apply in_or_app; right; left; reflexivity|].
    assert (a = q) by congruence. assert (b = q') by congruence. lia.
  - exfalso. destruct (ordered_powers _ _ O1 B1 k') as (a & Pa & La); [rewrite E1; apply in_or_app; right; left; reflexivity|]. destruct (ordered_powers _ _ O2' B2' k) as (b & Pb & Lb); [rewrite E2; apply in_or_app; right; left; reflexivity|].
    assert (a = q') by congruence. assert (b = q) by congruence. lia.
Qed.
(** At least one: an operator and operand added at the right *)
Fixpoint add (x : expr) (k : kind) (q : nat) (a : expr) : expr :=
  match x with
  | Bin k0 l r => match power k0 with Some q0 => if q0 <? q then Bin k0 l (add r k q a) else Bin k x a | None => Bin k x a end
  | _ => Bin k x a
  end.
Lemma add_ordered : forall x k q a, ordered x -> power k = Some q -> operand a = true -> ordered a ->
  ordered (add x k q a) /\ flat (add x k q a) = flat x ++ [inr k; inl a] /\ forall b, b <= q -> binds b x -> binds b (add x k q a).
Proof.
  intros x k q a Ox P Oa A. assert (Ba : binds (S q) a) by (destruct a; try exact I; discriminate). assert (Fa : flat a = [inl a]) by now apply flat_operand.
  assert (Base : forall x, operand x = true -> ordered x -> ordered (Bin k x a) /\ flat (Bin k x a) = flat x ++ [inr k; inl a] /\ forall b, b <= q -> binds b x -> binds b (Bin k x a)).
  { intros y Oy O. split; [|split; [cbn [flat]; now rewrite Fa|intros b L _; exists q; auto]]. exists q. split; auto. split; [destruct y; try exact I; discriminate|auto]. }
  induction x as [k0| |x IH|k0 x IH|x IH|x IH|x IH y IH2|k0 x IH y IH2]; try (cbn [add]; apply Base; [reflexivity|exact Ox]).
  cbn [ordered] in Ox. destruct Ox as (q0 & P0 & B1 & B2 & O1 & O2). cbn [add]. rewrite P0. destruct (Nat.ltb_spec q0 q) as [L|L].
  - destruct (IH2 O2) as (O3 & F3 & B3). split; [|split].
    + exists q0. auto 6.
    + cbn [flat]. rewrite F3, <- app_assoc. reflexivity.
    + intros b _ (q' & P' & L'). exists q'. auto.
  - split; [|split].
    + exists q. split; auto. split; [exists q0; auto|]. split; auto. split; auto. exists q0. auto.
    + cbn [flat]. rewrite Fa, <- app_assoc. reflexivity.
    + intros b Lb _. exists q. auto.
Qed.
Theorem tree_exists : forall s, alternates s -> exists x, ordered x /\ flat x = s.
Proof.
  assert (G : forall n s x, length s <= n -> ordered x -> (s = [] \/ exists k s', s = inr k :: s' /\ (exists q, power k = Some q) /\ alternates s') -> exists y, ordered y /\ flat y = flat x ++ s).
  { induction n as [|n IH]; intros s x L O H.
    - destruct s; [|cbn in L; lia]. exists x. rewrite app_nil_r. auto.
    - destruct H as [->|(k & s' & -> & (q & P) & A)]; [exists x; rewrite app_nil_r; auto|]. destruct s' as [|[a|k'] s']; [destruct A| |destruct A]. cbn [length] in L.
      assert (HA : operand a = true /\ ordered a /\ (s' = [] \/ exists k s'', s' = inr k :: s'' /\ (exists q, power k = Some q) /\ alternates s'')).
      { destruct s' as [|[b|k'] s'']; cbn [alternates] in A; [tauto|destruct A|]. destruct A as (A1 & A2 & A3 & A4). split; auto. split; auto. right. exists k', s''. auto. }
      destruct HA as (A1 & A2 & A3). destruct (add_ordered x k q a O P A1 A2) as (O' & F' & _). destruct (IH s' (add x k q a)) as (y & Oy & Fy); auto; [lia|]. exists y. split; auto. rewrite Fy, F', <- app_assoc. reflexivity. }
  intros s A. destruct s as [|[x|k] s]; [destruct A| |destruct A].
  assert (HA : operand x = true /\ ordered x /\ (s = [] \/ exists k s', s = inr k :: s' /\ (exists q, power k = Some q) /\ alternates s')).
  { destruct s as [|[b|k] s']; cbn [alternates] in A; [tauto|destruct A|]. destruct A as (A1 & A2 & A3 & A4). split; auto. split; auto. right. exists k, s'. auto. }
  destruct HA as (A1 & A2 & A3). destruct (G (length s) s x (le_n _) A2 A3) as (y & Oy & Fy). exists y. split; auto. rewrite Fy, (flat_operand x A1). reflexivity.
Qed.

(** * Tokens that spell a sequence *)
Inductive spells_seq (T : toks) (X : list text) : nat -> list (expr + kind) -> nat -> Prop :=
| ss_one : forall i x j, spells T X i x j -> spells_seq T X i [inl x] j
| ss_more : forall i x j k s m, spells T X i x j -> op_at T j k -> (k = DOT_DOT -> kind_at T (S j) <> MINUS) -> spells_seq T X (j + width k) s m -> spells_seq T X i (inl x :: inr k :: s) m.
Lemma spells_app : forall T X a k b i m, spells_seq T X i (a ++ inr k :: b) m -> exists j, spells_seq T X i a j /\ op_at T j k /\ (k = DOT_DOT -> kind_at T (S j) <> MINUS) /\ spells_seq T X (j + width k) b m.
Proof.
  intros T X a. remember (length a) as n eqn:L. revert a L. induction n as [n IH] using lt_wf_ind. intros a L k b i m H. destruct a as [|[x|k0] a]; [inversion H| |inversion H]. destruct a as [|[y|k1] a].
  - cbn in H. inversion H; subst. exists j. split; [now constructor|auto].
  - cbn in H. inversion H.
  - cbn in H. inversion H; subst. destruct (IH (length a)) with (a := a) (k := k) (b := b) (i := j + width k1) (m := m) as (j' & S1 & S2 & S3 & S4); auto; [cbn; lia|]. exists j'. split; auto. econstructor; eauto.
Qed.
Lemma seq_spells : forall T X x i j, spells_seq T X i (flat x) j -> spells T X i x j.
Proof.
  intros T X. induction x as [k| |x IH|k x IH|x IH|x IH|x IH y IH2|k x IH y IH2]; intros i j H; try (cbn [flat] in H; inversion H; subst; assumption).
  cbn [flat] in H. destruct (spells_app _ _ _ _ _ _ _ H) as (j' & S1 & S2 & S3 & S4). econstructor; eauto.
Qed.

(** * The parser *)
(** Wherever an expression is expected, the parser reads operands and operators up to what cannot belong to
    them, and adds exactly the nodes of the one ordered tree to the node that is open. *)
Theorem operators_nest_partial : forall T e s i j, no_end T -> spells_seq T (e_texts e) i s j -> alternates s -> ends T (e_texts e) 1 j ->
  exists x, ordered x /\ flat x = s /\ (forall y, ordered y -> flat y = s -> y = x) /\
  forall n r p f rest, depth x + 3 <= n -> p_toks p = T -> p_pos p = i -> solid p -> opened (f :: rest) = true -> Inv p (f :: rest) ->
  exists c p' l, r_expr (run n) r 1 e p = Ret (Some (c, false)) p' /\ p_pos p' = j /\ runs p (f :: rest) p' (add_items l f :: rest) /\ flat_map build l = calls x.
Proof.
  intros T e s i j NE SP AL EN. destruct (tree_exists s AL) as (x & O & F). exists x. split; auto. split; auto. split; [intros y Oy Fy; apply tree_unique; auto; congruence|].
  intros n r p f rest D HT Hp So Op I. destruct n as [|[|[|n]]]; try lia. subst s. apply seq_spells in SP.
  destruct (y_run T NE n e r 1 x i j SP O (binds_1 x O) (le_n 1) ltac:(lia) EN p f rest HT Hp So Op) as (o & p' & l & E & P' & R & c & -> & g & k & ch & -> & B & C); [now rewrite add_nil|].
  rewrite add_nil in R. exists c, p', (g ++ [INode (c_pos c) false k ch]). split; auto. split; auto. split; auto. rewrite flat_map_app, B. cbn [flat_map app]. rewrite app_nil_r. exact C.
Qed.
Lemma depth_small : forall T X i x j, spells T X i x j -> depth x < j - i.
Proof. intros T X i x j H. induction H; cbn [depth]; try lia; repeat match goal with H : spells _ _ _ _ _ |- _ => apply spells_lt in H end; lia. Qed.
(** A file that is only an expression: the events of the parser build its tree *)
Theorem expression_tree_partial : forall raw e s j r, no_eof raw -> let p0 := parser_new raw in
  spells_seq (p_toks p0) (e_texts e) 0 s j -> alternates s -> ends (p_toks p0) (e_texts e) 1 j ->
  exists x p', ordered x /\ flat x = s /\ (forall y, ordered y -> flat y = s -> y = x) /\
  node SOURCE_FILE (r_expr (run (enough p0)) r 1) e p0 = Ret (mkCm 0 SOURCE_FILE) p' /\ p_pos p' = j /\ process (p_events p') = Ok (CStart SOURCE_FILE :: calls x ++ [CFinish]).
Proof.
  intros raw e s j r NE p0 SP AL EN. assert (N : no_end (p_toks p0)) by (apply significant_kinds; exact NE). destruct (tree_exists s AL) as (x & O & F). subst s. pose proof (seq_spells _ _ _ _ _ SP) as SX. pose proof (depth_small _ _ _ _ _ SX) as DS. pose proof (spells_len e _ _ _ _ SX O) as LN.
  pose proof (y_run (p_toks p0) N (3 * length (p_toks p0)) e r 1 x 0 j SX O (binds_1 x O) (le_n 1) ltac:(lia) EN) as Y.
  replace (S (S (S (3 * length (p_toks p0))))) with (enough p0) in Y by (unfold enough; lia).
  destruct (y_node_any e (p_toks p0) _ SOURCE_FILE 0 j _ eq_refl Y [] p0 base_frame [] eq_refl eq_refl (new_solid _)) as (c & p' & l & E & P' & R & a & ch & -> & c' & _ & g & k & ch' & -> & B & C); [rewrite add_nil; now apply begin_inv|].
  exists x, p'. split; auto. split; auto. split; [intros y Oy Fy; apply tree_unique; auto|]. assert (EC : c = mkCm 0 SOURCE_FILE). { unfold node in E. cbn [start] in E. destruct (r_expr _ _ _ _ _) as [v p2| | |]; try discriminate. destruct (complete _ _ p2); [|discriminate]. now injection E as <- _. }
  subst c. split; auto. split; auto. destruct R as (os & ST & _). rewrite add_nil in ST. rewrite (replay_when_closed _ _ _ _ NE ST). cbn [base_frame add_items f_items app flat_map]. rewrite app_nil_r. cbn [build]. rewrite flat_map_app, B. cbn [flat_map app]. rewrite app_nil_r, C. reflexivity.
Qed.

(** * Examples and exceptions *)
Definition tokens (s : string) : list (raw_token * text) := match tokenize LexerProps.one (str s) with Some (Ok l) => l | _ => [] end.
Definition tree_of (s : string) : option (nat * list call) :=
  let l := tokens s in let p := parser_new (map fst l) in
  match node SOURCE_FILE (r_expr (run (enough p)) no_restr 1) (file_env true l) p with
  | Ret _ p' => match process (p_events p') with Ok cs => Some (p_pos p', cs) | _ => None end
  | _ => None
  end.
Definition file (cs : list call) : list call := CStart SOURCE_FILE :: cs ++ [CFinish].
Definition op_atb (T : toks) (i : nat) (k : kind) : bool :=
  joined T i (parts k) && forallb (fun x => (width (fst x) <=? width k) || negb (joined T i (parts (fst x)))) (flat_map (fun l => map (fun k => (k, fst l)) (snd l)) levels).
Lemma op_atb_ok : forall T i k, op_atb T i k = true -> op_at T i k.
Proof.
  intros T i k H. apply andb_prop in H. destruct H as [J H]. split; auto. intros k' q P J'. rewrite forallb_forall in H. specialize (H _ (power_in _ _ P)). cbn [fst] in H. rewrite J' in H. cbn in H. rewrite orb_false_r in H. now apply Nat.leb_le.
Qed.
Definition plainb (X : list text) (i : nat) : bool := forallb (fun s => negb (text_eqb (nth i X []) (str s))) special_names.
Lemma plainb_ok : forall X i, plainb X i = true -> plain X i.
Proof. intros X i H s IN E. unfold plainb in H. rewrite forallb_forall in H. specialize (H s IN). rewrite E in H. unfold text_eqb in H. destruct (text_eq_dec (str s) (str s)); [discriminate|congruence]. Qed.
Lemma ends_at_end : forall T X bp, ends T X bp (length T).
Proof.
  intros T X bp. assert (N : nth_error T (length T) = None) by (apply nth_error_None; lia). assert (E : kind_at T (length T) = EOF) by (unfold kind_at; now rewrite N). split; [|split; [|rewrite E; discriminate]].
  - intros k q [J _] P. exfalso. assert (H : forall ks, ks <> [] -> joined T (length T) ks = true -> hd EOF ks = EOF).
    { intros [|a [|b l]] NE H; [congruence| |]; cbn [joined] in H; rewrite E in H; [destruct (kind_eqb_reflect EOF a); [auto|discriminate]|]. apply andb_prop in H. destruct H as [H _]. apply andb_prop in H. destruct H as [H _]. destruct (kind_eqb_reflect EOF a); [auto|discriminate]. }
    apply power_in in P. specialize (H (parts k)). cbn in P. repeat (destruct P as [P|P]; [injection P as <- <-; discriminate (H ltac:(discriminate) J)|]). destruct P.
  - rewrite E. cbn. intuition discriminate.
Qed.
Ltac no_kind := let H := fresh in intros H; vm_compute in H; repeat (destruct H as [H|H]; [discriminate H|]); exact H.
Definition ex_text : string := "a + b * -c.d == (e || 1) && x[0] = 1..y << 2 >> z".
Definition ex_seq : list (expr + kind) :=
  [inl Var; inr PLUS; inl Var; inr STAR; inl (Un MINUS (Dot Var)); inr EQ_EQ; inl (Paren (Bin PIPE_PIPE Var (Lit INT_NUMBER))); inr AMP_AMP; inl (Index Var (Lit INT_NUMBER)); inr EQ;
   inl (Lit INT_NUMBER); inr DOT_DOT; inl Var; inr SHL; inl (Lit INT_NUMBER); inr SHR; inl Var].
Definition ex_tree : expr :=
  Bin EQ
    (Bin AMP_AMP
      (Bin EQ_EQ (Bin PLUS Var (Bin STAR Var (Un MINUS (Dot Var)))) (Paren (Bin PIPE_PIPE Var (Lit INT_NUMBER))))
      (Index Var (Lit INT_NUMBER)))
    (Bin DOT_DOT (Lit INT_NUMBER) (Bin SHR (Bin SHL Var (Lit INT_NUMBER)) Var)).
Example operators_nest_example : let l := tokens ex_text in let T := p_toks (parser_new (map fst l)) in let e := file_env true l in
  no_eof (map fst l) /\ spells_seq T (e_texts e) 0 ex_seq (length T) /\ alternates ex_seq /\ ends T (e_texts e) 1 (length T) /\
  ordered ex_tree /\ flat ex_tree = ex_seq /\ tree_of ex_text = Some (length T, file (calls ex_tree)).
Proof.
  cbv zeta. split; [|split; [|split; [|split; [|split; [|split]]]]].
  - unfold no_eof. rewrite Forall_forall. intros x H. apply in_map_iff in H. destruct H as (y & <- & H). vm_compute in H. repeat (destruct H as [<-|H]; [discriminate|]). destruct H.
  - set (n := length _). vm_compute in n. subst n. set (T := p_toks _). vm_compute in T. set (X := e_texts _). vm_compute in X.
    assert (SV : forall i, kind_at T i = IDENT -> plainb X i = true -> existsb (kind_eqb (kind_at T (S i))) [COLON_COLON; L_CURLY; L_ANGLE] = false -> spells T X i Var (S i)).
    { intros i K P E. constructor; auto; [now apply plainb_ok| |].
      - intros [H|[H|[]]]; rewrite <- H in E; discriminate E.
      - intros H. rewrite H in E. discriminate E. }
    assert (SL : forall i, kind_at T i = INT_NUMBER -> kind_eqb (kind_at T (S i)) COLON_COLON = false -> spells T X i (Lit INT_NUMBER) (S i)).
    { intros i K E. constructor; auto. intros _ H. rewrite H in E. discriminate E. }
    assert (SM : forall i j x k s m w, spells T X i x j -> op_atb T j k = true -> kind_eqb k DOT_DOT && kind_eqb (kind_at T (S j)) MINUS = false -> j + width k = w -> spells_seq T X w s m -> spells_seq T X i (inl x :: inr k :: s) m).
    { intros i j x k s m w S1 O D <- S2. econstructor; eauto; [now apply op_atb_ok|]. intros -> H. rewrite H in D. discriminate D. }
    assert (SP : forall i e j, kind_at T i = L_PAREN -> plainb X i = true -> spells T X (S i) e j -> kind_at T j = R_PAREN -> spells T X i (Paren e) (S j)) by (intros; constructor; auto; now apply plainb_ok).
    assert (SB : forall i l j k r m w, spells T X i l j -> op_atb T j k = true -> kind_eqb k DOT_DOT && kind_eqb (kind_at T (S j)) MINUS = false -> j + width k = w -> spells T X w r m -> spells T X i (Bin k l r) m).
    { intros i l j k r m w S1 O D <- S2. econstructor; eauto; [now apply op_atb_ok|]. intros -> H. rewrite H in D. discriminate D. }
    assert (SD : forall i e j, spells T X i e j -> kind_at T j = DOT -> kind_at T (S j) = IDENT -> existsb (kind_eqb (kind_at T (S (S j)))) [L_PAREN; COLON_COLON; L_ANGLE] = false -> spells T X i (Dot e) (S (S j))).
    { intros i e j S1 K1 K2 E. constructor; auto; [|intros H; rewrite H in E; discriminate E]. intros [H|[H|[]]]; rewrite <- H in E; discriminate E. }
    unfold ex_seq. Ltac v := vm_compute; reflexivity.
    eapply SM; [apply SV; v|v|v|v|]. eapply SM; [apply SV; v|v|v|v|].
    eapply SM; [apply sp_un; [v|discriminate|]; apply SD; [apply SV; v|v|v|v]|v|v|v|].
    eapply SM; [eapply SP; [v|v|eapply SB; [apply SV; v|v|v|v|apply SL; v]|v]|v|v|v|].
    eapply SM; [eapply sp_index; [apply SV; v|v|apply SL; v|v]|v|v|v|].
    eapply SM; [apply SL; v|v|v|v|].
    eapply SM; [apply sp_var; [v|apply plainb_ok; v|no_kind|intros _; split; [no_kind|split; intros H; vm_compute in H; discriminate H]]|v|v|v|].
    eapply SM; [apply SL; v|v|v|v|]. constructor. apply SV; v.
  - cbn. repeat split; eauto; try (left; reflexivity); try (right; right; right; right; left; reflexivity).
    all: try (eexists; split; [reflexivity|]; repeat split; auto; left; reflexivity).
  - apply ends_at_end.
  - cbn. repeat match goal with |- _ /\ _ => split | |- exists q, _ => eexists | |- power _ = _ => reflexivity | |- Some _ = _ => reflexivity end; try exact Logic.I; try lia; auto 10.
  - reflexivity.
  - vm_compute. reflexivity.
Qed.
(** every alternating sequence has its tree: the shape of the example *)
Example tree_exists_example : alternates ex_seq /\ ordered ex_tree /\ flat ex_tree = ex_seq.
Proof. destruct operators_nest_example as (_ & _ & A & _ & B & C & _). auto. Qed.
(** A range whose right operand begins with a minus is cut: the minus becomes the operator of a subtraction
    around everything before, here around the assignment. *)
Theorem range_minus_refuted : exists x, ordered x /\ flat x = [inl Var; inr EQ; inl Var; inr DOT_DOT; inl (Un MINUS Var)] /\
  tree_of "x = a..-b" = Some (6, file (CStart BIN_EXPR :: (CStart BIN_EXPR :: calls Var ++ CToken EQ 1 :: (CStart RANGE_EXPR :: calls Var ++ [CToken DOT_DOT 1; CFinish]) ++ [CFinish]) ++ CToken MINUS 1 :: calls Var ++ [CFinish])) /\
  tree_of "x = a..-b" <> Some (6, file (calls x)) /\ tree_of "x = a..(-b)" = Some (8, file (calls (Bin EQ Var (Bin DOT_DOT Var (Paren (Un MINUS Var)))))).
Proof.
  exists (Bin EQ Var (Bin DOT_DOT Var (Un MINUS Var))). split; [|split; [reflexivity|split; [vm_compute; reflexivity|split; [intros H; vm_compute in H; discriminate H|vm_compute; reflexivity]]]].
  cbn. exists 1. split; [reflexivity|]. split; auto. split; [exists 3; split; [reflexivity|lia]|]. split; auto. exists 3. split; [reflexivity|]. repeat split; auto. right. right. right. right. left. reflexivity.
Qed.
(** Two comparisons around a name are type arguments: the rest is not read. *)
Theorem less_greater_refuted : exists x, ordered x /\ flat x = [inl Var; inr L_ANGLE; inl Var; inr R_ANGLE; inl Var] /\
  (exists cs, tree_of "a < b > c" = Some (4, cs) /\ In (CStart TYPE_ARG_LIST) cs /\ ~ In (CStart BIN_EXPR) cs) /\ tree_of "(a < b) > c" = Some (7, file (calls (Bin R_ANGLE (Paren (Bin L_ANGLE Var Var)) Var))).
Proof.
  exists (Bin R_ANGLE (Bin L_ANGLE Var Var) Var). split; [|split; [reflexivity|split; [|vm_compute; reflexivity]]].
  - cbn. exists 6. split; [reflexivity|]. split; [exists 6; auto|]. split; auto. split; auto. exists 6. split; [reflexivity|auto].
  - eexists. split; [vm_compute; reflexivity|]. split; [cbn; auto 20|]. intros H. cbn in H. repeat (destruct H as [H|H]; [discriminate H|]). exact H.
Qed.
(** A missing operand cuts what follows: the tighter operator takes everything before. *)
Example missing_operand : tree_of "a + / b" =
  Some (4, file (CStart BIN_EXPR :: (CStart BIN_EXPR :: calls Var ++ [CToken PLUS 1; CError (str "expected expression"); CFinish]) ++ CToken SLASH 1 :: calls Var ++ [CFinish])).
Proof. vm_compute. reflexivity. Qed.
(** Assignment and implication share the loosest level and are nested to the left like everything else. *)
Example left_nested : tree_of "a ==> b ==> c" = Some (5, file (calls (Bin IMPLIES (Bin IMPLIES Var Var) Var))) /\ tree_of "a = b = c" = Some (5, file (calls (Bin EQ (Bin EQ Var Var) Var))) /\
  tree_of "a - b - c" = Some (5, file (calls (Bin MINUS (Bin MINUS Var Var) Var))).
Proof. vm_compute. auto. Qed.
(** uniqueness needs the order: without it there are two trees *)
Example tree_unique_example : flat (Bin PLUS Var (Bin STAR Var Var)) = flat (Bin STAR (Bin PLUS Var Var) Var) /\ ordered (Bin PLUS Var (Bin STAR Var Var)) /\ ~ ordered (Bin STAR (Bin PLUS Var Var) Var).
Proof.
  split; [reflexivity|]. split.
  - exists 11. split; [reflexivity|]. split; [exact Logic.I|]. split; [exists 12; split; [reflexivity|lia]|]. split; [exact Logic.I|]. exists 12. split; [reflexivity|]. cbn. auto.
  - intros (q & P & (q' & P' & L) & _). vm_compute in P, P'. injection P as <-. injection P' as <-. lia.
Qed.

Print Assumptions tree_unique.
Print Assumptions tree_exists.
Print Assumptions operators_nest_partial.
Print Assumptions expression_tree_partial.
Print Assumptions range_minus_refuted.
Print Assumptions less_greater_refuted.
