(** What the parser does on tokens of each syntactic category. *)
From Coq Require Import String.
From Verif Require Import Base SyntaxKind ParserModel GrammarBase AddressModel TreeSinkModel TreeSinkProps ParserSpec ParserProps GrammarDisc PrecSpec PrecRun PrecBasics PrecProofs ShapeSpec ShapeBasics ShapeFacts GrammarModel.
Close Scope string_scope.
Close Scope N_scope.
Open Scope nat_scope.
Open Scope gram_scope.

Definition mok (m : mode) : list kind := match m with MNone => [] | MTy b => TK b | MEx => TK false end.
Definition pm (m : mode) : option path_mode := match m with MNone => None | MTy _ => Some PType | MEx => Some PExpr end.
Definition id_cm (c : cm) : cm := c.
Definition path_first (R : recs) (mode : option path_mode) : M (option cm * unit) :=
  marked (ok <- path_segment R mode true ;; if (ok : bool) then ret (Complete PATH, tt) else ret (Abandon, tt)).
Definition path_step (R : recs) (mode : option path_mode) : cm -> M (cm + unit) :=
  fun c => IF at_ COLON_COLON THEN
      IF nth_at_ 1 L_CURLY THEN ret (inr tt) ELSE
      ('(c', _) <- preceded c (bump COLON_COLON ;; path_segment R mode false ;; ret (PATH, tt)) ;; ret (inl c'))
    ELSE ret (inr tt).
Definition lambda_type_param (R : recs) : M bool :=
  marked (is_type <- type_or_recover R (rs_of [COMMA; PIPE]) ;; ret (Complete (if (is_type : bool) then LAMBDA_TYPE_PARAM else ERROR), tt)) ;; ret true.
Definition lambda_ret (R : recs) : M unit := IF ask (t_and (t_not (t_kwi "has")) (t_ts TYPE_FIRST)) THEN (type_ R ;; skip) ELSE skip.
Definition lambda_has : M unit := IF kwi "has" THEN (node LAMBDA_TYPE_ABILITY_LIST (remap HAS_KW ;; ability_bound_list) ;; skip) ELSE skip.
Definition is_step (R : recs) : unit -> M (unit + unit) := fun _ => IF eat_ PIPE THEN (type_ R ;; ret (inl tt)) ELSE ret (inr tt).
Definition struct_pat_element (R : recs) : M bool :=
  '(_, b) <- marked (IF cur R_CURLY THEN ret (Abandon, true) ELSE (is_field <- struct_pat_field R ;; ret (Complete STRUCT_PAT_FIELD, is_field))) ;; ret b.

(** parts of functions that have no name in the code *)
Definition value_arg (R : recs) : M bool :=
  '(_, b) <- marked (
    IF expr R THEN ret (Complete VALUE_ARG, true) ELSE
    IF at_ COMMA THEN ret (Complete VALUE_ARG, false) ELSE ret (Abandon, false)) ;;
  ret b.
Definition struct_lit_field (R : recs) : M (option cm * unit) :=
  marked (
    IF ask (t_and (t_cur IDENT) (t_nth_at 1 COLON)) THEN
      (name_ref ;; bump COLON ;; expect_expr R ;; ret (Complete STRUCT_LIT_FIELD, tt)) ELSE
    IF cur IDENT THEN (expr R ;; ret (Complete STRUCT_LIT_FIELD, tt)) ELSE
    (error_and_bump "expected identifier" ;; ret (Abandon, tt))).
Definition loop_of (R : recs) (k : kind) : M closing := match k with LOOP_EXPR => loop_rest R | WHILE_EXPR => while_rest R | _ => for_rest R end.
Definition arm_guard (R : recs) : M unit := IF at_ IF_KW THEN (node MATCH_GUARD (bump IF_KW ;; expr R) ;; skip) ELSE skip.
Definition arm_tail (R : recs) : M (closing * unit) :=
  r <- top_level_expr_in_stmt R ;;
  let is_block := match r with Some (_, b) => b | None => false end in
  IF eat_ COMMA THEN ret (Complete MATCH_ARM, tt) ELSE
  IF ask (t_and (fun _ _ => negb is_block) (t_not (t_at R_CURLY))) THEN (err "expected `,`" ;; ret (Complete MATCH_ARM, tt)) ELSE
  ret (Complete MATCH_ARM, tt).
Definition arm_step (R : recs) (_ : unit) : M (bool * unit) := match_arm R ;; ret (true, tt).
Definition stmt_step (R : recs) (_ : unit) : M (bool * unit) :=
  IF at_ SEMICOLON THEN (bump SEMICOLON ;; ret (true, tt)) ELSE (with_ts [R_CURLY] (stmt R) ;; ret (true, tt)).
Definition tuple_field (R : recs) : M bool :=
  '(_, b) <- marked (
    IF at_ts TYPE_FIRST THEN (type_ R ;; ret (Complete TUPLE_FIELD, true)) ELSE (err "expected a type" ;; ret (Abandon, false))) ;;
  ret b.
Definition variant_step (R : recs) (_ : unit) : M (bool * unit) :=
  is_curly <- enum_variant R ;;
  (IF at_ R_CURLY THEN skip ELSE ((if (is_curly : bool) then eat_ COMMA else expect COMMA) ;; skip)) ;;
  ret (true, tt).
Definition mod_step (_ : unit) : M (bool * unit) :=
  IF visibility_modifier THEN ret (true, tt) ELSE
  IF cur NATIVE_KW THEN (bump NATIVE_KW ;; ret (true, tt)) ELSE
  IF cur INLINE_KW THEN (bump INLINE_KW ;; ret (true, tt)) ELSE
  IF cur_kw "entry" THEN (remap ENTRY_KW ;; ret (true, tt)) ELSE
  ret (false, tt).
Definition item_step (R : recs) (_ : unit) : M (bool * unit) := with_ts [R_CURLY] (item R) ;; ret (true, tt).
Definition modules_step (R : recs) (_ : unit) : M (bool * unit) :=
  '(_, ok) <- marked (
    attrs R ;;
    IF at_ MODULE_KW THEN (c <- module R ;; ret (c, true)) ELSE ret (Abandon, false)) ;;
  (if (ok : bool) then skip else error_and_recover "expected module" (rs_of [MODULE_KW; R_CURLY])) ;;
  ret (true, tt).
Definition top_step (R : recs) (_ : unit) : M (bool * unit) := top_item R ;; ret (true, tt).
(** the operator that [expr_bp] sees *)
Definition op_seen (e : env) (p : parser) : nat * kind := if t_cur IDENT e p && t_kw "is" e p then (2, IS_KW) else op_of p.
(** the recovery set inside a block, a module or a file *)
Definition inner (X : list text) (e : env) : Prop := e_texts e = X /\ e_sk e = SMove /\ incl (rs_kinds (e_rs e)) [R_CURLY] /\ rs_kws (e_rs e) = [].
Definition least (t : nat) : nat := Nat.min 255 (S t).
(** what may not be in the recovery set around attributes *)
Definition IK : list kind := POUND :: EK.
Definition MK : list kind := [PUBLIC_KW; FRIEND_KW; NATIVE_KW; INLINE_KW; IDENT; FUN_KW].

(** one turn of [attrs] *)
Definition attr_turn (R : recs) (last : option cm) : M (option cm + option cm) := IF at_ POUND THEN (c <- attr R ;; ret (inl (Some c))) ELSE ret (inr last).

Section Defs.
Variables (T : toks) (X : list text).
Notation ok := (ok X).
(** the bound on the depth of recursion that is enough for tokens [i] to [j] *)
Notation deep c i j n := (3 * (j - i) + c < n).
Fixpoint P (x : nt) (i : nat) (cs : list call) (j : nat) : Prop :=
  match x with
  | Comma y c => lst (T := T) (fun i cs j => der T X y i cs j /\ P y i cs j) c i cs j
  | Path m => forall n e, ok (mok m) e -> deep 0 i j n -> rd T e i (r_path (run n) (pm m)) j cs (eq true)
  | Segs m => forall n e, ok (mok m) e -> 3 * (j - i) <= n -> exists j0 c0, i < j0 /\ j0 <= j /\
      yields e T i [] (path_first (run n) (pm m)) j0 (fun x l => exists c, x = (Some c, tt) /\ shape c l c0) /\
      walk (T := T) e (path_step (run n) (pm m)) j0 c0 id_cm j cs id_cm
  | Seg m f => forall n e, ok (mok m) e -> 3 * (j - i) <= n -> rd T e i (path_segment (run n) (pm m) f) j cs (eq true)
  | SegArgs m => forall n e, ok (mok m) e -> deep 1 i j n -> rd T e i (match pm m with Some m => opt_path_type_arg_list (run n) m | None => skip end) j cs any
  | EArgs => forall n e b, ok (TK false) e -> deep 1 i j n -> (b = true -> kind_at T i = L_ANGLE -> exists h, i = S h /\ ~ apart T h) -> rd T e i (opt_type_arg_list_for_expr (run n) b) j cs (eq true)
  | TArg b => forall n e f, ok (TK b) e -> deep 1 i j n -> rd T e i (type_arg (run n) f) j cs (eq true)
  | Type_ b => forall n e, ok (TK b) e -> deep 1 i j n -> (forall rs, rd T e i (r_type (run n) rs) j cs (eq true)) /\ (kind_at T i = IDENT -> rd T e i (path_type (run n)) j cs (eq true))
  | LParam b => forall n e, ok (TK b) e -> deep 1 i j n -> rd T e i (lambda_type_param (run n)) j cs (eq true)
  | LRet b => forall n e, ok (TK b) e -> deep 1 i j n -> rd T e i (lambda_ret (run n)) j cs any
  | LHas => forall e, ok [] e -> rd T e i lambda_has j cs any
  | Abils _ => True
  | TParam => forall e, ok [IDENT] e -> incl [COMMA; R_ANGLE] (rs_kinds (e_rs e)) -> rd T e i type_param j cs (eq true)
  | TParams => forall e, ok [IDENT] e -> rd T e i opt_type_param_list j cs any
  | Pat b => forall n e, ok PE e -> (b = true -> ~ In COMMA (rs_kinds (e_rs e))) -> deep 1 i j n -> rd T e i (r_pattern (run n)) j cs (eq true)
  | PField => forall n e, ok PE e -> deep 1 i j n -> rd T e i (struct_pat_element (run n)) j cs (eq true)
  | LitP => forall e, ok [] e -> rc T e i literal_pat j cs LITERAL_PAT
  | Lit_ => forall e, ok [] e -> yields e T i [] literal j (fun o l => exists c, o = Some c /\ shape c l cs)
  | Expr => forall n e, ok EK e -> deep 1 i j n -> ends_at T X 1 j -> rd T e i (expr (run n)) j cs (eq true)
  | Ex bp t => forall n e r, ok EK e -> deep 0 i j n -> ends_at T X (least t) j -> exists j0 c0 bl, i < j0 /\ j0 <= j /\ (bl = true -> blockish T X i) /\
      yields e T i [] (lhs (run n) r) j0 (fun o l => exists c, o = Some (c, bl) /\ shape c l c0) /\
      walk (T := T) e (expr_step (run n) r bp) j0 c0 id_cm j cs id_cm /\
      ((j0 = j /\ c0 = cs) \/ forall p, p_toks p = T -> p_pos p = j0 -> bp <= fst (op_seen e p))
  | Opnd t => forall n e r, ok EK e -> deep 0 i j n -> ends_at T X (least t) j -> exists bl, (bl = true -> blockish T X i) /\
      yields e T i [] (lhs (run n) r) j (fun o l => exists c, o = Some (c, bl) /\ shape c l cs)
  | Prim bl => forall n e, ok EK e -> deep 0 i j n -> exists j0 c0 bl0, i < j0 /\ j0 <= j /\
      yields e T i [] (atom_expr (run n)) j0 (fun o l => exists c, o = Some (c, bl0) /\ shape c l c0) /\
      (forall a, (bl0 = false -> a = true) -> walk (T := T) e (postfix_step (run n)) j0 c0 (fun c => (c, bl0, a)) j cs (fun c => (c, bl, if bl then a else true)))
  | Atom t bl => forall n e, ok EK e -> deep 0 i j n -> (t = 0 -> ends_at T X 1 j) -> yields e T i [] (atom_expr (run n)) j (fun o l => exists c, o = Some (c, bl) /\ shape c l cs)
  | Args => forall n e, ok EK e -> deep 0 i j n -> rd T e i (value_arg_list (run n)) j cs any
  | Arg => forall n e, ok EK e -> deep 1 i j n -> ends_at T X 1 j -> rd T e i (value_arg (run n)) j cs (eq true)
  | SField => forall n e, ok EK e -> deep 1 i j n -> ends_at T X 1 j -> rd T e i (struct_lit_field (run n)) j cs any
  | LamP => forall n e, ok EK e -> deep 1 i j n -> rd T e i (lambda_param (run n)) j cs (eq true)
  | IsTys => forall n e, ok EK e -> deep 1 i j n -> exists j0 c0 d, i < j0 /\ j0 <= j /\ cs = c0 ++ d /\ rd T e i (type_ (run n)) j0 c0 (eq true) /\ turns (T := T) e (is_step (run n)) j0 tt d j tt
  | Block => forall n e, ok [] e -> deep 0 i j n -> rc T e i (block_expr (run n)) j cs BLOCK_EXPR
  | Stmts => forall n e, inner X e -> deep 2 i j n -> its (T := T) e [R_CURLY] (stmt_step (run n)) i tt cs j tt
  | Stmt => forall n e, inner X e -> deep 2 i j n -> rd T e i (stmt_step (run n) tt) j cs (eq (true, tt))
  | Cond => forall n e, ok EK e -> deep 0 i j n -> rd T e i (condition (run n)) j cs any
  | Branch t => forall n e, ok EK e -> deep 1 i j n -> (t = 0 -> ends_at T X 1 j) -> rd T e i (block_or_inline_expr (run n)) j cs any
  | Loop k t => forall n e, ok EK e -> deep 0 i j n -> (t = 0 -> ends_at T X 1 j) -> rd T e i (loop_of (run n) k) j cs (eq (Complete k))
  | Arms => forall n e, inner X e -> deep 0 i j n -> its (T := T) e [R_CURLY] (arm_step (run n)) i tt cs j tt
  | Arm => forall n e, inner X e -> deep 0 i j n -> rd T e i (match_arm (run n)) j cs any
  | Guard => forall n e, inner X e -> deep 1 i j n -> rd T e i (arm_guard (run n)) j cs any
  | ABody => forall n e, inner X e -> deep 1 i j n -> rd T e i (arm_tail (run n)) j cs (eq (Complete MATCH_ARM, tt))
  | MExpr t => forall n e, ok EK e -> deep 1 i j n -> ends_at T X 1 j -> rd T e i (opt_expr (run n)) j cs any
  | Attrs => forall n e, ok IK e -> deep 0 i j n -> forall fuel last, length T - i < fuel -> rd T e i (loop_ fuel (attr_turn (run n)) last) j cs any
  | Attr => forall n e, ok IK e -> deep 0 i j n -> rd T e i (attr (run n)) j cs any
  | AItem => forall n e, ok EK e -> deep 1 i j n -> In (kind_at T j) [COMMA; R_BRACK; R_PAREN] -> rd T e i (r_attr_item (run n)) j cs (eq true)
  | USpeck => forall n e b, ok [IDENT; INT_NUMBER] e -> deep 1 i j n -> rd T e i (r_use_speck (run n) b) j cs (eq true)
  | Field => forall n e, ok (TK true) e -> deep 1 i j n -> rd T e i (named_field (run n)) j cs any
  | TField => forall n e, ok (TK true) e -> deep 1 i j n -> rd T e i (tuple_field (run n)) j cs (eq true)
  | Has => forall e, ok [IDENT] e -> (kw T X i "has" -> In (kind_at T j) (rs_kinds (e_rs e))) -> rd T e i opt_abilities_list j cs any
  | HasSemi => forall e, ok [IDENT] e -> rd T e i opt_abilities_list_with_semicolon j cs any
  | Vars => forall n e, inner X e -> deep 0 i j n -> its (T := T) e [R_CURLY] (variant_step (run n)) i tt cs j tt
  | Variant c => forall n e, inner X e -> deep 0 i j n -> rd T e i (enum_variant (run n)) j cs (eq c)
  | Vis => forall e, ok [] e -> rd T e i visibility_modifier j cs (eq true)
  | OVis => True
  | Mod_ => forall e, ok [] e -> rd T e i (mod_step tt) j cs (eq (true, tt))
  | Mods => forall e, ok MK e -> its (T := T) e [] mod_step i tt cs j tt
  | Params => forall n e, ok (TK true) e -> deep 1 i j n -> rd T e i (fun_param_list (run n)) j cs any
  | Param => forall n e, ok (TK true) e -> deep 1 i j n -> rd T e i (param (run n)) j cs (eq true)
  | RetTy => forall n e, ok (TK true) e -> deep 1 i j n -> rd T e i (opt_ret_type (run n)) j cs any
  | Acq => forall n e, ok (TK true) e -> deep 1 i j n -> incl [L_CURLY; SEMICOLON] (rs_kinds (e_rs e)) -> rd T e i (IF at_ ACQUIRES_KW THEN acquires (run n) ELSE skip) j cs any
  | PathTys => forall n e, ok (TK true) e -> deep 1 i j n -> In (kind_at T j) (rs_kinds (e_rs e)) -> kind_at T j <> COMMA -> forall b, turns (T := T) e (delim_step (path_type (run n)) COMMA "expected type" None (e_rs e)) i b cs j tt
  | FBody => forall n e, ok [] e -> deep 1 i j n -> rd T e i (fun_body (run n)) j cs any
  | Addr => forall e, ok [] e -> rd T e i any_address j cs any
  | Item => forall n e, inner X e -> deep 0 i j n -> kind_at T j <> SEMICOLON -> rd T e i (item (run n)) j cs any
  | Items => forall n e, inner X e -> deep 0 i j n -> its (T := T) e [R_CURLY] (item_step (run n)) i tt cs j tt
  | Module_ => forall n e, inner X e -> deep 0 i j n -> rd T e i (module (run n)) j cs (eq (Complete MODULE))
  | Modules => forall n e, inner X e -> deep 0 i j n -> its (T := T) e [R_CURLY] (modules_step (run n)) i tt cs j tt
  | Top => forall n e, inner X e -> deep 0 i j n -> rd T e i (top_item (run n)) j cs any
  | File => forall n e, inner X e -> deep 0 i j n -> its (T := T) e [] (top_step (run n)) i tt cs j tt
  end.
End Defs.

Section Wrap.
Context {T : toks}.
Variable e : env.
Lemma m_marked : forall {A} (body : M (closing * A)) k (v : A) i j cs, rd T e i body j cs (eq (Complete k, v)) -> okk k = true -> rd T e i (marked body) j (N k cs) (fun x => snd x = v).
Proof. intros A body k v i j cs H K. now apply r_marked. Qed.
Lemma m_marked_then : forall {A B} (body : M (closing * A)) k (v : A) i j cs (f : option cm -> A -> M B) n ds R, rd T e i body j cs (eq (Complete k, v)) -> (forall c, rd T e j (f (Some c) v) n ds R) -> okk k = true ->
  rd T e i ('(c, b) <- marked body ;; f c b) n (N k cs ++ ds) R.
Proof. intros A B body k v i j cs f n ds R H F K. eapply r_marked_then; eauto. Qed.
End Wrap.
Lemma ty : forall T X b i cs j, P T X (Type_ b) i cs j -> forall n e rs, ok X (TK b) e -> 3 * (j - i) + 1 < n -> rd T e i (r_type (run n) rs) j cs (eq true).
Proof. intros T X b i cs j H n e rs O L. now apply H. Qed.

(** the elements of a list lie inside *)
Lemma lst_in : forall T X y c i cs j, P T X (Comma y c) i cs j -> lst (T := T) (fun a ds b => der T X y a ds b /\ P T X y a ds b /\ i <= a /\ b <= j) c i cs j.
Proof.
  intros T X y c i cs j H. cbn [P] in H.
  assert (LE : forall i cs j, lst (T := T) (fun i cs j => der T X y i cs j /\ P T X y i cs j) c i cs j -> i <= j).
  { clear. induction 1 as [i K|i cs j [D _] K|i cs j ds k [D _] K L IH]; [lia|destruct (der_fact (T := T) (X := X) _ _ _ _ D); lia|destruct (der_fact (T := T) (X := X) _ _ _ _ D); lia]. }
  assert (GE : forall i0, i0 <= i -> lst (T := T) (fun a ds b => der T X y a ds b /\ P T X y a ds b /\ i0 <= a /\ b <= j) c i cs j); [|now apply GE].
  induction H as [i K|i cs j [D HP] K|i cs j ds k [D HP] K L IH]; intros i0 I.
  - now apply l_end.
  - apply l_one; auto.
  - destruct (der_fact (T := T) (X := X) _ _ _ _ D). apply LE in L. eapply l_more; eauto. split; auto. split; auto. lia. apply IH. lia.
Qed.

(** a comma list read by [iterate_to_EOF] *)
Section ItList.
Context {T : toks} {X : list text} {G : good T X} {S : Type}.
Variables (e : env) (stop : list kind) (f : S -> M (bool * S)) (Inv Out : S -> Prop) (Q : nat -> list call -> nat -> Prop) (c : kind).
Lemma its_lst : forall i cs j, lst (T := T) Q c i cs j -> In c stop -> (forall s, Inv s -> Out s) ->
  (forall i cs j, Q i cs j -> In (kind_at T j) [COMMA; c] -> i < j /\ j <= length T /\ ~ In (kind_at T i) (EOF :: stop) /\ ~ In (kind_at T i) (rs_kinds (e_rs e))) ->
  (forall s i cs j, Inv s -> Q i cs j -> kind_at T j = COMMA -> exists s', Inv s' /\ rd T (under (rs_of stop) e) i (f s) (Datatypes.S j) (cs ++ [tk COMMA]) (eq (true, s'))) ->
  (forall s i cs j, Inv s -> Q i cs j -> kind_at T j = c -> exists b s', Out s' /\ rd T (under (rs_of stop) e) i (f s) j cs (eq (b, s'))) ->
  forall s, Inv s -> exists s', Out s' /\ its (T := T) e stop f i s cs j s'.
Proof.
  intros i cs j H IC IO HE HM HL. induction H as [i K|i cs j HQ K|i cs j ds k HQ K L IH]; intros s I.
  - exists s. split; auto. apply it_stop. right. congruence.
  - destruct (HE _ _ _ HQ) as (L & L2 & N1 & N2); [rewrite K; cbn; auto|]. destruct (HL s _ _ _ I HQ K) as (b & s' & O & R). exists s'. split; auto. destruct b.
    + rewrite <- (app_nil_r cs). eapply it_go; eauto. right. rewrite K. now right. apply it_stop. rewrite K. now right.
    + eapply it_break; eauto.
  - destruct (HE _ _ _ HQ) as (L0 & L2 & N1 & N2); [rewrite K; cbn; auto|]. destruct (HM s _ _ _ I HQ K) as (s' & I' & R). destruct (IH s' I') as (s2 & O & W). exists s2. split; auto.
    replace (cs ++ tk COMMA :: ds) with ((cs ++ [tk COMMA]) ++ ds) by (rewrite <- app_assoc; reflexivity). eapply it_go; [exact N1|exact R|lia|apply next_at; rewrite K; discriminate| |exact W].
    inversion L as [i1 K1 | i1 cs1 j1 HQ1 K1 | i1 cs1 j1 ds1 k1 HQ1 K1 HL1]; subst.
    + right. right. exact IC.
    + left. apply (HE _ _ _ HQ1). cbn; auto.
    + left. apply (HE _ _ _ HQ1). cbn; auto.
Qed.
Lemma r_iter_lst : forall i cs j s, lst (T := T) Q c i cs j -> In c stop -> (forall s, Inv s -> Out s) -> Inv s ->
  (forall i cs j, Q i cs j -> In (kind_at T j) [COMMA; c] -> i < j /\ j <= length T /\ ~ In (kind_at T i) (EOF :: stop) /\ ~ In (kind_at T i) (rs_kinds (e_rs e))) ->
  (forall s i cs j, Inv s -> Q i cs j -> kind_at T j = COMMA -> exists s', Inv s' /\ rd T (under (rs_of stop) e) i (f s) (Datatypes.S j) (cs ++ [tk COMMA]) (eq (true, s'))) ->
  (forall s i cs j, Inv s -> Q i cs j -> kind_at T j = c -> exists b s', Out s' /\ rd T (under (rs_of stop) e) i (f s) j cs (eq (b, s'))) ->
  rd T e i (iterate_to_EOF stop f s) j cs Out.
Proof.
  intros i cs j s H IC IO I HE HM HL. destruct (its_lst i cs j H IC IO HE HM HL s I) as (s' & O & W). eapply r_weaken; [apply (r_iter e); exact W|]. now intros a <-.
Qed.
Lemma r_iter_cons : forall i cs j s s0 ds k, ~ In (kind_at T i) (EOF :: stop) -> rd T (under (rs_of stop) e) i (f s0) (Datatypes.S j) cs (eq (true, s)) -> i < Datatypes.S j -> Datatypes.S j <= length T -> lst (T := T) Q c (Datatypes.S j) ds k -> In c stop -> (forall s, Inv s -> Out s) -> Inv s ->
  (forall i cs j, Q i cs j -> In (kind_at T j) [COMMA; c] -> i < j /\ j <= length T /\ ~ In (kind_at T i) (EOF :: stop) /\ ~ In (kind_at T i) (rs_kinds (e_rs e))) ->
  (forall s i cs j, Inv s -> Q i cs j -> kind_at T j = COMMA -> exists s', Inv s' /\ rd T (under (rs_of stop) e) i (f s) (Datatypes.S j) (cs ++ [tk COMMA]) (eq (true, s'))) ->
  (forall s i cs j, Inv s -> Q i cs j -> kind_at T j = c -> exists b s', Out s' /\ rd T (under (rs_of stop) e) i (f s) j cs (eq (b, s'))) ->
  rd T e i (iterate_to_EOF stop f s0) k (cs ++ ds) Out.
Proof.
  intros i cs j s s0 ds k N R L1 L2 H IC IO I HE HM HL. destruct (its_lst _ ds k H IC IO HE HM HL s I) as (s' & O & W). eapply r_weaken; [apply (r_iter e); eapply it_go; [exact N|exact R|exact L1|exact L2| |exact W]|now intros a <-].
  inversion H as [i1 K1 | i1 cs1 j1 HQ1 K1 | i1 cs1 j1 ds1 k1 HQ1 K1 HL1]; subst.
  - right. right. exact IC.
  - left. apply (HE _ _ _ HQ1). cbn; auto.
  - left. apply (HE _ _ _ HQ1). cbn; auto.
Qed.
End ItList.

Lemma ok_nin : forall T X l e i, ok X l e -> In (kind_at T i) l -> ~ In (kind_at T i) (rs_kinds (e_rs e)).
Proof. intros T X l e i O I J. destruct O as (_ & _ & O & _). eapply O; eauto. Qed.
(** * Where an expression ends *)
Definition operator_heads : list kind := map (fun a => hd EOF (parts (fst a))) (flat_map (fun l => map (fun k => (k, fst l)) (snd l)) levels).
Definition goes_on : list kind := Eval vm_compute in [L_PAREN; L_BRACK; DOT; AS_KW; IDENT] ++ operator_heads.
Lemma op_goes_on : forall T j k q, op_at T j k -> power k = Some q -> In (kind_at T j) goes_on.
Proof.
  intros T j k q [J _] H. apply (joined_head T) in J. apply power_in in H. rewrite J. change goes_on with ([L_PAREN; L_BRACK; DOT; AS_KW; IDENT] ++ operator_heads). apply in_or_app. right. unfold operator_heads. now apply (in_map (fun a => hd EOF (parts (fst a))) _ (k, q)).
Qed.
Lemma ends_in : forall T X bp j l, In (kind_at T j) l -> disjoint l goes_on = true -> ends_at T X bp j.
Proof.
  intros T X bp j l I D. assert (N : ~ In (kind_at T j) goes_on) by (intros W; apply mem_spec in W; rewrite (mem_out _ _ _ I D) in W; discriminate). split; [|split; [|split]].
  - intros k q O W. elim N. eapply op_goes_on; eauto.
  - intros W. apply N. cbn in W |- *. tauto.
  - unfold K. intros W. elim N. rewrite W. cbn. tauto.
  - intros [W _]. unfold K in W. elim N. rewrite W. cbn. tauto.
Qed.
Lemma ends_is : forall T X bp j k, kind_at T j = k -> GrammarBase.mem k goes_on = false -> ends_at T X bp j.
Proof. intros T X bp j k E D. apply (ends_in _ _ _ _ [k]); [now left|]. unfold disjoint. cbn [forallb]. now rewrite D. Qed.
Lemma ends_more : forall T X a b j, a <= b -> ends_at T X a j -> ends_at T X b j.
Proof. intros T X a b j L (H1 & H2 & H3 & H4). split; [|split; [exact H2|split]]; intros; [pose proof (H1 _ _ H H0); lia|specialize (H3 H); lia|specialize (H4 H); lia]. Qed.
Ltac ends :=
  match goal with
  | |- _ = 0 -> ends_at _ _ _ _ => first [let Q := fresh in intros Q; discriminate Q | assumption | intros _; ends]
  | |- ends_at _ _ _ _ => assumption
  | H : kind_at ?T ?j = ?k |- ends_at ?T _ _ ?j => apply (ends_is _ _ _ _ k H); vm_compute; reflexivity
  | H : In (kind_at ?T ?j) ?l |- ends_at ?T _ _ ?j => apply (ends_in _ _ _ _ l H); vm_compute; reflexivity
  | H : ends_at ?T ?X ?a ?j |- ends_at ?T ?X ?b ?j => apply (ends_more T X a b j); [unfold least in *; lia|exact H]
  end.
(** * Recovery sets inside braces *)
Lemma ok_inner : forall X l e, inner X e -> GrammarBase.mem R_CURLY l = false -> ok X l e.
Proof.
  intros X l e (H1 & H2 & H3 & H4) M. split; [exact H1|split; [exact H2|split; [|rewrite H4; intros t []]]]. intros k I J. apply H3 in I. destruct I as [<-|[]]. apply mem_true in J. congruence.
Qed.
Lemma inner_reset : forall X l e, ok X l e -> inner X (reset e).
Proof. intros X l e (H1 & H2 & _). split; [exact H1|split; [exact H2|split; [intros k []|reflexivity]]]. Qed.
Lemma inner_under : forall X e, inner X e -> inner X (under (rs_of [R_CURLY]) e).
Proof. intros X e (H1 & H2 & H3 & H4). split; [exact H1|split; [exact H2|split]]. - intros k I. cbn in I. apply in_app_or in I. cbn in I. destruct I as [I|I]; [now apply H3|exact I]. - cbn. now rewrite H4. Qed.
Lemma inner_none : forall X e, e_texts e = X -> e_sk e = SMove -> rs_kinds (e_rs e) = [] -> rs_kws (e_rs e) = [] -> inner X e.
Proof. intros X e H1 H2 H3 H4. split; [exact H1|split; [exact H2|split; [rewrite H3; intros k []|exact H4]]]. Qed.
Lemma inner_texts : forall X e, inner X e -> e_texts e = X. Proof. intros X e H. apply H. Qed.
(** * Tactics *)
Ltac texts ::= cbn [e_texts under reset set_rs]; first [assumption | eapply ok_texts; eassumption | eapply inner_texts; eassumption].
Ltac envs :=
  lazymatch goal with
  | |- inner _ (reset _) => first [eapply inner_reset; eassumption | eapply (inner_reset _ []); apply ok_inner; [eassumption|reflexivity]]
  | |- inner _ (under _ _) => apply inner_under; envs
  | |- inner _ _ => assumption
  | |- ShapeBasics.ok _ _ (under _ _) => apply ok_under; [envs|vm_compute; reflexivity]
  | |- ShapeBasics.ok _ _ (reset _) => first [eapply ok_reset; eassumption | eapply (ok_reset _ []); apply ok_inner; [eassumption|reflexivity]]
  | |- _ => first [assumption | eapply ok_sub; [eassumption|vm_compute; reflexivity] | apply ok_inner; [assumption|vm_compute; reflexivity]]
  end.
Ltac kn := first [assumption | reflexivity | congruence
  | match goal with H : In (kind_at ?T ?i) ?l |- kind_at ?T ?i <> _ => apply (in_other _ l _ H); vm_compute; reflexivity end
  | match goal with H : ~ In (kind_at ?T ?i) ?l |- kind_at ?T ?i <> _ => let Q := fresh in intros Q; apply H; rewrite Q; apply mem_spec; vm_compute; reflexivity end].
Ltac inc := match goal with |- incl _ (rs_kinds (e_rs (under _ _))) => let k := fresh in let I := fresh in intros k I; cbn in I |- *; rewrite ?in_app_iff; cbn; tauto end.
Ltac side := first [envs | lia | assumption | inc | ends].
Ltac begin := intros; prep; facts; open_facts; prep; eapply r_eq.
Ltac fin := first [reflexivity | lia | cbn [app]; repeat rewrite <- app_assoc; cbn [app]; repeat rewrite app_nil_r; reflexivity ].
Ltac stp :=
  lazymatch goal with
  | |- forall _ : cm, rd _ _ _ _ _ _ _ => intros ?
  | |- rd _ _ _ (mbind (mbind _ _) _) _ _ _ => apply r_assoc
  | |- rd _ _ _ (match _ with _ => _ end) _ _ _ => progress (cbn [negb andb orb is_some fst snd]; cbv iota beta)
  | |- rd _ _ _ (if _ then _ else _) _ _ _ => progress (cbn [negb andb orb is_some fst snd]; cbv iota beta)
  | |- rd _ _ _ (mbind (if _ then _ else _) _) _ _ _ => progress (cbn [negb andb orb is_some fst snd]; cbv iota beta)
  | |- rd _ _ _ (mbind (ask _) _) _ _ _ => first [yes | no]
  | |- rd _ _ _ (mbind (at_ _) _) _ _ _ => first [yes | no]
  | |- rd _ _ _ (mbind (cur _) _) _ _ _ => first [yes | no]
  | |- rd _ _ _ (mbind (kwi _) _) _ _ _ => first [yes | no]
  | |- rd _ _ _ (mbind (cur_kw _) _) _ _ _ => first [yes | no]
  | |- rd _ _ _ (mbind (at_ts _) _) _ _ _ => first [yes | no]
  | |- rd _ _ _ (mbind (nth_at_ _ _) _) _ _ _ => first [yes | no]
  | |- rd _ _ _ (mbind (eat_ _) _) _ _ _ => first [eapply r_seq; [apply r_eat; [reflexivity|kn]|] | eapply r_seq; [apply r_eat_no; [reflexivity|kn]|]]; cbv iota
  | |- rd _ _ _ (mbind (bump _) _) _ _ _ => eapply r_then; [apply r_bump; [reflexivity|kn]|]
  | |- rd _ _ _ (mbind (expect _) _) _ _ _ => eapply r_seq; [apply r_expect; [reflexivity|kn]|]; cbv iota
  | |- rd _ _ _ (mbind (expect_msg _ _) _) _ _ _ => eapply r_seq; [apply r_expect_msg; [reflexivity|kn]|]; cbv iota
  | |- rd _ _ _ (mbind bump_any_ _) _ _ _ => eapply r_then; [eapply r_bump_any; [eassumption|discriminate]|]
  | |- rd _ _ _ (mbind (remap _) _) _ _ _ => eapply r_then; [apply r_remap; [reflexivity|congruence]|]
  | |- rd _ _ _ (mbind (assert_ _) _) _ _ _ => apply r_assert_then; [solve [look]|]
  | |- rd _ _ _ (mbind outer_rs _) _ _ _ => apply r_outer
  | |- rd _ _ _ (mbind pos_ _) _ _ _ => apply r_pos
  | |- rd _ _ _ (mbind stmt_kind_ _) _ _ _ => apply r_kind
  | |- rd _ _ _ (mbind skip _) _ _ _ => apply r_skip
  | |- rd _ _ _ (mbind (ret _) _) _ _ _ => apply r_ret_then; cbv iota beta
  | |- rd _ _ _ (mbind name_ref _) _ _ _ => eapply r_seq; [apply r_name_ref; kn|]; cbv iota
  | |- rd _ _ _ (mbind name _) _ _ _ => eapply r_seq; [apply (r_name (X := _)); [envs|split; kn]|]; cbv iota
  | |- rd _ _ _ (mbind ident_pat _) _ _ _ => eapply r_then; [apply r_ident_pat; [envs|split; kn]|]
  | |- rd _ _ _ (mbind wildcard_pat _) _ _ _ => eapply r_then; [apply r_wildcard; kn|]
  | |- rd _ _ _ (mbind value_address _) _ _ _ => eapply r_then; [apply r_value_address; kn|]
  | |- rd _ _ _ (mbind (node _ _) _) _ _ _ => eapply r_then; [eapply r_node; [reflexivity|]|]
  | |- rd _ _ _ (mbind (marked _) (fun _ => ?m)) _ _ _ => eapply r_then; [eapply m_marked|]
  | |- rd _ _ _ (mbind (marked _) _) _ _ _ => eapply m_marked_then; [|cbv iota beta|]
  | |- rd _ _ _ (marked _) _ _ _ => eapply m_marked
  | |- okk ?k = true => tryif is_evar k then fail else reflexivity
  | |- rd _ _ _ (mbind (with_ts _ _) (fun _ => ?m)) _ _ _ => eapply r_then; [apply r_with|]
  | |- rd _ _ _ (mbind (with_ts _ _) _) _ _ _ => eapply r_seq; [apply r_with|]; cbv iota
  | |- rd _ _ _ (with_ts _ _) _ _ _ => apply r_with
  | |- rd _ _ _ (with_rs _ _) _ _ _ => apply r_with
  | |- rd _ _ _ (reset_rs _) _ _ _ => apply r_reset
  | |- rd _ ?e ?i (ret ?a) _ _ ?Q => tryif is_evar Q then apply (r_ret e i a any Logic.I) else (apply r_ret; first [reflexivity | exact Logic.I])
  | |- rd _ ?e ?i skip _ _ ?Q => tryif is_evar Q then apply (r_ret e i tt any Logic.I) else (apply r_ret; first [reflexivity | exact Logic.I])
  | |- rd _ _ _ (bump _) _ _ _ => apply r_bump; [reflexivity|kn]
  | |- rd _ _ _ (eat_ _) _ _ _ => eapply r_any; apply r_eat; [reflexivity|kn]
  | |- rd _ _ _ (expect _) _ _ ?Q => first [apply r_expect; [reflexivity|kn] | eapply r_any; apply r_expect; [reflexivity|kn]]
  | |- rd _ _ _ (remap _) _ _ _ => apply r_remap; [reflexivity|congruence]
  | |- rd _ _ _ value_address _ _ _ => apply r_value_address; kn
  | |- rd _ _ _ (node _ _) _ _ _ => eapply r_node; [reflexivity|]
  end.
Ltac stps := repeat stp.
(** what is known of the part that comes next *)
Ltac oth := match goal with H : In (kind_at ?T ?i) ?l |- kind_at ?T ?i <> _ => apply (in_other _ l _ H); vm_compute; reflexivity | |- _ => congruence end.
Ltac aw :=
  match goal with
  | H : In (kind_at ?T ?i) ?l |- away ?T ?X ?e ?i => apply (ok_away T X l e i); [envs|exact H|]; let Q := fresh in intros Q;
      match goal with W : kind_at T i = IDENT -> forall s, In s ?l' -> word X i <> str s |- _ => apply (fewer_words i l' _ (W Q)); vm_compute; reflexivity end
  end.
Ltac elem tac := let D := fresh "D" in let HP := fresh "HP" in let J := fresh "J" in intros ? ? ? (D & HP & ? & ?) J; cbv beta in HP; facts; open_facts; prep; split; [lia|split; [oth|split; [oth|split; [aw|tac HP]]]].
Ltac element HP := first [solve [eapply HP; side] | unfold type_, type_or_recover; solve [eapply (ty _ _ _ _ _ _ HP); side] | idtac].
Ltac items H := eapply r_delimited; [exact (lst_in _ _ _ _ _ _ _ H)|texts|reflexivity|discriminate|discriminate|elem element].
Ltac plain x := lazymatch x with Comma _ _ => fail | Segs _ => fail | Lit_ => fail | Type_ _ => fail | Ex _ _ => fail | Opnd _ => fail | Prim _ => fail | Atom _ _ => fail | Block => fail | IsTys => fail | LitP => fail | Stmts => fail | Arms => fail | Vars => fail | Mods => fail | Items => fail | Modules => fail | File => fail | Abils _ => fail | OVis => fail | _ => idtac end.
Ltac ih0 :=
  match goal with
  | H : P _ _ (Comma _ _) ?i _ _ |- rd _ _ ?i (mbind (delimited _ _ _ _) _) _ _ _ => eapply r_then; [items H|]
  | H : P _ _ (Comma _ _) ?i _ _ |- rd _ _ ?i (delimited _ _ _ _) _ _ _ => items H
  | H : P _ _ Block ?i _ _ |- rd _ _ ?i (mbind (block_expr _) _) _ _ _ => eapply r_then; [eapply rc_rd; eapply H; side|]
  | H : P _ _ (Type_ _) ?i _ _ |- rd _ _ ?i (mbind _ _) _ _ _ => eapply r_seq; [unfold type_, type_or_recover; solve [eapply (ty _ _ _ _ _ _ H); side]|]; cbv iota
  | H : P _ _ (Type_ _) ?i _ _ |- rd _ _ ?i _ _ _ _ => unfold type_, type_or_recover; first [solve [eapply (ty _ _ _ _ _ _ H); side] | solve [eapply r_any; eapply (ty _ _ _ _ _ _ H); side]]
  | H : P _ _ ?x ?i _ _ |- rd _ _ ?i (mbind _ _) _ _ _ => plain x; first [eapply r_seq; [solve [eapply H; side]|] | eapply r_then; [solve [eapply H; side]|]]; cbv iota
  | H : P _ _ ?x ?i _ _ |- rd _ _ ?i _ _ _ _ => plain x; first [solve [eapply H; side] | solve [eapply r_any; eapply H; side]]
  end.
Ltac ih := ih0.
Ltac go := repeat first [stp | ih].
Ltac enter := intros; cbn [P pm]; intros; prep; facts; open_facts; prep.
(** the run, then the place and the calls *)
(** a comma list read by [iterate_to_EOF]: the state before an element, the state at the end *)
Ltac nin := match goal with H : In (kind_at ?T ?i) ?l |- ~ In (kind_at ?T ?i) ?l' => let W := fresh in intros W; apply mem_spec in W; rewrite (mem_out _ l l' H) in W by (vm_compute; reflexivity); discriminate W end.
Ltac nrs := match goal with H : In (kind_at ?T ?i) ?l |- ~ In (kind_at ?T ?i) (rs_kinds (e_rs ?e)) => eapply (ok_nin T); [|exact H]; envs end.
Ltac one := let D := fresh "D" in let HP := fresh "HP" in let J := fresh "J" in intros ? ? ? (D & HP & ? & ?) J; facts; open_facts; prep; split; [lia|split; [lia|split; [nin|nrs]]].
Ltac elements H inv out := eapply (r_iter_lst _ _ _ inv out); [exact (lst_in _ _ _ _ _ _ _ H)|cbn; tauto|auto|auto|one
  |let D := fresh "D" in let HP := fresh "HP" in let I := fresh "I" in intros ? ? ? ? I (D & HP & ? & ?) ?; cbv beta in I, HP; facts; open_facts; prep
  |let D := fresh "D" in let HP := fresh "HP" in let I := fresh "I" in intros ? ? ? ? I (D & HP & ? & ?) ?; cbv beta in I, HP; facts; open_facts; prep].
(** the same after a first element and a comma *)
Ltac more H inv out := eapply (r_iter_cons _ _ _ inv out); [nin|eapply r_eq; [go|fin|fin]|lia|first [lia|apply next_at; congruence]|exact (lst_in _ _ _ _ _ _ _ H)|cbn; tauto| | |one
  |let D := fresh "D" in let HP := fresh "HP" in let I := fresh "I" in intros ? ? ? ? I (D & HP & ? & ?) ?; cbv beta in I, HP; facts; open_facts; prep
  |let D := fresh "D" in let HP := fresh "HP" in let I := fresh "I" in intros ? ? ? ? I (D & HP & ? & ?) ?; cbv beta in I, HP; facts; open_facts; prep].
Ltac unroll n := destruct n as [|n]; [lia|].
Tactic Notation "case" tactic(u) := enter; eapply r_eq; [u; go|fin|fin].
