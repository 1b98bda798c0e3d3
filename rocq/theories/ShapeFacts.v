(** What the tokens of each syntactic category begin with; that none of them runs past the end. *)
From Coq Require Import String.
From Verif Require Import Base SyntaxKind ParserModel GrammarBase GrammarModel AddressModel ParserProps PrecSpec PrecRun PrecBasics PrecProofs ShapeSpec ShapeBasics.
Close Scope string_scope.
Close Scope N_scope.
Open Scope nat_scope.

Definition TK (b : bool) : list kind := [IDENT; UNDERSCORE; INT_NUMBER; AMP; PIPE] ++ if b then [L_PAREN] else [].
Definition PK : list kind := [IDENT; UNDERSCORE; L_PAREN; DOT_DOT; MINUS; AT] ++ tokens_of_literals.
Definition AK : list kind := [IDENT; INT_NUMBER; AT; BYTE_STRING; HEX_STRING; TRUE_KW; FALSE_KW; L_PAREN; L_CURLY; IF_KW; LOOP_KW; WHILE_KW; QUOTE_IDENT; RETURN_KW; ABORT_KW; BREAK_KW; CONTINUE_KW].
Definition OK_ : list kind := [PIPE; AMP; MOVE_KW; STAR; BANG; MINUS] ++ AK.
(** what may not be in the recovery set around patterns and around expressions *)
Definition PE : list kind := PK ++ TK true.
Definition EK : list kind := OK_ ++ PE.
Definition firsts (x : nt) : option (list kind) :=
  match x with
  | Path m | Segs m | Seg m _ => Some ([IDENT; INT_NUMBER] ++ match m with MTy _ => [UNDERSCORE] | _ => [] end)
  | EArgs => Some [L_ANGLE; COLON_COLON]
  | Type_ b | TArg b => Some (TK b)
  | LParam b => Some ([IDENT; UNDERSCORE; INT_NUMBER; AMP] ++ if b then [L_PAREN] else [])
  | Abils _ | TParam | Field | SField => Some [IDENT]
  | Pat _ => Some PK
  | PField => Some [IDENT; UNDERSCORE; DOT_DOT]
  | LitP => Some (MINUS :: AT :: tokens_of_literals)
  | Lit_ => Some (AT :: tokens_of_literals)
  | Expr | Ex _ _ | Opnd _ | Arg | ABody => Some OK_
  | Prim _ | Atom _ _ => Some AK
  | Args | Cond | Params => Some [L_PAREN]
  | LamP | Param => Some [IDENT; UNDERSCORE]
  | IsTys => Some (TK true)
  | Block => Some [L_CURLY]
  | Stmt => Some ([SEMICOLON; LET_KW; USE_KW] ++ OK_)
  | Branch _ => Some OK_
  | Loop _ _ => Some [LOOP_KW; WHILE_KW; IDENT]
  | Arm => Some PK
  | Attr => Some [POUND]
  | AItem | USpeck => Some [IDENT; INT_NUMBER]
  | TField => Some (TK true)
  | PathTys => Some [IDENT; INT_NUMBER; UNDERSCORE]
  | FBody => Some [L_CURLY; SEMICOLON]
  | Mod_ => Some [PUBLIC_KW; FRIEND_KW; NATIVE_KW; INLINE_KW; IDENT]
  | Vis => Some [PUBLIC_KW; FRIEND_KW; IDENT]
  | Variant _ => Some [POUND; IDENT]
  | Addr => Some [INT_NUMBER; IDENT]
  | Item => Some [POUND; USE_KW; FRIEND_KW; PUBLIC_KW; IDENT; CONST_KW; STRUCT_KW; FUN_KW; NATIVE_KW; INLINE_KW]
  | Module_ => Some [MODULE_KW]
  | Top => Some [POUND; MODULE_KW; SCRIPT_KW; IDENT]
  | Comma _ _ | SegArgs _ | LRet _ | LHas | TParams | MExpr _ | Arms | Guard | Stmts | Attrs | Has | HasSemi | Vars | RetTy | Acq | OVis | Mods | Items | Modules | File => None
  end.
(** contextual keywords it does not begin with *)
Definition shuns (x : nt) : list string :=
  match x with
  | SField | Mod_ | Vis | Item | Top | Addr => []
  | Prim _ | Atom _ _ | Loop _ _ => ["enum"; "has"; "copy"; "phantom"]
  | TParam => ["enum"; "has"]
  | Path _ | Segs _ | Seg _ _ | Type_ _ | TArg _ | LParam _ => ["enum"; "has"; "phantom"]
  | _ => ["enum"; "has"]
  end%string.
(** the token it stops at *)
Definition stops (x : nt) : option kind :=
  match x with Comma _ c => Some c | Arms | Stmts | Vars | Items | Modules => Some R_CURLY | Mods => Some FUN_KW | File => Some EOF | _ => None end.
(** what it begins with unless it is empty *)
Definition maybe (x : nt) : option (list kind) :=
  match x with Attrs => Some [POUND] | OVis => Some [PUBLIC_KW; FRIEND_KW; IDENT] | Mods => Some [PUBLIC_KW; FRIEND_KW; NATIVE_KW; INLINE_KW; IDENT] | LHas | Has | HasSemi => Some [IDENT] | RetTy => Some [COLON] | Acq => Some [ACQUIRES_KW] | Guard => Some [IF_KW]
  | TParams => Some [L_ANGLE] | MExpr _ => Some OK_ | _ => None end.
Section Facts.
Context {T : toks} {X : list text} {G : good T X}.
Definition fact (x : nt) (i j : nat) : Prop :=
  i <= j /\ (i <= length T -> j <= length T) /\ match stops x with None => True | Some k => kind_at T j = k end /\ match maybe x with None => True | Some l => In (kind_at T i) l \/ i = j end /\
  match firsts x with None => True | Some l => i < j /\ j <= length T /\ In (kind_at T i) l /\ (kind_at T i = IDENT -> forall s, In s (shuns x) -> word X i <> str s) end.
Lemma in_wider : forall (k : kind) l l', In k l -> subset l l' = true -> In k l'.
Proof. intros k l l' H S. unfold subset in S. rewrite forallb_forall in S. apply mem_spec. auto. Qed.
Lemma in_minus : forall (k a : kind) l l', In k l -> k <> a -> subset (filter (fun x => negb (kind_eqb x a)) l) l' = true -> In k l'.
Proof. intros k a l l' H N S. eapply in_wider; [|exact S]. apply filter_In. split; auto. now rewrite eqb_false. Qed.
Lemma lt_len : forall i k, kind_at T i = k -> k <> EOF -> i < length T.
Proof. intros i k K N. apply next_at. congruence. Qed.
Lemma in_len : forall i l, In (kind_at T i) l -> GrammarBase.mem EOF l = false -> i < length T.
Proof. intros i l K N. apply next_at. eapply in_other; eauto. Qed.
Ltac lens :=
  repeat match goal with
  | H : kind_at ?T ?i = ?k |- _ => lazymatch k with EOF => fail | _ => idtac end; lazymatch goal with H' : i < length T |- _ => fail | _ => assert (i < length T) by (apply (lt_len i k H); first [discriminate|now intros ->]) end
  | H : In (kind_at ?T ?i) ?l |- _ => lazymatch goal with H' : i < length T |- _ => fail | _ => assert (i < length T) by (apply (in_len i l H); vm_compute; reflexivity) end
  end.
Lemma not_word : forall i s l, word X i = str s -> existsb (fun x => text_eqb (str s) (str x)) l = false -> forall x, In x l -> word X i <> str x.
Proof. intros i s l E H x I W. apply Bool.not_true_iff_false in H. apply H. apply existsb_exists. exists x. split; auto. apply text_eqb_spec. congruence. Qed.
Lemma fewer_words : forall i (l l' : list string), (forall s, In s l -> word X i <> str s) -> forallb (fun s => existsb (String.eqb s) l) l' = true -> forall s, In s l' -> word X i <> str s.
Proof. intros i l l' H S s I. rewrite forallb_forall in S. specialize (S _ I). apply existsb_exists in S. destruct S as (x & J & E). apply String.eqb_eq in E. subst x. auto. Qed.
Lemma op_len : forall j k q, op_at T j k -> power k = Some q -> j < length T.
Proof.
  intros j k q O P. apply next_at. rewrite (joined_head T j k) by apply O. intros E. unfold parts in E. destruct k; cbn in P; try discriminate; cbn in E; discriminate.
Qed.
Ltac words := 
  first [ intros Q; exfalso; congruence
        | solve [intros _ ? []]
        | match goal with H : In (kind_at T ?i) ?l |- kind_at T ?i = IDENT -> _ => let Q := fresh in intros Q; exfalso; revert Q; apply (in_other _ l _ H); vm_compute; reflexivity end
        | match goal with H : kind_at T ?i = IDENT -> ordinary T X ?i |- kind_at T ?i = IDENT -> _ => let Q := fresh in intros Q; apply (fewer_words i (reserved ++ ["copy"]%string)); [|vm_compute; reflexivity]; destruct (H Q) as [[_ W1] [W2 _]]; intros s I; apply in_app_or in I; destruct I as [I|[<-|[]]]; auto end
        | intros _; eapply not_word; [eassumption|vm_compute; reflexivity]
        | match goal with H : forall s, In s ?l -> word X ?i <> str s |- kind_at T ?i = IDENT -> _ => intros _; apply (fewer_words i l _ H); vm_compute; reflexivity end
        | match goal with H : kind_at T ?i = IDENT -> forall s, In s ?l -> word X ?i <> str s |- kind_at T ?i = IDENT -> _ => let Q := fresh in intros Q; apply (fewer_words i l _ (H Q)); vm_compute; reflexivity end
        | match goal with H : kind_at T ?i = IDENT -> id T X ?i |- kind_at T ?i = IDENT -> _ => let Q := fresh in intros Q; apply (fewer_words i _ _ (proj2 (H Q))); vm_compute; reflexivity end ].
Ltac inl := first [ match goal with H : kind_at T ?i = ?k |- In (kind_at T ?i) _ => rewrite H; solve [apply mem_spec; vm_compute; reflexivity] end
                  | match goal with H : In (kind_at T ?i) ?l |- In (kind_at T ?i) _ => apply (in_wider _ l _ H); vm_compute; reflexivity end
                  | match goal with H : In (kind_at T ?i) ?l, N : kind_at T ?i <> ?a |- In (kind_at T ?i) _ => apply (in_minus _ a l _ H N); vm_compute; reflexivity end ].
Ltac inm := first [right; reflexivity | left; inl | match goal with H : In (kind_at T ?i) ?l \/ ?i = ?j |- In (kind_at T ?i) _ \/ ?i = _ => destruct H as [?|<-]; [left; inl|first [left; inl|assumption]] end].
Ltac ini := first [ inl | match goal with H : In (kind_at T ?i) ?l \/ ?i = ?j |- In (kind_at T ?i) _ => destruct H as [H|<-]; [inl|] end; ini ].
Ltac wordi := first [ words | match goal with H : In (kind_at T ?i) ?l \/ ?i = ?j |- kind_at T ?i = IDENT -> _ => destruct H as [H|<-]; [words|] end; wordi ].
Theorem der_fact : forall x i cs j, der T X x i cs j -> fact x i j.
Proof.
  induction 1; unfold fact in *; cbn [firsts stops maybe] in *; prep;
  repeat match goal with b : bool |- _ => destruct b | m : mode |- _ => destruct m | H : In (_, _) [_; _; _; _] |- _ => cbn [In] in H; destruct H as [H|[H|[H|[H|[]]]]]; injection H as <- <- | H : In ?s assert_names |- _ => cbn [In assert_names] in H; destruct H as [<-|[<-|[<-|[<-|[<-|[<-|[]]]]]]]
    | H : In ?k ?l, H' : kind_at T _ = ?k |- _ => is_var k; rewrite <- H' in H; clear H' end;
  lens; (split; [lia|]); (split; [intros; lia|]); (split; [first [exact Logic.I|assumption]|]); (split; [first [exact Logic.I|solve [inm]]|]); try exact Logic.I; try (split; [lia|]; split; [lia|]; split; [solve [ini]|solve [wordi]]).
Qed.
End Facts.
(** what is known of every derivation around *)
Ltac facts :=
  repeat match goal with
  | G : good ?T ?X, H : der ?T ?X ?x ?i ?c ?j |- _ =>
      lazymatch goal with _ : fact (T := T) (X := X) x i j |- _ => fail | _ => pose proof (der_fact (T := T) (X := X) x i c j H) end
  end.
Ltac open_facts := unfold fact in *; cbn [firsts stops maybe shuns] in *.
