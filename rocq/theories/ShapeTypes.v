(** Paths, types, patterns: what the parser does on them. *)
From Coq Require Import String.
From Verif Require Import Base SyntaxKind ParserModel GrammarBase AddressModel TreeSinkModel TreeSinkSpec TreeSinkProps ParserSpec ParserProofs ParserProofs2 ParserProps GrammarDisc PrecSpec PrecRun PrecBasics PrecProofs ShapeSpec ShapeBasics ShapeFacts GrammarModel ShapeDefs.
Close Scope string_scope.
Close Scope N_scope.
Open Scope nat_scope.
Open Scope gram_scope.

Section Cases.
Context {T : toks} {X : list text} {G : good T X}.
Notation der := (ShapeSpec.der T X).
Notation P := (ShapeDefs.P T X).
Notation K := (ShapeSpec.K T).
Notation among := (ShapeSpec.among T).
Notation id := (ShapeSpec.id T X).
Notation kw := (ShapeSpec.kw T X).
Notation head := (ShapeSpec.head T).
Notation ok := (ShapeBasics.ok X).

(** what a list begins with *)
Lemma list_head : forall x c L i l j, der (Comma x c) i l j -> firsts x = Some L -> In (kind_at T i) (c :: L).
Proof.
  intros x c L i l j H F. inversion H; subst. all: try (left; symmetry; assumption). all: try match goal with F : firsts ?y = Some _, D : ShapeSpec.der _ _ ?y ?k _ _ |- In (kind_at _ ?k) _ => right; pose proof (der_fact _ _ _ _ D) as FA; unfold fact in FA; rewrite F in FA; tauto end.
Qed.
Lemma case_c_end : forall x c i, K i c -> P (Comma x c) i [] i.
Proof. intros. now apply l_end. Qed.
Lemma case_c_one : forall x c i a j, der x i a j -> P x i a j -> K j c -> P (Comma x c) i a j.
Proof. intros. now apply l_one. Qed.
Lemma case_c_more : forall x c i a j l k, der x i a j -> P x i a j -> K j COMMA -> der (Comma x c) (S j) l k -> P (Comma x c) (S j) l k -> P (Comma x c) i (a ++ tk COMMA :: l) k.
Proof. intros. cbn. eapply l_more; eauto. Qed.

(** * Paths *)
Lemma case_path : forall m i p j, der (Segs m) i p j -> P (Segs m) i p j -> (K j COLON_COLON -> K (S j) L_CURLY) -> P (Path m) i p j.
Proof.
  intros m i p j D H E n e O L. facts. open_facts. prep. destruct n as [|n]; [lia|]. change (r_path (run (S n))) with (path_body (run n)). destruct (H n e O) as (j0 & c0 & L1 & L2 & F & W); [lia|]. unfold path_body.
  eapply y_bind; [exact F|]. cbn beta. intros x l (c & -> & Sh). eapply y_bind; [apply (walk_loop e _ _ _ _ _ _ _ W) with (Q := fun _ l' => flat_map build l' = p) (n := j); [|exact Sh]|].
  - intros c1 l1 Sh1. unfold path_step, id_cm. destruct (kind_eqb_reflect (kind_at T j) COLON_COLON) as [Q|Q].
    + apply y_ask with true; [look|]. specialize (E Q). prep. apply y_ask with true; [look|]. apply y_ret. exists tt. split; auto. eapply shape_calls; eauto.
    + apply y_ask with false; [look|]. apply y_ret. exists tt. split; auto. eapply shape_calls; eauto.
  - cbn beta. intros _ l' E'. apply y_ret. auto.
Qed.
Lemma case_segs_one : forall m i c j, der (Seg m true) i c j -> P (Seg m true) i c j -> P (Segs m) i (N PATH c) j.
Proof.
  intros m i c j D H n e O L. facts. open_facts. prep. exists j, (N PATH c). split; [lia|]. split; [lia|]. split; [|apply w_nil].
  eapply y_weaken; [apply (c_marked e _ PATH tt i j c)|]; [reflexivity| |].
  - eapply r_eq. { eapply r_seq; [apply H; [exact O|lia]|]. stps. } reflexivity. fin.
  - cbn beta. intros x l (c1 & -> & _ & Sh). eauto.
Qed.
Lemma case_segs_more : forall m i p j c k, der (Segs m) i p j -> P (Segs m) i p j -> K j COLON_COLON -> der (Seg m false) (S j) c k -> P (Seg m false) (S j) c k -> P (Segs m) i (N PATH (p ++ tk COLON_COLON :: c)) k.
Proof.
  intros m i p j c k D H E D2 H2 n e O L. facts. open_facts. prep. destruct (H n e O) as (j0 & c0 & L1 & L2 & F & W); [lia|]. exists j0, c0. split; [lia|]. split; [lia|]. split; [exact F|]. eapply w_snoc; [exact W| |lia|lia].
  intros c1 l1 Sh. unfold path_step, id_cm. apply y_ask with true; [look|]. apply y_ask with false.
  - assert (kind_at T (S j) <> L_CURLY) by (destruct m; eapply in_other; [eassumption|reflexivity|eassumption|reflexivity|eassumption|reflexivity]). look.
  - eapply y_bind; [eapply (y_pre e _ PATH tt); [reflexivity|exact Sh|]|].
    + eapply r_eq. { stps. eapply r_seq; [apply H2; [exact O|lia]|]. stps. } reflexivity. reflexivity.
    + cbn beta. intros [c' u] l' [_ Sh']. apply y_ret. exists c'. split; auto. cbn [fst] in Sh'. rewrite app_nil_r in Sh'. exact Sh'.
Qed.
Lemma case_seg_name : forall m f i a j, id i -> der (SegArgs m) (S i) a j -> P (SegArgs m) (S i) a j -> P (Seg m f) i (N PATH_SEGMENT (NREF ++ a)) j.
Proof. case (unfold path_segment). Qed.
Lemma case_seg_any : forall b f i, K i UNDERSCORE -> P (Seg (MTy b) f) i (N PATH_SEGMENT (N NAME_REF [tk IDENT])) (S i).
Proof. case (unfold path_segment). Qed.
Lemma case_seg_addr : forall m i, K i INT_NUMBER -> P (Seg m true) i (N PATH_SEGMENT (N PATH_ADDRESS (N VALUE_ADDRESS [tk INT_NUMBER]))) (S i).
Proof. case (unfold path_segment). Qed.
Lemma case_args_none : forall i, P (SegArgs MNone) i [] i.
Proof. case idtac. Qed.
Lemma case_args_no_type : forall b i, ~ K i L_ANGLE -> P (SegArgs (MTy b)) i [] i.
Proof. case (unfold opt_path_type_arg_list, opt_type_arg_list_for_type). Qed.
Lemma case_args_type : forall b i l j, K i L_ANGLE -> der (Comma (TArg b) R_ANGLE) (S i) l j -> P (Comma (TArg b) R_ANGLE) (S i) l j -> P (SegArgs (MTy b)) i (N TYPE_ARG_LIST (tk L_ANGLE :: l ++ [tk R_ANGLE])) (S j).
Proof. intros [|]; case (unfold opt_path_type_arg_list, opt_type_arg_list_for_type). Qed.
Lemma case_args_no_expr : forall i, (K i COLON_COLON -> ~ K (S i) L_ANGLE) -> (K i L_ANGLE -> no_args T i) -> P (SegArgs MEx) i [] i.
Proof.
  enter. unroll n. destruct (kind_eqb_reflect (kind_at T i) COLON_COLON) as [Q|Q].
  - specialize (H Q). eapply r_eq; [unfold opt_path_type_arg_list, opt_type_arg_list_for_expr; go|fin|fin].
  - cbn [opt_path_type_arg_list]. eapply (y_bind i).
    + apply (y_no_type_args T (@g_end T X G) (run (S n)) (run n) eq_refl eq_refl e i [] false Q H0).
    + cbn beta. intros r l [_ ->]. apply y_ret. split; [reflexivity|exact Logic.I].
Qed.
Lemma case_args_expr : forall i a j, der EArgs i a j -> P EArgs i a j -> P (SegArgs MEx) i a j.
Proof. case (cbn [opt_path_type_arg_list]). Qed.
(** type arguments in an expression *)
Lemma type_args : forall n e i l j first ds i0, ok (TK false) e -> 3 * (j - i) < n -> rd T e i0 first i ds any -> kind_at T i = L_ANGLE -> P (Comma (TArg false) R_ANGLE) (S i) l j -> kind_at T j = R_ANGLE -> S i <= j ->
  rd T e i0 (type_args_rest (run n) first) (S j) (N TYPE_ARG_LIST (ds ++ tk L_ANGLE :: l ++ [tk R_ANGLE])) (eq true).
Proof.
  intros n e i l j first ds i0 O L F K HP KJ IJ.
  eapply r_eq. unfold type_args_rest. stp. eapply r_then; [exact F|]. stps. eapply r_bind; [elements HP (fun s : bool => s = false) (fun s : bool => s = false)|intros s ->; cbv iota].
  - exists false. split; auto. subst. eapply r_eq; [eapply r_seq; [eapply HP0; side|]; cbn [negb]; go|fin|fin].
  - exists false, false. split; auto. subst. eapply r_eq; [eapply r_seq; [eapply HP0; side|]; cbn [negb]; go|fin|fin].
  - go.
  - go.
  - go.
  - fin.
  - fin.
Qed.
Lemma close : forall e h, kind_at T (S h) <> EOF -> ~ apart T h -> sees e T (S h) t_no_ws true.
Proof.
  intros e h K A p HT Hp. unfold t_no_ws. rewrite Hp, HT. unfold apart in A. apply next_at in K. destruct (nth_error T h) as [[t o]|] eqn:E1; [|apply nth_error_None in E1; lia]. destruct (nth_error T (S h)) as [[t' o']|] eqn:E2; [|apply nth_error_None in E2; lia]. apply Nat.eqb_eq. lia.
Qed.
Lemma case_eargs : forall i l j, K i L_ANGLE -> der (Comma (TArg false) R_ANGLE) (S i) l j -> P (Comma (TArg false) R_ANGLE) (S i) l j -> P EArgs i (N TYPE_ARG_LIST (tk L_ANGLE :: l ++ [tk R_ANGLE])) (S j).
Proof.
  enter. eapply r_eq. { unfold opt_type_arg_list_for_expr. stps. apply r_ask with (b := true).
  - destruct b; [destruct (H4 eq_refl H) as (h & -> & A); eapply sees_is; [eapply sees_or; [apply sees_const|apply close; [congruence|exact A]]|reflexivity]|intros p HT Hp; reflexivity].
  - cbv iota. eapply (type_args n e i l j _ []); try eassumption; [lia|now apply r_ret]. }
  fin. fin.
Qed.
Lemma case_eargs_colon : forall i l j, K i COLON_COLON -> K (S i) L_ANGLE -> der (Comma (TArg false) R_ANGLE) (S (S i)) l j -> P (Comma (TArg false) R_ANGLE) (S (S i)) l j -> P EArgs i (N TYPE_ARG_LIST (tk COLON_COLON :: tk L_ANGLE :: l ++ [tk R_ANGLE])) (S j).
Proof.
  enter. eapply r_eq. { unfold opt_type_arg_list_for_expr; stps. eapply (type_args n e (S i) l j); try eassumption; [lia|apply r_bump; [reflexivity|kn]]. } fin. fin.
Qed.
Lemma case_targ : forall b i t j, der (Type_ b) i t j -> P (Type_ b) i t j -> P (TArg b) i (N TYPE_ARG t) j.
Proof.
  enter. destruct (kind_eqb_reflect (kind_at T i) IDENT) as [Q|Q].
  - eapply r_eq; [unfold type_arg; stp; [stp; eapply r_seq; [eapply H0; [envs|lia|assumption]|]; go|go|go]|fin|fin].
  - destruct b, f.
    + case (unfold type_arg).
    + case (unfold type_arg).
    + case (unfold type_arg).
    + case (unfold type_arg).
Qed.
Lemma path_start : forall e i, head i -> In (kind_at T i) [IDENT; INT_NUMBER; UNDERSCORE] -> sees e T i is_path_start true.
Proof.
  intros e i H I. assert (D : kind_at T i = IDENT \/ kind_at T i = INT_NUMBER \/ kind_at T i = UNDERSCORE) by (cbn in I; intuition congruence). destruct D as [Q|[Q|Q]]; try specialize (H Q); prep; look.
Qed.
Ltac ty_enter n := enter; unroll n; split; [intros rs|first [congruence|intros]]; [change (r_type (run (S n))) with (type_body (run n))|..].
Lemma case_t_path : forall b i p j, head i -> der (Path (MTy b)) i p j -> P (Path (MTy b)) i p j -> P (Type_ b) i (N PATH_TYPE p) j.
Proof.
  enter. unroll n.
  assert (PT : rd T e i (path_type (run (S n))) j (N PATH_TYPE p) (eq true)).
  { eapply r_eq. { unfold path_type. apply r_ask with (b := true); [now apply path_start|]. cbv iota. unfold GrammarModel.path. go. } fin. fin. }
  assert (PT' : rd T e i (path_type (run n)) j (N PATH_TYPE p) (eq true)).
  { eapply r_eq. { unfold path_type. apply r_ask with (b := true); [now apply path_start|]. cbv iota. unfold GrammarModel.path. go. } fin. fin. }
  split; [intros rs|intros _; exact PT]. change (r_type (run (S n))) with (type_body (run n)). unfold type_body. no. no. no. apply r_ask with (b := true); [now apply path_start|]. exact PT'.
Qed.
Lemma case_t_ref : forall b i t j, K i AMP -> ~ K (S i) MUT_KW -> der (Type_ b) (S i) t j -> P (Type_ b) (S i) t j -> P (Type_ b) i (N REF_TYPE (tk AMP :: t)) j.
Proof. ty_enter n. case (unfold type_body, ref_type). Qed.
Lemma case_t_mut : forall b i t j, K i AMP -> K (S i) MUT_KW -> der (Type_ b) (S (S i)) t j -> P (Type_ b) (S (S i)) t j -> P (Type_ b) i (N REF_TYPE (tk AMP :: tk MUT_KW :: t)) j.
Proof. ty_enter n. case (unfold type_body, ref_type). Qed.
Lemma case_t_unit : forall i, K i L_PAREN -> K (S i) R_PAREN -> P (Type_ true) i (N UNIT_TYPE [tk L_PAREN; tk R_PAREN]) (S (S i)).
Proof.
  ty_enter n. eapply r_eq. { unfold type_body, paren_or_tuple_or_unit_type. stps. eapply r_seq; [apply (r_iter e); apply it_stop; rewrite H0; cbn; tauto|]. all: stps. } fin. fin.
Qed.
Lemma case_t_paren : forall i t j, K i L_PAREN -> der (Type_ true) (S i) t j -> P (Type_ true) (S i) t j -> K j R_PAREN -> P (Type_ true) i (N PAREN_TYPE (tk L_PAREN :: t ++ [tk R_PAREN])) (S j).
Proof.
  ty_enter n. eapply r_eq. { unfold type_body, paren_or_tuple_or_unit_type. stps. eapply r_seq; [apply (r_iter e); eapply it_break; [nin|eapply r_eq; [go|fin|fin]]|]. all: go. } fin. fin.
Qed.
Lemma case_t_tuple : forall i t j l k, K i L_PAREN -> der (Type_ true) (S i) t j -> P (Type_ true) (S i) t j -> K j COMMA -> der (Comma (Type_ true) R_PAREN) (S j) l k -> P (Comma (Type_ true) R_PAREN) (S j) l k -> P (Type_ true) i (N TUPLE_TYPE (tk L_PAREN :: t ++ tk COMMA :: l ++ [tk R_PAREN])) (S k).
Proof.
  ty_enter n. eapply r_eq. { unfold type_body, paren_or_tuple_or_unit_type. stps.
    eapply r_bind; [more H4 (fun s : nat * bool => 1 <= fst s /\ snd s = true) (fun s : nat * bool => 1 <= fst s /\ (2 <= fst s \/ snd s = true))|].
    - cbn beta. intros s0 ?. tauto.
    - cbn. auto.
    - eexists (_, _). split; [|eapply r_eq; [go|fin|fin]]. cbn. split; [lia|reflexivity].
    - eexists false, (_, _). split; [|eapply r_eq; [go|fin|fin]]. cbn. lia.
    - intros [m b] [L1 L2]. cbn [fst snd] in L1, L2. replace ((m =? 1) && negb b) with false by (destruct (Nat.eqb_spec m 1) as [Q|Q]; [destruct L2 as [L2|L2]; [lia|rewrite L2; reflexivity]|reflexivity]). replace (m =? 0) with false by (symmetry; apply Nat.eqb_neq; lia). stps.
    - stps. }
  fin. fin.
Qed.
Lemma case_lparam : forall b i t j, ~ K i PIPE -> der (Type_ b) i t j -> P (Type_ b) i t j -> P (LParam b) i (N LAMBDA_TYPE_PARAM t) j.
Proof. enter. destruct b; case (unfold lambda_type_param). Qed.
Lemma case_lret_none : forall b i, ~ among i starts_type \/ kw i "has" -> P (LRet b) i [] i.
Proof. enter. destruct H as [H|H]; case (unfold lambda_ret). Qed.
Lemma case_lret : forall b i t j, ~ kw i "has" -> der (Type_ b) i t j -> P (Type_ b) i t j -> P (LRet b) i t j.
Proof. enter. destruct b; case (unfold lambda_ret). Qed.
Lemma case_lhas_none : forall i, ~ kw i "has" -> P LHas i [] i.
Proof. case (unfold lambda_has). Qed.
Lemma bounds : forall e i a j, der (Abils PLUS) i a j -> kind_at T j <> PLUS -> rd T e i (loop (fun _ : unit =>
    ok <- ability ;;
    if (ok : bool) then IF eat_ PLUS THEN ret (inl tt) ELSE ret (inr tt) else ret (inr tt)) tt) j a (eq tt).
Proof.
  intros e i a j H NP. apply r_loop. remember (Abils PLUS) as x eqn:E. induction H; try discriminate; injection E as ->; prep.
  - apply turn_end. eapply r_eq. { eapply r_seq; [now apply r_ability|]. cbv iota. stps. } fin. fin.
  - assert (L : S (S i) <= length T) by (apply next_at; congruence). replace (N ABILITY [tk IDENT] ++ tk PLUS :: a) with ((N ABILITY [tk IDENT] ++ [tk PLUS]) ++ a) by (rewrite <- app_assoc; reflexivity). apply (turn_go e _ i tt (S (S i)) _ tt); [|lia|exact L|now apply IHder].
    eapply r_eq. { eapply r_seq; [now apply r_ability|]. cbv iota. stps. } fin. fin.
Qed.
Lemma case_lhas : forall i a j, kw i "has" -> der (Abils PLUS) (S i) a j -> P (Abils PLUS) (S i) a j -> ~ K j PLUS -> P LHas i (N LAMBDA_TYPE_ABILITY_LIST (tk HAS_KW :: N ABILITY_BOUND_LIST a)) j.
Proof.
  enter. eapply r_eq. { unfold lambda_has, ability_bound_list. stps. apply bounds; [eassumption|kn]. all: stps. } fin. fin.
Qed.
Lemma case_t_lambda : forall b i l j r k h m, K i PIPE -> der (Comma (LParam b) PIPE) (S i) l j -> P (Comma (LParam b) PIPE) (S i) l j -> der (LRet b) (S j) r k -> P (LRet b) (S j) r k -> der LHas k h m -> P LHas k h m -> P (Type_ b) i (N LAMBDA_TYPE (tk PIPE :: l ++ tk PIPE :: r ++ h)) m.
Proof.
  intros b. destruct b.
  - enter. match goal with D : der (Comma _ _) _ _ _ |- _ => pose proof (list_head _ _ _ _ _ _ D eq_refl) end. unroll n. split; [intros rs|congruence]. change (r_type (run (S n))) with (type_body (run n)). case (unfold type_body, lambda_type; fold (lambda_type_param (run n)); fold (lambda_ret (run n)); fold lambda_has).
  - enter. match goal with D : der (Comma _ _) _ _ _ |- _ => pose proof (list_head _ _ _ _ _ _ D eq_refl) end. unroll n. split; [intros rs|congruence]. change (r_type (run (S n))) with (type_body (run n)). case (unfold type_body, lambda_type; fold (lambda_type_param (run n)); fold (lambda_ret (run n)); fold lambda_has).
Qed.
Lemma case_ab_one : forall s i, id i -> P (Abils s) i (N ABILITY [tk IDENT]) (S i).
Proof. intros. exact Logic.I. Qed.
Lemma case_ab_more : forall s i a j, id i -> K (S i) s -> der (Abils s) (S (S i)) a j -> P (Abils s) (S (S i)) a j -> P (Abils s) i (N ABILITY [tk IDENT] ++ tk s :: a) j.
Proof. intros. exact Logic.I. Qed.
(** * Type parameters *)
Ltac abilities := match goal with H : der (Abils _) ?i _ _ |- rd _ ?e ?i _ _ _ _ => apply (r_abils e _ _ _ _ H); [cbn; tauto|envs|match goal with I : In _ _, S : incl _ _ |- _ => apply S; exact I end|oth] end.
Lemma case_tparam : forall i, id i -> ~ K (S i) COLON -> P TParam i (N TYPE_PARAM NAME_) (S i).
Proof. case (unfold type_param). Qed.
Lemma case_tparam_bound : forall i a j, id i -> K (S i) COLON -> der (Abils PLUS) (S (S i)) a j -> P (Abils PLUS) (S (S i)) a j -> among j [COMMA; R_ANGLE] -> P TParam i (N TYPE_PARAM (NAME_ ++ N ABILITY_BOUND_LIST (tk COLON :: a))) j.
Proof. enter. eapply r_eq. { unfold type_param, colon_ability_bound_list. stps. abilities. all: stps. } fin. fin. Qed.
Lemma case_tparam_phantom : forall i, kw i "phantom" -> id (S i) -> ~ K (S (S i)) COLON -> P TParam i (N TYPE_PARAM (tk PHANTOM_KW :: NAME_)) (S (S i)).
Proof. case (unfold type_param). Qed.
Lemma case_tparam_phantom_bound : forall i a j, kw i "phantom" -> id (S i) -> K (S (S i)) COLON -> der (Abils PLUS) (S (S (S i))) a j -> P (Abils PLUS) (S (S (S i))) a j -> among j [COMMA; R_ANGLE] -> P TParam i (N TYPE_PARAM (tk PHANTOM_KW :: NAME_ ++ N ABILITY_BOUND_LIST (tk COLON :: a))) j.
Proof. enter. eapply r_eq. { unfold type_param, colon_ability_bound_list. stps. abilities. all: stps. } fin. fin. Qed.
Lemma case_tparams_none : forall i, ~ K i L_ANGLE -> P TParams i [] i.
Proof. case (unfold opt_type_param_list). Qed.
Lemma case_tparams : forall i l j, K i L_ANGLE -> der (Comma TParam R_ANGLE) (S i) l j -> P (Comma TParam R_ANGLE) (S i) l j -> P TParams i (N TYPE_PARAM_LIST (tk L_ANGLE :: l ++ [tk R_ANGLE])) (S j).
Proof. case (unfold opt_type_param_list). Qed.
(** * Patterns *)
Ltac pat n := enter; unroll n; change (r_pattern (run (S n))) with (pattern_body (run n)).
Lemma case_p_ident : forall b i, id i -> ~ among (S i) [COLON_COLON; L_PAREN; L_CURLY; L_ANGLE] -> P (Pat b) i IPAT (S i).
Proof. pat n. case (unfold pattern_body). Qed.
Lemma case_p_wild : forall b i, K i UNDERSCORE -> P (Pat b) i WPAT (S i).
Proof. pat n. case (unfold pattern_body). Qed.
(** the two ways a path begins *)
Lemma heads : forall i l, head i -> kind_at T i <> UNDERSCORE -> In (kind_at T i) l -> subset l [IDENT; INT_NUMBER; UNDERSCORE] = true -> kind_at T i = IDENT \/ (kind_at T i = INT_NUMBER /\ kind_at T (S i) = COLON_COLON).
Proof. intros i l H NU I S. eapply in_wider in I; [|exact S]. cbn in I. destruct I as [Q|[Q|[Q|[]]]]; [left; auto|right; split; [auto|now apply H]|congruence]. Qed.
Ltac headed := match goal with H : head ?i, N : kind_at T ?i <> UNDERSCORE, I : In (kind_at T ?i) _ |- _ => destruct (heads i _ H N I eq_refl) as [?|[? ?]] | H : head ?i, I : In (kind_at T ?i) [IDENT; INT_NUMBER] |- _ => destruct (heads i _ H (in_other _ _ _ I eq_refl) I eq_refl) as [?|[? ?]] end.
Lemma case_p_path : forall b i p j, head i -> ~ K i UNDERSCORE -> (K i IDENT -> among (S i) [COLON_COLON; L_ANGLE]) -> der (Path (MTy true)) i p j -> P (Path (MTy true)) i p j -> ~ among j [L_PAREN; L_CURLY] -> P (Pat b) i (N PATH_PAT p) j.
Proof. pat n. headed; [match goal with H : _ -> In _ _, Q : kind_at T i = IDENT |- _ => specialize (H Q) end|]; case (unfold pattern_body, path_pat, GrammarModel.path). Qed.
(** what follows the first name of a path *)
Lemma seg_next : forall b i p j, der (Segs (MTy b)) i p j -> kind_at T i = IDENT -> j = S i \/ In (kind_at T (S i)) [COLON_COLON; L_ANGLE].
Proof.
  intros b i p j H K0. remember (Segs (MTy b)) as x eqn:E. induction H; try discriminate; injection E as ->; prep.
  - inversion H; subst; prep; try congruence; auto. match goal with D : ShapeSpec.der _ _ (SegArgs _) _ _ _ |- _ => inversion D; subst; prep; auto end. right. right. left. congruence.
  - destruct (IHder1 eq_refl K0) as [Q|Q]; [|now right]. subst j. right. left. congruence.
Qed.
Lemma path_next : forall b i p j, der (Path (MTy b)) i p j -> kind_at T i = IDENT -> j = S i \/ In (kind_at T (S i)) [COLON_COLON; L_ANGLE].
Proof. intros b i p j H K0. inversion H; subst. eapply seg_next; eauto. Qed.
Ltac next := match goal with D : der (Path (MTy _)) ?i _ _, Q : kind_at T ?i = IDENT |- _ => destruct (path_next _ _ _ _ D Q); [subst|] | _ => idtac end.
Lemma case_p_tuple_struct : forall b i p j l k, head i -> ~ K i UNDERSCORE -> der (Path (MTy true)) i p j -> P (Path (MTy true)) i p j -> K j L_PAREN -> der (Comma (Pat false) R_PAREN) (S j) l k -> P (Comma (Pat false) R_PAREN) (S j) l k -> P (Pat b) i (N TUPLE_STRUCT_PAT (p ++ tk L_PAREN :: l ++ [tk R_PAREN])) (S k).
Proof. pat n. headed; next; case (unfold pattern_body, path_pat, GrammarModel.path, tuple_pat_fields). Qed.
Lemma case_p_struct : forall b i p j l k, head i -> ~ K i UNDERSCORE -> der (Path (MTy true)) i p j -> P (Path (MTy true)) i p j -> K j L_CURLY -> der (Comma PField R_CURLY) (S j) l k -> P (Comma PField R_CURLY) (S j) l k -> P (Pat b) i (N STRUCT_PAT (p ++ N STRUCT_PAT_FIELD_LIST (tk L_CURLY :: l ++ [tk R_CURLY]))) (S k).
Proof. pat n. headed; next; case (unfold pattern_body, path_pat, GrammarModel.path, struct_pat_field_list; fold (struct_pat_element (run n))). Qed.
(** * Literals *)
Definition literal_in : M (closing * bool) :=
  IF ask (t_and (t_cur INT_NUMBER) (t_nth_at 1 COLON_COLON)) THEN ret (Abandon, false) ELSE
  IF cur AT THEN (node ADDRESS_LIT (bump AT ;; any_address) ;; ret (Complete LITERAL, false)) ELSE
  IF at_ts [INT_NUMBER; BYTE_STRING; HEX_STRING; TRUE_KW; FALSE_KW] THEN (bump_any_ ;; ret (Complete LITERAL, false)) ELSE
  IF cur BAD_CHARACTER THEN ret (Abandon, true) ELSE ret (Abandon, false).
Lemma lit_of : forall e i j cs, rd T e i literal_in j cs (eq (Complete LITERAL, false)) -> yields e T i [] literal j (fun o l => exists c, o = Some c /\ shape c l (N LITERAL cs)).
Proof.
  intros e i j cs H. change literal with ('(c, bad) <- marked literal_in ;; if (bad : bool) then error_and_bump "unexpected character" ;; ret None else ret c). eapply y_bind; [apply (c_marked e literal_in LITERAL false i j cs); [reflexivity|exact H]|].
  cbn beta. intros x l (c & -> & _ & Sh). apply y_ret. exists c. auto.
Qed.
Lemma case_lit_tok : forall i k, In k tokens_of_literals -> K i k -> (k = INT_NUMBER -> ~ K (S i) COLON_COLON) -> P Lit_ i (N LITERAL [tk k]) (S i).
Proof.
  enter. apply lit_of. unfold tokens_of_literals in *. cbn [In] in H. 
  repeat destruct H as [<-|H]; try destruct H; try specialize (H1 eq_refl); prep; case (unfold literal_in).
Qed.
Lemma case_lit_addr : forall i, K i AT -> K (S i) INT_NUMBER -> P Lit_ i (N LITERAL (N ADDRESS_LIT (tk AT :: N VALUE_ADDRESS [tk INT_NUMBER]))) (S (S i)).
Proof. enter. apply lit_of. case (unfold literal_in, any_address). Qed.
Lemma case_lit_named : forall i, K i AT -> K (S i) IDENT -> P Lit_ i (N LITERAL (N ADDRESS_LIT (tk AT :: N NAMED_ADDRESS [tk IDENT]))) (S (S i)).
Proof. enter. apply lit_of. case (unfold literal_in, any_address). Qed.
Lemma lit_rd : forall i c j e, P Lit_ i c j -> ok [] e -> rd T e i literal j c any.
Proof. intros i c j e H O. eapply y_weaken; [now apply H|]. cbn beta. intros o l (m & _ & Sh). split; [eapply shape_calls; eauto|exact Logic.I]. Qed.
Lemma case_litp : forall i c j, der Lit_ i c j -> P Lit_ i c j -> P LitP i (N LITERAL_PAT c) j.
Proof. enter. eapply c_node; [reflexivity|]. eapply r_eq. { stps. apply lit_rd; eauto. } fin. fin. Qed.
Lemma case_litp_minus : forall i, K i MINUS -> K (S i) INT_NUMBER -> ~ K (S (S i)) COLON_COLON -> P LitP i (N LITERAL_PAT (tk MINUS :: N LITERAL [tk INT_NUMBER])) (S (S i)).
Proof.
  enter. eapply c_node; [reflexivity|]. eapply r_eq. { stps. apply (lit_rd _ (N LITERAL [tk INT_NUMBER])); [|exact H2]. cbn [ShapeDefs.P]. intros. apply lit_of. case (unfold literal_in). } fin. fin.
Qed.
Lemma lit_start : forall i c j, der Lit_ i c j -> forall e, sees e T i is_literal_pat_start true /\ sees e T i (t_and (t_cur INT_NUMBER) (t_nth_at 1 COLON_COLON)) false.
Proof.
  intros i c j H e. inversion H; subst; prep.
  - assert (C : k = INT_NUMBER \/ In k [BYTE_STRING; HEX_STRING; TRUE_KW; FALSE_KW]) by (cbn [In tokens_of_literals] in *; destruct H0 as [H0|H0]; [left; congruence|right; exact H0]). destruct C as [C|C].
    + specialize (H2 C). rewrite C in H1. split; look.
    + rewrite <- H1 in C. clear H1 H2. split; look.
  - split; look.
  - split; look.
Qed.
Lemma litp_start : forall i c j, der LitP i c j -> forall e, sees e T i is_literal_pat_start true /\ sees e T i (t_and (t_cur INT_NUMBER) (t_nth_at 1 COLON_COLON)) false.
Proof. intros i c j H e. inversion H; subst; prep; [eapply lit_start; eauto|]. split; look. Qed.
Lemma case_p_lit : forall b i c j, der LitP i c j -> P LitP i c j -> ~ K j DOT_DOT -> P (Pat b) i c j.
Proof.
  pat n. destruct (litp_start _ _ _ H e) as [L1 L2]. unfold pattern_body. apply r_ask with (b := false); [exact L2|cbv iota]. no. apply r_ask with (b := true); [exact L1|cbv iota]. eapply r_after; [apply H0; envs|]. intros c1 l1 Sh _. apply y_ask with false; [look|]. apply y_ret. split; [eapply shape_calls; eauto|reflexivity].
Qed.
Lemma case_p_range : forall b i c j d k, der LitP i c j -> P LitP i c j -> K j DOT_DOT -> der LitP (S j) d k -> P LitP (S j) d k -> P (Pat b) i (N RANGE_PAT (c ++ tk DOT_DOT :: d)) k.
Proof.
  pat n. destruct (litp_start _ _ _ H e) as [L1 L2]. destruct (litp_start _ _ _ H2 e) as [L3 _]. unfold pattern_body. apply r_ask with (b := false); [exact L2|cbv iota]. no. apply r_ask with (b := true); [exact L1|cbv iota]. eapply r_after; [apply H0; envs|]. intros c1 l1 Sh _. apply y_ask with true; [look|].
  eapply y_bind; [eapply (y_pre e _ RANGE_PAT tt); [reflexivity|exact Sh|]|].
  - eapply r_eq. { stps. apply r_ask with (b := true); [exact L3|cbv iota]. stps. eapply r_then; [eapply rc_rd; apply H3; envs|]. stps. } fin. fin.
  - cbn beta. intros x l' [_ Sh']. apply y_ret. split; [|reflexivity]. apply shape_calls in Sh'. rewrite Sh'. fin.
Qed.
Lemma case_p_rest : forall b i, K i DOT_DOT -> ~ among (S i) (MINUS :: AT :: tokens_of_literals) -> P (Pat b) i (N REST_PAT [tk DOT_DOT]) (S i).
Proof. pat n. case (unfold pattern_body). Qed.
Lemma case_p_unit : forall b i, K i L_PAREN -> K (S i) R_PAREN -> P (Pat b) i (N UNIT_PAT [tk L_PAREN; tk R_PAREN]) (S (S i)).
Proof.
  pat n. eapply r_eq. { unfold pattern_body, tuple_or_unit_or_paren_pat. stps. eapply r_seq; [apply (r_iter e); apply it_stop; rewrite H0; cbn; tauto|]. all: stps. } fin. fin.
Qed.
Definition pat_step (R : recs) (outer : rset) : bool * bool -> M (bool * (bool * bool)) := fun s =>
  found <- with_ts [COMMA; R_PAREN] (pattern R) ;;
  IF rs_test outer THEN ret (false, (fst s, if (found : bool) then true else snd s)) ELSE
  IF at_ R_PAREN THEN ret (true, (fst s, if (found : bool) then true else snd s)) ELSE
  IF expect COMMA THEN ret (true, (true, if (found : bool) then true else snd s)) ELSE ret (true, (fst s, if (found : bool) then true else snd s)).
Lemma pat_last : forall n e s i p j, P (Pat false) i p j -> 3 * (j - i) + 1 < n -> kind_at T j = R_PAREN -> ok PE e -> exists go, rd T (under (rs_of [R_PAREN]) e) i (pat_step (run n) (e_rs e) s) j p (eq (go, (fst s, true))).
Proof.
  intros n e s i p j HP L KJ O. exists (negb (rsb (T := T) (X := X) (e_rs e) j)). eapply r_eq. { unfold pat_step, pattern. eapply r_seq; [apply r_with; apply HP; [envs|discriminate|lia]|]. cbv iota. apply r_ask with (b := rsb (T := T) (X := X) (e_rs e) j); [apply sees_rs; texts|]. destruct (rsb _ j); cbv iota; stps. } fin. fin.
Qed.
Lemma pat_comma : forall n e s i p j, P (Pat false) i p j -> 3 * (j - i) + 1 < n -> kind_at T j = COMMA -> ok PE e -> ~ In COMMA (rs_kinds (e_rs e)) -> rd T (under (rs_of [R_PAREN]) e) i (pat_step (run n) (e_rs e) s) (S j) (p ++ [tk COMMA]) (eq (true, (true, true))).
Proof.
  intros n e s i p j HP L KJ O NC. eapply r_eq. { unfold pat_step, pattern. eapply r_seq; [apply r_with; apply HP; [envs|discriminate|lia]|]. cbv iota. apply r_ask with (b := false); [apply (sees_away (X := X)); [texts|rewrite KJ; exact NC|congruence]|]. cbv iota. stps. } fin. fin.
Qed.
Lemma case_p_paren : forall b i p j, K i L_PAREN -> der (Pat false) (S i) p j -> P (Pat false) (S i) p j -> K j R_PAREN -> P (Pat b) i (N PAREN_PAT (tk L_PAREN :: p ++ [tk R_PAREN])) (S j).
Proof.
  pat n. destruct (pat_last n e (false, false) _ _ _ H1) as [go W]; [lia|assumption|envs|].
  assert (I : its (T := T) e [R_PAREN] (pat_step (run n) (e_rs e)) (S i) (false, false) p j (false, true)).
  { destruct go; [rewrite <- (app_nil_r p); eapply it_go; [nin|exact W|lia|lia|rewrite H2; cbn; tauto|apply it_stop; rewrite H2; cbn; tauto]|eapply it_break; [nin|exact W]]. }
  eapply r_eq. { unfold pattern_body, tuple_or_unit_or_paren_pat. stps. eapply r_seq; [apply (r_iter e); exact I|]. all: stps. } fin. fin.
Qed.
Lemma case_p_tuple : forall i p j l k, K i L_PAREN -> der (Pat false) (S i) p j -> P (Pat false) (S i) p j -> K j COMMA -> der (Comma (Pat false) R_PAREN) (S j) l k -> P (Comma (Pat false) R_PAREN) (S j) l k -> P (Pat true) i (N TUPLE_PAT (tk L_PAREN :: p ++ tk COMMA :: l ++ [tk R_PAREN])) (S k).
Proof.
  pat n. specialize (H6 eq_refl). eapply r_eq. { unfold pattern_body, tuple_or_unit_or_paren_pat. stps. fold (pat_step (run n) (e_rs e)).
    eapply r_bind; [eapply (r_iter_cons e [R_PAREN] _ (eq (true, true)) (eq (true, true))); [nin|apply pat_comma; try eassumption; lia|lia|apply next_at; congruence|exact (lst_in _ _ _ _ _ _ _ H4)|cbn; tauto|auto|reflexivity|one| |]|].
    - intros s0 a ds b0 <- (D & HP & ? & ?) KC. exists (true, true). split; auto. apply pat_comma; auto. lia.
    - intros s0 a ds b0 <- (D & HP & ? & ?) KC. destruct (pat_last n e (true, true) a ds b0 HP) as [go W]; [lia|assumption|assumption|]. exists go, (true, true). auto.
    - intros s0 <-. stps.
    - stps. }
  fin. fin.
Qed.
Lemma case_pf_named : forall i p j, id i -> K (S i) COLON -> der (Pat false) (S (S i)) p j -> P (Pat false) (S (S i)) p j -> P PField i (N STRUCT_PAT_FIELD (NREF ++ tk COLON :: p)) j.
Proof. case (unfold struct_pat_element, struct_pat_field). Qed.
Lemma case_pf_short : forall i, id i -> ~ K (S i) COLON -> P PField i (N STRUCT_PAT_FIELD IPAT) (S i).
Proof. case (unfold struct_pat_element, struct_pat_field). Qed.
Lemma case_pf_wild : forall i, K i UNDERSCORE -> P PField i (N STRUCT_PAT_FIELD WPAT) (S i).
Proof. case (unfold struct_pat_element, struct_pat_field). Qed.
Lemma case_pf_rest : forall i, K i DOT_DOT -> P PField i (N STRUCT_PAT_FIELD (N REST_PAT [tk DOT_DOT])) (S i).
Proof. case (unfold struct_pat_element, struct_pat_field). Qed.
End Cases.
