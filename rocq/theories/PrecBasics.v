(** The parser reads an expression as its spelling demands (C20). *)
From Coq Require Import String.
From Verif Require Import Base SyntaxKind ParserModel GrammarBase GrammarModel AddressModel TreeSinkModel TreeSinkSpec TreeSinkProps ParserSpec ParserProofs ParserProofs2 ParserProps GrammarDisc PrecSpec PrecRun.
Close Scope string_scope.
Close Scope N_scope.
Open Scope nat_scope.

Definition blank (g : list item) : Prop := flat_map build g = [].
Definition shape (c : cm) (l : list item) (cs : list call) : Prop :=
  exists g k ch, l = g ++ [INode (c_pos c) false k ch] /\ blank g /\ build (INode (c_pos c) false k ch) = cs.

Section Parse.
Variables (e : env) (T : toks).
Hypothesis NE : no_end T.
Let X := e_texts e.

Lemma y_marked_c : forall {A} (body : M (closing * A)) k i j (Q : A -> list item -> Prop), okk k = true ->
  yields e T i [] body j (fun x l => fst x = Complete k /\ Q (snd x) l) ->
  forall l, yields e T i l (marked body) j (fun x l' => exists c a ch, x = (Some c, a) /\ c_kind c = k /\ l' = l ++ [INode (c_pos c) false k ch] /\ Q a ch).
Proof.
  intros A body k i j Q K H l. eapply y_weaken; [eapply (y_marked e T body i j (fun c a l => c = Complete k /\ Q a l))|].
  - eapply y_weaken; [exact H|]. cbn beta. intros [c a] l' [E q]. cbn [fst snd] in *. subst c. split; auto. intros m. eexists. cbn. split; [exact K|reflexivity].
  - cbn beta. intros [o a] l' (m & c & ch & l2 & -> & EN & CL & -> & q). cbn in EN. destruct EN as [_ ->]. cbn in CL. subst o. exists (mkCm m k), a, ch. auto 10.
Qed.
Lemma y_marked_a : forall {A} (body : M (closing * A)) i j (Q : A -> list item -> Prop),
  yields e T i [] body j (fun x l => fst x = Abandon /\ Q (snd x) l) ->
  forall l, yields e T i l (marked body) j (fun x l' => exists a ch g, x = (None, a) /\ l' = l ++ g ++ ch /\ blank g /\ Q a ch).
Proof.
  intros A body i j Q H l. eapply y_weaken; [eapply (y_marked e T body i j (fun c a l => c = Abandon /\ Q a l))|].
  - eapply y_weaken; [exact H|]. cbn beta. intros [c a] l' [E q]. cbn [fst snd] in *. subst c. split; auto. intros m. eexists. cbn. left. reflexivity.
  - cbn beta. intros [o a] l' (m & c & ch & l2 & -> & EN & CL & -> & q). cbn in EN. cbn in CL. subst o. cbn [fst snd]. destruct EN as [->| ->]; [exists a, ch, []|exists a, ch, [IGone m]]; split; auto; split; auto; split; auto; reflexivity.
Qed.

(** ** Answers *)
Lemma sees_cur : forall i k k', kind_at T i = k' -> sees e T i (t_cur k) (kind_eqb k' k).
Proof. intros i k k' K p HT Hp. unfold t_cur. now rewrite cur_at, HT, Hp, K. Qed.
Lemma sees_at : forall i k, sees e T i (t_at k) (joined T i (parts k)).
Proof. intros i k p HT Hp. unfold t_at. now rewrite nth_at_joined, HT, Hp, Nat.add_0_r. Qed.
Lemma sees_nth_at : forall i n k, sees e T i (t_nth_at n k) (joined T (i + n) (parts k)).
Proof. intros i n k p HT Hp. unfold t_nth_at. now rewrite nth_at_joined, HT, Hp. Qed.
Lemma sees_nth : forall i n k, sees e T i (t_nth n k) (kind_eqb (kind_at T (i + n)) k).
Proof. intros i n k p HT Hp. unfold t_nth. now rewrite look_at, HT, Hp. Qed.
Lemma sees_ts : forall i l k', kind_at T i = k' -> sees e T i (t_ts l) (GrammarBase.mem k' l).
Proof. intros i l k' K p HT Hp. unfold t_ts. now rewrite cur_at, HT, Hp, K. Qed.
Lemma sees_nth_ts : forall i n l, sees e T i (t_nth_ts n l) (GrammarBase.mem (kind_at T (i + n)) l).
Proof. intros i n l p HT Hp. unfold t_nth_ts. now rewrite look_at, HT, Hp. Qed.
Lemma sees_and : forall i t u a b, sees e T i t a -> sees e T i u b -> sees e T i (t_and t u) (a && b).
Proof. intros i t u a b H K p HT Hp. unfold t_and. now rewrite (H p), (K p). Qed.
Lemma sees_or : forall i t u a b, sees e T i t a -> sees e T i u b -> sees e T i (t_or t u) (a || b).
Proof. intros i t u a b H K p HT Hp. unfold t_or. now rewrite (H p), (K p). Qed.
Lemma sees_not : forall i t a, sees e T i t a -> sees e T i (t_not t) (negb a).
Proof. intros i t a H p HT Hp. unfold t_not. now rewrite (H p). Qed.
Lemma sees_const : forall i (b : bool), sees e T i (fun _ _ => b) b. Proof. intros i b p HT Hp. reflexivity. Qed.
Lemma sees_and_l : forall i t u, sees e T i t false -> sees e T i (t_and t u) false.
Proof. intros i t u H p HT Hp. unfold t_and. now rewrite (H p). Qed.
Lemma sees_and_r : forall i t u, sees e T i u false -> sees e T i (t_and t u) false.
Proof. intros i t u H p HT Hp. unfold t_and. rewrite (H p); auto. apply andb_false_r. Qed.
Lemma one : forall i k, spelling k = None -> joined T i (parts k) = kind_eqb (kind_at T i) k.
Proof. intros i k S. unfold parts. rewrite S. reflexivity. Qed.
Lemma sees_kw : forall i s, nth i X [] <> str s -> sees e T i (t_kw s) false.
Proof.
  intros i s N p HT Hp. unfold t_kw, text_at. rewrite Hp, Nat.add_0_r. fold X. unfold text_eqb. destruct (text_eq_dec (nth i X []) (str s)); [contradiction|apply andb_false_r].
Qed.

(** ** Literals *)
Ltac no := apply y_ask with false; [|cbn [negb]].
Ltac yes := apply y_ask with true; [|cbn [negb]].
Lemma y_literal : forall i k, In k literals -> kind_at T i = k -> (k = INT_NUMBER -> kind_at T (S i) <> COLON_COLON) ->
  yields e T i [] literal (S i) (fun o l => exists c, o = Some c /\ shape c l (calls (Lit k))).
Proof.
  intros i k L K N. unfold literal. eapply y_bind.
  - apply (y_marked_c _ LITERAL i (S i) (fun (b : bool) l => b = false /\ l = [ITok k 1])); [reflexivity|]. no.
    { intros p HT Hp. unfold t_and. rewrite (sees_cur i INT_NUMBER k K p HT Hp), (sees_nth_at i 1 COLON_COLON p HT Hp). destruct (kind_eqb_reflect k INT_NUMBER) as [->|]; [|reflexivity]. rewrite one by reflexivity. rewrite Nat.add_1_r.
      destruct (kind_eqb_reflect (kind_at T (S i)) COLON_COLON) as [Q|]; [now elim (N eq_refl)|reflexivity]. }
    no. { intros p HT Hp. rewrite (sees_cur i AT k K p HT Hp). unfold literals in L. cbn in L. repeat (destruct L as [<-|L]; [reflexivity|]). destruct L. }
    yes. { intros p HT Hp. rewrite (sees_ts i _ k K p HT Hp). unfold literals in L. cbn in L. repeat (destruct L as [<-|L]; [reflexivity|]). destruct L. }
    eapply y_bind; [apply (y_bump_any e T NE i [] k K)|]. { intros ->. cbn in L. repeat (destruct L as [L|L]; [discriminate|]). destruct L. } cbn beta. intros _ l ->. apply y_ret. cbn. auto.
  - cbn beta. intros x l (c & a & ch & -> & _ & -> & -> & ->). apply y_ret. exists c. split; auto. exists [], LITERAL, [ITok k 1]. repeat split; auto.
Qed.
Lemma y_no_literal : forall i k, In k [IDENT; L_PAREN] -> kind_at T i = k -> yields e T i [] literal i (fun o l => o = None /\ blank l).
Proof.
  intros i k L K. unfold literal. eapply y_bind.
  - apply (y_marked_a _ i i (fun (b : bool) l => b = false /\ l = [])). no; [apply sees_and_l; intros p HT Hp; rewrite (sees_cur i _ k K p HT Hp); cbn in L; destruct L as [<-|[<-|[]]]; reflexivity|].
    no; [intros p HT Hp; rewrite (sees_cur i _ k K p HT Hp); cbn in L; destruct L as [<-|[<-|[]]]; reflexivity|].
    no; [intros p HT Hp; rewrite (sees_ts i _ k K p HT Hp); cbn in L; destruct L as [<-|[<-|[]]]; reflexivity|].
    no; [intros p HT Hp; rewrite (sees_cur i _ k K p HT Hp); cbn in L; destruct L as [<-|[<-|[]]]; reflexivity|]. apply y_ret. cbn. auto.
  - cbn beta. intros x l (a & ch & g & -> & -> & B & -> & ->). apply y_ret. split; auto. rewrite app_nil_r. exact B.
Qed.

(** ** Names *)
Lemma sees_at1 : forall i k, spelling k = None -> sees e T i (t_at k) (kind_eqb (kind_at T i) k).
Proof. intros i k S. rewrite <- one by exact S. apply sees_at. Qed.
Lemma sees_nth_at1 : forall i k, spelling k = None -> sees e T i (t_nth_at 1 k) (kind_eqb (kind_at T (S i)) k).
Proof. intros i k Sp. rewrite <- one by exact Sp. replace (S i) with (i + 1) by lia. apply sees_nth_at. Qed.
Lemma sees_is : forall i t (b b' : bool), sees e T i t b -> b = b' -> sees e T i t b'. Proof. now intros i t b b' H <-. Qed.
Lemma y_name_ref : forall i l, kind_at T i = IDENT -> yields e T i l name_ref (S i) (fun _ l' => exists x, l' = l ++ [x] /\ build x = [CStart NAME_REF; CToken IDENT 1; CFinish]).
Proof.
  intros i l K. unfold name_ref, at_. yes; [eapply sees_is; [now apply sees_at1|rewrite K; reflexivity]|]. eapply y_bind.
  - eapply (y_node e T _ NAME_REF i (S i)); [reflexivity|]. rewrite <- Nat.add_1_r. change (i + 1) with (i + width IDENT). apply (y_bump e T NE i [] IDENT); [reflexivity|]. rewrite one by reflexivity. rewrite K. reflexivity.
  - cbn beta. intros c l' (a & ch & -> & ->). apply y_ret. eexists. split; [reflexivity|]. reflexivity.
Qed.
(** ** Running to somewhere *)
Definition yieldsx {A} (e : env) (i : nat) (l0 : list item) (m : M A) (Q : A -> list item -> Prop) : Prop :=
  forall p f rest, p_toks p = T -> p_pos p = i -> solid p -> opened (f :: rest) = true -> Inv p (add_items l0 f :: rest) ->
  exists a p' l, m e p = Ret a p' /\ runs p (add_items l0 f :: rest) p' (add_items l f :: rest) /\ Q a l.
Lemma yx_of : forall {A} e i l (m : M A) j Q, yields e T i l m j Q -> yieldsx e i l m Q.
Proof. intros A e' i l m j Q H p f rest HT Hp S O I. destruct (H p f rest HT Hp S O I) as (a & p' & l' & E & _ & R & q). eauto 10. Qed.
Lemma yx_bind : forall {A B} e i l (m : M A) j (k : A -> M B) Q R, yields e T i l m j Q -> (forall a l', Q a l' -> yieldsx e j l' (k a) R) -> yieldsx e i l (mbind m k) R.
Proof.
  intros A B e' i l m j k Q R H K p f rest HT Hp S O I. destruct (H p f rest HT Hp S O I) as (a & p1 & l1 & E & P1 & R1 & Qa). unfold mbind. rewrite E.
  destruct (K a l1 Qa p1 f rest) as (b & p2 & l2 & E2 & R2 & Qb); auto; [rewrite (runs_toks _ _ _ _ R1); auto|eapply runs_solid; eauto|eapply runs_inv; eauto|].
  exists b, p2, l2. split; auto. split; auto. eapply runs_trans; eauto.
Qed.
Lemma yx_then : forall {A B} e i l (m : M A) (k : A -> M B) Q (R : B -> list item -> Prop), yieldsx e i l m Q -> (forall a l, Q a l -> exists b, k a = ret b /\ R b l) -> yieldsx e i l (mbind m k) R.
Proof. intros A B e' i l m k Q R H K p f rest HT Hp S O I. destruct (H p f rest HT Hp S O I) as (a & p1 & l1 & E & R1 & Qa). unfold mbind. rewrite E. destruct (K a l1 Qa) as (b & -> & r). exists b, p1, l1. auto. Qed.
Lemma yx_ask : forall {B} e i l t b (k : bool -> M B) R, sees e T i t b -> yieldsx e i l (k b) R -> yieldsx e i l (mbind (ask t) k) R.
Proof. intros B e' i l t b k R S K p f rest HT Hp So O I. unfold mbind, ask. rewrite (S p HT Hp). now apply K. Qed.
Lemma yx_weaken : forall {A} e i l (m : M A) (Q R : A -> list item -> Prop), yieldsx e i l m Q -> (forall a l', Q a l' -> R a l') -> yieldsx e i l m R.
Proof. intros A e' i l m Q R H K p f rest HT Hp S O I. destruct (H p f rest HT Hp S O I) as (a & p1 & l1 & E & R1 & Qa). eauto 10. Qed.
Lemma yx_frame : forall {A} e i (m : M A) Q l, yieldsx e i [] m Q -> yieldsx e i l m (fun a l' => exists x, l' = l ++ x /\ Q a x).
Proof.
  intros A e' i m Q l H p f rest HT Hp S O I. destruct (H p (add_items l f) rest HT Hp S O) as (a & p1 & l1 & E & R1 & Qa); [now rewrite add_nil|]. rewrite add_nil, add_add in R1.
  exists a, p1, (l ++ l1). split; auto. split; auto. exists l1. auto.
Qed.
(** a marker that is given up *)
Lemma yx_abandon : forall {A} (body : M (closing * A)) e i (Q : A -> Prop), yieldsx e i [] body (fun x _ => fst x = Abandon /\ Q (snd x)) -> forall l, yieldsx e i l (marked body) (fun x _ => fst x = None /\ Q (snd x)).
Proof.
  intros A body e' i Q H l p f rest HT Hp S O I. destruct (runs_step p (add_items l f :: rest) OStart _ I eq_refl Logic.I) as (p1 & stk1 & E1 & R1 & I1). cbn [start] in E1. injection E1 as <- <-.
  unfold marked. cbn [start]. set (m := length (p_events p)) in *. set (f0 := mkFrame (Some m) false [] (Some p)) in *.
  destruct (H (push_event tombstone p) f0 (add_items l f :: rest)) as ([c a] & p2 & ch & E & R2 & EC & Qa); auto. cbn [fst snd] in EC, Qa. subst c.
  rewrite E. rewrite add_nil in R2. pose proof (runs_inv _ _ _ _ I1 R2) as I2. assert (IM : is_mark m (add_items ch f0) = true) by (cbn; apply Nat.eqb_refl). cbn [close closed].
  edestruct (runs_step2 _ _ I2 (OAbandon m)) as (p3 & stk3 & E3 & R3 & _); [cbn [step]; rewrite IM; reflexivity|exact Logic.I|].
  destruct (abandon m p2) as [q|] eqn:C; [|discriminate]. cbn [bind] in E3. injection E3 as <- <-. eexists (None, a), q, (l ++ _). split; auto.
  split; [rewrite <- add_add; eapply runs_trans; [exact R1|]; eapply runs_trans; [exact R2|exact R3]|auto].
Qed.
(** and everything since it undone *)
Lemma y_rollback : forall {A} (body : M (closing * A)) e i (Q : A -> Prop), yieldsx e i [] body (fun x _ => fst x = Rollback /\ Q (snd x)) -> forall l, yields e T i l (marked body) i (fun x l' => fst x = None /\ Q (snd x) /\ l' = l).
Proof.
  intros A body e' i Q H l p f rest HT Hp S O I. destruct (runs_step p (add_items l f :: rest) OStart _ I eq_refl Logic.I) as (p1 & stk1 & E1 & R1 & I1). cbn [start] in E1. injection E1 as <- <-.
  unfold marked. cbn [start]. set (m := length (p_events p)) in *. set (f0 := mkFrame (Some m) false [] (Some p)) in *.
  destruct (H (push_event tombstone p) f0 (add_items l f :: rest)) as ([c a] & p2 & ch & E & R2 & EC & Qa); auto. cbn [fst snd] in EC, Qa. subst c.
  rewrite E. rewrite add_nil in R2. pose proof (runs_inv _ _ _ _ I1 R2) as I2. assert (IM : is_mark m (add_items ch f0) = true) by (cbn; apply Nat.eqb_refl). cbn [close closed].
  edestruct (runs_step2 _ _ I2 (ORollback m)) as (p3 & stk3 & E3 & R3 & _); [cbn [step]; rewrite IM; reflexivity|exact Logic.I|].
  destruct (rollback m p2) as [q|] eqn:C; [|discriminate]. cbn [bind] in E3. injection E3 as <- <-.
  assert (q = p). { eapply rollback_exact; [exact I2| | | |]; try reflexivity. cbn [step]. rewrite IM, C. reflexivity. } subst q.
  exists (None, a), p, l. split; auto. split; auto. split; auto using runs_refl.
Qed.
Lemma skip_ret : forall rs fuel e p, no_end (p_toks p) -> left_ p < fuel -> exists p', skip_loop fuel rs e p = Ret tt p'.
Proof.
  intros rs. induction fuel as [|fuel IH]; intros e' p N L; [lia|]. cbn [skip_loop]. unfold mbind, ask. destruct (t_and _ _ e' p) eqn:C; [|eexists; reflexivity]. unfold bump_any_, upd, bump_any.
  assert (K : kind_eqb (current p) EOF = false). { unfold t_and, t_not, t_at in C. apply andb_true_iff in C. destruct C as [C _]. apply negb_true_iff in C. rewrite nth_at_joined, Nat.add_0_r in C. cbn [parts spelling joined] in C. now rewrite cur_at. }
  rewrite K. assert (LT : p_pos p < length (p_toks p)) by (apply next_at; rewrite <- cur_at; intros Q; rewrite Q in K; discriminate).
  unfold do_bump. rewrite bump_n_ok by (auto; lia). apply IH; [exact N|]. unfold left_ in *. cbn. lia.
Qed.
Lemma yx_recover : forall e i l s rs, yieldsx e i l (error_and_recover s rs) (fun _ _ => True).
Proof.
  intros e' i l s rs p f rest HT Hp S O I. assert (EX : exists p', error_and_recover s rs e' p = Ret tt p').
  { unfold error_and_recover. unfold mbind at 1. unfold outer_rs. unfold mbind at 1. unfold rs_test, ask. destruct (rs_here _ e' p); [eexists; reflexivity|]. unfold error_and_bump.
    assert (N : exists c p1, node ERROR (bump_any_ ;; err s)%gram e' p = Ret c p1 /\ p_toks p1 = T).
    { assert (D : disc None (bump_any_ ;; err s)%gram) by (apply d_bind; [apply d_bump_any|intros; apply d_upd_err]).
      destruct (node_ok (bump_any_ ;; err s)%gram ERROR e' p (add_items l f) rest tt (push_error (str s) (bump_any (snd (start p)))) D eq_refl S I eq_refl) as (p3 & ch & C & R).
      exists (mkCm (fst (start p)) ERROR), p3. split; [|rewrite (runs_toks _ _ _ _ R); exact HT]. unfold node. cbn [start fst snd] in *. unfold mbind, bump_any_, err, upd. rewrite C. reflexivity. }
    destruct N as (c & p1 & E & HT1). unfold mbind at 1. unfold mbind at 1. rewrite E. cbn [skip ret]. apply skip_ret; [rewrite HT1; exact NE|lia]. }
  destruct EX as [p' E]. pose proof (d_error_and_recover s rs e' p f rest l S O Logic.I I) as D. rewrite E in D. destruct D as (_ & l' & R & _). exists tt, p', l'. auto.
Qed.
Definition path_calls : list call := [CStart PATH; CStart PATH_SEGMENT; CStart NAME_REF; CToken IDENT 1; CFinish; CFinish; CFinish].
Lemma eqb_false : forall a b : kind, a <> b -> kind_eqb a b = false. Proof. intros a b H. destruct (kind_eqb_reflect a b); [contradiction|reflexivity]. Qed.
Lemma not_in_eqb : forall k l a, ~ In k l -> In a l -> kind_eqb k a = false. Proof. intros k l a N IN. apply eqb_false. intros ->. contradiction. Qed.
(** a name on its own, after which [opt_path_type_arg_list] changes nothing *)
Lemma y_path_mode : forall R mode i, kind_at T i = IDENT -> kind_at T (S i) <> COLON_COLON -> (forall l, yields e T (S i) l (opt_path_type_arg_list R mode) (S i) (fun _ l' => l' = l)) ->
  yields e T i [] (path_body R (Some mode)) (S i) (fun b l => b = true /\ flat_map build l = path_calls).
Proof.
  intros R mode i K N HO. unfold path_body. eapply y_bind.
  - apply (y_marked_c _ PATH i (S i) (fun (_ : unit) l => flat_map build l = [CStart PATH_SEGMENT; CStart NAME_REF; CToken IDENT 1; CFinish; CFinish])); [reflexivity|]. eapply y_bind.
    + unfold path_segment. eapply y_bind.
      * apply (y_marked_c _ PATH_SEGMENT i (S i) (fun b l => b = true /\ flat_map build l = [CStart NAME_REF; CToken IDENT 1; CFinish])); [reflexivity|]. unfold cur. yes; [eapply sees_is; [apply sees_cur; exact K|reflexivity]|].
        eapply y_bind; [apply y_name_ref; exact K|]. cbn beta. intros _ l (x & -> & B). eapply y_bind; [apply HO|].
        cbn beta. intros _ l ->. apply y_ret. cbn [fst snd]. split; auto. split; auto. cbn. rewrite B. reflexivity.
      * cbn beta. intros x l (c & a & ch & -> & _ & -> & -> & B). apply (y_ret e T (S i) _ true (fun b l => b = true /\ flat_map build l = [CStart PATH_SEGMENT; CStart NAME_REF; CToken IDENT 1; CFinish; CFinish])). split; auto. cbn. rewrite B. reflexivity.
    + cbn beta. intros b l [-> B]. apply y_ret. cbn. auto.
  - cbn beta. intros x l (c & a & ch & -> & _ & -> & B). eapply y_bind.
    + unfold path_loop. apply y_loop. cbn [loop_]. eapply y_bind.
      * unfold at_. no; [eapply sees_is; [now apply sees_at1|now apply eqb_false]|].
        apply (y_ret e T (S i) _ _ (fun r l' => r = inr tt /\ l' = [] ++ [INode (c_pos c) false PATH ch])). auto.
      * cbn beta. intros r l [-> ->]. apply (y_ret e T (S i) _ tt (fun _ l' => l' = [] ++ [INode (c_pos c) false PATH ch])). reflexivity.
    + cbn beta. intros _ l ->. apply y_ret. split; auto. cbn. rewrite B. reflexivity.
Qed.
End Parse.

(** ** Less than is not type arguments *)
Ltac no := apply y_ask with false; [|cbn [negb]].
Ltac yes := apply y_ask with true; [|cbn [negb]].
Section TypeArgs.
Variable T : toks.
Hypothesis NE : no_end T.
(** an iteration whose first turn breaks *)
Lemma iter_break_x : forall e i l0 (f : bool -> M (bool * bool)) Q, ~ In (kind_at T i) [R_ANGLE; L_PAREN; L_CURLY; EOF] ->
  yieldsx T (set_rs (rs_union (e_rs e) (rs_of [R_ANGLE; L_PAREN; L_CURLY])) e) i l0 (f false) (fun r l => fst r = false /\ Q (snd r) l) -> yieldsx T e i l0 (iterate_to_EOF [R_ANGLE; L_PAREN; L_CURLY] f false) Q.
Proof.
  intros e i l0 f Q N H p g rest HT Hp So O I. destruct (H p g rest HT Hp So O I) as ([go s] & p' & l' & E & R1 & Hg & q). cbn [fst snd] in Hg, q. subst go. exists s, p', l'. split; auto. unfold iterate_to_EOF, loop. cbn [loop_]. unfold mbind at 1. unfold iter_step. unfold mbind at 1. unfold ask.
  assert (NS : t_or (t_at EOF) (t_ts [R_ANGLE; L_PAREN; L_CURLY]) e p = false).
  { rewrite (sees_or e T i _ _ _ _ (sees_at1 e T i EOF eq_refl) (sees_ts e T i _ _ eq_refl) p HT Hp). rewrite (not_in_eqb _ _ EOF N) by (cbn; tauto). cbn. rewrite (not_in_eqb _ _ L_PAREN N), (not_in_eqb _ _ L_CURLY N), (not_in_eqb _ _ R_ANGLE N) by (cbn; tauto). reflexivity. }
  rewrite NS. unfold mbind at 1. unfold pos_. unfold mbind at 1. unfold with_ts, with_rs, local. rewrite E. reflexivity.
Qed.
Lemma iter_break : forall e i l0 (f : bool -> M (bool * bool)) j Q, ~ In (kind_at T i) [R_ANGLE; L_PAREN; L_CURLY; EOF] ->
  yields (set_rs (rs_union (e_rs e) (rs_of [R_ANGLE; L_PAREN; L_CURLY])) e) T i l0 (f false) j (fun r l => fst r = false /\ Q (snd r) l) -> yields e T i l0 (iterate_to_EOF [R_ANGLE; L_PAREN; L_CURLY] f false) j Q.
Proof.
  intros e i l0 f j Q N H p g rest HT Hp So O I. destruct (H p g rest HT Hp So O I) as ([go s] & p' & l' & E & P' & R1 & Hg & q). cbn [fst snd] in Hg, q. subst go. exists s, p', l'. split; auto. unfold iterate_to_EOF, loop. cbn [loop_]. unfold mbind at 1. unfold iter_step. unfold mbind at 1. unfold ask.
  assert (NS : t_or (t_at EOF) (t_ts [R_ANGLE; L_PAREN; L_CURLY]) e p = false).
  { rewrite (sees_or e T i _ _ _ _ (sees_at1 e T i EOF eq_refl) (sees_ts e T i _ _ eq_refl) p HT Hp). rewrite (not_in_eqb _ _ EOF N) by (cbn; tauto). cbn. rewrite (not_in_eqb _ _ L_PAREN N), (not_in_eqb _ _ L_CURLY N), (not_in_eqb _ _ R_ANGLE N) by (cbn; tauto). reflexivity. }
  rewrite NS. unfold mbind at 1. unfold pos_. unfold mbind at 1. unfold with_ts, with_rs, local. rewrite E. reflexivity.
Qed.
Variables (R R' : recs).
Hypothesis RP : r_path R = path_body R'.
Hypothesis RT : r_type R = type_body R'.
(** what is no type *)
Lemma yx_no_type : forall e' i l, ~ In (kind_at T i) [IDENT; AMP; PIPE; UNDERSCORE; L_PAREN] -> (kind_at T i = INT_NUMBER -> kind_at T (S i) <> COLON_COLON) -> yieldsx T e' i l (type_ R) (fun b _ => b = false).
Proof.
  intros e' i l N1 N2. unfold type_, type_or_recover. rewrite RT. unfold type_body.
  assert (NC : forall k, In k [IDENT; AMP; PIPE; UNDERSCORE; L_PAREN] -> sees e' T i (t_cur k) false) by (intros k IN p HT Hp; unfold t_cur; rewrite cur_at, HT, Hp; eapply not_in_eqb; eauto).
  unfold cur. do 3 (apply yx_ask with false; [apply NC; cbn; tauto|]). apply yx_ask with false.
  { intros p HT Hp. unfold is_path_start. rewrite (NC IDENT ltac:(cbn; tauto) p HT Hp), (NC UNDERSCORE ltac:(cbn; tauto) p HT Hp). rewrite !orb_false_r. unfold t_cur. rewrite cur_at, nth_at_joined, HT, Hp, one by reflexivity. rewrite Nat.add_1_r.
    destruct (kind_eqb_reflect (kind_at T i) INT_NUMBER) as [Q|]; [|reflexivity]. cbn [andb]. apply eqb_false. auto. }
  eapply yx_then; [apply yx_recover; exact NE|]. cbn beta. intros _ l' _. exists false. auto.
Qed.
Lemma yx_no_type_arg : forall e i l, ~ In (kind_at T i) [IDENT; AMP; PIPE; UNDERSCORE; L_PAREN] -> (kind_at T i = INT_NUMBER -> kind_at T (S i) <> COLON_COLON) -> yieldsx T e i l (type_arg R false) (fun b _ => b = false).
Proof.
  intros e i l N1 N2. unfold type_arg. eapply (yx_then T e i l _ _ (fun x _ => fst x = None /\ snd x = false)); [apply (yx_abandon T _ e i (fun b => b = false))|cbn beta; intros [o b] l' [_ Q]; cbn [snd] in Q; subst b; exists false; auto].
  unfold cur. apply yx_ask with false; [eapply sees_is; [apply sees_cur; reflexivity|eapply not_in_eqb; [exact N1|cbn; tauto]]|]. unfold at_ts. destruct (GrammarBase.mem (kind_at T i) TYPE_FIRST) eqn:TF.
  - apply yx_ask with true; [eapply sees_is; [apply sees_ts; reflexivity|exact TF]|].
    intros p f rest HT Hp So O I. destruct (yx_no_type (set_rs (rs_union (e_rs e) (rs_of [COMMA])) e) i [] N1 N2 p f rest HT Hp So O I) as (b & p' & l' & E & R1 & ->).
    exists (Abandon, false), p', l'. split; [|auto]. unfold mbind, with_ts, with_rs, local. rewrite E. reflexivity.
  - apply yx_ask with false; [eapply sees_is; [apply sees_ts; reflexivity|exact TF]|]. eapply yx_of. apply y_ret. auto.
Qed.
Lemma y_type_arg_name : forall e i l, kind_at T i = IDENT -> ~ In (kind_at T (S i)) [L_ANGLE; COLON_COLON] -> yields e T i l (type_arg R false) (S i) (fun b _ => b = true).
Proof.
  intros e i l K N. unfold type_arg. eapply y_bind.
  - apply (y_marked_c e T _ TYPE_ARG i (S i) (fun b _ => b = true)); [reflexivity|]. unfold cur. yes; [eapply sees_is; [apply sees_cur; exact K|reflexivity]|]. eapply (y_bind (S i) (Q := fun _ _ => True)); [|cbn beta; intros _ l' _; apply y_ret; auto].
    unfold path_type. yes. { intros p HT Hp. unfold is_path_start. rewrite (sees_cur e T i IDENT IDENT K p HT Hp). rewrite kind_eqb_refl, orb_true_r. reflexivity. }
    eapply y_bind; [|cbn beta; intros [o b] l' _; apply y_ret; exact Logic.I]. apply (y_marked_c e T _ PATH_TYPE i (S i) (fun b _ => b = true)); [reflexivity|]. unfold path. rewrite RP. eapply y_bind.
    + apply y_path_mode; [exact NE|exact K|intros Q; apply N; rewrite Q; cbn; tauto|]. intros l0. cbn [opt_path_type_arg_list]. unfold opt_type_arg_list_for_type, at_. no; [eapply sees_is; [now apply sees_at1|eapply not_in_eqb; [exact N|cbn; tauto]]|]. now apply y_ret.
    + cbn beta. intros b l' [-> _]. apply y_ret. auto.
  - cbn beta. intros x l' (c & a & ch & -> & _ & _ & ->). apply y_ret. reflexivity.
Qed.
Lemma y_type_args_no : forall e i l, kind_at T i = L_ANGLE -> no_args T i -> yields e T i l (type_args_rest R skip) i (fun b l' => b = false /\ l' = l).
Proof.
  intros e i l K (N1 & N2 & N3). unfold type_args_rest. eapply (y_bind i); [apply (y_rollback T _ e i (fun b => b = false))|].
  2:{ cbn beta. intros [o b] l' (_ & Q & ->). cbn [snd] in Q. subst b. apply y_ret. auto. }
  eapply (yx_bind T e i [] skip i); [apply (y_ret e T i [] tt (fun _ l => l = [])); reflexivity|]. cbn beta. intros _ l0 ->.
  eapply yx_bind. { pose proof (y_bump e T NE i [] L_ANGLE eq_refl) as H. rewrite one, K in H by reflexivity. specialize (H eq_refl). change (width L_ANGLE) with 1 in H. rewrite Nat.add_1_r in H. exact H. }
  cbn beta. intros _ l0 ->. cbn [app].
  set (k := kind_at T (S i)) in *. assert (IK : In k [L_PAREN; L_CURLY; EOF] \/ ~ In k [L_PAREN; L_CURLY; EOF]) by (destruct (in_dec kind_eq_dec k [L_PAREN; L_CURLY; EOF]); auto).
  assert (Fin : forall j l0, kind_at T j <> R_ANGLE -> yieldsx T e j l0 (IF eat_ R_ANGLE THEN ret (Complete TYPE_ARG_LIST, true) ELSE ret (Rollback, false))%gram (fun x _ => fst x = Rollback /\ snd x = false)).
  { intros j l0 NR. eapply yx_bind; [apply y_eat_no; rewrite one by reflexivity; now apply eqb_false|]. cbn beta. intros b l1 [-> ->]. eapply yx_of. apply y_ret. auto. }
  destruct IK as [IK|IK].
  - eapply (yx_bind T e (S i) _ _ (S i)).
    + unfold iterate_to_EOF. apply y_loop. cbn [loop_]. eapply y_bind.
      * unfold iter_step. yes; [eapply sees_is; [apply sees_or; [now apply sees_at1|apply sees_ts; reflexivity]|]; fold k; cbn in IK; destruct IK as [<-|[<-|[<-|[]]]]; reflexivity|].
        apply (y_ret e T (S i) _ (inr false) (fun r l => r = inr false)). reflexivity.
      * cbn beta. intros r l1 ->. apply (y_ret e T (S i) _ false (fun r _ => r = false)). reflexivity.
    + cbn beta. intros b l1 ->. apply Fin. fold k. intros Q. apply N1. rewrite Q. cbn. tauto.
  - assert (IN : ~ In k [R_ANGLE; L_PAREN; L_CURLY; EOF]) by (cbn in *; tauto). destruct (kind_eqb_reflect k IDENT) as [KI|KI].
    + specialize (N3 KI). eapply (yx_bind T e (S i) _ _ (S (S i)) _ (fun b (_ : list item) => b = false)).
      * apply iter_break; [exact IN|]. eapply y_bind; [apply y_type_arg_name; [exact KI|intros Q; apply N3; cbn in *; tauto]|]. cbn beta. intros b l1 ->. cbn [negb].
        eapply y_bind; [apply y_eat_no; rewrite one by reflexivity; eapply not_in_eqb; [exact N3|cbn; tauto]|]. cbn beta. intros b l2 [-> ->]. unfold at_ts. no; [eapply sees_is; [apply sees_ts; reflexivity|]|apply y_ret; auto].
        cbn [GrammarBase.mem existsb PATH_FIRST]. rewrite !(fun a H => not_in_eqb _ _ a N3 H) by (cbn; tauto). reflexivity.
      * cbn beta. intros b l1 ->. apply Fin. intros Q. apply N3. rewrite Q. cbn. tauto.
    + eapply (yx_then T e (S i) _ _ _ (fun b _ => b = true)); [|cbn beta; intros b l1 ->; exists (Rollback, false); auto]. apply iter_break_x; [exact IN|].
      eapply yx_then; [apply yx_no_type_arg; [fold k; cbn in *; intuition congruence|exact N2]|]. cbn beta. intros b l1 ->. exists (false, true). auto.
Qed.
(** after a name there are no type arguments *)
Lemma y_no_type_args : forall e i l b, kind_at T i <> COLON_COLON -> (kind_at T i = L_ANGLE -> no_args T i) -> yields e T i l (opt_type_arg_list_for_expr R b) i (fun r l' => (kind_at T i <> L_ANGLE -> r = true) /\ l' = l).
Proof.
  intros e i l b N1 N2. unfold opt_type_arg_list_for_expr. no; [apply sees_and_l; eapply sees_is; [now apply sees_at1|now apply eqb_false]|]. unfold at_. destruct (kind_eqb_reflect (kind_at T i) L_ANGLE) as [K|K].
  - yes; [eapply sees_is; [now apply sees_at1|rewrite K; reflexivity]|]. intros p f rest HT Hp So O I. unfold mbind at 1. unfold ask. destruct (t_or _ _ e p).
    + eapply y_weaken; [apply y_type_args_no; auto| |exact HT|exact Hp|exact So|exact O|exact I]. cbn beta. intros r l' [-> ->]. split; auto.
    + exact (y_ret e T i l true (fun r l' => (kind_at T i <> L_ANGLE -> r = true) /\ l' = l) (conj (fun _ => eq_refl) eq_refl) p f rest HT Hp So O I).
  - no; [eapply sees_is; [now apply sees_at1|now apply eqb_false]|]. apply y_ret. auto.
Qed.
End TypeArgs.
