(** Running the parser on tokens that spell an expression. *)
From Coq Require Import String.
From Verif Require Import Base SyntaxKind ParserModel GrammarBase GrammarModel AddressModel TreeSinkModel TreeSinkSpec TreeSinkProps ParserSpec ParserProofs ParserProofs2 ParserProps GrammarDisc PrecSpec.
Close Scope string_scope.
Close Scope N_scope.
Open Scope nat_scope.

(** * Exact runs *)
(** from place [i] with items [l0] in the open node, [m] ends at [j] with a result and items in [Q] *)
Definition yields {A} (e : env) (T : toks) (i : nat) (l0 : list item) (m : M A) (j : nat) (Q : A -> list item -> Prop) : Prop :=
  forall p f rest, p_toks p = T -> p_pos p = i -> solid p -> opened (f :: rest) = true -> Inv p (add_items l0 f :: rest) ->
  exists a p' l, m e p = Ret a p' /\ p_pos p' = j /\ runs p (add_items l0 f :: rest) p' (add_items l f :: rest) /\ Q a l.

Section Rules.
Context {A B : Type}.
Variables (e : env) (T : toks).
Lemma y_ret : forall i l (a : A) (Q : A -> list item -> Prop), Q a l -> yields e T i l (ret a) i Q.
Proof. intros i l a Q H p f rest HT Hp S O I. exists a, p, l. split; auto. split; auto. split; auto using runs_refl. Qed.
Lemma y_bind : forall i l (m : M A) j (k : A -> M B) n Q R, yields e T i l m j Q -> (forall a l', Q a l' -> yields e T j l' (k a) n R) -> yields e T i l (mbind m k) n R.
Proof.
  intros i l m j k n Q R H K p f rest HT Hp S O I. destruct (H p f rest HT Hp S O I) as (a & p1 & l1 & E & P1 & R1 & Qa). unfold mbind. rewrite E.
  destruct (K a l1 Qa p1 f rest) as (b & p2 & l2 & E2 & P2 & R2 & Qb); auto; [rewrite (runs_toks _ _ _ _ R1); auto|eapply runs_solid; eauto|eapply runs_inv; eauto|].
  exists b, p2, l2. split; auto. split; auto. split; auto. eapply runs_trans; eauto.
Qed.
Lemma y_weaken : forall i l (m : M A) j (Q R : A -> list item -> Prop), yields e T i l m j Q -> (forall a l', Q a l' -> R a l') -> yields e T i l m j R.
Proof. intros i l m j Q R H K p f rest HT Hp S O I. destruct (H p f rest HT Hp S O I) as (a & p1 & l1 & E & P1 & R1 & Qa). exists a, p1, l1. auto. Qed.
Lemma y_frame : forall i (m : M A) j Q l, yields e T i [] m j Q -> yields e T i l m j (fun a l' => exists x, l' = l ++ x /\ Q a x).
Proof.
  intros i m j Q l H p f rest HT Hp S O I. destruct (H p (add_items l f) rest HT Hp S O) as (a & p1 & l1 & E & P1 & R1 & Qa); [now rewrite add_nil|]. rewrite add_nil, add_add in R1.
  exists a, p1, (l ++ l1). split; auto. split; auto. split; auto. exists l1. auto.
Qed.
Lemma y_read : forall i l (g : env -> parser -> A) a (Q : A -> list item -> Prop), (forall p, p_toks p = T -> p_pos p = i -> g e p = a) -> Q a l -> yields e T i l (fun e p => Ret (g e p) p) i Q.
Proof. intros i l g a Q G H p f rest HT Hp S O I. exists a, p, l. rewrite G; auto using runs_refl. Qed.
End Rules.
Arguments y_bind {A B e T i l m} j {k n Q R}.
Definition sees (e : env) (T : toks) (i : nat) (t : test) (b : bool) : Prop := forall p, p_toks p = T -> p_pos p = i -> t e p = b.
(** a question whose answer is known *)
Lemma y_ask : forall {B} e T i l t b (k : bool -> M B) n R, sees e T i t b -> yields e T i l (k b) n R -> yields e T i l (mbind (ask t) k) n R.
Proof.
  intros B e T i l t b k n R S K p f rest HT Hp So O I. unfold mbind, ask. rewrite (S p HT Hp). now apply K.
Qed.
Lemma y_read_bind : forall {A B} e T i l (g : env -> parser -> A) a (k : A -> M B) n R, (forall p, p_toks p = T -> p_pos p = i -> g e p = a) -> yields e T i l (k a) n R -> yields e T i l (mbind (fun e p => Ret (g e p) p) k) n R.
Proof. intros A B e T i l g a k n R S K p f rest HT Hp So O I. unfold mbind. rewrite (S p HT Hp). now apply K. Qed.

(** * Looking *)
Lemma kind_at_tok : forall T i, t_kind (token_at_pos T i) = kind_at T i.
Proof. intros T i. unfold kind_at, token_at_pos. destruct (nth_error T i) as [[t o]|]; reflexivity. Qed.
Lemma touching_tok : forall T i, t_jointed (token_at_pos T i) = touching T i.
Proof. intros T i. unfold touching, token_at_pos. destruct (nth_error T i) as [[t o]|]; auto. Qed.
Lemma nth_at_joined : forall p n k, nth_at p n k = joined (p_toks p) (p_pos p + n) (parts k).
Proof.
  intros p n k. assert (C2 : forall a b, at_composite2 p n a b = joined (p_toks p) (p_pos p + n) [a; b]).
  { intros a b. unfold at_composite2, lookahead_nth. rewrite !kind_at_tok, touching_tok. cbn [joined]. replace (p_pos p + (n + 1)) with (S (p_pos p + n)) by lia.
    destruct (kind_eqb _ a); [|reflexivity]. destruct (touching _ _); reflexivity. }
  assert (C3 : forall a b c, at_composite3 p n a b c = joined (p_toks p) (p_pos p + n) [a; b; c]).
  { intros a b c. unfold at_composite3, lookahead_nth. rewrite !kind_at_tok, !touching_tok. cbn [joined]. replace (p_pos p + (n + 1)) with (S (p_pos p + n)) by lia. replace (p_pos p + (n + 2)) with (S (S (p_pos p + n))) by lia.
    destruct (kind_eqb _ a); [|reflexivity]. destruct (touching _ _); [|reflexivity]. destruct (kind_eqb _ b); [|reflexivity]. destruct (touching _ _); reflexivity. }
  destruct k; cbn [nth_at parts spelling]; rewrite ?C2, ?C3; auto; unfold lookahead_nth; rewrite kind_at_tok; reflexivity.
Qed.
Lemma width_raw : forall k, n_raw k = width k. Proof. intros k. destruct k; reflexivity. Qed.
Lemma cur_at : forall p, current p = kind_at (p_toks p) (p_pos p). Proof. intros p. unfold current, lookahead_nth. now rewrite kind_at_tok, Nat.add_0_r. Qed.
Lemma look_at : forall p n, t_kind (lookahead_nth p n) = kind_at (p_toks p) (p_pos p + n). Proof. intros p n. unfold lookahead_nth. apply kind_at_tok. Qed.
Lemma next_at : forall T i, kind_at T i <> EOF -> i < length T.
Proof. intros T i H. unfold kind_at in H. destruct (nth_error T i) eqn:E; [apply nth_error_Some; congruence|congruence]. Qed.

(** * Consuming *)
Lemma bump_n_pos : forall n p, Forall (fun t => rt_kind (fst t) <> EOF) (p_toks p) -> p_pos p + n <= length (p_toks p) -> p_pos (bump_n n p) = p_pos p + n.
Proof.
  induction n as [|n IH]; intros p F L; cbn [bump_n]; [lia|]. assert (B : bump1 p = mkParser (p_toks p) (S (p_pos p)) (p_events p)).
  { unfold bump1. rewrite kind_at_tok. unfold kind_at. destruct (nth_error (p_toks p) (p_pos p)) as [[t o]|] eqn:E; [|apply nth_error_None in E; lia].
    rewrite Forall_forall in F. specialize (F _ (nth_error_In _ _ E)). cbn in F. destruct (kind_eqb_reflect (rt_kind t) EOF); [contradiction|reflexivity]. }
  rewrite B, IH; cbn; auto; lia.
Qed.
Definition no_end (T : toks) : Prop := Forall (fun t => rt_kind (fst t) <> EOF) T.
Section Consume.
Variables (e : env) (T : toks).
Hypothesis NE : no_end T.
Lemma y_eat : forall i l k, okk k = true -> joined T i (parts k) = true -> yields e T i l (eat_ k) (i + width k) (fun b l' => b = true /\ l' = l ++ [ITok k (width k)]).
Proof.
  intros i l k K J p f rest HT Hp S O I. apply okk_spec in K. destruct K as (_ & TR & K). unfold eat_, eat. assert (N : nth_at p 0 k = true) by (rewrite nth_at_joined, Nat.add_0_r, HT, Hp; exact J). rewrite N.
  assert (IN := eat_in p k K N). exists true. eexists. exists (l ++ [ITok k (width k)]). split; [reflexivity|]. split; [|split; [|auto]].
  - unfold do_bump. cbn [push_event set_events p_pos]. rewrite bump_n_pos; auto; [now rewrite width_raw, Hp|]. rewrite HT. exact NE.
  - rewrite <- add_add, <- width_raw. apply runs_bump; auto. eapply eat_careful; eauto. unfold eat. rewrite N. reflexivity.
Qed.
Lemma y_eat_no : forall i l k, joined T i (parts k) = false -> yields e T i l (eat_ k) i (fun b l' => b = false /\ l' = l).
Proof.
  intros i l k J p f rest HT Hp S O I. unfold eat_, eat. assert (N : nth_at p 0 k = false) by (rewrite nth_at_joined, Nat.add_0_r, HT, Hp; exact J). rewrite N. exists false, p, l. auto using runs_refl.
Qed.
Lemma y_bump : forall i l k, okk k = true -> joined T i (parts k) = true -> yields e T i l (bump k) (i + width k) (fun _ l' => l' = l ++ [ITok k (width k)]).
Proof. intros i l k K J. eapply y_bind; [apply y_eat; auto|]. cbn. intros b l' [-> ->]. now apply y_ret. Qed.
Lemma y_expect : forall i l k, okk k = true -> joined T i (parts k) = true -> yields e T i l (expect k) (i + width k) (fun _ l' => l' = l ++ [ITok k (width k)]).
Proof. intros i l k K J. eapply y_bind; [apply y_eat; auto|]. cbn. intros b l' [-> ->]. now apply y_ret. Qed.
Lemma y_bump_any : forall i l k, kind_at T i = k -> k <> EOF -> yields e T i l bump_any_ (S i) (fun _ l' => l' = l ++ [ITok k 1]).
Proof.
  intros i l k K N p f rest HT Hp S O I. unfold bump_any_, upd, bump_any. rewrite cur_at, HT, Hp, K. destruct (kind_eqb_reflect k EOF) as [|_]; [contradiction|].
  assert (L : i < length T) by (apply next_at; congruence). assert (C : current p = k) by (rewrite cur_at, HT, Hp; exact K).
  exists tt. eexists. exists (l ++ [ITok k 1]). split; [reflexivity|]. split; [|split; auto].
  - unfold do_bump. cbn [push_event set_events p_pos]. rewrite bump_n_pos; [lia|rewrite HT; exact NE|rewrite HT, Hp; lia].
  - rewrite <- add_add. apply runs_bump; auto; [|rewrite HT, Hp; lia]. apply one_careful. rewrite <- C. now apply solid_current.
Qed.

(** * Markers *)
Lemma y_node_any : forall {A} (body : M A) k i j Q, okk k = true -> yields e T i [] body j Q ->
  forall l p f rest, p_toks p = T -> p_pos p = i -> solid p -> Inv p (add_items l f :: rest) ->
  exists c p' l', node k body e p = Ret c p' /\ p_pos p' = j /\ runs p (add_items l f :: rest) p' (add_items l' f :: rest) /\ exists a ch, l' = l ++ [INode (c_pos c) false k ch] /\ Q a ch.
Proof.
  intros A body k i j Q K H l p f rest HT Hp S I. destruct (okk_spec _ K) as [K1 _]. destruct (runs_step p (add_items l f :: rest) OStart _ I eq_refl Logic.I) as (p1 & stk1 & E1 & R1 & I1). cbn [start] in E1. injection E1 as <- <-.
  unfold node. cbn [start]. set (m := length (p_events p)) in *. set (f0 := mkFrame (Some m) false [] (Some p)) in *.
  destruct (H (push_event tombstone p) f0 (add_items l f :: rest)) as (a & p2 & ch & E & P2 & R2 & Qa); auto.
  rewrite E. rewrite add_nil in R2. pose proof (runs_inv _ _ _ _ I1 R2) as I2.
  edestruct (runs_step2 _ _ I2 (OComplete m k)) as (p3 & stk3 & E3 & R3 & _); [cbn [step]; cbn [is_mark f_mark add_items f0]; rewrite Nat.eqb_refl, K1; reflexivity|exact Logic.I|].
  destruct (complete m k p2) as [q|] eqn:C; [|discriminate]. cbn [bind] in E3. injection E3 as <- <-. exists (mkCm m k), q, (l ++ [INode m false k ch]). split; auto. split.
  - unfold complete in C. destruct (nth_error (p_events p2) m) as [[]|]; try discriminate. injection C as <-. exact P2.
  - split; [|exists a, ch; auto]. rewrite <- add_add. eapply runs_trans; [exact R1|]. eapply runs_trans; [exact R2|exact R3].
Qed.
Lemma y_node : forall {A} (body : M A) k i j Q, okk k = true -> yields e T i [] body j Q ->
  forall l, yields e T i l (node k body) j (fun c l' => exists a ch, l' = l ++ [INode (c_pos c) false k ch] /\ Q a ch).
Proof. intros A body k i j Q K H l p f rest HT Hp S O I. now apply (y_node_any body k i j Q K H). Qed.
(** [marked] with the three ends used here *)
Definition ended (m : nat) (c : closing) (ch l : list item) : Prop :=
  match c with
  | Complete k => okk k = true /\ l = [INode m false k ch]
  | Abandon => l = ch \/ l = IGone m :: ch
  | Extend c => exists g k cc, ch = g ++ [INode (c_pos c) false k cc] /\ l = [INode (c_pos c) false k (IGone m :: g ++ cc)]
  | Rollback => False
  end.
Lemma y_marked : forall {A} (body : M (closing * A)) i j Q, yields e T i [] body j (fun x l => Q (fst x) (snd x) l /\ forall m, exists l', ended m (fst x) l l') ->
  forall l, yields e T i l (marked body) j (fun x l' => exists m c ch l2, l' = l ++ l2 /\ ended m c ch l2 /\ fst x = closed m c /\ Q c (snd x) ch).
Proof.
  intros A body i j Q H l p f rest HT Hp S O I. destruct (runs_step p (add_items l f :: rest) OStart _ I eq_refl Logic.I) as (p1 & stk1 & E1 & R1 & I1). cbn [start] in E1. injection E1 as <- <-.
  unfold marked. cbn [start]. set (m := length (p_events p)) in *. set (f0 := mkFrame (Some m) false [] (Some p)) in *.
  destruct (H (push_event tombstone p) f0 (add_items l f :: rest)) as ([c a] & p2 & ch & E & P2 & R2 & Qa & EN); auto.
  rewrite E. rewrite add_nil in R2. pose proof (runs_inv _ _ _ _ I1 R2) as I2. cbn [fst snd] in *. destruct (EN m) as [l' EN']. assert (IM : is_mark m (add_items ch f0) = true) by (cbn; apply Nat.eqb_refl).
  destruct c as [k| | |c]; cbn [close closed]; cbn [ended] in EN'.
  - destruct EN' as [K _]. destruct (okk_spec _ K) as [K1 _].
    edestruct (runs_step2 _ _ I2 (OComplete m k)) as (p3 & stk3 & E3 & R3 & _); [cbn [step]; cbn [is_mark f_mark add_items f0]; rewrite Nat.eqb_refl, K1; reflexivity|exact Logic.I|].
    destruct (complete m k p2) as [q|] eqn:C; [|discriminate]. cbn [bind] in E3. injection E3 as <- <-. exists (Some (mkCm m k), a), q, (l ++ [INode m false k ch]). split; auto. split.
    + unfold complete in C. destruct (nth_error (p_events p2) m) as [[]|]; try discriminate. injection C as <-. exact P2.
    + split; [|exists m, (Complete k), ch; eexists; split; [reflexivity|]; cbn; auto]. rewrite <- add_add. eapply runs_trans; [exact R1|]. eapply runs_trans; [exact R2|exact R3].
  - edestruct (runs_step2 _ _ I2 (OAbandon m)) as (p3 & stk3 & E3 & R3 & _); [cbn [step]; rewrite IM; reflexivity|exact Logic.I|].
    destruct (abandon m p2) as [q|] eqn:C; [|discriminate]. cbn [bind] in E3. injection E3 as <- <-. eexists (None, a), q, (l ++ _). split; auto. split.
    + unfold abandon in C. destruct (split_last (p_events p2)) as [[es x]|]; [|discriminate]. destruct (m =? length es); [destruct x as [[] [|]| | |]; try discriminate|]; injection C as <-; exact P2.
    + split; [rewrite <- add_add; eapply runs_trans; [exact R1|]; eapply runs_trans; [exact R2|exact R3]|]. exists m, Abandon, ch. eexists. split; [reflexivity|]. cbn [ended closed fst snd]. split; auto. match goal with |- context [if ?b then _ else _] => destruct b end; cbn; auto.
  - destruct EN'.
  - destruct EN' as (g & k & cc & -> & _). pose proof (find_held _ _ _ _ g _ _ _ [] I2 eq_refl) as FN. cbn [f_items f0 app] in FN.
    edestruct (runs_step2 _ _ I2 (OExtend (c_pos c) m)) as (p3 & stk3 & E3 & R3 & _); [cbn [step]; rewrite IM; cbn [andb negb f_prec add_items f0 f_items app]; rewrite FN; reflexivity|exact Logic.I|].
    destruct (extend_to (c_pos c) m p2) as [q|] eqn:C; [|discriminate]. cbn [bind] in E3. injection E3 as <- <-. eexists (Some c, a), q, (l ++ _). split; auto. split.
    + unfold extend_to in C. destruct (nth_error (p_events p2) m) as [[]|]; try discriminate. destruct (m <=? c_pos c); [|discriminate]. injection C as <-. exact P2.
    + split; [rewrite <- add_add; eapply runs_trans; [exact R1|]; eapply runs_trans; [exact R2|exact R3]|]. exists m, (Extend c), (g ++ [INode (c_pos c) false k cc]). eexists. split; [reflexivity|]. cbn [ended closed fst snd app]. split; auto. exists g, k, cc. auto.
Qed.
Lemma y_preceded : forall {A} (body : M (kind * A)) c g k0 ch0 i j Q, yields e T i [INode (c_pos c) true k0 ch0] body j (fun x l => Q (fst x) (snd x) l /\ okk (fst x) = true) ->
  yields e T i (g ++ [INode (c_pos c) false k0 ch0]) (preceded c body) j (fun x l' => exists k ch, l' = g ++ [INode (c_pos (fst x)) false k ch] /\ Q k (snd x) ch).
Proof.
  intros A body c x k0 ch0 i j Q H p f rest HT Hp S O I. pose proof (find_held _ _ _ _ x _ _ _ [] I eq_refl) as FN.
  edestruct (runs_step2 _ _ I (OPrecede (c_pos c))) as (p1 & stk1 & E1 & R1 & I1); [cbn [step]; cbn [add_items f_items]; rewrite FN; reflexivity|exact Logic.I|].
  unfold preceded. destruct (precede (c_pos c) p) as [[m q]|] eqn:P; [|discriminate]. cbn [bind fst snd] in E1. injection E1 as <- <-.
  assert (PP : p_pos q = p_pos p) by (unfold precede in P; cbn in P; destruct (nth_error _ _) as [[]|]; try discriminate; injection P as _ <-; reflexivity).
  set (g := mkFrame (Some m) true [] None) in *. set (f1 := set_items (f_items f ++ x) (add_items (x ++ [INode (c_pos c) false k0 ch0]) f)) in *.
  destruct (H q g (f1 :: rest)) as ([k a] & p2 & ch & E & P2 & R2 & Qa & K); auto; [rewrite (runs_toks _ _ _ _ R1); auto|congruence|eapply runs_solid; eauto|]. cbn [fst snd] in *. rewrite E. destruct (okk_spec _ K) as [K1 _].
  pose proof (runs_inv _ _ _ _ I1 R2) as I2.
  edestruct (runs_step2 _ _ I2 (OComplete m k)) as (p3 & stk3 & E3 & R3 & _); [cbn [step]; cbn [is_mark f_mark add_items g]; rewrite Nat.eqb_refl, K1; reflexivity|exact Logic.I|].
  destruct (complete m k p2) as [q3|] eqn:C; [|discriminate]. cbn [bind] in E3. injection E3 as <- <-. exists (mkCm m k, a), q3, (x ++ [INode m false k ch]). split; auto. split.
  - unfold complete in C. destruct (nth_error (p_events p2) m) as [[]|]; try discriminate. injection C as <-. exact P2.
  - split; [|exists k, ch; auto]. eapply runs_trans; [exact R1|]. eapply runs_trans; [exact R2|].
    replace (add_items (x ++ [INode m false k ch]) f) with (add_items [INode m false k (f_items (add_items ch g))] f1); [exact R3|]. unfold add_items, f1, set_items, add_items. cbn. now rewrite app_assoc.
Qed.
Lemma y_loop : forall {S R} (f : S -> M (S + R)) s i l j Q, yields e T i l (loop_ (Datatypes.S (length T - i)) f s) j Q -> yields e T i l (loop f s) j Q.
Proof. intros S R f s i l j Q H p g rest HT Hp So O I. destruct (H p g rest HT Hp So O I) as (a & p' & l' & E & X). exists a, p', l'. split; auto. unfold loop, left_. rewrite HT, Hp. exact E. Qed.
End Consume.

(** * Operators *)
Lemma power_in : forall k q, power k = Some q -> In (k, q) (flat_map (fun l => map (fun k => (k, fst l)) (snd l)) levels).
Proof.
  intros k q H. unfold power in H. destruct (find _ levels) as [[q' ks]|] eqn:F; [|discriminate]. cbn in H. injection H as <-. apply find_some in F. destruct F as [F E]. cbn in E.
  apply existsb_exists in E. destruct E as (x & IN & EQ). apply kind_eqb_spec in EQ. subst x. apply in_flat_map. exists (q', ks). split; auto. apply in_map_iff. exists k. auto.
Qed.
Definition op_list : list (kind * nat) := Eval vm_compute in flat_map (fun l => map (fun k => (k, fst l)) (snd l)) levels.
(** the first parts determine the rest *)
Lemma op_unique : forall T i k1 k2 q1 q2, op_at T i k1 -> op_at T i k2 -> power k1 = Some q1 -> power k2 = Some q2 -> k1 = k2.
Proof.
  intros T i k1 k2 q1 q2 [J1 M1] [J2 M2] P1 P2. pose proof (M1 _ _ P2 J2) as W1. pose proof (M2 _ _ P1 J1) as W2. assert (W : width k1 = width k2) by lia. clear M1 M2 W1 W2.
  assert (E : forall l1 l2 i, length l1 = length l2 -> joined T i l1 = true -> joined T i l2 = true -> l1 = l2).
  { induction l1 as [|a [|b l1] IH]; intros [|c [|d l2]] i0 L H1 H2; try discriminate; auto; cbn [joined] in H1, H2.
    - apply kind_eqb_spec in H1, H2. congruence.
    - rewrite !andb_true_iff, kind_eqb_spec in H1, H2. destruct H1 as [[A1 _] H1], H2 as [[A2 _] H2]. f_equal; [congruence|]. eapply IH; eauto. }
  pose proof (E _ _ _ W J1 J2) as EP. apply power_in in P1, P2. change (In (k1, q1) op_list) in P1. change (In (k2, q2) op_list) in P2.
  assert (G : forallb (fun a => forallb (fun b => negb (if list_eq_dec kind_eq_dec (parts (fst a)) (parts (fst b)) then true else false) || kind_eqb (fst a) (fst b)) op_list) op_list = true) by (vm_compute; reflexivity).
  rewrite forallb_forall in G. specialize (G _ P1). rewrite forallb_forall in G. specialize (G _ P2). cbn [fst] in G. destruct (list_eq_dec _ _ _); [|contradiction]. cbn in G. now apply kind_eqb_spec.
Qed.

Lemma op_here : forall T i k, joined T i (parts k) = true -> (forall k' q, In (k', q) op_list -> width k < width k' -> joined T i (parts k') = false) -> op_at T i k.
Proof.
  intros T i k J H. split; auto. intros k' q P J'. destruct (Nat.le_gt_cases (width k') (width k)) as [|L]; auto. rewrite (H k' q) in J'; auto; [discriminate|]. now apply power_in in P.
Qed.
(** what [op_of] finds *)
Lemma op_of_spec : forall p, (exists k q, op_at (p_toks p) (p_pos p) k /\ power k = Some q /\ op_of p = (q, k)) \/ (op_of p = (2, AS_KW) /\ current p = AS_KW) \/ (op_of p = (0, AT) /\ forall k q, power k = Some q -> joined (p_toks p) (p_pos p) (parts k) = false).
Proof.
  intros p. set (T := p_toks p). set (i := p_pos p). assert (C : current p = kind_at T i) by apply cur_at. assert (NA : forall k, nth_at p 0 k = joined T i (parts k)) by (intros k; rewrite nth_at_joined, Nat.add_0_r; reflexivity).
  assert (F : forall k, joined T i (parts k) = true -> forallb (fun x => (width (fst x) <=? width k) || negb (joined T i (parts (fst x)))) op_list = true -> op_at T i k).
  { intros k J H. apply op_here; auto. intros k' q' IN L. rewrite forallb_forall in H. specialize (H _ IN). cbn [fst] in H. apply orb_true_iff in H. destruct H as [H|H]; [apply Nat.leb_le in H; lia|]. now apply negb_true_iff. }
  assert (Two : forall a b, joined T i [a; b] = kind_eqb (kind_at T i) a && touching T i && kind_eqb (kind_at T (S i)) b) by reflexivity.
  assert (Three : forall a b c, joined T i [a; b; c] = kind_eqb (kind_at T i) a && touching T i && (kind_eqb (kind_at T (S i)) b && touching T (S i) && kind_eqb (kind_at T (S (S i))) c)) by reflexivity.
  assert (One : forall a, joined T i [a] = kind_eqb (kind_at T i) a) by reflexivity.
  assert (Fin : forall k q, power k = Some q -> joined T i (parts k) = true -> forallb (fun x => (width (fst x) <=? width k) || negb (joined T i (parts (fst x)))) op_list = true -> exists k0 q0, op_at T i k0 /\ power k0 = Some q0 /\ (q, k) = (q0, k0)) by (intros k q P J H; exists k, q; auto).
  assert (Non : forall k0, kind_at T i = k0 -> forallb (fun x => negb (kind_eqb k0 (hd EOF (parts (fst x))))) op_list = true -> forall k q, power k = Some q -> joined T i (parts k) = false).
  { intros k0 K0 H k q P. apply power_in in P. rewrite forallb_forall in H. specialize (H _ P). cbn [fst] in H. apply negb_true_iff in H. rewrite <- K0 in H. clear - H. destruct k; cbn in H |- *; rewrite H; reflexivity. }
  unfold op_of. rewrite !NA, C. destruct (kind_at T i) eqn:K; try (right; right; split; [reflexivity|]; eapply Non; [first [exact K|reflexivity]|vm_compute; reflexivity]); try (right; left; split; reflexivity); left;
    cbn [parts spelling]; rewrite ?Two, ?Three; cbn [kind_eqb]; clear NA C F Non; 
    try (apply Fin; [reflexivity|cbn [parts spelling]; rewrite ?One; reflexivity|]; cbn [forallb op_list fst snd parts spelling width length Nat.leb orb]; rewrite ?One, ?Two, ?Three; reflexivity).
  all: destruct (touching T i) eqn:J0; [|rewrite ?andb_false_r; cbn [andb]].
  all: destruct (kind_eqb (kind_at T (S i)) IMPLIES) eqn:B1; [apply kind_eqb_spec in B1; rewrite B1 in *|destruct (kind_eqb (kind_at T (S i)) EQ) eqn:B2; [apply kind_eqb_spec in B2; rewrite B2 in *|
    destruct (kind_eqb (kind_at T (S i)) L_ANGLE) eqn:B3; [apply kind_eqb_spec in B3; rewrite B3 in *|destruct (kind_eqb (kind_at T (S i)) R_ANGLE) eqn:B4; [apply kind_eqb_spec in B4; rewrite B4 in *|
    destruct (kind_eqb (kind_at T (S i)) AMP) eqn:B5; [apply kind_eqb_spec in B5; rewrite B5 in *|destruct (kind_eqb (kind_at T (S i)) PIPE) eqn:B6; [apply kind_eqb_spec in B6; rewrite B6 in *|]]]]]].
  all: destruct (touching T (S i)) eqn:J1; destruct (kind_eqb (kind_at T (S (S i))) EQ) eqn:K2; rewrite ?kind_eqb_refl; rewrite ?andb_true_r, ?andb_false_r, ?andb_true_l;
    cbv [kind_eqb disc N.eqb Pos.eqb andb] in |- *; cbv iota; (apply Fin; [reflexivity|cbn [parts spelling]; rewrite ?One, ?Two, ?Three, ?K2, ?andb_true_r, ?andb_false_r; try rewrite B1; try rewrite B2; try rewrite B3; try rewrite B4; try rewrite B5; try rewrite B6; reflexivity|]).
  all: cbn [forallb op_list fst snd parts spelling width length Nat.leb orb]; rewrite ?One, ?Two, ?Three, ?K2, ?andb_true_r, ?andb_false_r; try rewrite B1; try rewrite B2; try rewrite B3; try rewrite B4; try rewrite B5; try rewrite B6; reflexivity.
Qed.
