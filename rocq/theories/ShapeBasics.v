(** Running the parser on tokens of a known shape: what it consumes, the calls it makes, what it answers. *)
From Coq Require Import String.
From Verif Require Import Base SyntaxKind ParserModel GrammarBase GrammarModel AddressModel TreeSinkModel TreeSinkSpec TreeSinkProps ParserSpec ParserProofs ParserProofs2 ParserProps GrammarDisc PrecSpec PrecRun PrecBasics ShapeSpec.
Close Scope string_scope.
Close Scope N_scope.
Open Scope nat_scope.

(** contextual keywords the parser recognises by their text alone *)
Definition bare_words : list string := ["match"; "for"; "forall"; "exists"; "choose"; "assert"]%string.
(** tokens without the end marker, a text for each, and none of these texts on a token of another kind *)
Class good (T : toks) (X : list text) : Prop := {
  g_end : no_end T;
  g_len : length X = length T;
  g_word : forall i s, In s bare_words -> word X i = str s -> kind_at T i = IDENT }.

(** ** The judgement *)
Definition rd {A} (T : toks) (e : env) (i : nat) (m : M A) (j : nat) (cs : list call) (Q : A -> Prop) : Prop :=
  yields e T i [] m j (fun a l => flat_map build l = cs /\ Q a).
Definition any {A} : A -> Prop := fun _ => True.
Definition under (rs : rset) (e : env) : env := set_rs (rs_union (e_rs e) rs) e.
Definition reset (e : env) : env := set_rs rs_empty e.

Section Rules.
Context {T : toks} {X : list text} {G : good T X}.
Let NE : no_end T := @g_end T X G.
Variable e : env.
Lemma r_ret : forall {A} i (a : A) (Q : A -> Prop), Q a -> rd T e i (ret a) i [] Q.
Proof. intros A i a Q q. apply y_ret. auto. Qed.
Lemma r_bind : forall {A B} i (m : M A) j cs (Q : A -> Prop) (k : A -> M B) n ds R, rd T e i m j cs Q -> (forall a, Q a -> rd T e j (k a) n ds R) -> rd T e i (mbind m k) n (cs ++ ds) R.
Proof.
  intros A B i m j cs Q k n ds R H K. eapply y_bind; [exact H|]. cbn beta. intros a l [E q]. eapply y_weaken; [eapply y_frame; apply K; exact q|]. cbn beta. intros b l' (x & -> & E' & r). split; auto. rewrite flat_map_app, E, E'. reflexivity.
Qed.
Lemma r_seq : forall {A B} i (m : M A) j cs v (k : A -> M B) n ds R, rd T e i m j cs (eq v) -> rd T e j (k v) n ds R -> rd T e i (mbind m k) n (cs ++ ds) R.
Proof. intros A B i m j cs v k n ds R H K. eapply r_bind; [exact H|]. intros a <-. exact K. Qed.
Lemma r_then : forall {A B} i (m : M A) j cs Q (k : M B) n ds R, rd T e i m j cs Q -> rd T e j k n ds R -> rd T e i (mbind m (fun _ => k)) n (cs ++ ds) R.
Proof. intros A B i m j cs Q k n ds R H K. eapply r_bind; [exact H|]. intros a _. exact K. Qed.
Lemma r_weaken : forall {A} i (m : M A) j cs (Q R : A -> Prop), rd T e i m j cs Q -> (forall a, Q a -> R a) -> rd T e i m j cs R.
Proof. intros A i m j cs Q R H K. eapply y_weaken; [exact H|]. cbn beta. intros a l [E q]. auto. Qed.
Lemma r_any : forall {A} i (m : M A) j cs (Q : A -> Prop), rd T e i m j cs Q -> rd T e i m j cs any.
Proof. intros A i m j cs Q H. eapply r_weaken; [exact H|]. unfold any. auto. Qed.
Lemma r_eq : forall {A} i (m : M A) j j' cs cs' (Q : A -> Prop), rd T e i m j' cs' Q -> j' = j -> cs' = cs -> rd T e i m j cs Q.
Proof. intros A i m j j' cs cs' Q H <- <-. exact H. Qed.
Lemma r_ask : forall {B} i t b (k : bool -> M B) n cs R, sees e T i t b -> rd T e i (k b) n cs R -> rd T e i (mbind (ask t) k) n cs R.
Proof. intros B i t b k n cs R S K. eapply y_ask; [exact S|exact K]. Qed.
Lemma r_either : forall {B} i t (k : bool -> M B) n cs R, (forall b, rd T e i (k b) n cs R) -> rd T e i (mbind (ask t) k) n cs R.
Proof. intros B i t k n cs R H p f rest HT Hp So O I. unfold mbind, ask. now apply H. Qed.
Lemma r_outer : forall {B} i (k : rset -> M B) n cs R, rd T e i (k (e_rs e)) n cs R -> rd T e i (mbind outer_rs k) n cs R.
Proof. intros B i k n cs R H. eapply (y_read_bind e T i [] (fun e _ => e_rs e)); eauto. Qed.
Lemma r_pos : forall {B} i (k : nat -> M B) n cs R, rd T e i (k i) n cs R -> rd T e i (mbind pos_ k) n cs R.
Proof. intros B i k n cs R H. eapply (y_read_bind e T i [] (fun _ p => p_pos p)); eauto. Qed.
Lemma r_kind : forall {B} i (k : stmt_kind -> M B) n cs R, rd T e i (k (e_sk e)) n cs R -> rd T e i (mbind stmt_kind_ k) n cs R.
Proof. intros B i k n cs R H. eapply (y_read_bind e T i [] (fun e _ => e_sk e)); eauto. Qed.
Lemma r_with : forall {A} rs i (m : M A) j cs Q, rd T (under rs e) i m j cs Q -> rd T e i (with_rs rs m) j cs Q.
Proof. intros A rs i m j cs Q H. exact H. Qed.
Lemma r_reset : forall {A} i (m : M A) j cs Q, rd T (reset e) i m j cs Q -> rd T e i (reset_rs m) j cs Q.
Proof. intros A i m j cs Q H. exact H. Qed.
Lemma r_assert : forall i t, sees e T i t true -> rd T e i (assert_ t) i [] any.
Proof. intros i t S. unfold assert_. eapply r_ask; [exact S|]. apply r_ret. exact Logic.I. Qed.
Lemma joined1 : forall i k, spelling k = None -> kind_at T i = k -> joined T i (parts k) = true.
Proof. intros i k S K. rewrite one by exact S. rewrite K. apply kind_eqb_refl. Qed.
Lemma width1 : forall k, spelling k = None -> width k = 1. Proof. intros k H. unfold width, parts. now rewrite H. Qed.
Definition simple (k : kind) : bool := okk k && match spelling k with None => true | _ => false end.
Lemma simple_ok : forall k, simple k = true -> okk k = true /\ spelling k = None.
Proof. intros k H. apply andb_true_iff in H. destruct H as [H1 H2]. split; auto. destruct (spelling k); congruence. Qed.
Lemma r_eat : forall i k, simple k = true -> kind_at T i = k -> rd T e i (eat_ k) (S i) [tk k] (eq true).
Proof.
  intros i k S K. apply simple_ok in S. destruct S as [O S]. pose proof (y_eat e T NE i [] k O (joined1 i k S K)) as H. rewrite (width1 k S), Nat.add_1_r in H. eapply y_weaken; [exact H|]. cbn beta. intros b l [-> ->]. auto.
Qed.
Lemma r_eat_no : forall i k, simple k = true -> kind_at T i <> k -> rd T e i (eat_ k) i [] (eq false).
Proof. intros i k S K. apply simple_ok in S. destruct S as [O S]. eapply y_weaken; [apply y_eat_no; rewrite one by exact S; now apply eqb_false|]. cbn beta. intros b l [-> ->]. auto. Qed.
Lemma r_bump : forall i k, simple k = true -> kind_at T i = k -> rd T e i (bump k) (S i) [tk k] any.
Proof. intros i k S K. unfold bump. change [tk k] with ([tk k] ++ []). eapply r_seq; [now apply r_eat|]. apply r_ret. exact Logic.I. Qed.
Lemma r_expect_msg : forall i k s, simple k = true -> kind_at T i = k -> rd T e i (expect_msg k s) (S i) [tk k] (eq true).
Proof. intros i k s S K. unfold expect_msg. change [tk k] with ([tk k] ++ []). eapply r_seq; [now apply r_eat|]. now apply r_ret. Qed.
Lemma r_expect : forall i k, simple k = true -> kind_at T i = k -> rd T e i (expect k) (S i) [tk k] (eq true).
Proof. intros i k S K. now apply r_expect_msg. Qed.
Lemma r_bump_any : forall i k, kind_at T i = k -> k <> EOF -> rd T e i bump_any_ (S i) [tk k] any.
Proof. intros i k K N. eapply y_weaken; [apply (y_bump_any e T NE i [] k K N)|]. cbn beta. intros b l ->. split; [reflexivity|exact Logic.I]. Qed.
Lemma r_remap : forall i k, okk k = true -> kind_at T i <> EOF -> rd T e i (remap k) (S i) [tk k] any.
Proof.
  intros i k K N p f rest HT Hp So O I. apply okk_spec in K. destruct K as (_ & TR & _). unfold remap, upd, bump_remap. rewrite cur_at, HT, Hp. destruct (kind_eqb_reflect (kind_at T i) EOF) as [|_]; [contradiction|].
  assert (L : i < length T) by now apply next_at. exists tt. eexists. exists [ITok k 1]. split; [reflexivity|]. split; [|split; [|split; [reflexivity|exact Logic.I]]].
  - unfold do_bump. cbn [push_event set_events p_pos]. rewrite bump_n_pos; [lia|rewrite HT; exact NE|rewrite HT, Hp; lia].
  - rewrite <- (app_nil_l [ITok k 1]), <- add_add. apply runs_bump; auto; [now apply one_careful|rewrite HT, Hp; lia].
Qed.
(** ** Nodes *)
Lemma shape_calls : forall c l cs, shape c l cs -> flat_map build l = cs.
Proof. intros c l cs (g & k & ch & -> & B & E). rewrite flat_map_app, B. cbn [flat_map app]. rewrite app_nil_r. exact E. Qed.
Lemma shape_blank : forall g c l cs, blank g -> shape c l cs -> shape c (g ++ l) cs.
Proof. intros g0 c l cs B0 (g & k & ch & -> & B & E). exists (g0 ++ g), k, ch. split; [now rewrite app_assoc|]. split; auto. unfold blank in *. rewrite flat_map_app, B0, B. reflexivity. Qed.
(** a function that ends with a completed marker for [cs] *)
Definition rc (T : toks) (e : env) (i : nat) (m : M cm) (j : nat) (cs : list call) (k : kind) : Prop := yields e T i [] m j (fun c l => shape c l cs /\ c_kind c = k).
Lemma rc_rd : forall i m j cs k, rc T e i m j cs k -> rd T e i m j cs any.
Proof. intros i m j cs k H. eapply y_weaken; [exact H|]. cbn beta. intros c l [S _]. split; [eapply shape_calls; eauto|exact Logic.I]. Qed.
Lemma c_node : forall {A} (body : M A) k i j cs Q, okk k = true -> rd T e i body j cs Q -> rc T e i (node k body) j (N k cs) k.
Proof.
  intros A body k i j cs Q K H p f rest HT Hp So O I. destruct (y_node_any e T body k i j _ K H [] p f rest HT Hp So I) as (c & p' & l' & E & P & Ru & a & ch & -> & B & _). exists c, p', ([] ++ [INode (c_pos c) false k ch]). split; auto. split; auto. split; auto.
  split; [|]. { exists [], k, ch. split; auto. split; [reflexivity|]. cbn [build]. rewrite B. reflexivity. }
  unfold node in E. destruct (start p) as [m p1]. destruct (body e p1) as [? p2| | |]; try discriminate. destruct (complete m k p2); [|discriminate]. injection E as <- _. reflexivity.
Qed.
Lemma r_node : forall {A} (body : M A) k i j cs Q, okk k = true -> rd T e i body j cs Q -> rd T e i (node k body) j (N k cs) any.
Proof. intros A body k i j cs Q K H. eapply rc_rd. eapply c_node; eauto. Qed.
Lemma c_marked : forall {A} (body : M (closing * A)) k (v : A) i j cs, okk k = true -> rd T e i body j cs (eq (Complete k, v)) ->
  yields e T i [] (marked body) j (fun x l => exists c, x = (Some c, v) /\ c_kind c = k /\ shape c l (N k cs)).
Proof.
  intros A body k v i j cs K H. eapply y_weaken; [eapply (y_marked_c e T body k i j (fun a l => a = v /\ flat_map build l = cs) K)|].
  - eapply y_weaken; [exact H|]. cbn beta. intros x l [E <-]. auto.
  - cbn beta. intros x l' (c & a & ch & -> & CK & -> & -> & B). exists c. split; auto. split; auto. exists [], k, ch. split; auto. split; [reflexivity|]. cbn [build]. rewrite B. reflexivity.
Qed.
Lemma r_marked : forall {A} (body : M (closing * A)) k (v : A) i j cs, okk k = true -> rd T e i body j cs (eq (Complete k, v)) -> rd T e i (marked body) j (N k cs) (fun x => snd x = v).
Proof. intros A body k v i j cs K H. eapply y_weaken; [eapply c_marked; eauto|]. cbn beta. intros x l (c & -> & _ & S). split; [eapply shape_calls; eauto|reflexivity]. Qed.
(** [let '(_, b) := marked ... in k b] *)
Lemma r_marked_then : forall {A B} (body : M (closing * A)) k (v : A) i j cs (f : option cm -> A -> M B) n ds R, okk k = true -> rd T e i body j cs (eq (Complete k, v)) -> (forall c, c_kind c = k -> rd T e j (f (Some c) v) n ds R) ->
  rd T e i ('(c, b) <- marked body ;; f c b)%gram n (N k cs ++ ds) R.
Proof.
  intros A B body k v i j cs f n ds R K H F. eapply y_bind; [eapply c_marked; eauto|]. cbn beta. intros x l (c & -> & CK & S). eapply y_weaken; [eapply y_frame; apply F; exact CK|]. cbn beta. intros b l' (y & -> & E & r). split; auto.
  rewrite flat_map_app, E. erewrite shape_calls; eauto.
Qed.
Lemma c_marked_cm : forall {A} (body : M (closing * A)) k (v : A) i j cs, okk k = true -> rd T e i body j cs (eq (Complete k, v)) -> rc T e i ('(c, _) <- marked body ;; the_cm c)%gram j (N k cs) k.
Proof. intros A body k v i j cs K H. eapply y_bind; [eapply c_marked; eauto|]. cbn beta. intros x l (c & -> & CK & S). apply y_ret. auto. Qed.
(** [preceded]: the node before goes inside *)
Lemma y_pre : forall {A} (body : M (kind * A)) k (v : A) i j cs cs0 c l, okk k = true -> shape c l cs0 -> rd T e i body j cs (eq (k, v)) ->
  yields e T i l (preceded c body) j (fun x l' => snd x = v /\ shape (fst x) l' (N k (cs0 ++ cs))).
Proof.
  intros A body k v i j cs cs0 c l K (g & k0 & ch0 & -> & B & E) H. eapply y_weaken; [apply (y_preceded e T body c g k0 ch0 i j (fun k' a l => k' = k /\ a = v /\ flat_map build l = cs0 ++ cs))|].
  - eapply y_weaken; [apply y_frame; exact H|]. cbn beta. intros x l' (y & -> & E' & <-). cbn [fst snd]. split; [split; auto; split; auto|exact K]. cbn [app flat_map]. rewrite E'. f_equal. exact E.
  - cbn beta. intros x l' (k' & ch & -> & -> & -> & E'). split; auto. exists g, k, ch. split; auto. split; auto. cbn [build]. rewrite E'. reflexivity.
Qed.
Lemma y_pre_c : forall {A} (body : M (kind * A)) k (v : A) i j cs cs0 c l, okk k = true -> shape c l cs0 -> rd T e i body j cs (eq (k, v)) ->
  yields e T i l ('(c', _) <- preceded c body ;; ret c')%gram j (fun c' l' => shape c' l' (N k (cs0 ++ cs))).
Proof. intros A body k v i j cs cs0 c l K S H. eapply y_bind; [eapply y_pre; eauto|]. cbn beta. intros [c' u] l' [_ S']. now apply y_ret. Qed.
(** a node first, then what looks at it *)
Lemma r_after : forall {B} i m j cs k (f : cm -> M B) n ds R, rc T e i m j cs k -> (forall c l, shape c l cs -> c_kind c = k -> yields e T j l (f c) n (fun b l' => flat_map build l' = ds /\ R b)) -> rd T e i (mbind m f) n ds R.
Proof. intros B i m j cs k f n ds R H F. eapply y_bind; [exact H|]. cbn beta. intros c l [S CK]. apply F; auto. Qed.

(** ** Loops *)
Section Turns.
Context {S R : Type}.
Variable f : S -> M (S + R).
Inductive turns : nat -> S -> list call -> nat -> R -> Prop :=
| turn_end : forall i s j cs r, rd T e i (f s) j cs (eq (inr r)) -> turns i s cs j r
| turn_go : forall i s j cs s' n ds r, rd T e i (f s) j cs (eq (inl s')) -> i < j -> j <= length T -> turns j s' ds n r -> turns i s (cs ++ ds) n r.
Lemma r_loop : forall i s j cs r, turns i s cs j r -> rd T e i (loop f s) j cs (eq r).
Proof.
  intros i s j cs r H. apply y_loop. assert (G0 : forall fuel, length T - i < fuel -> yields e T i [] (loop_ fuel f s) j (fun a l => flat_map build l = cs /\ r = a)); [|apply G0; lia].
  induction H as [i s j cs r H|i s j cs s' n ds r H L1 L2 _ IH]; intros [|fuel] L; try lia; cbn [loop_].
  - change (rd T e i (mbind (f s) (fun r0 => match r0 with inl s' => loop_ fuel f s' | inr x => ret x end)) j cs (eq r)). rewrite <- (app_nil_r cs). eapply r_seq; [exact H|]. now apply r_ret.
  - change (rd T e i (mbind (f s) (fun r0 => match r0 with inl s' => loop_ fuel f s' | inr x => ret x end)) n (cs ++ ds) (eq r)). eapply r_seq; [exact H|]. apply IH. lia.
Qed.
End Turns.
End Rules.

(** * Comma lists *)
Section Lists.
Context {T : toks} {X : list text} {G : good T X}.
Variable Q : nat -> list call -> nat -> Prop.
Inductive lst (c : kind) : nat -> list call -> nat -> Prop :=
| l_end : forall i, kind_at T i = c -> lst c i [] i
| l_one : forall i cs j, Q i cs j -> kind_at T j = c -> lst c i cs j
| l_more : forall i cs j ds k, Q i cs j -> kind_at T j = COMMA -> lst c (S j) ds k -> lst c i (cs ++ tk COMMA :: ds) k.
End Lists.
(** nothing here is in the recovery set *)
Definition away (T : toks) (X : list text) (e : env) (i : nat) : Prop :=
  ~ In (kind_at T i) (rs_kinds (e_rs e)) /\ (kind_at T i = IDENT -> ~ In (word X i) (rs_kws (e_rs e))).
Lemma mem_false : forall k l, ~ In k l -> GrammarBase.mem k l = false.
Proof. intros k l H. destruct (GrammarBase.mem k l) eqn:E; auto. apply existsb_exists in E. destruct E as (x & I & Q). apply kind_eqb_spec in Q. subst x. contradiction. Qed.
Lemma mem_true : forall k l, In k l -> GrammarBase.mem k l = true.
Proof. intros k l H. apply existsb_exists. exists k. split; auto. apply kind_eqb_refl. Qed.
Lemma mem_spec : forall k l, GrammarBase.mem k l = true <-> In k l.
Proof. intros k l. split; [|apply mem_true]. intros E. apply existsb_exists in E. destruct E as (x & I & Q). apply kind_eqb_spec in Q. now subst x. Qed.
Lemma texts_false : forall t l, ~ In t l -> existsb (text_eqb t) l = false.
Proof. intros t l H. destruct (existsb (text_eqb t) l) eqn:E; auto. apply existsb_exists in E. destruct E as (x & I & Q). unfold text_eqb in Q. destruct (text_eq_dec t x); [|discriminate]. subst x. contradiction. Qed.

Section Recovery.
Context {T : toks} {X : list text}.
Variable e : env.
Hypothesis EX : e_texts e = X.
(** [rs_nth] as a question about the token *)
Definition rsb (rs : rset) (i : nat) : bool :=
  if kind_eqb (kind_at T i) IDENT then GrammarBase.mem IDENT (rs_kinds rs) || existsb (text_eqb (word X i)) (rs_kws rs) else GrammarBase.mem (kind_at T i) (rs_kinds rs).
Lemma sees_rs : forall i rs, sees e T i (rs_here rs) (rsb rs i).
Proof. intros i rs p HT Hp. unfold rs_here, rs_nth, rsb, text_at, word. rewrite look_at, HT, Hp, Nat.add_0_r, EX. reflexivity. Qed.
Lemma sees_rs1 : forall i rs, sees e T i (rs_nth 1 rs) (rsb rs (S i)).
Proof. intros i rs p HT Hp. unfold rs_nth, rsb, text_at, word. rewrite look_at, HT, Hp, Nat.add_1_r, EX. reflexivity. Qed.
Lemma rsb_false : forall rs i, ~ In (kind_at T i) (rs_kinds rs) -> (kind_at T i = IDENT -> ~ In (word X i) (rs_kws rs)) -> rsb rs i = false.
Proof.
  intros rs i H1 H2. unfold rsb. destruct (kind_eqb_reflect (kind_at T i) IDENT) as [Q|Q]; [|now apply mem_false]. rewrite mem_false by (rewrite <- Q; exact H1). cbn. apply texts_false. auto.
Qed.
Lemma rsb_true : forall rs i, In (kind_at T i) (rs_kinds rs) -> rsb rs i = true.
Proof. intros rs i H. unfold rsb. destruct (kind_eqb_reflect (kind_at T i) IDENT) as [Q|Q]; [rewrite mem_true by (rewrite <- Q; exact H); reflexivity|now apply mem_true]. Qed.
End Recovery.

Section Delimited.
Context {T : toks} {X : list text} {G : good T X}.
Definition recovers (c : kind) : list kind := COMMA :: match c with PIPE => [] | k => [k] end.
(** [delimited] with a closing token *)
Lemma r_delimited : forall (Q : nat -> list call -> nat -> Prop) c i cs j, lst (T := T) Q c i cs j -> forall e elem msg, e_texts e = X -> simple c = true -> c <> COMMA -> c <> IDENT ->
  (forall i cs j, Q i cs j -> In (kind_at T j) [COMMA; c] -> i < j /\ kind_at T i <> c /\ kind_at T i <> EOF /\ away T X e i /\ rd T (under (rs_of (recovers c)) e) i elem j cs (eq true)) ->
  rd T e i (delimited elem COMMA msg (Some c)) j cs any.
Proof.
  intros Q c i cs j H e elem msg EX SI CC CI EL. unfold delimited. apply r_outer. apply r_any with (Q0 := eq tt) || apply (r_any e i _ j cs (eq tt)). apply r_loop.
  assert (CE : c <> EOF) by (intros ->; discriminate).
  assert (M1 : forall i, kind_at T i = c -> rsb (T := T) (X := X) (rs_without COMMA (rs_union (e_rs e) (rs_of [c]))) i = true).
  { intros i0 K. apply rsb_true. cbn. rewrite filter_In. split; [apply in_or_app; right; left; congruence|]. rewrite K. now rewrite eqb_false by exact CC. }
  assert (M2 : forall i, kind_at T i = COMMA -> rsb (T := T) (X := X) (rs_without COMMA (rs_union (e_rs e) (rs_of [c]))) i = false).
  { intros i0 K. apply rsb_false; [|rewrite K; discriminate]. cbn. rewrite filter_In, K. intros [_ E]. discriminate. }
  assert (M3 : forall i, away T X e i -> kind_at T i <> c -> rsb (T := T) (X := X) (rs_without COMMA (rs_union (e_rs e) (rs_of [c]))) i = false).
  { intros i0 [A1 A2] K. apply rsb_false; cbn; [rewrite filter_In; intros [E _]; apply in_app_or in E; cbn in E; destruct E as [E|[E|[]]]; [contradiction|congruence]|rewrite app_nil_r; exact A2]. }
  enough (W : forall b, turns e (delim_step elem COMMA msg (Some c) (e_rs e)) i b cs j tt) by apply W.
  induction H as [i K|i cs j HQ K|i cs j ds k HQ K HL IH]; intros b.
  - apply turn_end. unfold delim_step. apply r_ask with (b := true); [eapply sees_is; [apply sees_or; [now apply sees_at1|apply sees_ts; reflexivity]|]|now apply r_ret]. rewrite K. cbn. now rewrite kind_eqb_refl, orb_true_r.
  - destruct (EL _ _ _ HQ) as (L & F1 & F2 & F3 & F4); [rewrite K; cbn; auto|]. apply turn_end. unfold delim_step. eapply r_ask; [eapply sees_is; [apply sees_or; [now apply sees_at1|apply sees_ts; reflexivity]|]; rewrite eqb_false by exact F2; cbn; now rewrite eqb_false by exact F1|].
    cbv iota. apply r_pos. rewrite <- (app_nil_r cs). eapply r_seq; [apply r_with; unfold recovers in F4; destruct c; exact F4|]. cbn [negb]. cbv iota. change (@nil call) with (@nil call ++ []). eapply r_seq; [now apply r_ret|]. cbv iota.
    eapply r_ask; [eapply sees_is; [apply (sees_rs (X := X)); exact EX|now apply M1]|]. now apply r_ret.
  - destruct (EL _ _ _ HQ) as (L & F1 & F2 & F3 & F4); [rewrite K; cbn; auto|]. assert (LJ : S j <= length T) by (apply next_at; rewrite K; discriminate).
    assert (HH : rd T e i (delim_step elem COMMA msg (Some c) (e_rs e) b) (S j) (cs ++ [tk COMMA]) (eq (if rsb (T := T) (X := X) (rs_without COMMA (rs_union (e_rs e) (rs_of [c]))) (S j) then inr tt else inl false))).
    { unfold delim_step. eapply r_ask; [eapply sees_is; [apply sees_or; [now apply sees_at1|apply sees_ts; reflexivity]|]; rewrite eqb_false by exact F2; cbn; now rewrite eqb_false by exact F1|].
      cbv iota. apply r_pos. eapply r_seq; [apply r_with; unfold recovers in F4; destruct c; exact F4|]. cbn [negb]. cbv iota. change [tk COMMA] with ([] ++ [tk COMMA] ++ []). eapply r_seq; [now apply r_ret|]. cbv iota.
      eapply r_ask; [eapply sees_is; [apply (sees_rs (X := X)); exact EX|now apply M2]|]. cbv iota. eapply r_seq; [apply r_expect; auto|]. eapply r_ask; [eapply sees_is; [apply sees_and; [apply sees_const|apply (sees_rs (X := X)); exact EX]|reflexivity]|]. cbn [andb]. change (kind_eqb COMMA COMMA) with true. cbn [andb].
      destruct (rsb _ (S j)); [now apply r_ret|]. apply r_pos. destruct (Nat.eqb_spec (S j) i); [lia|]. now apply r_ret. }
    destruct (rsb (T := T) (X := X) (rs_without COMMA (rs_union (e_rs e) (rs_of [c]))) (S j)) eqn:RB.
    + inversion HL as [i1 K1 | i1 cs1 j1 HQ1 K1 | i1 cs1 j1 ds1 k1 HQ1 K1 HL1]; subst.
      * apply turn_end. exact HH.
      * destruct (EL _ _ _ HQ1) as (_ & F1' & _ & F3' & _); [rewrite ?K1; cbn; auto|]. rewrite M3 in RB by auto. discriminate.
      * destruct (EL _ _ _ HQ1) as (_ & F1' & _ & F3' & _); [rewrite ?K1; cbn; auto|]. rewrite M3 in RB by auto. discriminate.
    + replace (cs ++ tk COMMA :: ds) with ((cs ++ [tk COMMA]) ++ ds) by (rewrite <- app_assoc; reflexivity). eapply turn_go; [exact HH|lia|exact LJ|]. apply IH.
Qed.
End Delimited.

(** * Environments *)
(** recovery keywords that may be in force *)
Definition stoppers : list text := [str "enum"; str "has"].
(** none of these kinds is in the recovery set *)
Definition ok (X : list text) (l : list kind) (e : env) : Prop :=
  e_texts e = X /\ e_sk e = SMove /\ (forall k, In k (rs_kinds (e_rs e)) -> ~ In k l) /\ incl (rs_kws (e_rs e)) stoppers.
Lemma ok_texts : forall X l e, ok X l e -> e_texts e = X. Proof. intros X l e H. apply H. Qed.
Lemma ok_sk : forall X l e, ok X l e -> e_sk e = SMove. Proof. intros X l e H. apply H. Qed.
Lemma ok_sub : forall X l l' e, ok X l e -> forallb (fun k => GrammarBase.mem k l) l' = true -> ok X l' e.
Proof.
  intros X l l' e (H1 & H2 & H3 & H4) S. split; [exact H1|split; [exact H2|split; [|exact H4]]]. intros k I J. rewrite forallb_forall in S. specialize (S _ J). apply mem_spec in S. exact (H3 k I S).
Qed.
Definition clear_of (l : list kind) (rs : rset) : bool := forallb (fun k => negb (GrammarBase.mem k l)) (rs_kinds rs) && forallb (fun t => existsb (text_eqb t) stoppers) (rs_kws rs).
Lemma text_eqb_spec : forall a b, text_eqb a b = true <-> a = b.
Proof. intros a b. unfold text_eqb. destruct (text_eq_dec a b); split; congruence. Qed.
Lemma ok_under : forall X l rs e, ok X l e -> clear_of l rs = true -> ok X l (under rs e).
Proof.
  intros X l rs e (H1 & H2 & H3 & H4) C. apply andb_true_iff in C. destruct C as [C1 C2]. rewrite forallb_forall in C1, C2. split; [exact H1|split; [exact H2|]]. cbn. split.
  - intros k I. apply in_app_or in I. destruct I as [I|I]; [now apply H3|]. specialize (C1 _ I). apply negb_true_iff in C1. intros J. apply mem_true in J. congruence.
  - intros t I. apply in_app_or in I. destruct I as [I|I]; [now apply H4|]. specialize (C2 _ I). apply existsb_exists in C2. destruct C2 as (x & IN & Q). apply text_eqb_spec in Q. now subst x.
Qed.
Lemma ok_reset : forall X l l' e, ok X l e -> ok X l' (reset e).
Proof. intros X l l' e (H1 & H2 & _). split; [exact H1|split; [exact H2|]]. cbn. split; [tauto|]. intros t []. Qed.
Lemma ok_away : forall T X l e i, ok X l e -> In (kind_at T i) l -> (kind_at T i = IDENT -> forall s, In s ["enum"; "has"]%string -> word X i <> str s) -> away T X e i.
Proof.
  intros T X l e i (H1 & H2 & H3 & H4) I N. split; [intros J; exact (H3 _ J I)|]. intros K J. apply H4 in J. destruct J as [J|[J|[]]].
  - apply (N K "enum"%string); [cbn; tauto|now rewrite J].
  - apply (N K "has"%string); [cbn; tauto|now rewrite J].
Qed.

(** * Looking *)
Lemma t_kw_word : forall X e p i s, e_texts e = X -> p_pos p = i -> str s <> [] -> t_kw s e p = text_eqb (word X i) (str s).
Proof.
  intros X e p i s <- <- N. unfold t_kw, text_at, word. rewrite Nat.add_0_r. destruct (Nat.ltb_spec (p_pos p) (length (e_texts e))) as [|L]; [reflexivity|]. cbn [andb]. rewrite nth_overflow by exact L. symmetry. unfold text_eqb. destruct (text_eq_dec [] (str s)); congruence.
Qed.
Lemma text_no : forall X i l s, (forall s, In s l -> word X i <> str s) -> existsb (String.eqb s) l = true -> text_eqb (word X i) (str s) = false.
Proof. intros X i l s H I. apply existsb_exists in I. destruct I as (x & I & Q). apply String.eqb_eq in Q. subst x. destruct (text_eqb (word X i) (str s)) eqn:E; [|reflexivity]. apply text_eqb_spec in E. now elim (H _ I). Qed.
Lemma text_ne : forall X i s, word X i <> str s -> text_eqb (word X i) (str s) = false.
Proof. intros X i s H. destruct (text_eqb (word X i) (str s)) eqn:E; [|reflexivity]. apply text_eqb_spec in E. contradiction. Qed.
Lemma bare_no : forall T X i s, good T X -> kind_at T i <> IDENT -> existsb (String.eqb s) bare_words = true -> text_eqb (word X i) (str s) = false.
Proof. intros T X i s G N I. apply existsb_exists in I. destruct I as (x & I & Q). apply String.eqb_eq in Q. subst x. apply text_ne. intros E. apply N. exact (@g_word T X G i s I E). Qed.
Lemma not_kw : forall T X i s, ~ kw T X i s -> kind_eqb (kind_at T i) IDENT && text_eqb (word X i) (str s) = false.
Proof. intros T X i s H. destruct (kind_eqb_reflect (kind_at T i) IDENT) as [Q|Q]; [|reflexivity]. cbn. apply text_ne. intros E. apply H. split; assumption. Qed.
Definition subset (a b : list kind) : bool := forallb (fun k => GrammarBase.mem k b) a.
Definition disjoint (a b : list kind) : bool := forallb (fun k => negb (GrammarBase.mem k b)) a.
Lemma mem_nin : forall k l l', ~ In k l -> subset l' l = true -> GrammarBase.mem k l' = false.
Proof. intros k l l' N S. apply mem_false. intros I. apply N. unfold subset in S. rewrite forallb_forall in S. apply mem_spec. auto. Qed.
Lemma mem_in : forall k l l', In k l -> subset l l' = true -> GrammarBase.mem k l' = true.
Proof. intros k l l' N S. unfold subset in S. rewrite forallb_forall in S. auto. Qed.
Lemma mem_out : forall k l l', In k l -> disjoint l l' = true -> GrammarBase.mem k l' = false.
Proof. intros k l l' N S. unfold disjoint in S. rewrite forallb_forall in S. specialize (S _ N). now apply negb_true_iff. Qed.
Lemma eqb_out : forall k l a, In k l -> GrammarBase.mem a l = false -> kind_eqb k a = false.
Proof. intros k l a N S. apply eqb_false. intros ->. apply mem_true in N. congruence. Qed.
Lemma eqb_nin : forall k l a, ~ In k l -> GrammarBase.mem a l = true -> kind_eqb k a = false.
Proof. intros k l a N S. apply eqb_false. intros ->. apply mem_spec in S. contradiction. Qed.
Lemma in_other : forall k l a, In k l -> GrammarBase.mem a l = false -> k <> a.
Proof. intros k l a N S ->. apply mem_true in N. congruence. Qed.
Ltac prep :=
  unfold ShapeSpec.K, among in *;
  repeat match goal with
  | H : _ /\ _ |- _ => destruct H
  | H : id _ _ _ |- _ => destruct H
  | H : kw _ _ _ _ |- _ => destruct H
  | H : ordinary _ _ _ |- _ => destruct H
  | H : exists _, _ |- _ => destruct H
  end;
  unfold ShapeSpec.K in *.
Ltac ground t := let v := eval vm_compute in t in lazymatch v with true => change t with true | false => change t with false end.
Ltac fact :=
  match goal with
  | H : kind_at ?T ?i = _ |- context [kind_at ?T ?i] => rewrite H
  | H : word ?X ?i = str _ |- context [word ?X ?i] => rewrite H
  | H : kind_at ?T ?i <> ?k |- context [kind_eqb (kind_at ?T ?i) ?k] => rewrite (eqb_false _ _ H)
  | H : ~ In (kind_at ?T ?i) ?l |- context [kind_eqb (kind_at ?T ?i) ?k] => rewrite (eqb_nin _ l k H) by (vm_compute; reflexivity)
  | H : In (kind_at ?T ?i) ?l |- context [kind_eqb (kind_at ?T ?i) ?k] => rewrite (eqb_out _ l k H) by (vm_compute; reflexivity)
  | H : ~ In (kind_at ?T ?i) ?l |- context [GrammarBase.mem (kind_at ?T ?i) ?l'] => rewrite (mem_nin _ l l' H) by (vm_compute; reflexivity)
  | H : In (kind_at ?T ?i) ?l |- context [GrammarBase.mem (kind_at ?T ?i) ?l'] => first [rewrite (mem_in _ l l' H) by (vm_compute; reflexivity) | rewrite (mem_out _ l l' H) by (vm_compute; reflexivity)]
  | H : ~ kw ?T ?X ?i ?s |- context [kind_eqb (kind_at ?T ?i) IDENT && text_eqb (word ?X ?i) (str ?s)] => rewrite (not_kw T X i s H)
  | H : forall s, In s ?l -> word ?X ?i <> str s |- context [text_eqb (word ?X ?i) (str ?s)] => rewrite (text_no X i l s H) by (vm_compute; reflexivity)
  | H : word ?X ?i <> str ?s |- context [text_eqb (word ?X ?i) (str ?s)] => rewrite (text_ne X i s H)
  | |- context [kind_eqb ?a ?b] => ground (kind_eqb a b)
  | |- context [GrammarBase.mem ?a ?b] => ground (GrammarBase.mem a b)
  | |- context [text_eqb ?a ?b] => ground (text_eqb a b)
  | G : good ?T ?X, H : kind_at ?T ?i <> IDENT |- context [text_eqb (word ?X ?i) (str ?s)] => rewrite (bare_no T X i s G H) by (vm_compute; reflexivity)
  | G : good ?T ?X, H : kind_at ?T ?i = _ |- context [text_eqb (word ?X ?i) (str ?s)] => rewrite (bare_no T X i s G) by (first [rewrite H; discriminate | vm_compute; reflexivity])
  | G : good ?T ?X, H : In (kind_at ?T ?i) ?l |- context [text_eqb (word ?X ?i) (str ?s)] => rewrite (bare_no T X i s G) by (first [solve [eapply in_other; [exact H|vm_compute; reflexivity]] | vm_compute; reflexivity])
  end.
Ltac bools := cbn [andb orb negb Bool.eqb]; rewrite ?andb_false_r, ?orb_true_r, ?andb_true_r, ?orb_false_r; cbn [andb orb negb].
Ltac texts := cbn [e_texts under reset set_rs]; first [assumption | eapply ok_texts; eassumption].
Ltac look :=
  let p := fresh "p" in let HT := fresh "HT" in let Hp := fresh "Hp" in
  intros p HT Hp;
  unfold is_path_start, is_literal_pat_start, is_at_quant_kw, is_assert_ident, on_function_modifiers_start, on_visibility_modifier_start, range_operand, is_behavior, t_kwi, t_or, t_and, t_not, t_at, t_cur, t_nth, t_nth_at, t_ts, t_nth_ts;
  rewrite ?cur_at, ?nth_at_joined, ?look_at, ?HT, ?Hp;
  cbn [parts spelling joined];
  rewrite ?Nat.add_0_r, ?Nat.add_1_r;
  repeat match goal with |- context [t_kw ?s ?e ?q] => erewrite (t_kw_word _ e q _ s); [|texts|exact Hp|vm_compute; discriminate] end;
  clear p HT Hp;
  repeat (bools; try reflexivity; fact); bools; try reflexivity.
Ltac yes := apply r_ask with (b := true); [solve [look]|cbv iota].
Ltac no := apply r_ask with (b := false); [solve [look]|cbv iota].

(** * More rules *)
Section More.
Context {T : toks} {X : list text} {G : good T X}.
Variable e : env.
Lemma r_ext : forall {A} (m m' : M A) i j cs Q, (forall e p, m e p = m' e p) -> rd T e i m' j cs Q -> rd T e i m j cs Q.
Proof. intros A m m' i j cs Q E H p f rest HT Hp So O I. destruct (H p f rest HT Hp So O I) as (a & p' & l & E1 & R). exists a, p', l. rewrite E. auto. Qed.
Lemma r_assoc : forall {A B C} (m : M A) (f : A -> M B) (g : B -> M C) i j cs Q, rd T e i (mbind m (fun a => mbind (f a) g)) j cs Q -> rd T e i (mbind (mbind m f) g) j cs Q.
Proof. intros A B C m f g i j cs Q H. eapply r_ext; [|exact H]. intros e0 p. unfold mbind. destruct (m e0 p); reflexivity. Qed.
(** [if b then .. else ..] in front *)
Lemma r_skip : forall {B} (k : M B) i j cs Q, rd T e i k j cs Q -> rd T e i (mbind skip (fun _ => k)) j cs Q.
Proof. intros B k i j cs Q H. eapply r_ext; [|exact H]. reflexivity. Qed.
Lemma r_ret_then : forall {A B} (a : A) (k : A -> M B) i j cs Q, rd T e i (k a) j cs Q -> rd T e i (mbind (ret a) k) j cs Q.
Proof. intros A B a k i j cs Q H. eapply r_ext; [|exact H]. reflexivity. Qed.
Lemma r_assert_then : forall {B} (k : M B) t i j cs Q, sees e T i t true -> rd T e i k j cs Q -> rd T e i (mbind (assert_ t) (fun _ => k)) j cs Q.
Proof. intros B k t i j cs Q S H. change cs with ([] ++ cs). eapply r_then; [now apply r_assert|exact H]. Qed.

(** ** Loops that build on the node before *)
Section Walk.
Context {S R : Type}.
Variable f : S -> M (S + R).
Definition onestep (i : nat) (cs : list call) (s : cm -> S) (j : nat) (cs' : list call) (s' : cm -> S) : Prop :=
  forall c l, shape c l cs -> yields e T i l (f (s c)) j (fun r l' => exists c', r = inl (s' c') /\ shape c' l' cs').
Inductive walk (i : nat) (cs : list call) (s : cm -> S) : nat -> list call -> (cm -> S) -> Prop :=
| w_nil : walk i cs s i cs s
| w_snoc : forall j cs1 s1 k cs2 s2, walk i cs s j cs1 s1 -> onestep j cs1 s1 k cs2 s2 -> j < k -> k <= length T -> walk i cs s k cs2 s2.
Lemma walk_loop : forall i cs s j cs1 s1, walk i cs s j cs1 s1 -> forall n (Q : R -> list item -> Prop), (forall c l, shape c l cs1 -> yields e T j l (f (s1 c)) n (fun r l' => exists x, r = inr x /\ Q x l')) ->
  forall c l, shape c l cs -> yields e T i l (loop f (s c)) n Q.
Proof.
  intros i cs s j cs1 s1 W n Q E.
  assert (G0 : forall fuel c l, length T - i < fuel -> shape c l cs -> yields e T i l (loop_ fuel f (s c)) n Q).
  - assert (D : forall fuel c l, length T - j < fuel -> shape c l cs1 -> yields e T j l (loop_ fuel f (s1 c)) n Q).
    { intros [|fuel] c l L Sh; [lia|]. cbn [loop_]. change (yields e T j l (mbind (f (s1 c)) (fun r0 => match r0 with inl s' => loop_ fuel f s' | inr x => ret x end)) n Q). eapply y_bind; [apply E; exact Sh|]. cbn beta. intros r l' (x & -> & q). now apply y_ret. }
    clear E. revert D. induction W as [|j cs1 s1 k cs2 s2 W IH O L1 L2]; intros D; [exact D|]. apply IH. intros [|fuel] c l L Sh; [lia|]. cbn [loop_].
    change (yields e T j l (mbind (f (s1 c)) (fun r0 => match r0 with inl s' => loop_ fuel f s' | inr x => ret x end)) n Q). eapply y_bind; [apply O; exact Sh|]. cbn beta. intros r l' (c' & -> & Sh'). apply D; [lia|exact Sh'].
  - intros c l Sh. apply y_loop. apply G0; [lia|exact Sh].
Qed.
Lemma walk_le : forall i cs s j cs1 s1, walk i cs s j cs1 s1 -> i <= j.
Proof. induction 1; lia. Qed.
End Walk.

(** ** iterate_to_EOF *)
Section Iter.
Context {S : Type}.
Variables (stop : list kind) (f : S -> M (bool * S)).
Inductive its : nat -> S -> list call -> nat -> S -> Prop :=
| it_stop : forall i s, In (kind_at T i) (EOF :: stop) -> its i s [] i s
| it_break : forall i s cs j s', ~ In (kind_at T i) (EOF :: stop) -> rd T (under (rs_of stop) e) i (f s) j cs (eq (false, s')) -> its i s cs j s'
| it_go : forall i s cs j s' ds n r, ~ In (kind_at T i) (EOF :: stop) -> rd T (under (rs_of stop) e) i (f s) j cs (eq (true, s')) -> i < j -> j <= length T ->
    ~ In (kind_at T j) (rs_kinds (e_rs e)) \/ In (kind_at T j) (EOF :: stop) -> its j s' ds n r -> its i s (cs ++ ds) n r.
Lemma r_iter : forall i s cs j r, its i s cs j r -> rd T e i (iterate_to_EOF stop f s) j cs (eq r).
Proof.
  intros i s cs j r H. apply r_loop.
  assert (ST : forall i b, GrammarBase.mem (kind_at T i) (EOF :: stop) = b -> sees e T i (t_or (t_at EOF) (t_ts stop)) b).
  { intros i0 b E. eapply sees_is; [apply sees_or; [now apply sees_at1|apply sees_ts; reflexivity]|]. rewrite <- E. reflexivity. }
  induction H as [i s K|i s cs j s' K H|i s cs j s' ds n r K H L1 L2 D HI IH].
  - apply turn_end. unfold iter_step. apply r_ask with (b := true); [apply ST; now apply mem_true|]. now apply r_ret.
  - apply turn_end. unfold iter_step. apply r_ask with (b := false); [apply ST; now apply mem_false|]. cbv iota. apply r_pos. rewrite <- (app_nil_r cs). eapply r_seq; [apply r_with; exact H|]. now apply r_ret.
  - destruct (GrammarBase.mem (kind_at T j) (rs_kinds (e_rs e))) eqn:M.
    + destruct D as [D|D]; [apply mem_spec in M; contradiction|]. inversion HI; subst; try contradiction. rewrite app_nil_r. apply turn_end. unfold iter_step. apply r_ask with (b := false); [apply ST; now apply mem_false|]. cbv iota. apply r_pos.
      rewrite <- (app_nil_r cs). eapply r_seq; [apply r_with; exact H|]. cbn [negb]. cbv iota. apply r_outer. apply r_ask with (b := true); [eapply sees_is; [apply sees_ts; reflexivity|exact M]|]. now apply r_ret.
    + eapply turn_go; [|exact L1|exact L2|exact IH]. unfold iter_step. apply r_ask with (b := false); [apply ST; now apply mem_false|]. cbv iota. apply r_pos.
      rewrite <- (app_nil_r cs). eapply r_seq; [apply r_with; exact H|]. cbn [negb]. cbv iota. apply r_outer. apply r_ask with (b := false); [eapply sees_is; [apply sees_ts; reflexivity|exact M]|]. cbv iota. apply r_pos. destruct (Nat.eqb_spec j i); [lia|]. now apply r_ret.
Qed.
End Iter.

(** ** Names *)
Lemma sees_away : forall rs i, e_texts e = X -> ~ In (kind_at T i) (rs_kinds rs) -> (kind_at T i = IDENT -> ~ In (word X i) (rs_kws rs)) -> sees e T i (rs_here rs) false.
Proof. intros rs i EX H1 H2. eapply sees_is; [apply (sees_rs (X := X)); exact EX|]. now apply rsb_false. Qed.
Lemma r_name_ref : forall i, kind_at T i = IDENT -> rd T e i name_ref (Datatypes.S i) NREF (eq true).
Proof.
  intros i K. unfold name_ref. apply r_ask with (b := true); [eapply sees_is; [now apply sees_at1|rewrite K; reflexivity]|]. cbv iota. change NREF with (N NAME_REF [tk IDENT] ++ []). eapply r_then; [eapply r_node; [reflexivity|now apply r_bump]|]. now apply r_ret.
Qed.
Lemma r_name_or : forall extra i, e_texts e = X -> kind_at T i = IDENT -> away T X (under extra e) i -> rd T e i (name_or_recover extra) (Datatypes.S i) NAME_ (eq true).
Proof.
  intros extra i EX K [A1 A2]. unfold name_or_recover. apply r_ask with (b := true); [eapply sees_is; [now apply sees_at1|rewrite K; reflexivity]|]. cbv iota. apply r_outer.
  apply r_ask with (b := false); [apply sees_away; auto|]. cbv iota. change NAME_ with (N NAME [tk IDENT] ++ []). eapply r_then; [eapply r_node; [reflexivity|now apply r_bump]|]. now apply r_ret.
Qed.
Lemma r_value_address : forall i, kind_at T i = INT_NUMBER -> rd T e i value_address (Datatypes.S i) (N VALUE_ADDRESS [tk INT_NUMBER]) any.
Proof.
  intros i K. unfold value_address. apply r_assert_then; [eapply sees_is; [now apply sees_at1|rewrite K; reflexivity]|]. rewrite <- (app_nil_r (N _ _)). eapply r_then; [eapply r_node; [reflexivity|now apply r_bump]|]. now apply r_ret.
Qed.
Lemma r_ability : forall i, kind_at T i = IDENT -> rd T e i ability (Datatypes.S i) (N ABILITY [tk IDENT]) (eq true).
Proof.
  intros i K. unfold ability. apply r_ask with (b := true); [eapply sees_is; [now apply sees_at1|rewrite K; reflexivity]|]. cbv iota. rewrite <- (app_nil_r (N _ _)). eapply r_then; [eapply r_node; [reflexivity|now apply r_bump]|]. now apply r_ret.
Qed.
End More.
Lemma away_ident : forall T X e i, ok X [IDENT] e -> id T X i -> away T X e i.
Proof. intros T X e i O [K W]. eapply ok_away; [exact O|rewrite K; cbn; auto|]. intros _ s [<-|[<-|[]]]; apply W; cbn; auto. Qed.
Lemma away_under : forall T X e rs i, away T X e i -> ~ In (kind_at T i) (rs_kinds rs) -> rs_kws rs = [] -> away T X (under rs e) i.
Proof. intros T X e rs i [A1 A2] H1 H2. split; cbn; [intros I; apply in_app_or in I; tauto|rewrite H2, app_nil_r; exact A2]. Qed.
Section Names.
Context {T : toks} {X : list text} {G : good T X}.
Variable e : env.
Lemma r_name : forall i, ok X [IDENT] e -> id T X i -> rd T e i name (Datatypes.S i) NAME_ (eq true).
Proof. intros i O D. apply (r_name_or (X := X)); [apply O|apply D|]. apply away_under; [now apply away_ident|cbn; tauto|reflexivity]. Qed.
Lemma r_ident_pat : forall i, ok X [IDENT] e -> id T X i -> rd T e i ident_pat (Datatypes.S i) IPAT any.
Proof. intros i O D. unfold ident_pat. rewrite <- (app_nil_r IPAT). eapply r_then; [eapply r_node; [reflexivity|now apply r_name]|]. now apply r_ret. Qed.
Lemma r_wildcard : forall i, kind_at T i = UNDERSCORE -> rd T e i wildcard_pat (Datatypes.S i) WPAT any.
Proof. intros i K. unfold wildcard_pat. apply r_assert_then; [eapply sees_is; [now apply sees_at1|rewrite K; reflexivity]|]. rewrite <- (app_nil_r WPAT). eapply r_then; [eapply r_node; [reflexivity|now apply r_bump]|]. now apply r_ret. Qed.
(** abilities separated by [d], up to a token in the recovery set *)
Lemma r_abils : forall d i cs j, der T X (Abils d) i cs j -> In d [PLUS; COMMA] -> ok X [IDENT] e -> In (kind_at T j) (rs_kinds (e_rs e)) -> kind_at T j <> d -> forall msg, rd T e i (delimited ability d msg None) j cs any.
Proof.
  intros d i cs j H D O J JD msg. unfold delimited. apply r_outer. apply (r_any e i _ j cs (eq tt)). apply r_loop.
  assert (EX : e_texts e = X) by apply O. assert (SI : simple d = true) by (destruct D as [<-|[<-|[]]]; reflexivity).
  assert (M1 : rsb (T := T) (X := X) (rs_without d (rs_union (e_rs e) (rs_of []))) j = true).
  { apply rsb_true. cbn. rewrite filter_In. split; [apply in_or_app; auto|]. now rewrite eqb_false by exact JD. }
  assert (M2 : forall i, kind_at T i = d -> rsb (T := T) (X := X) (rs_without d (rs_union (e_rs e) (rs_of []))) i = false).
  { intros i0 K. apply rsb_false; [|intros Q; rewrite K in Q; destruct D as [<-|[<-|[]]]; discriminate]. cbn. rewrite filter_In, K. rewrite kind_eqb_refl. intros [_ E]. discriminate. }
  assert (M3 : forall i, id T X i -> rsb (T := T) (X := X) (rs_without d (rs_union (e_rs e) (rs_of []))) i = false).
  { intros i0 K. destruct (away_ident _ _ _ _ O K) as [A1 A2]. apply rsb_false; cbn; [rewrite filter_In, app_nil_r; tauto|rewrite app_nil_r; exact A2]. }
  assert (NE : forall i, kind_at T i = IDENT -> sees e T i (t_or (t_at EOF) (t_ts [])) false).
  { intros i0 K. eapply sees_is; [apply sees_or; [now apply sees_at1|apply sees_ts; reflexivity]|]. rewrite K. reflexivity. }
  enough (W : forall b, turns e (delim_step ability d msg None (e_rs e)) i b cs j tt) by apply W.
  remember (Abils d) as A eqn:EA. induction H; try discriminate; injection EA as ->; intros b.
  - destruct H as [K W]. apply turn_end. unfold delim_step. apply r_ask with (b := false); [now apply NE|]. cbv iota. apply r_pos. rewrite <- (app_nil_r (N _ _)). eapply r_seq; [apply r_with; now apply r_ability|]. cbn [negb]. cbv iota. apply r_ret_then. cbv iota.
    apply r_ask with (b := true); [eapply sees_is; [apply (sees_rs (X := X)); exact EX|exact M1]|]. now apply r_ret.
  - pose proof H as HI. destruct H as [K W]. unfold ShapeSpec.K in H0. replace (N ABILITY [tk IDENT] ++ tk d :: a) with ((N ABILITY [tk IDENT] ++ [tk d]) ++ a) by reflexivity.
    eapply turn_go with (j := Datatypes.S (Datatypes.S i)) (s' := false); [|lia|apply next_at; rewrite H0; intros ->; discriminate|apply IHder; auto].
    unfold delim_step. apply r_ask with (b := false); [now apply NE|]. cbv iota. apply r_pos. eapply r_seq; [apply r_with; now apply r_ability|]. cbn [negb]. cbv iota. apply r_ret_then. cbv iota.
    apply r_ask with (b := false); [eapply sees_is; [apply (sees_rs (X := X)); exact EX|now apply M2]|]. cbv iota. rewrite <- (app_nil_r [tk d]). eapply r_seq; [now apply r_expect|].
    assert (ID2 : id T X (Datatypes.S (Datatypes.S i))) by (inversion H1; subst; auto).
    apply r_ask with (b := false); [eapply sees_is; [apply sees_and; [apply sees_const|apply (sees_rs (X := X)); exact EX]|rewrite M3 by exact ID2; apply andb_false_r]|]. cbv iota. apply r_pos. destruct (Nat.eqb_spec (Datatypes.S (Datatypes.S i)) i); [lia|]. now apply r_ret.
Qed.
End Names.
