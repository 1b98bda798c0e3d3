(** A label means a loop around it (C66).

    The specification speaks of paths: a loop is around an element if its path is a prefix of that of the element and no function, lambda, lemma or
    constant is in between.  The code walks up the ancestors and stops at the first such item. *)
From Coq Require Import String Sorted Lia.
From Verif Require Import Base SyntaxKind TreeSinkModel AddressModel AddressProps FixModel OutlineModel InlayModel LabelModel.
Open Scope list_scope.

(** * Specification *)
Definition prefix (q p : path) : Prop := exists s, p = q ++ s.
Definition loop_kinds : list kind := [LOOP_EXPR; WHILE_EXPR; FOR_EXPR].
Definition closed_kinds : list kind := [FUN; SPEC_FUN; SPEC_INLINE_FUN; LEMMA; CONST; LAMBDA_EXPR].
(** the node at [q] is a loop, and nothing from it down to [p] has loops of its own *)
Definition loop_around (root : tree) (p q : path) : Prop :=
  prefix q p /\ (exists k ch, node_at root q = Some (TNode k ch) /\ In k loop_kinds) /\
  (forall q' k ch, prefix q q' -> prefix q' p -> node_at root q' = Some (TNode k ch) -> ~ In k closed_kinds).
(** the first quoted name among some elements *)
Definition quoted (l : list tree) (x : text) : Prop := exists a b, l = a ++ TTok QUOTE_IDENT x :: b /\ forall y, ~ In (TTok QUOTE_IDENT y) a.
(** the loop at [q] declares the label [x] *)
Definition labelled (root : tree) (q : path) (x : text) : Prop :=
  exists k a d b, node_at root q = Some (TNode k (a ++ TNode LABEL_DECL d :: b)) /\ (forall e, ~ In (TNode LABEL_DECL e) a) /\ quoted d x.
(** every declaration of a label has a name, as the parser makes them *)
Definition labels_named (root : tree) : Prop := forall q ch, node_at root q = Some (TNode LABEL_DECL ch) -> exists x, In (TTok QUOTE_IDENT x) ch.

(** * Ancestors *)
Lemma above_in : forall p here t q n, In (q, n) (above here t p) <-> exists q0, q = here ++ q0 /\ prefix q0 p /\ node_at t q0 = Some n /\ exists k ch, n = TNode k ch.
Proof.
  induction p as [|i r IH]; intros here t q n.
  - destruct t as [k ch|k x]; cbn [above].
    + split.
      * intros [E|[]]. injection E as <- <-. exists []. split; [now rewrite app_nil_r|]. split; [exists []; reflexivity|]. split; [reflexivity|now exists k, ch].
      * intros (q0 & -> & [s E] & N & _). destruct q0; [|discriminate]. cbn in N. injection N as <-. rewrite app_nil_r. now left.
    + split; [intros []|]. intros (q0 & -> & [s E] & N & k' & ch & ->). destruct q0; discriminate.
  - destruct t as [k ch|k x]; cbn [above].
    + rewrite in_app_iff. split.
      * intros [I|[E|[]]].
        -- destruct (nth_error ch i) as [c|] eqn:C; [|destruct I]. apply IH in I. destruct I as (q0 & -> & [s E] & N & K). exists (i :: q0). rewrite <- app_assoc. split; [reflexivity|]. split; [exists s; now rewrite E|]. split; [cbn; now rewrite C|exact K].
        -- injection E as <- <-. exists []. split; [now rewrite app_nil_r|]. split; [now exists (i :: r)|]. split; [reflexivity|now exists k, ch].
      * intros (q0 & -> & [s E] & N & K). destruct q0 as [|j q0].
        -- right. left. cbn in N. injection N as <-. now rewrite app_nil_r.
        -- left. injection E as -> E. cbn in N. destruct (nth_error ch j) as [c|]; [|discriminate]. apply IH. exists q0. rewrite <- app_assoc. split; [reflexivity|]. split; [now exists s|]. now split.
    + split; [intros []|]. intros (q0 & -> & _ & N & k' & ch & ->). destruct q0; discriminate.
Qed.
Definition deeper (a b : path * tree) : Prop := List.length (fst b) < List.length (fst a).
Lemma sorted_snoc : forall (l : list (path * tree)) a, StronglySorted deeper l -> (forall x, In x l -> deeper x a) -> StronglySorted deeper (l ++ [a]).
Proof.
  intros l a S. induction S as [|x l S IH F]; intros H; cbn; [repeat constructor|]. constructor.
  - apply IH. intros y I. apply H. now right.
  - apply Forall_app. split; [exact F|]. constructor; [|constructor]. apply H. now left.
Qed.
Lemma above_sorted : forall p here t, StronglySorted deeper (above here t p).
Proof.
  induction p as [|i r IH]; intros here t; destruct t as [k ch|k x]; cbn [above]; try (repeat constructor; fail).
  apply sorted_snoc; [destruct (nth_error ch i); [apply IH|constructor]|]. intros [q n] I. destruct (nth_error ch i); [|destruct I]. apply above_in in I. destruct I as (q0 & -> & _). unfold deeper. cbn. rewrite !app_length. cbn. lia.
Qed.

(** * Loops around an element *)
Lemma loops_in : forall l x, StronglySorted deeper l -> (In x (loops_of l) <-> In x l /\ is_loop (tkind (snd x)) = true /\ forall y, In y l -> List.length (fst x) <= List.length (fst y) -> is_label_barrier (tkind (snd y)) = false).
Proof.
  intros l x S. induction S as [|a l S IH F]; cbn [loops_of]; [split; [intros []|intros [[] _]]|]. rewrite Forall_forall in F.
  destruct (is_label_barrier (tkind (snd a))) eqn:B.
  - split; [intros []|]. intros (I & _ & H). exfalso. assert (T : is_label_barrier (tkind (snd a)) = false); [|congruence]. apply H; [now left|]. destruct I as [->|I]; [lia|]. specialize (F _ I). unfold deeper in F. lia.
  - assert (R : In x (loops_of l) <-> In x l /\ is_loop (tkind (snd x)) = true /\ forall y, In y (a :: l) -> List.length (fst x) <= List.length (fst y) -> is_label_barrier (tkind (snd y)) = false).
    { rewrite IH. split; intros (I & L & H); (split; [exact I|split; [exact L|]]); intros y J LE; [destruct J as [<-|J]; auto|apply H; auto; now right]. }
    destruct (is_loop (tkind (snd a))) eqn:L.
    + cbn [In]. rewrite R. split.
      * intros [<-|(I & L' & H)]; [|auto]. split; [now left|]. split; [exact L|]. intros y [<-|J] LE; [exact B|]. specialize (F _ J). unfold deeper in F. lia.
      * intros ([<-|I] & L' & H); [now left|right; auto].
    + rewrite R. split; [intros (I & L' & H); split; [now right|auto]|]. intros ([<-|I] & L' & H); [congruence|auto].
Qed.
Lemma loop_kinds_in : forall k, is_loop k = true <-> In k loop_kinds.
Proof. intros k. split; [destruct k; intros H; try discriminate H; cbn; auto|intros I; cbn in I; repeat (destruct I as [<-|I]; [reflexivity|]); destruct I]. Qed.
Lemma closed_kinds_in : forall k, is_label_barrier k = true <-> In k closed_kinds.
Proof. intros k. split; [destruct k; intros H; try discriminate H; cbn; tauto|intros I; cbn in I; repeat (destruct I as [<-|I]; [reflexivity|]); destruct I]. Qed.
Lemma prefix_longer : forall (p q q' : path), prefix q p -> prefix q' p -> List.length q <= List.length q' -> prefix q q'.
Proof.
  induction p as [|i p IH]; intros q q' [s E] [s' E'] L.
  - destruct q; [|discriminate]. exists q'. reflexivity.
  - destruct q as [|j q]; [exists q'; reflexivity|]. destruct q' as [|j' q']; [cbn in L; lia|]. injection E as -> E. injection E' as -> E'. cbn in L. destruct (IH q q') as [u U]; [now exists s|now exists s'|lia|]. exists u. now rewrite U.
Qed.
Lemma prefix_length : forall (q p : path), prefix q p -> List.length q <= List.length p.
Proof. intros q p [s ->]. rewrite app_length. lia. Qed.
Theorem loops_exact : forall root p q n, In (q, n) (loop_ancestors root p) <-> loop_around root p q /\ node_at root q = Some n.
Proof.
  intros root p q n. unfold loop_ancestors. rewrite loops_in by apply above_sorted. rewrite above_in. cbn [fst snd]. split.
  - intros ((q0 & -> & P & N & k & ch & ->) & L & H). cbn [app] in *. split; [|exact N]. split; [exact P|]. split; [exists k, ch; split; [exact N|now apply loop_kinds_in]|].
    intros q' k' ch' P1 P2 N' C. apply closed_kinds_in in C. assert (F : is_label_barrier k' = false); [|congruence]. apply (H (q', TNode k' ch')); [|now apply prefix_length]. apply above_in. exists q'. split; [reflexivity|]. split; [exact P2|]. split; [exact N'|now exists k', ch'].
  - intros ((P & (k & ch & N0 & K) & C) & N). rewrite N in N0. injection N0 as ->. split; [exists q; split; [reflexivity|split; [exact P|split; [exact N|now exists k, ch]]]|]. split; [now apply loop_kinds_in|].
    intros [q' n'] I LE. cbn [fst snd] in *. apply above_in in I. destruct I as (q0 & -> & P' & N' & k' & ch' & ->). cbn [app tkind] in *. destruct (is_label_barrier k') eqn:B; [|reflexivity]. exfalso. apply closed_kinds_in in B. apply (C q0 k' ch'); auto. eapply prefix_longer; eauto.
Qed.
Lemma loops_sorted : forall l, StronglySorted deeper l -> StronglySorted deeper (loops_of l).
Proof.
  intros l S. induction S as [|a l S IH F]; cbn [loops_of]; [constructor|]. destruct (is_label_barrier _); [constructor|]. destruct (is_loop _); [|exact IH]. constructor; [exact IH|]. rewrite Forall_forall in *. intros x I. apply F. apply loops_in in I; [tauto|exact S].
Qed.
Theorem loops_innermost_first : forall root p, StronglySorted deeper (loop_ancestors root p).
Proof. intros. apply loops_sorted, above_sorted. Qed.
(** continue and break are offered inside of loops *)
Theorem break_offered : forall root p, offers_break root p = true <-> exists q, loop_around root p q.
Proof.
  intros root p. unfold offers_break. destruct (loop_ancestors root p) as [|[q n] l] eqn:E.
  - split; [discriminate|]. intros [q H]. destruct H as (P & (k & ch & N & K) & C). assert (I : In (q, TNode k ch) (loop_ancestors root p)) by (apply loops_exact; split; [split; [exact P|split; [now exists k, ch|exact C]]|exact N]). rewrite E in I. destruct I.
  - split; [intros _|reflexivity]. exists q. apply (loops_exact root p q n). rewrite E. now left.
Qed.

(** * Declarations *)
Lemma quote_ident_meaning : forall l x, quote_ident l = Some x <-> quoted l x.
Proof.
  induction l as [|t l IH]; intros x; [split; [discriminate|intros (a & b & E & _); destruct a; discriminate]|].
  assert (S : (forall y, t <> TTok QUOTE_IDENT y) -> (quote_ident l = Some x <-> quoted (t :: l) x)).
  { intros N. rewrite IH. split.
    - intros (a & b & -> & H). exists (t :: a), b. split; [reflexivity|]. intros y [->|I]; [now apply (N y)|now apply (H y)].
    - intros (a & b & E & H). destruct a as [|u a]; [injection E as -> _; now contradiction (N x)|]. injection E as <- ->. exists a, b. split; [reflexivity|]. intros y I. apply (H y). now right. }
  destruct t as [k ch|k y]; [apply S; discriminate|]. destruct k; try (apply S; discriminate). cbn. split.
  - intros E. injection E as ->. exists [], l. split; [reflexivity|intros ? []].
  - intros (a & b & E & H). destruct a as [|u a]; [injection E as -> _; reflexivity|]. injection E as <- _. exfalso. apply (H y). now left.
Qed.
Lemma label_decl_meaning : forall l d, label_decl_in l = Some d <-> exists a b, l = a ++ TNode LABEL_DECL d :: b /\ forall e, ~ In (TNode LABEL_DECL e) a.
Proof.
  induction l as [|t l IH]; intros d; [split; [discriminate|intros (a & b & E & _); destruct a; discriminate]|].
  assert (S : (forall y, t <> TNode LABEL_DECL y) -> (label_decl_in l = Some d <-> exists a b, t :: l = a ++ TNode LABEL_DECL d :: b /\ forall e, ~ In (TNode LABEL_DECL e) a)).
  { intros N. rewrite IH. split.
    - intros (a & b & -> & H). exists (t :: a), b. split; [reflexivity|]. intros y [->|I]; [now apply (N y)|now apply (H y)].
    - intros (a & b & E & H). destruct a as [|u a]; [injection E as -> _; now contradiction (N d)|]. injection E as <- ->. exists a, b. split; [reflexivity|]. intros y I. apply (H y). now right. }
  destruct t as [k ch|k y]; [|apply S; discriminate]. destruct k; try (apply S; discriminate). cbn. split.
  - intros E. injection E as ->. exists [], l. split; [reflexivity|intros ? []].
  - intros (a & b & E & H). destruct a as [|u a]; [injection E as -> _; reflexivity|]. injection E as <- _. exfalso. apply (H ch). now left.
Qed.
Lemma labelled_meaning : forall root q n x, node_at root q = Some n -> (labelled root q x <-> exists d, label_decl n = Some d /\ quote_ident d = Some x).
Proof.
  intros root q n x N. unfold labelled. split.
  - intros (k & a & d & b & N' & H & Q). rewrite N in N'. injection N' as ->. exists d. split; [cbn; apply label_decl_meaning; now exists a, b|now apply quote_ident_meaning].
  - intros (d & D & Q). destruct n as [k ch|]; [|discriminate]. cbn in D. apply label_decl_meaning in D. destruct D as (a & b & -> & H). exists k, a, d, b. split; [exact N|]. split; [exact H|now apply quote_ident_meaning].
Qed.
Lemma node_at_app : forall q t i n, node_at t q = Some n -> node_at t (q ++ [i]) = node_at n [i].
Proof.
  induction q as [|j q IH]; intros t i n E; cbn in E; [injection E as <-; reflexivity|]. destruct t as [k ch|]; [|discriminate]. cbn [app node_at]. destruct (nth_error ch j) as [c|]; [|discriminate]. now apply IH.
Qed.
Lemma quoted_some : forall l x, In (TTok QUOTE_IDENT x) l -> exists y, quote_ident l = Some y.
Proof. induction l as [|t l IH]; intros x []; [subst; now exists x|]. destruct (IH _ H) as [y Y]. destruct t as [k ch|k z]; [now exists y|]. destruct k; try (now exists y). now exists z. Qed.
Lemma entries_some : forall root l, labels_named root -> (forall q n, In (q, n) l -> node_at root q = Some n) ->
  exists es, entries_of l = Some es /\ (forall q x, In (q, x) es <-> (exists n, In (q, n) l) /\ labelled root q x).
Proof.
  intros root l W. induction l as [|[q n] l IH]; intros H; [exists []; split; [reflexivity|]; intros; split; [intros []|intros [[? []] _]]|].
  destruct IH as (es & E & M); [intros; apply H; now right|]. cbn [entries_of fst snd]. assert (N : node_at root q = Some n) by (apply H; now left).
  destruct (label_decl n) as [d|] eqn:D.
  - assert (exists x, quote_ident d = Some x) as [x X].
    { destruct n as [k ch|]; [|discriminate]. cbn in D. apply label_decl_meaning in D. destruct D as (a & b & -> & _). destruct (W (q ++ [List.length a]) d) as [y Y]; [|now apply quoted_some with y].
      rewrite (node_at_app _ _ _ _ N). cbn. rewrite nth_error_app2 by lia. now rewrite Nat.sub_diag. }
    rewrite X, E. exists ((q, x) :: es). split; [reflexivity|]. intros q' x'. cbn [In]. rewrite M. split.
    + intros [E1|[[m I] L]]; [injection E1 as <- <-; split; [exists n; now left|apply (labelled_meaning _ _ _ _ N); now exists d]|split; [exists m; now right|exact L]].
    + intros [[m [E1|I]] L]; [|right; split; [now exists m|exact L]]. injection E1 as <- <-. left. apply (labelled_meaning _ _ _ _ N) in L. destruct L as (d' & D' & X'). congruence.
  - exists es. split; [exact E|]. intros q' x'. rewrite M. split; [intros [[m I] L]; split; [exists m; now right|exact L]|]. intros [[m [E1|I]] L]; [|split; [now exists m|exact L]]. injection E1 as <- <-. apply (labelled_meaning _ _ _ _ N) in L. destruct L as (d' & D' & _). congruence.
Qed.
(** the entries are the labels of the loops around, and there is no panic *)
Theorem entries_exact : forall root p, labels_named root -> exists es, label_entries root p = Some es /\ forall q x, In (q, x) es <-> loop_around root p q /\ labelled root q x.
Proof.
  intros root p W. destruct (entries_some root (loop_ancestors root p) W) as (es & E & M); [intros q n I; now apply loops_exact in I|]. exists es. split; [exact E|]. intros q x. rewrite M. split.
  - intros [[n I] L]. apply loops_exact in I. tauto.
  - intros [A L]. split; [|exact L]. destruct L as (k & a & d & b & N & _). eexists. apply loops_exact. split; [exact A|exact N].
Qed.
Lemma entries_sorted : forall l es, StronglySorted deeper l -> entries_of l = Some es -> StronglySorted (fun a b => List.length (fst b) < List.length (fst a)) es /\ forall e, In e es -> exists n, In (fst e, n) l.
Proof.
  intros l es S. revert es. induction S as [|[q n] l S IH F]; intros es E; cbn in E; [injection E as <-; split; [constructor|intros ? []]|]. rewrite Forall_forall in F.
  destruct (label_decl n) as [d|]; [|destruct (IH _ E) as [A B]; split; [exact A|intros e I; destruct (B e I) as [m J]; exists m; now right]].
  destruct (quote_ident d) as [x|]; [|discriminate]. destruct (entries_of l) as [r|]; [|discriminate]. injection E as <-. destruct (IH r eq_refl) as [A B]. split.
  - constructor; [exact A|]. rewrite Forall_forall. intros e I. destruct (B e I) as [m J]. now apply F in J.
  - intros e [<-|I]; [exists n; now left|]. destruct (B e I) as [m J]. exists m. now right.
Qed.
(** what is offered for a label: the labels of the loops around, of inner loops first *)
Theorem completions_exact : forall root p, labels_named root -> exists es, label_completions root p = Some (map snd es) /\
  (forall q x, In (q, x) es <-> loop_around root p q /\ labelled root q x) /\ StronglySorted (fun a b => List.length (fst b) < List.length (fst a)) es.
Proof.
  intros root p W. destruct (entries_exact root p W) as (es & E & M). exists es. unfold label_completions. rewrite E. split; [reflexivity|]. split; [exact M|]. eapply entries_sorted; [|exact E]. apply loops_innermost_first.
Qed.

(** * Resolution *)
Lemma single_meaning : forall {A} (l : list A) a, NoDup l -> (single_or_none l = Some a <-> forall b, In b l <-> b = a).
Proof.
  intros A l a D. split.
  - destruct l as [|b [|c l]]; try discriminate. intros E. injection E as ->. intros b. cbn. split; [intros [->|[]]; reflexivity|intros ->; now left].
  - intros H. destruct l as [|b l]; [destruct (proj2 (H a) eq_refl)|]. assert (b = a) as -> by (apply H; now left). destruct l as [|c l]; [reflexivity|]. assert (c = a) as -> by (apply H; right; now left). inversion D; subst. exfalso. apply H2. now left.
Qed.
Lemma sorted_nodup : forall (l : list (path * text)), StronglySorted (fun a b => List.length (fst b) < List.length (fst a)) l -> NoDup l.
Proof. intros l S. induction S as [|a l S IH F]; constructor; auto. rewrite Forall_forall in F. intros I. apply F in I. lia. Qed.
(** a label resolves to a loop exactly if that is the only loop around it with this label; and it never panics *)
Theorem resolve_label_exact : forall root p ch x, labels_named root -> node_at root p = Some (TNode LABEL ch) -> quoted ch x ->
  exists r, resolve_label root p = Some r /\ forall q y, r = Some (q, y) <-> y = x /\ forall q', loop_around root p q' /\ labelled root q' x <-> q' = q.
Proof.
  intros root p ch x W N Q. destruct (entries_exact root p W) as (es & E & M). unfold resolve_label. rewrite N, (proj2 (quote_ident_meaning _ _) Q), E. cbn [option_map]. eexists. split; [reflexivity|]. intros q y.
  assert (D : NoDup es) by (eapply sorted_nodup, entries_sorted; [|exact E]; apply loops_innermost_first).
  rewrite single_meaning by now apply NoDup_filter. assert (F : forall e, In e (filter (fun e => text_eqb (snd e) x) es) <-> In e es /\ snd e = x) by (intros e; rewrite filter_In, text_eqb_spec; reflexivity). split.
  - intros H. assert (J : In (q, y) es /\ y = x) by (apply (F (q, y)), H; reflexivity). destruct J as [J ->]. split; [reflexivity|]. intros q'. rewrite <- M. split; [intros I|intros ->; exact J]. assert (T : (q', x) = (q, x)) by (apply H, F; now split). now injection T.
  - intros [-> H] [q' y']. rewrite F. cbn [snd]. split; [intros [I ->]; f_equal; apply H, M, I|]. intros T. injection T as -> ->. split; [|reflexivity]. apply M, H. reflexivity.
Qed.
(** a label that is declared by one loop only resolves to it *)
Corollary resolve_label_unique : forall root p ch x q, labels_named root -> node_at root p = Some (TNode LABEL ch) -> quoted ch x -> loop_around root p q -> labelled root q x ->
  (forall q', loop_around root p q' -> labelled root q' x -> q' = q) -> resolve_label root p = Some (Some (q, x)).
Proof. intros root p ch x q W N Q A L U. destruct (resolve_label_exact root p ch x W N Q) as (r & R & H). rewrite R. f_equal. apply H. split; [reflexivity|]. intros q'. split; [intros [A' L']; now apply U|intros ->; now split]. Qed.

(** * Examples *)
Definition lname (s : string) : tree := TTok QUOTE_IDENT (txt s).
Definition ldecl (s : string) : tree := TNode LABEL_DECL [lname s; TTok COLON (txt ":")].
Definition lbreak (s : string) : tree := TNode BREAK_EXPR [TTok BREAK_KW (txt "break"); TNode LABEL [lname s]].
(** the loops 'a with a loop [s] in it, which has a break 'a, inside a function *)
Definition nested (s : string) (inner : tree) : tree :=
  TNode SOURCE_FILE [TNode FUN [TNode BLOCK_EXPR [TNode LOOP_EXPR [ldecl "'a"; TNode BLOCK_EXPR [TNode WHILE_EXPR [ldecl s; TNode BLOCK_EXPR [inner]]]]]]].
Fixpoint named_b (t : tree) : bool :=
  match t with
  | TTok _ _ => true
  | TNode k ch => (if kind_eqb k LABEL_DECL then existsb (fun c => match c with TTok QUOTE_IDENT _ => true | _ => false end) ch else true) && (fix all l := match l with [] => true | c :: r => named_b c && all r end) ch
  end.
Lemma named_check : forall q t ch, named_b t = true -> node_at t q = Some (TNode LABEL_DECL ch) -> exists x, In (TTok QUOTE_IDENT x) ch.
Proof.
  induction q as [|i q IH]; intros t ch H E.
  - cbn in E. injection E as ->. cbn [named_b] in H. apply andb_prop in H. destruct H as [H _]. change (kind_eqb LABEL_DECL LABEL_DECL) with true in H. cbn [andb] in H. apply existsb_exists in H. destruct H as (c & I & C). destruct c as [|k x]; [discriminate|]. destruct k; try discriminate. now exists x.
  - destruct t as [k l|]; [|discriminate]. cbn [node_at] in E. destruct (nth_error l i) as [c|] eqn:C; [|discriminate]. apply (IH c ch); [|exact E]. cbn [named_b] in H. apply andb_prop in H. destruct H as [_ H].
    apply nth_error_In in C. clear - H C. induction l as [|d l IHl]; [destruct C|]. apply andb_prop in H. destruct H as [H1 H2]. destruct C as [->|C]; auto.
Qed.
Definition at_label : path := [0; 0; 0; 1; 0; 1; 0; 1].
Example nested_example : labels_named (nested "'b" (lbreak "'a")) /\ node_at (nested "'b" (lbreak "'a")) at_label = Some (TNode LABEL [lname "'a"]) /\ quoted [lname "'a"] (txt "'a") /\
  resolve_label (nested "'b" (lbreak "'a")) at_label = Some (Some ([0; 0; 0], txt "'a")) /\ label_completions (nested "'b" (lbreak "'a")) at_label = Some [txt "'b"; txt "'a"].
Proof.
  split; [intros q ch; now apply named_check|]. split; [reflexivity|]. split; [apply quote_ident_meaning; reflexivity|]. split; vm_compute; reflexivity.
Qed.
(** a lambda hides the loops around it *)
Example lambda_example : let t := nested "'b" (TNode LAMBDA_EXPR [lbreak "'a"]) in resolve_label t [0; 0; 0; 1; 0; 1; 0; 0; 1] = Some None /\ offers_break t [0; 0; 0; 1; 0; 1; 0; 0; 0] = false /\ offers_break t [0; 0; 0; 1; 0; 1] = true.
Proof. repeat split; vm_compute; reflexivity. Qed.
(** a label of an inner loop hides that of an outer loop with the same name: not so here, both are left unresolved *)
Theorem innermost_label_refuted : exists root p ch x q, labels_named root /\ node_at root p = Some (TNode LABEL ch) /\ quoted ch x /\ loop_around root p q /\ labelled root q x /\
  (forall q', loop_around root p q' -> labelled root q' x -> List.length q' <= List.length q) /\ resolve_label root p = Some None.
Proof.
  set (t := nested "'a" (lbreak "'a")). assert (A : forall q n, In (q, n) (loop_ancestors t at_label) -> q = [0; 0; 0; 1; 0] \/ q = [0; 0; 0]) by (intros q n I; vm_compute in I; destruct I as [E|[E|[]]]; injection E; auto).
  exists t, at_label, [lname "'a"], (txt "'a"), [0; 0; 0; 1; 0]. split; [intros q ch; now apply named_check|]. split; [reflexivity|]. split; [apply quote_ident_meaning; reflexivity|].
  split; [eapply (proj1 (loops_exact t at_label _ _)); vm_compute; left; reflexivity|]. split; [eapply labelled_meaning; [reflexivity|]; eexists; split; vm_compute; reflexivity|]. split; [|vm_compute; reflexivity].
  intros q' L D. destruct L as (P & (k & ch & N & K) & C). destruct (A q' (TNode k ch)) as [->| ->]; [|cbn; lia|cbn; lia]. apply loops_exact. split; [split; [exact P|split; [now exists k, ch|exact C]]|exact N].
Qed.
Print Assumptions loops_exact.
Print Assumptions loops_innermost_first.
Print Assumptions break_offered.
Print Assumptions entries_exact.
Print Assumptions completions_exact.
Print Assumptions resolve_label_exact.
Print Assumptions resolve_label_unique.
Print Assumptions innermost_label_refuted.
