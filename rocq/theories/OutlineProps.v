(** The outline of a file nests as its named elements do (C63).

    The specification is a recursion over the tree: a named element is an entry, with the entries inside it as its children; what is not named hands its
    entries on to what it is in.  The code walks over the tree with a stack, and makes the hierarchy of a flat list with indices from its end. *)
From Coq Require Import String.
From Verif Require Import Base SyntaxKind TreeSinkModel TreeSinkSpec ParserModel GrammarBase AddressModel LexerModel LexerProps GrammarModel GrammarProps GrammarSafeProps OutlineModel.
Open Scope list_scope.

(** * Specification *)
Inductive inside : tree -> tree -> Prop :=
| in_self : forall t, inside t t
| in_child : forall t k ch c, In c ch -> inside t c -> inside t (TNode k ch).
(** every NAME has a token first *)
Definition names_begin (t : tree) : Prop := forall l, inside (TNode NAME l) t -> exists k x r, l = TTok k x :: r.
Definition kids (l : list doc) : option (list doc) := match l with [] => None | _ => Some l end.
Fixpoint outline (par : option kind) (off : nat) (t : tree) : list doc :=
  match t with
  | TTok _ _ => []
  | TNode k ch =>
      let inner := (fix walk off l := match l with [] => [] | c :: r => outline (Some k) off c ++ walk (off + len c) r end) off ch in
      match structure_node par off t with Some (Some s) => [Doc s (kids inner)] | _ => inner end
  end.
(** entries one after the other between [lo] and [hi], names inside their elements, children inside their parents *)
Inductive nests : nat -> nat -> list doc -> Prop :=
| nests_nil : forall lo hi, lo <= hi -> nests lo hi []
| nests_cons : forall lo hi s cs r, lo <= fst (s_range s) -> fst (s_range s) <= fst (s_name s) -> fst (s_name s) <= snd (s_name s) -> snd (s_name s) <= snd (s_range s) ->
    nests (fst (s_range s)) (snd (s_range s)) (match cs with Some l => l | None => [] end) -> nests (snd (s_range s)) hi r -> nests lo hi (Doc s cs :: r).
(** the symbols of the nodes in the order in which they are entered *)
Definition entered (es : list event) : list symbol := flat_map (fun e => match e with Enter p o t => match structure_node p o t with Some (Some s) => [s] | _ => [] end | Leave _ _ _ => [] end) es.

(** * Induction *)
Lemma tree_rec' : forall P : tree -> Prop, (forall k x, P (TTok k x)) -> (forall k ch, Forall P ch -> P (TNode k ch)) -> forall t, P t.
Proof. intros P HT HN. fix F 1. intros [k ch|k x]; [|apply HT]. apply HN. induction ch as [|c r IH]; constructor; [apply F|exact IH]. Qed.
Lemma doc_rec' : forall P : doc -> Prop, (forall s, P (Doc s None)) -> (forall s l, Forall P l -> P (Doc s (Some l))) -> forall d, P d.
Proof. intros P HN HS. fix F 1. intros [s [l|]]; [|apply HN]. apply HS. induction l as [|c r IH]; constructor; [apply F|exact IH]. Qed.
Definition walk (k : kind) : nat -> list tree -> list doc := fix walk off l := match l with [] => [] | c :: r => outline (Some k) off c ++ walk (off + len c) r end.
Definition events (k : kind) : nat -> list tree -> list event := fix ev off l := match l with [] => [] | c :: r => preorder (Some k) off c ++ ev (off + len c) r end.
Lemma outline_node : forall par off k ch, outline par off (TNode k ch) = match structure_node par off (TNode k ch) with Some (Some s) => [Doc s (kids (walk k off ch))] | _ => walk k off ch end.
Proof. reflexivity. Qed.
Lemma preorder_node : forall par off k ch, preorder par off (TNode k ch) = Enter par off (TNode k ch) :: events k off ch ++ [Leave par off (TNode k ch)].
Proof. reflexivity. Qed.
Lemma len_node : forall k ch, len (TNode k ch) = lens ch.
Proof. intros k ch. cbn [len]. induction ch as [|c r IH]; cbn [lens fold_right]; [reflexivity|]. now rewrite IH. Qed.
Lemma names_children : forall k ch, names_begin (TNode k ch) -> Forall names_begin ch.
Proof. intros k ch H. apply Forall_forall. intros c I l J. apply H. now apply in_child with (c := c). Qed.

(** * What a symbol is *)
Lemma first_name_found : forall ch off o n, first_name off ch = Some (o, n) -> exists before l after, ch = before ++ TNode NAME l :: after /\ n = TNode NAME l /\ o = off + lens before /\ forall m, ~ In (TNode NAME m) before.
Proof.
  induction ch as [|c r IH]; intros off o n H; [discriminate|]. cbn [first_name] in H. destruct c as [k l|k x].
  - destruct (kind_eqb k NAME) eqn:E.
    + apply kind_eqb_spec in E. subst. injection H as <- <-. exists [], l, r. cbn. repeat split; auto.
    + destruct (IH _ _ _ H) as (b & l' & a & -> & -> & -> & NI). exists (TNode k l :: b), l', a. repeat split; auto; [unfold lens; cbn [fold_right]; fold (lens b); lia|].
      intros m [F|F]; [injection F as -> _; now rewrite kind_eqb_refl in E|now apply (NI m)].
  - destruct (IH _ _ _ H) as (b & l' & a & -> & -> & -> & NI). exists (TTok k x :: b), l', a. repeat split; auto; [unfold lens; cbn [fold_right]; fold (lens b); lia|]. intros m [F|F]; [discriminate|now apply (NI m)].
Qed.
Lemma first_name_none : forall ch off, first_name off ch = None <-> forall m, ~ In (TNode NAME m) ch.
Proof.
  induction ch as [|c r IH]; intros off; cbn [first_name]; [split; [intros _ m []|reflexivity]|]. destruct c as [k l|k x].
  - destruct (kind_eqb k NAME) eqn:E; [apply kind_eqb_spec in E; subst; split; [discriminate|intros H; exfalso; apply (H l); now left]|]. rewrite IH. apply kind_eqb_neq in E. split; intros H m; [intros [F|F]; [congruence|now apply (H m)]|intros F; apply (H m); now right].
  - rewrite IH. split; intros H m; [intros [F|F]; [discriminate|now apply (H m)]|intros F; apply (H m); now right].
Qed.
(** a named element with a name: its first name, its own range and the kind of its own *)
Theorem symbol_meaning : forall par off k ch s, structure_node par off (TNode k ch) = Some (Some s) <-> exists before tk x rest after, ch = before ++ TNode NAME (TTok tk x :: rest) :: after /\ (forall m, ~ In (TNode NAME m) before) /\
  symbol_kind_of par k = Some (s_kind s) /\ s_label s = x /\ s_range s = (off, off + lens ch) /\ s_name s = (off + lens before, off + lens before + (List.length x + lens rest)).
Proof.
  intros par off k ch s. split.
  - intros H. unfold structure_node in H. destruct (symbol_kind_of par k) as [sk|]; [|discriminate]. destruct (first_name off ch) as [[o n]|] eqn:F; [|discriminate].
    destruct (first_name_found _ _ _ _ F) as (b & l & a & E & -> & -> & NI). destruct l as [|[|tk x] rest]; try discriminate. rewrite !len_node in H.
    assert (Es : s = mkSymbol x (off + lens b, off + lens b + lens (TTok tk x :: rest)) (off, off + lens ch) sk) by congruence. subst s. exists b, tk, x, rest, a. cbn [s_kind s_label s_range s_name]. repeat split; auto.
  - intros (b & tk & x & rest & a & E & NI & SK & EL & ER & EN). unfold structure_node. rewrite SK. destruct (first_name off ch) as [[o n]|] eqn:F.
    + destruct (first_name_found _ _ _ _ F) as (b' & l & a' & E' & -> & -> & NI'). rewrite E in E'. assert (Q : b = b' /\ TNode NAME (TTok tk x :: rest) :: a = TNode NAME l :: a').
      { clear - NI NI' E'. revert b' E' NI'. induction b as [|c b IH]; intros [|c' b'] E' NI'; cbn [app] in E'.
        - auto.
        - exfalso. injection E' as E1 _. apply (NI' (TTok tk x :: rest)). left. now symmetry.
        - exfalso. injection E' as E1 _. apply (NI l). now left.
        - injection E' as E1 E'. subst c'. destruct (IH (fun m F => NI m (or_intror F)) b' E' (fun m F => NI' m (or_intror F))) as [-> Q]. auto. }
      destruct Q as [<- Q]. injection Q as <- <-. rewrite !len_node. destruct s as [sl sn sr sk]. cbn [s_kind s_label s_range s_name] in *. subst. reflexivity.
    + exfalso. apply (proj1 (first_name_none ch off) F (TTok tk x :: rest)). rewrite E. apply in_app_iff. right. now left.
Qed.
Lemma node_no_panic : forall par off t, names_begin t -> structure_node par off t <> None.
Proof.
  intros par off [k ch|k x] H; [|discriminate]. unfold structure_node. destruct (symbol_kind_of par k); [|discriminate]. destruct (first_name off ch) as [[o n]|] eqn:F; [|discriminate].
  destruct (first_name_found _ _ _ _ F) as (b & l & a & E & -> & -> & _). destruct (H l) as (tk & x & r & ->); [|discriminate]. apply in_child with (c := TNode NAME l); [rewrite E; apply in_app_iff; right; now left|apply in_self].
Qed.

(** * The flat list *)
Fixpoint flat1 (b : nat) (p : option nat) (d : doc) : list (symbol * option nat) :=
  match d with
  | Doc s cs => (s, p) :: match cs with Some l => (fix go i l := match l with [] => [] | c :: r => flat1 i (Some b) c ++ go (i + List.length (flat1 i (Some b) c)) r end) (S b) l | None => [] end
  end.
Definition flats (p : option nat) : nat -> list doc -> list (symbol * option nat) := fix go i l := match l with [] => [] | c :: r => flat1 i p c ++ go (i + List.length (flat1 i p c)) r end.
Lemma flat1_kids : forall b p s l, flat1 b p (Doc s (kids l)) = (s, p) :: flats (Some b) (S b) l.
Proof. intros b p s [|d l]; reflexivity. Qed.
Lemma flat1_some : forall b p s l, flat1 b p (Doc s (Some l)) = (s, p) :: flats (Some b) (S b) l.
Proof. reflexivity. Qed.
Lemma flats_app : forall p l1 l2 b, flats p b (l1 ++ l2) = flats p b l1 ++ flats p (b + List.length (flats p b l1)) l2.
Proof. intros p l1. induction l1 as [|d r IH]; intros l2 b; cbn [app flats]; [now rewrite Nat.add_0_r|]. rewrite IH, app_length, Nat.add_assoc, app_assoc. reflexivity. Qed.
Lemma collect_tree : forall t par off rest stack acc, names_begin t -> collect (preorder par off t ++ rest) stack acc = collect rest stack (acc ++ flats (hd_error stack) (List.length acc) (outline par off t)).
Proof.
  induction t as [k x|k ch IH] using tree_rec'; intros par off rest stack acc NB; [cbn; now rewrite app_nil_r|].
  assert (W : forall off' rest' stack' acc', collect (events k off' ch ++ rest') stack' acc' = collect rest' stack' (acc' ++ flats (hd_error stack') (List.length acc') (walk k off' ch))).
  { apply names_children in NB. clear - IH NB. induction ch as [|c r IHr]; intros off' rest' stack' acc'; [cbn; now rewrite app_nil_r|]. inversion IH; subst. inversion NB; subst.
    cbn [events walk]. rewrite <- app_assoc, H1, IHr, flats_app, app_length, app_assoc by assumption. reflexivity. }
  rewrite preorder_node, outline_node. cbn [app collect]. rewrite <- app_assoc. destruct (structure_node par off (TNode k ch)) as [[s|]|] eqn:E; [| |now apply node_no_panic in E].
  - rewrite W. cbn [app collect]. rewrite E. cbn [hd_error flats]. rewrite app_nil_r, flat1_kids, app_length. cbn [List.length]. rewrite <- app_assoc, Nat.add_1_r. reflexivity.
  - rewrite W. cbn [app collect]. rewrite E. reflexivity.
Qed.
Theorem file_structure_flat : forall t, names_begin t -> file_structure t = Some (flats None 0 (outline None 0 t)).
Proof. intros t NB. unfold file_structure. rewrite <- (app_nil_r (preorder None 0 t)), collect_tree by assumption. reflexivity. Qed.

(** * The hierarchy *)
Definition mk (x : symbol * option nat) : doc * option nat := (Doc (fst x) None, snd x).
(** an entry gets more children *)
Definition grow (l : list doc) (d : doc) : doc := match d with Doc s cs => Doc s (match l with [] => cs | _ => Some (match cs with Some m => m | None => [] end ++ l) end) end.
Fixpoint add (i : nat) (l : list doc) (ps : list (doc * option nat)) : list (doc * option nat) :=
  match ps, i with [], _ => [] | (d, p) :: r, 0 => (grow l d, p) :: r | x :: r, S i' => x :: add i' l r end.
Definition put (p : option nat) (l : list doc) (ps : list (doc * option nat)) : list (doc * option nat) := match p with Some i => add i l ps | None => ps end.
Definition top (p : option nat) (l : list doc) : list doc := match p with Some _ => [] | None => l end.
Definition known (p : option nat) (n : nat) : Prop := match p with Some i => i < n | None => True end.
Lemma add_length : forall ps i l, List.length (add i l ps) = List.length ps.
Proof. induction ps as [|[d p] r IH]; intros [|i] l; cbn; auto. Qed.
Lemma put_length : forall p ps l, List.length (put p l ps) = List.length ps.
Proof. intros [i|] ps l; [apply add_length|reflexivity]. Qed.
Lemma add_app : forall ps i l qs, i < List.length ps -> add i l (ps ++ qs) = add i l ps ++ qs.
Proof. induction ps as [|[d p] r IH]; intros [|i] l qs H; cbn in *; try lia; auto. rewrite IH by lia. reflexivity. Qed.
Lemma put_app : forall p ps l qs, known p (List.length ps) -> put p l (ps ++ qs) = put p l ps ++ qs.
Proof. intros [i|] ps l qs H; [now apply add_app|reflexivity]. Qed.
Lemma grow_grow : forall l1 l2 d, grow l2 (grow l1 d) = grow (l1 ++ l2) d.
Proof. intros l1 l2 [s cs]. destruct l1 as [|x l1], l2 as [|y l2]; cbn [grow app]; rewrite ?app_nil_r; auto. now rewrite <- app_assoc. Qed.
Lemma add_add : forall ps i l1 l2, add i l2 (add i l1 ps) = add i (l1 ++ l2) ps.
Proof. induction ps as [|[d p] r IH]; intros [|i] l1 l2; cbn [add]; auto; [now rewrite grow_grow|now rewrite IH]. Qed.
Lemma put_put : forall p ps l1 l2, put p l2 (put p l1 ps) = put p (l1 ++ l2) ps.
Proof. intros [i|] ps l1 l2; [apply add_add|reflexivity]. Qed.
Lemma add_nil : forall ps i, add i [] ps = ps.
Proof. induction ps as [|[[s cs] p] r IH]; intros [|i]; cbn [add grow]; auto. now rewrite IH. Qed.
Lemma put_nil : forall p ps, put p [] ps = ps.
Proof. intros [i|] ps; [apply add_nil|reflexivity]. Qed.
Lemma push_add : forall ps i d, i < List.length ps -> push_child i d ps = Some (add i [d] ps).
Proof. induction ps as [|[[s cs] p] r IH]; intros [|i] d H; cbn in *; try lia; auto. rewrite IH by lia. reflexivity. Qed.
Lemma pop_one : forall pre d p acc n, known p (List.length pre) -> hierarchy (S n) (pre ++ [(d, p)]) acc = hierarchy n (put p [reverse_children d] pre) (acc ++ top p [reverse_children d]).
Proof.
  intros pre d p acc n H. cbn [hierarchy]. rewrite rev_app_distr. cbn [rev app]. rewrite rev_involutive. destruct p as [i|]; cbn [put top known] in *; [|reflexivity]. rewrite push_add by assumption. now rewrite app_nil_r.
Qed.
(** no entry has an empty list of children *)
Inductive canon : doc -> Prop := canon_leaf : forall s, canon (Doc s None) | canon_node : forall s l, l <> [] -> Forall canon l -> canon (Doc s (Some l)).
Lemma add_last : forall pre s p l, l <> [] -> add (List.length pre) l (pre ++ [(Doc s None, p)]) = pre ++ [(Doc s (Some l), p)].
Proof. induction pre as [|x r IH]; intros s p l H; cbn [List.length add app]; [cbn [grow]; destruct l; [contradiction|reflexivity]|]. destruct x. now rewrite IH. Qed.
Definition builds (d : doc) : Prop := forall pre p acc n, known p (List.length pre) ->
  hierarchy (List.length (flat1 (List.length pre) p d) + n) (pre ++ map mk (flat1 (List.length pre) p d)) acc = hierarchy n (put p [d] pre) (acc ++ top p [d]).
Lemma builds_forest : forall f, Forall builds f -> forall pre p acc n, known p (List.length pre) ->
  hierarchy (List.length (flats p (List.length pre) f) + n) (pre ++ map mk (flats p (List.length pre) f)) acc = hierarchy n (put p (rev f) pre) (acc ++ top p (rev f)).
Proof.
  intros f. induction f as [|d f IH] using rev_ind; intros F pre p acc n KN.
  - cbn [flats List.length map app rev]. rewrite put_nil, app_nil_r. destruct p; cbn [top]; rewrite app_nil_r; reflexivity.
  - apply Forall_app in F. destruct F as [F FD]. inversion FD; subst. rewrite flats_app, app_length, map_app. cbn [flats]. rewrite app_nil_r. set (X := flats p (List.length pre) f) in *.
    replace (List.length pre + List.length X) with (List.length (pre ++ map mk X)) by (rewrite app_length, map_length; reflexivity). rewrite app_assoc, (Nat.add_comm (List.length X)), <- Nat.add_assoc.
    assert (KN' : known p (List.length (pre ++ map mk X))) by (destruct p; cbn in *; auto; rewrite app_length; lia). rewrite (H1 _ _ _ _ KN'), put_app by assumption. unfold X. rewrite <- (put_length p pre [d]). rewrite IH; auto; [|now rewrite put_length].
    rewrite put_put, rev_app_distr, <- app_assoc. destruct p; reflexivity.
Qed.
Lemma builds_doc : forall d, canon d -> builds d.
Proof.
  induction d as [s|s l IH] using doc_rec'; intros C pre p acc n KN.
  - cbn [flat1 List.length map mk fst snd]. apply (pop_one pre (Doc s None) p acc n KN).
  - inversion C; subst. assert (F : Forall builds l) by (rewrite Forall_forall in *; intros d I; apply IH; auto). rewrite flat1_some. cbn [map]. unfold mk at 1. cbn [fst snd List.length Nat.add].
    replace (pre ++ (Doc s None, p) :: map mk (flats (Some (List.length pre)) (S (List.length pre)) l)) with ((pre ++ [(Doc s None, p)]) ++ map mk (flats (Some (List.length pre)) (S (List.length pre)) l)) by (rewrite <- app_assoc; reflexivity).
    assert (L : S (List.length pre) = List.length (pre ++ [(Doc s None, p)])) by (rewrite app_length, Nat.add_1_r; reflexivity). rewrite L at 1 2.
    rewrite <- Nat.add_succ_r. rewrite builds_forest; auto; [|cbn; rewrite <- L; lia]. cbn [put top]. rewrite app_nil_r. rewrite add_last by (intros E; apply H1; rewrite <- (rev_involutive l), E; reflexivity).
    rewrite pop_one by assumption. cbn [reverse_children option_map]. now rewrite rev_involutive.
Qed.
Lemma outline_canon : forall t par off, Forall canon (outline par off t).
Proof.
  induction t as [k x|k ch IH] using tree_rec'; intros par off; [constructor|]. rewrite outline_node.
  assert (W : forall off', Forall canon (walk k off' ch)). { clear - IH. induction ch as [|c r IHr]; intros off'; cbn [walk]; [constructor|]. inversion IH; subst. apply Forall_app. split; auto. }
  destruct (structure_node par off (TNode k ch)) as [[s|]|]; auto. constructor; [|constructor]. specialize (W off). destruct (walk k off ch) eqn:E; [apply canon_leaf|]. cbn [kids]. apply canon_node; [discriminate|exact W].
Qed.
(** the outline the client gets *)
Theorem outline_exact : forall t, names_begin t -> outline_of t = Some (outline None 0 t).
Proof.
  intros t NB. unfold outline_of. rewrite file_structure_flat by assumption. unfold document_symbols. fold mk. change (fun x : symbol * option nat => (Doc (fst x) None, snd x)) with mk.
  assert (F : Forall builds (outline None 0 t)) by (eapply Forall_impl; [apply builds_doc|apply outline_canon]).
  pose proof (builds_forest _ F [] None [] 0 I) as B. cbn [List.length app] in B. rewrite Nat.add_0_r in B. rewrite B. cbn [put top hierarchy app]. now rewrite rev_involutive.
Qed.
(** ranges *)
Lemma nests_weaken : forall lo hi l, nests lo hi l -> forall lo' hi', lo' <= lo -> hi <= hi' -> nests lo' hi' l.
Proof. intros lo hi l H. induction H; intros lo' hi' A B; [apply nests_nil; lia|apply nests_cons; auto; lia]. Qed.
Lemma nests_app : forall lo mid l1, nests lo mid l1 -> forall hi l2, nests mid hi l2 -> nests lo hi (l1 ++ l2).
Proof.
  intros lo mid l1 H. induction H; intros hi' l2 G; cbn [app]; [now apply nests_weaken with (lo := hi) (hi := hi')|]. apply nests_cons; auto.
Qed.
Lemma lens_app : forall a b, lens (a ++ b) = lens a + lens b.
Proof. intros a b. unfold lens. induction a as [|x a IH]; cbn [app fold_right]; auto. rewrite IH. lia. Qed.
Theorem outline_nests : forall t par off, nests off (off + len t) (outline par off t).
Proof.
  induction t as [k x|k ch IH] using tree_rec'; intros par off; [apply nests_nil; lia|]. rewrite outline_node, len_node.
  assert (W : forall off', nests off' (off' + lens ch) (walk k off' ch)).
  { clear - IH. induction ch as [|c r IHr]; intros off'; [apply nests_nil; lia|]. inversion IH; subst. cbn [walk]. apply nests_app with (mid := off' + len c); auto. unfold lens. cbn [fold_right]. fold (lens r). rewrite Nat.add_assoc. auto. }
  destruct (structure_node par off (TNode k ch)) as [[s|]|] eqn:E; auto. apply symbol_meaning in E. destruct E as (b & tk & x & rest & a & EC & _ & _ & _ & ER & EN).
  assert (LC : lens ch = lens b + ((List.length x + lens rest) + lens a)). { rewrite EC, lens_app. unfold lens at 2. cbn [fold_right]. fold (lens a). rewrite len_node. reflexivity. }
  apply nests_cons; rewrite ?ER, ?EN; cbn [fst snd]; try lia; [|apply nests_nil; lia]. specialize (W off). destruct (walk k off ch); exact W.
Qed.
(** every named element once, in the order of the file *)
Lemma flatten_app : forall c a b, flat_map (flatten c) (a ++ b) = flat_map (flatten c) a ++ flat_map (flatten c) b.
Proof. intros. apply flat_map_app. Qed.
Lemma entered_app : forall a b, entered (a ++ b) = entered a ++ entered b.
Proof. intros. apply flat_map_app. Qed.
Lemma flatten_entered : forall t par off c, map fst (flat_map (flatten c) (outline par off t)) = entered (preorder par off t).
Proof.
  induction t as [k x|k ch IH] using tree_rec'; intros par off c; [reflexivity|]. rewrite outline_node, preorder_node.
  assert (W : forall off' c', map fst (flat_map (flatten c') (walk k off' ch)) = entered (events k off' ch)).
  { clear - IH. induction ch as [|d r IHr]; intros off' c'; [reflexivity|]. inversion IH; subst. cbn [walk events]. rewrite flatten_app, entered_app, map_app. f_equal; auto. }
  change (Enter par off (TNode k ch) :: events k off ch ++ [Leave par off (TNode k ch)]) with ([Enter par off (TNode k ch)] ++ events k off ch ++ [Leave par off (TNode k ch)]). rewrite !entered_app. cbn [entered flat_map]. rewrite !app_nil_r.
  destruct (structure_node par off (TNode k ch)) as [[s|]|]; [|apply W|apply W]. cbn [flat_map flatten]. rewrite app_nil_r. cbn [map fst app]. f_equal. rewrite <- (W off (Some (s_label s))). destruct (walk k off ch); reflexivity.
Qed.
Theorem flat_symbols_all : forall t l, names_begin t -> outline_of t = Some l -> map fst (flat_symbols l) = entered (preorder None 0 t).
Proof. intros t l NB H. rewrite outline_exact in H by assumption. injection H as <-. apply flatten_entered. Qed.

(** each with the label of its parent *)
Definition label_at (l : list (symbol * option nat)) (p : option nat) : option text := match p with Some i => option_map (fun y => s_label (fst y)) (nth_error l i) | None => None end.
Definition labelled (l : list (symbol * option nat)) (x : symbol * option nat) : symbol * option text := (fst x, label_at l (snd x)).
Definition containers (d : doc) : Prop := forall L pre post p, L = pre ++ flat1 (List.length pre) p d ++ post -> map (labelled L) (flat1 (List.length pre) p d) = flatten (label_at L p) d.
Lemma containers_forest : forall f, Forall containers f -> forall L pre post p, L = pre ++ flats p (List.length pre) f ++ post -> map (labelled L) (flats p (List.length pre) f) = flat_map (flatten (label_at L p)) f.
Proof.
  induction f as [|d f IH]; intros F L pre post p E; [reflexivity|]. inversion F; subst. cbn [flats] in *. rewrite map_app. cbn [flat_map]. set (X := flat1 (List.length pre) p d) in *.
  assert (LE : List.length pre + List.length X = List.length (pre ++ X)) by (now rewrite app_length). rewrite LE in *. f_equal.
  - apply (H1 _ pre (flats p (List.length (pre ++ X)) f ++ post) p). fold X. now rewrite <- app_assoc.
  - apply (IH H2 _ (pre ++ X) post p). now rewrite <- !app_assoc.
Qed.
Lemma containers_doc : forall d, containers d.
Proof.
  induction d as [s|s l IH] using doc_rec'; intros L pre post p E; [reflexivity|]. rewrite flat1_some in *. cbn [map flatten]. unfold labelled at 1. cbn [fst snd]. f_equal.
  assert (LE : S (List.length pre) = List.length (pre ++ [(s, p)])) by (rewrite app_length, Nat.add_1_r; reflexivity). rewrite LE in *. rewrite (containers_forest l IH L (pre ++ [(s, p)]) post).
  - cbn [label_at]. rewrite E. rewrite nth_error_app2 by lia. rewrite Nat.sub_diag. reflexivity.
  - rewrite E, <- app_assoc. reflexivity.
Qed.
Theorem flat_symbols_containers : forall t l, names_begin t -> file_structure t = Some l -> option_map flat_symbols (outline_of t) = Some (map (labelled l) l).
Proof.
  intros t l NB H. rewrite outline_exact by assumption. rewrite file_structure_flat in H by assumption. injection H as <-. cbn [option_map]. f_equal. symmetry.
  apply (containers_forest (outline None 0 t)) with (pre := []) (post := []) (p := None); [apply Forall_forall; intros d _; apply containers_doc|]. cbn [app List.length]. now rewrite app_nil_r.
Qed.
(** the named elements: everything that declares a name, and what is imported under another one *)
Definition named_kinds : list kind := [MODULE; FUN; SPEC_FUN; SPEC_INLINE_FUN; LEMMA; CONST; STRUCT; ENUM; VARIANT; NAMED_FIELD; SCHEMA; GLOBAL_VARIABLE_DECL; TYPE_PARAM; IDENT_PAT; USE_ALIAS].
Theorem named_exact : forall par k, (exists sk, symbol_kind_of par k = Some sk) <-> In k named_kinds.
Proof.
  intros par k. assert (H : match symbol_kind_of par k with Some _ => true | None => false end = existsb (kind_eqb k) named_kinds) by (destruct k; reflexivity).
  assert (I : In k named_kinds <-> existsb (kind_eqb k) named_kinds = true). { rewrite existsb_exists. split; [intros I; exists k; now rewrite kind_eqb_refl|intros (x & I & E); apply kind_eqb_spec in E; now subst]. }
  rewrite I, <- H. destruct (symbol_kind_of par k) as [sk|]; [split; [reflexivity|exists sk; reflexivity]|split; [intros [sk F]; discriminate|discriminate]].
Qed.

(** which nodes are shown with which kind of the protocol, written from the side of the editor *)
Definition shown_as (l : lsp_kind) : list kind :=
  match l with
  | LModule => [MODULE] | LFunction => [FUN; SPEC_FUN; SPEC_INLINE_FUN; LEMMA] | LConstant => [CONST] | LStruct => [STRUCT; SCHEMA] | LEnum => [ENUM] | LEnumMember => [VARIANT]
  | LTypeParameter => [TYPE_PARAM] | LField => [NAMED_FIELD] | LVariable => [GLOBAL_VARIABLE_DECL; USE_ALIAS]
  end.
Theorem shown_exact : forall par k l, k <> IDENT_PAT -> (option_map lsp_kind_of (symbol_kind_of par k) = Some l <-> In k (shown_as l)).
Proof.
  intros par k l N. assert (E : In k (shown_as l) <-> existsb (kind_eqb k) (shown_as l) = true).
  { rewrite existsb_exists. split; [intros I; exists k; now rewrite kind_eqb_refl|intros (x & I & E); apply kind_eqb_spec in E; now subst]. }
  rewrite E. clear E. destruct k; try (exfalso; now apply N); destruct l; vm_compute; split; congruence.
Qed.
(** a field of a schema is a field, any other binding a variable *)
Theorem shown_binding : forall par, option_map lsp_kind_of (symbol_kind_of par IDENT_PAT) = Some LField <-> par = Some SCHEMA_FIELD.
Proof. intros par. destruct par as [k|]; [|cbn; split; discriminate]. destruct k; cbn; split; congruence. Qed.
Theorem shown_binding_else : forall par, par <> Some SCHEMA_FIELD -> option_map lsp_kind_of (symbol_kind_of par IDENT_PAT) = Some LVariable.
Proof. intros par N. destruct par as [k|]; [|reflexivity]. destruct k; try reflexivity. now contradiction N. Qed.

(** * A file *)
Fixpoint names_ok (t : tree) : bool :=
  match t with
  | TTok _ _ => true
  | TNode k ch => (negb (kind_eqb k NAME) || match ch with TTok _ _ :: _ => true | _ => false end) && (fix all l := match l with [] => true | c :: r => names_ok c && all r end) ch
  end.
Lemma names_ok_sound : forall t, names_ok t = true -> names_begin t.
Proof.
  induction t as [k x|k ch IH] using tree_rec'; intros H l I; [inversion I|]. cbn [names_ok] in H. apply andb_prop in H. destruct H as [H H']. inversion I; subst.
  - rewrite kind_eqb_refl in H. cbn in H. destruct ch as [|[|tk x] r]; try discriminate. eauto.
  - assert (HC : names_ok c = true). { clear - H' H3. revert H3. induction ch as [|d r IHr]; intros J; [destruct J|]. apply andb_prop in H'. destruct H' as [A B]. destruct J as [->|J]; auto. }
    rewrite Forall_forall in IH. now apply (IH c H3 HC).
Qed.
Definition src : string := "module 0x1::m { struct S<T> { x: T } enum E { A, B(u8) } fun f(a: u64): u64 { let b = a; b } const C: u8 = 1; }".
Definition src_tree : tree := Eval vm_compute in match parse_text one false (str src) with PTree t _ => t | _ => TTok EOF [] end.
Fixpoint shape (d : doc) : doc := match d with Doc s cs => Doc (mkSymbol (s_label s) (0, 0) (0, 0) (s_kind s)) (option_map (map shape) cs) end.
Definition entry (s : string) (k : symbol_kind) (l : list doc) : doc := Doc (mkSymbol (str s) (0, 0) (0, 0) k) (kids l).
Example outline_example : (exists errs, parse_text one false (str src) = PTree src_tree errs) /\ names_begin src_tree /\
  option_map (map shape) (outline_of src_tree) = Some [entry "m" SModule [entry "S" SStruct [entry "T" STypeParam []; entry "x" SField []]; entry "E" SEnum [entry "A" SVariant []; entry "B" SVariant []];
    entry "f" SFunction [entry "a" SLocal []; entry "b" SLocal []]; entry "C" SConst []]] /\
  map snd (flat_symbols (outline None 0 src_tree)) = [None; Some (str "m"); Some (str "S"); Some (str "S"); Some (str "m"); Some (str "E"); Some (str "E"); Some (str "m");
    Some (str "f"); Some (str "f"); Some (str "m")].
Proof.
  split; [eexists; vm_compute; reflexivity|]. split; [apply names_ok_sound; vm_compute; reflexivity|]. split; vm_compute; reflexivity.
Qed.
(** every symbol kind has the kind of symbol that the client shows *)
Example kinds_example : map lsp_kind_of [SModule; SFunction; SConst; SStruct; SEnum; STypeParam; SVariant; SField; SGlobal; SLemma; SLocal] =
  [LModule; LFunction; LConstant; LStruct; LEnum; LTypeParameter; LEnumMember; LField; LVariable; LFunction; LVariable].
Proof. reflexivity. Qed.
Print Assumptions symbol_meaning.
Print Assumptions file_structure_flat.
Print Assumptions outline_exact.
Print Assumptions outline_nests.
Print Assumptions flat_symbols_all.
Print Assumptions flat_symbols_containers.
Print Assumptions named_exact.
Print Assumptions shown_exact.
Print Assumptions shown_binding.
Print Assumptions shown_binding_else.
