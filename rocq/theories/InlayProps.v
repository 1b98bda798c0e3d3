(** Inlay hints are shown where they belong, and are the same for every part of the file that is asked for (C64). *)
From Coq Require Import String Ascii.
From Verif Require Import Base SyntaxKind TreeSinkModel AddressModel FixModel OutlineModel InlayModel.
Open Scope list_scope.

(** * Specification *)
(** a node of the file with its offset and its ancestors, the nearest first *)
Inductive place (t : tree) : list (nat * tree) -> nat * tree -> Prop :=
| place_root : place t [] (0, t)
| place_child : forall anc o k before c after, place t anc (o, TNode k (before ++ c :: after)) ->
    place t ((o, TNode k (before ++ c :: after)) :: anc) (o + lens before, c).
(** pieces of a type as it is written: text, and text that is a link *)
Inductive piece := Plain (x : text) | Linked (l : loc) (x : text).
Definition writes_of (s : piece) : list write := match s with Plain x => [Write x] | Linked l x => [StartLink (Some l); Write x; EndLink] end.
Definition flush (x : text) : list part := match x with [] => [] | _ => [mkPart x None] end.
Fixpoint parts_of (lz : bool) (before : text) (s : list piece) : list part :=
  match s with
  | [] => flush before
  | Plain x :: r => parts_of lz (before ++ x) r
  | Linked l x :: r => flush before ++ mkPart x (Some (if lz then Lazy else Computed l)) :: parts_of lz [] r
  end.
Definition label_text (l : list part) : text := flat_map p_text l.
Definition written (ws : list write) : text := flat_map (fun w => match w with Write x => x | _ => [] end) ws.
(** a name without the underscores it begins with *)
Definition stripped (n m : text) : Prop := exists u, n = u ++ m /\ Forall (eq underscore) u /\ forall r, m <> underscore :: r.
Definition occurs_in (m x : text) : Prop := exists a b, x = a ++ m ++ b.
(** the name of the parameter the [i]th argument is for *)
Definition names_param (is_method : bool) (c : callable) (i : nat) (n : text) : Prop :=
  match c with
  | CFunction _ ps | CPredicate ps => nth_error ps (if is_method then S i else i) = Some n
  | CLambda ps => nth_error ps i = Some (Some n)
  | CTuple _ | CLambdaType _ | CAssert => False
  end.
(** how many arguments are written in parentheses *)
Definition written_params (is_method : bool) (c : callable) : nat :=
  match c with
  | CFunction _ ps | CPredicate ps => if is_method then List.length ps - 1 else List.length ps
  | CLambda ps => List.length ps
  | CTuple n | CLambdaType n => n
  | CAssert => 2
  end.
Definition has_hints (c : callable) : Prop := match c with CFunction (Some n) _ => ~ In n known_callables | CAssert => False | _ => True end.
Definition with_colons (cfg : config) (x : text) : text := if render_colons cfg then x ++ txt ": " else x.

(** * Lists and offsets *)
Lemma tree_ind' : forall P : tree -> Prop, (forall k x, P (TTok k x)) -> (forall k ch, Forall P ch -> P (TNode k ch)) -> forall t, P t.
Proof. intros P HT HN. fix F 1. intros [k ch|k x]; [|apply HT]. apply HN. induction ch as [|c r IH]; constructor; [apply F|exact IH]. Qed.
Lemma len_node : forall k ch, len (TNode k ch) = lens ch.
Proof. intros k ch. cbn [len]. induction ch as [|c r IH]; cbn [lens fold_right]; [reflexivity|]. now rewrite IH. Qed.
Lemma lens_app : forall a b, lens (a ++ b) = lens a + lens b.
Proof. induction a as [|c r IH]; intros b; [reflexivity|]. unfold lens in *. cbn [app fold_right]. rewrite IH. lia. Qed.
Lemma lens_cons : forall c r, lens (c :: r) = len c + lens r.
Proof. reflexivity. Qed.
Lemma at_offsets_in : forall l off o c, In (o, c) (at_offsets off l) <-> exists a b, l = a ++ c :: b /\ o = off + lens a.
Proof.
  induction l as [|d r IH]; intros off o c; cbn [at_offsets In]; [split; [intros []|intros (a & b & E & _); now destruct a]|]. rewrite IH. split.
  - intros [E|(a & b & -> & ->)]; [injection E as <- <-; exists [], r; cbn; auto|]. exists (d :: a), b. rewrite lens_cons. split; [reflexivity|lia].
  - intros (a & b & E & ->). destruct a as [|d' a]; cbn [app] in E; injection E as -> ->; [left; cbn; f_equal; lia|]. right. exists a, b. rewrite lens_cons. split; [reflexivity|lia].
Qed.
(** a child lies inside *)
Definition range_in (a b : range) : Prop := fst b <= fst a /\ fst a <= snd a /\ snd a <= snd b.
Lemma child_in : forall x c, In c (children x) -> range_in (range_of c) (range_of x).
Proof.
  intros [off t] [o c] I. unfold children in I. cbn [snd fst] in I. destruct t as [k ch|]; [|destruct I]. apply at_offsets_in in I. destruct I as (a & b & -> & ->).
  unfold range_in, range_of. cbn [fst snd]. rewrite len_node, lens_app, lens_cons. lia.
Qed.
Lemma range_in_trans : forall a b c, range_in a b -> range_in b c -> range_in a c.
Proof. unfold range_in. lia. Qed.
Lemma nodes_of_child : forall f x c, In c (nodes_of f x) -> In c (children x).
Proof. intros f x c I. apply filter_In in I. apply I. Qed.
Lemma node_of_child : forall f x c, node_of f x = Some c -> In c (children x).
Proof. intros f x c E. apply (nodes_of_child f). unfold node_of in E. destruct (nodes_of f x); [discriminate|]. injection E as ->. now left. Qed.
Lemma token_of_child : forall k x c, token_of k x = Some c -> In c (children x).
Proof. intros k x c E. apply find_some in E. apply E. Qed.
Lemma arg_in : forall x e, In (Some e) (arg_exprs x) -> range_in (range_of e) (range_of x).
Proof.
  intros x e I. unfold arg_exprs in I. destruct (node_of (kind_eqb VALUE_ARG_LIST) x) as [l|] eqn:E; [|destruct I]. apply in_map_iff in I. destruct I as (a & Ea & Ia).
  apply node_of_child in E, Ea. apply nodes_of_child in Ia. eapply range_in_trans; [apply child_in; exact Ea|]. eapply range_in_trans; [apply child_in; exact Ia|now apply child_in].
Qed.

(** * Where the hints of a node are *)
Lemma intersects_spec : forall a b, intersects a b = true <-> Nat.max (fst a) (fst b) <= Nat.min (snd a) (snd b).
Proof. intros. unfold intersects. now rewrite Nat.leb_le. Qed.
Lemma contains_spec : forall a b, contains_range a b = true <-> fst a <= fst b /\ snd b <= snd a.
Proof. intros. unfold contains_range. now rewrite andb_true_iff, !Nat.leb_le. Qed.
Lemma ident_hint_range : forall cfg sem anc x h, In h (ident_pat_hints cfg sem anc x) -> intersects (h_range h) (range_of x) = true /\ h_resolve_parent h = Some (range_of x).
Proof.
  intros cfg sem anc x h I. unfold ident_pat_hints in I. destruct (negb (type_hints cfg)); [destruct I|]. destruct (type_of sem (fst x) (snd x)) as [ws|]; [|destruct I].
  cbv zeta in I. destruct (match node_of (kind_eqb NAME) x with Some n => starts_with_underscore (text_of (snd n)) | None => false end); [destruct I|].
  destruct (colon_of cfg sem anc) as [colon|]; [|destruct I]. destruct I as [<-|[]]. cbn [h_range h_resolve_parent]. split; [|reflexivity].
  assert (R : range_in (match node_of (kind_eqb NAME) x with Some n => range_of n | None => range_of x end) (range_of x)).
  { destruct (node_of (kind_eqb NAME) x) as [n|] eqn:E; [apply child_in; now apply node_of_child in E|]. unfold range_in, range_of. cbn. lia. }
  revert R. generalize (match node_of (kind_eqb NAME) x with Some n => range_of n | None => range_of x end). intros r R. rewrite intersects_spec.
  destruct colon as [c|]; unfold range_in, cover, range_of in *; cbn [fst snd] in *; lia.
Qed.
Lemma param_hint_range : forall cfg sem x h, In h (param_hints cfg sem x) -> range_in (h_range h) (range_of x) /\ h_resolve_parent h = None.
Proof.
  intros cfg sem x h I. unfold param_hints in I. destruct (negb (parameter_hints cfg)); [destruct I|]. destruct (callable_info sem x) as [c|]; [|destruct I].
  destruct (match callable_name c with Some n => existsb (text_eqb n) known_callables | None => false end); [destruct I|]. cbv zeta in I.
  destruct (_ =? 1); [destruct I|]. apply in_flat_map in I. destruct I as ([p a] & J & I). apply in_combine_r in J. destruct p as [p|], a as [e|]; try now destruct I.
  unfold param_hint in I. destruct (contains _ _); [destruct I|]. destruct I as [<-|[]]. cbn [h_range h_resolve_parent]. split; [now apply arg_in|reflexivity].
Qed.
Lemma range_hint_range : forall cfg x h, In h (range_hints cfg x) -> range_in (h_range h) (range_of x) /\ h_resolve_parent h = None.
Proof.
  intros cfg x h I. unfold range_hints in I. destruct (_ && _); [|destruct I]. destruct (token_of DOT_DOT x) as [d|] eqn:E; [|destruct I]. destruct I as [<-|[]].
  cbn [h_range h_resolve_parent]. split; [apply child_in; now apply token_of_child in E|reflexivity].
Qed.
Lemma node_hint_range : forall cfg sem anc x h, In h (node_hints cfg sem anc x) ->
  intersects (h_range h) (range_of x) = true /\ (forall p, h_resolve_parent h = Some p -> p = range_of x).
Proof.
  intros cfg sem anc x h I. unfold node_hints in I. cbv zeta in I. destruct (kind_eqb _ IDENT_PAT).
  - apply ident_hint_range in I. destruct I as [A B]. split; [exact A|]. intros p E. rewrite B in E. now injection E as <-.
  - assert (Q : range_in (h_range h) (range_of x) /\ h_resolve_parent h = None).
    { destruct (is_call _); [now apply param_hint_range in I|]. destruct (kind_eqb _ RANGE_EXPR); [now apply range_hint_range in I|destruct I]. }
    destruct Q as [A B]. split; [|intros p E; rewrite B in E; discriminate]. apply intersects_spec. unfold range_in, range_of in *. cbn [fst snd] in *. lia.
Qed.

(** * The walk *)
Definition walks (limit : option range) cfg sem anc : nat -> list tree -> list hint :=
  fix all o l := match l with [] => [] | c :: r => walk limit cfg sem anc o c ++ all (o + len c) r end.
Definition skipped (limit : option range) (x : nat * tree) : bool := match limit with Some r => negb (intersects r (range_of x)) | None => false end.
Lemma walk_node : forall limit cfg sem anc off k ch, walk limit cfg sem anc off (TNode k ch) =
  if skipped limit (off, TNode k ch) then [] else node_hints cfg sem anc (off, TNode k ch) ++ walks limit cfg sem ((off, TNode k ch) :: anc) off ch.
Proof. reflexivity. Qed.
Lemma walks_in : forall limit cfg sem anc l o h, In h (walks limit cfg sem anc o l) <-> exists a c b, l = a ++ c :: b /\ In h (walk limit cfg sem anc (o + lens a) c).
Proof.
  induction l as [|d r IH]; intros o h; cbn [walks].
  - split; [intros []|intros (a & c & b & E & _); now destruct a].
  - change (In h (walk limit cfg sem anc o d ++ walks limit cfg sem anc (o + len d) r) <-> exists a c b, d :: r = a ++ c :: b /\ In h (walk limit cfg sem anc (o + lens a) c)).
    rewrite in_app_iff, IH. split.
    + intros [I|(a & c & b & -> & I)]; [exists [], d, r; cbn [lens fold_right]; rewrite Nat.add_0_r; auto|]. exists (d :: a), c, b. split; [reflexivity|]. now rewrite lens_cons, Nat.add_assoc.
    + intros (a & c & b & E & I). destruct a as [|d' a]; cbn [app] in E; injection E as -> ->; [left; cbn [lens fold_right] in I; now rewrite Nat.add_0_r in I|].
      right. exists a, c, b. split; [reflexivity|]. now rewrite lens_cons, Nat.add_assoc in I.
Qed.
Lemma sub_range : forall o k a c b, range_in (range_of (o + lens a, c)) (range_of (o, TNode k (a ++ c :: b))).
Proof. intros. apply child_in. unfold children. cbn [fst snd]. apply at_offsets_in. now exists a, b. Qed.
(** hints of a subtree meet it, and what they give for later lies in it *)
Lemma walk_meets : forall limit cfg sem t anc off h, In h (walk limit cfg sem anc off t) ->
  intersects (h_range h) (range_of (off, t)) = true /\ (forall p, h_resolve_parent h = Some p -> range_in p (range_of (off, t))).
Proof.
  intros limit cfg sem. induction t as [k x|k ch IH] using tree_ind'; intros anc off h I; [destruct I|]. rewrite walk_node in I. destruct (skipped _ _); [destruct I|].
  apply in_app_iff in I. destruct I as [I|I].
  - apply node_hint_range in I. destruct I as [A B]. split; [exact A|]. intros p E. apply B in E. subst. unfold range_in, range_of. cbn. lia.
  - apply walks_in in I. destruct I as (a & c & b & -> & I). rewrite Forall_forall in IH. apply IH in I; [|apply in_elt]. destruct I as [A B]. pose proof (sub_range off k a c b) as R. split.
    + apply intersects_spec in A. apply intersects_spec. unfold range_in in R. lia.
    + intros p E. eapply range_in_trans; [apply B; exact E|exact R].
Qed.
Lemma filter_none : forall (f : hint -> bool) l, (forall h, In h l -> f h = false) -> filter f l = [].
Proof. induction l as [|x r IH]; intros H; [reflexivity|]. cbn [filter]. rewrite H by now left. apply IH. intros h I. apply H. now right. Qed.
Lemma walk_limit : forall r cfg sem t anc off, filter (fun h => contains_range r (h_range h)) (walk (Some r) cfg sem anc off t) = filter (fun h => contains_range r (h_range h)) (walk None cfg sem anc off t).
Proof.
  intros r cfg sem. induction t as [k x|k ch IH] using tree_ind'; intros anc off; [reflexivity|]. destruct (skipped (Some r) (off, TNode k ch)) eqn:E.
  - rewrite walk_node, E. symmetry. apply filter_none. intros h I. apply walk_meets in I. destruct I as [I _]. destruct (contains_range r (h_range h)) eqn:C; [|reflexivity]. exfalso.
    cbn [skipped] in E. apply negb_true_iff in E. apply intersects_spec in I. apply contains_spec in C. assert (X : intersects r (range_of (off, TNode k ch)) = true) by (apply intersects_spec; lia). congruence.
  - rewrite !walk_node, E. cbn [skipped]. rewrite !filter_app. f_equal. generalize ((off, TNode k ch) :: anc). intros anc'. clear E. revert off. induction IH as [|c l Hc _ IHl]; intros off; [reflexivity|].
    change (walks ?li cfg sem anc' off (c :: l)) with (walk li cfg sem anc' off c ++ walks li cfg sem anc' (off + len c) l). rewrite !filter_app, Hc. f_equal. apply IHl.
Qed.

(** * A part of the file *)
(** the hints for a range are the hints of the file inside it, in the same order *)
Theorem limited_exact : forall r cfg sem t, inlay_hints (Some r) cfg sem t = filter (fun h => contains_range r (h_range h)) (inlay_hints None cfg sem t).
Proof. intros. apply walk_limit. Qed.
Theorem limited_members : forall r cfg sem t h, In h (inlay_hints (Some r) cfg sem t) <-> In h (inlay_hints None cfg sem t) /\ fst r <= fst (h_range h) /\ snd (h_range h) <= snd r.
Proof. intros. rewrite limited_exact, filter_In, contains_spec. reflexivity. Qed.
(** every hint is made at a node, from that node alone with its ancestors *)
Lemma place_in_walk : forall cfg sem t anc x, place t anc x -> (forall h, In h (walk None cfg sem anc (fst x) (snd x)) -> In h (inlay_hints None cfg sem t)).
Proof.
  intros cfg sem t anc x P. induction P as [|anc o k a c b P IH]; intros h I; [exact I|]. apply IH. cbn [fst snd] in *. rewrite walk_node. cbn [skipped]. apply in_app_iff. right. apply walks_in. now exists a, c, b.
Qed.
Lemma walk_in_place : forall cfg sem t s anc off h, place t anc (off, s) -> In h (walk None cfg sem anc off s) -> exists anc' x, place t anc' x /\ is_node (snd x) = true /\ In h (node_hints cfg sem anc' x).
Proof.
  intros cfg sem t. induction s as [k x|k ch IH] using tree_ind'; intros anc off h P I; [destruct I|]. rewrite walk_node in I. cbn [skipped] in I. apply in_app_iff in I.
  destruct I as [I|I]; [now exists anc, (off, TNode k ch)|]. apply walks_in in I. destruct I as (a & c & b & -> & I). rewrite Forall_forall in IH. eapply IH; [apply in_elt| |exact I]. now apply place_child.
Qed.
Theorem hints_exact : forall cfg sem t h, In h (inlay_hints None cfg sem t) <-> exists anc x, place t anc x /\ is_node (snd x) = true /\ In h (node_hints cfg sem anc x).
Proof.
  intros cfg sem t h. split; [intros I; apply (walk_in_place cfg sem t t [] 0 h (place_root t) I)|]. intros (anc & [o [k ch|]] & P & N & I); [|discriminate].
  apply (place_in_walk cfg sem t anc _ P). cbn [fst snd]. rewrite walk_node. cbn [skipped]. apply in_app_iff. now left.
Qed.
(** hints lie inside the file *)
Lemma place_range : forall t anc x, place t anc x -> range_in (range_of x) (0, len t) /\ forall a, In a anc -> range_in (range_of a) (0, len t).
Proof.
  intros t anc x P. induction P as [|anc o k a c b P [A B]]; [split; [unfold range_in, range_of; cbn; lia|intros a []]|].
  split; [eapply range_in_trans; [apply sub_range|exact A]|]. intros y [<-|I]; [exact A|now apply B].
Qed.
Theorem hints_inside : forall cfg sem t h, In h (inlay_hints None cfg sem t) -> range_in (h_range h) (0, len t).
Proof.
  intros cfg sem t h I. apply hints_exact in I. destruct I as (anc & x & P & _ & I). destruct (place_range _ _ _ P) as [A B]. unfold node_hints in I. cbv zeta in I. destruct (kind_eqb _ IDENT_PAT).
  - unfold ident_pat_hints in I. destruct (negb (type_hints cfg)); [destruct I|]. destruct (type_of sem (fst x) (snd x)) as [ws|]; [|destruct I]. cbv zeta in I.
    destruct (match node_of (kind_eqb NAME) x with Some n => starts_with_underscore (text_of (snd n)) | None => false end); [destruct I|].
    destruct (colon_of cfg sem anc) as [colon|] eqn:C; [|destruct I]. destruct I as [<-|[]]. cbn [h_range].
    assert (R : range_in (match node_of (kind_eqb NAME) x with Some n => range_of n | None => range_of x end) (0, len t)).
    { destruct (node_of (kind_eqb NAME) x) as [n|] eqn:E; [|exact A]. eapply range_in_trans; [apply child_in; apply node_of_child in E; exact E|exact A]. }
    destruct colon as [c|]; [|exact R]. assert (Q : range_in (range_of c) (0, len t)).
    { unfold colon_of in C. destruct (find _ anc) as [o|] eqn:F; [|discriminate]. apply find_some in F. destruct F as [F _]. apply B in F. eapply range_in_trans; [|exact F]. apply child_in. apply (token_of_child COLON).
      destruct (kind_of (snd o)); try discriminate; destruct (node_of is_type o); try discriminate; cbv zeta in C.
      - destruct (hide_closure_parameter_hints cfg); [discriminate|]. now injection C.
      - destruct (negb _ && _); [discriminate|]. destruct (_ && _); [discriminate|]. now injection C. }
    revert R Q. generalize (match node_of (kind_eqb NAME) x with Some n => range_of n | None => range_of x end) (range_of c). unfold range_in, cover. intros r q. cbn [fst snd]. lia.
  - eapply range_in_trans; [|exact A]. destruct (is_call _); [now apply param_hint_range in I|]. destruct (kind_eqb _ RANGE_EXPR); [now apply range_hint_range in I|destruct I].
Qed.
(** what the client gets for a range that begins in the file *)
Theorem visible_hints : forall r cfg sem t h, fst r <= len t ->
  (In h (handle_inlay_hints r cfg sem t) <-> In h (inlay_hints None cfg sem t) /\ fst r <= fst (h_range h) /\ snd (h_range h) <= snd r).
Proof.
  intros r cfg sem t h L. unfold handle_inlay_hints. rewrite limited_members. cbn [fst snd]. split; intros [I H]; (split; [exact I|]); apply hints_inside in I; unfold range_in in I; cbn [fst snd] in I; lia.
Qed.

(** * Labels *)
Lemma make_new_part_text : forall b, label_text (b_parts (make_new_part b)) ++ b_last (make_new_part b) = label_text (b_parts b) ++ b_last b.
Proof. intros [p l o]. unfold make_new_part, label_text. cbn [b_last b_parts b_location]. destruct l as [|c r]; [reflexivity|]. cbn [b_parts b_last]. rewrite flat_map_app. cbn [flat_map p_text]. now rewrite !app_nil_r. Qed.
(** the label says what was written, links or not *)
Theorem label_says : forall lz ws, label_text (label_of lz ws) = written ws.
Proof.
  intros lz ws. unfold label_of. assert (H : forall b, let e := make_new_part (fold_left (write_one lz) ws b) in label_text (b_parts e) ++ b_last e = label_text (b_parts b) ++ b_last b ++ written ws).
  { induction ws as [|w ws IH]; intros b; cbv zeta in *; cbn [fold_left].
    - rewrite make_new_part_text. cbn. now rewrite app_nil_r.
    - rewrite IH. unfold written. cbn [flat_map]. fold (written ws). destruct w as [x|l|]; cbn [write_one].
      + cbn [b_parts b_last]. now rewrite <- !app_assoc.
      + rewrite !app_assoc. f_equal. cbv zeta. rewrite app_nil_r. destruct lz; [cbn [b_parts b_last]; apply make_new_part_text|]. destruct l; cbn [b_parts b_last]; apply make_new_part_text.
      + rewrite !app_assoc. f_equal. rewrite app_nil_r. apply make_new_part_text. }
  specialize (H (mkBuilder [] [] None)). cbv zeta in H. cbn in H. rewrite <- H.
  assert (Z : forall b, b_last (make_new_part b) = []) by (intros [p [|c l] o]; reflexivity). now rewrite Z, app_nil_r.
Qed.
(** the links are where they were written *)
Theorem label_links : forall lz s, (forall l x, In (Linked l x) s -> x <> []) -> label_of lz (flat_map writes_of s) = parts_of lz [] s.
Proof.
  intros lz s H. unfold label_of. assert (G : forall p x, b_parts (make_new_part (fold_left (write_one lz) (flat_map writes_of s) (mkBuilder p x None))) = p ++ parts_of lz x s).
  { induction s as [|[y|l y] r IH]; intros p x.
    - cbn. destruct x; unfold make_new_part; cbn; [now rewrite app_nil_r|reflexivity].
    - cbn [flat_map writes_of app fold_left write_one parts_of b_parts b_last b_location]. apply IH. intros l z I. apply (H l). now right.
    - assert (Y : y <> []) by (apply (H l); now left). cbn [flat_map writes_of app fold_left parts_of].
      assert (E : write_one lz (write_one lz (write_one lz (mkBuilder p x None) (StartLink (Some l))) (Write y)) EndLink = mkBuilder (p ++ flush x ++ [mkPart y (Some (if lz then Lazy else Computed l))]) [] None).
      { destruct y as [|cy y]; [congruence|]. destruct x as [|cx x], lz; cbn; unfold make_new_part; cbn; now rewrite <- ?app_assoc. }
      rewrite E, IH by (intros l' z I; apply (H l'); now right). now rewrite <- !app_assoc. }
  exact (G [] []).
Qed.
Theorem prepend_says : forall s l, label_text (prepend_str s l) = s ++ label_text l.
Proof. intros s [|[x [k|]] r]; unfold label_text; cbn [prepend_str flat_map p_text]; rewrite <- ?app_assoc; reflexivity. Qed.
Theorem append_says : forall s l, label_text (append_str s l) = label_text l ++ s.
Proof.
  intros s l. unfold append_str, label_text. destruct (rev l) as [|[x [k|]] r] eqn:E.
  - rewrite flat_map_app. cbn. now rewrite app_nil_r.
  - rewrite flat_map_app. cbn. now rewrite app_nil_r.
  - assert (F : l = rev r ++ [mkPart x None]) by (rewrite <- (rev_involutive l), E; reflexivity). rewrite F, !flat_map_app. cbn [flat_map p_text]. now rewrite !app_nil_r, app_assoc.
Qed.

(** * Names of parameters *)
Lemma trim_stripped : forall n m, trim n = m <-> stripped n m.
Proof.
  intros n m. split.
  - intros <-. induction n as [|c n IH]; [exists []; repeat split; [constructor|intros r; discriminate]|]. cbn [trim]. destruct (N.eqb_spec c underscore) as [->|D].
    + destruct IH as (u & E & F & G). exists (underscore :: u). repeat split; [now rewrite E at 1|now constructor|exact G].
    + exists []. repeat split; [constructor|]. intros r E. injection E as -> _. now apply D.
  - intros (u & -> & F & G). induction F as [|c u <- _ IH]; [|cbn [app trim]; now rewrite N.eqb_refl]. cbn [app]. destruct m as [|c m]; [reflexivity|]. cbn [trim]. destruct (N.eqb_spec c underscore) as [->|]; [now destruct (G m)|reflexivity].
Qed.
Lemma starts_spec : forall p x, starts p x = true <-> exists b, x = p ++ b.
Proof.
  induction p as [|a p IH]; intros x; cbn [starts]; [split; [intros _; now exists x|reflexivity]|]. destruct x as [|b x]; [split; [discriminate|intros (y & E); discriminate]|].
  rewrite andb_true_iff, N.eqb_eq, IH. split; [intros [-> (y & ->)]; now exists y|]. intros (y & E). injection E as -> ->. split; [reflexivity|now exists y].
Qed.
Lemma contains_occurs : forall x p, contains x p = true <-> occurs_in p x.
Proof.
  induction x as [|c x IH]; intros p; cbn [contains]; rewrite orb_true_iff, starts_spec.
  - split; [intros [(b & E)|E]; [|discriminate]; now exists [], b|]. intros (a & b & E). destruct a; [|discriminate]. left. now exists b.
  - rewrite IH. split.
    + intros [(b & E)|(a & b & ->)]; [now exists [], b|]. now exists (c :: a), b.
    + intros (a & b & E). destruct a as [|c' a]; cbn [app] in E; [left; now exists b|]. injection E as -> ->. right. now exists a, b.
Qed.
Lemma known_spec : forall n, existsb (text_eqb n) known_callables = true <-> In n known_callables.
Proof.
  intros n. rewrite existsb_exists. split; [intros (y & I & E)|intros I; exists n; split; [exact I|]]; unfold text_eqb in *; destruct (text_eq_dec _ _); congruence.
Qed.
Lemma has_hints_spec : forall c, has_hints c <-> match callable_name c with Some n => existsb (text_eqb n) known_callables | None => false end = false.
Proof.
  intros c. rewrite <- not_true_iff_false. destruct c as [[n|] ps|ps|k|k|ps|]; cbn [has_hints callable_name]; try (split; [discriminate|auto]).
  - now rewrite known_spec.
  - split; [intros []|intros H; apply H; reflexivity].
Qed.
Lemma param_names_spec : forall m c i n, has_hints c -> (nth_error (param_names m c) i = Some (Some n) <-> names_param m c i n).
Proof.
  intros m c i n Hc. assert (M : forall l : list text, nth_error (map Some l) i = Some (Some n) <-> nth_error l i = Some n).
  { intros l. rewrite nth_error_map. destruct (nth_error l i); cbn; split; congruence. }
  assert (R : forall k, nth_error (repeat (@None text) k) i = Some (Some n) <-> False).
  { intros k. split; [|intros []]. intros E. apply nth_error_In in E. apply repeat_spec in E. discriminate. }
  assert (T : forall l : list text, nth_error (tl l) i = nth_error l (S i)) by (intros [|y l]; [now destruct i|reflexivity]).
  destruct c; cbn [param_names names_param]; try apply R; try (destruct m; rewrite M, ?T; reflexivity); [reflexivity|destruct Hc].
Qed.
Lemma param_count_spec : forall m c, List.length (param_names m c) = written_params m c.
Proof.
  intros m c. destruct c as [n ps|ps|k|k|ps|]; cbn [param_names written_params]; rewrite ?map_length, ?repeat_length; try reflexivity; destruct m; try reflexivity; destruct ps; cbn; lia.
Qed.
Lemma combine_nth_in : forall (A B : Type) (l : list A) (l' : list B) a b, In (a, b) (List.combine l l') <-> exists i, nth_error l i = Some a /\ nth_error l' i = Some b.
Proof.
  intros A B. induction l as [|x l IH]; intros l' a b; cbn [List.combine]; [split; [intros []|intros ([|i] & E & _); discriminate]|]. destruct l' as [|y l']; [split; [intros []|intros ([|i] & _ & E); discriminate]|]. cbn [In]. rewrite IH. split.
  - intros [E|(i & E & F)]; [injection E as -> ->; now exists 0|now exists (S i)].
  - intros ([|i] & E & F); cbn in E, F; [left; congruence|right; now exists i].
Qed.
(** an argument is labelled with the name of its own parameter, unless the name is already in it *)
Theorem param_hints_exact : forall cfg sem x h, In h (param_hints cfg sem x) <->
  parameter_hints cfg = true /\ exists c i n m e, callable_info sem x = Some c /\ has_hints c /\
    written_params (kind_eqb (kind_of (snd x)) METHOD_CALL_EXPR) c <> 1 /\
    names_param (kind_eqb (kind_of (snd x)) METHOD_CALL_EXPR) c i n /\ stripped n m /\ nth_error (arg_exprs x) i = Some (Some e) /\
    ~ occurs_in (lower sem m) (lower sem (text_of (snd e))) /\
    h = mkHint (range_of e) Before false false HParameter [mkPart (with_colons cfg m) None] None.
Proof.
  intros cfg sem x h. unfold param_hints. destruct (parameter_hints cfg); cbn [negb]; [|split; [intros []|intros [F _]; discriminate]].
  destruct (callable_info sem x) as [c|]; [|split; [intros []|intros (_ & c & i & n & m & e & F & _); discriminate]].
  destruct (match callable_name c with Some n => existsb (text_eqb n) known_callables | None => false end) eqn:K.
  { split; [intros []|]. intros (_ & c' & i & n & m & e & E & Hc & _). injection E as <-. apply has_hints_spec in Hc. congruence. }
  apply has_hints_spec in K. cbv zeta. rewrite param_count_spec. destruct (Nat.eqb_spec (written_params (kind_eqb (kind_of (snd x)) METHOD_CALL_EXPR) c) 1) as [W|W].
  { split; [intros []|]. intros (_ & c' & i & n & m & e & E & _ & F & _). injection E as <-. contradiction. }
  rewrite in_flat_map. split.
  - intros ([p a] & I & J). split; [reflexivity|]. apply combine_nth_in in I. destruct I as (i & I1 & I2). destruct p as [n|], a as [e|]; try now destruct J. unfold param_hint in J.
    destruct (contains _ _) eqn:C; [destruct J|]. destruct J as [<-|[]]. exists c, i, n, (trim n), e. repeat split; auto.
    + now apply param_names_spec.
    + now apply trim_stripped.
    + rewrite <- contains_occurs. congruence.
    + unfold with_colons, append_str. now destruct (render_colons cfg).
  - intros (_ & c' & i & n & m & e & E & _ & _ & P & Sn & A & O & ->). injection E as <-. exists (Some n, Some e). split; [apply combine_nth_in; exists i; split; [now apply param_names_spec|exact A]|].
    apply trim_stripped in Sn. unfold param_hint. rewrite Sn. destruct (contains _ _) eqn:C; [apply contains_occurs in C; contradiction|]. left. unfold with_colons, append_str. now destruct (render_colons cfg).
Qed.

(** * Types of variables *)
Definition nearest_owner (anc : list (nat * tree)) (o : nat * tree) : Prop :=
  exists before after, anc = before ++ o :: after /\ is_ident_pat_owner (kind_of (snd o)) = true /\ forall a, In a before -> is_ident_pat_owner (kind_of (snd a)) = false.
Definition parent_kind (anc : list (nat * tree)) (k : kind) : Prop := exists p r, anc = p :: r /\ kind_of (snd p) = k.
(** a variable of a let or of a lambda without a type *)
Definition wants_type (cfg : config) (sem : semantics) (anc : list (nat * tree)) (o : nat * tree) : Prop :=
  nearest_owner anc o /\ (forall y, In y (children o) -> is_node (snd y) = true -> is_type (kind_of (snd y)) = false) /\
  (kind_of (snd o) = LAMBDA_PARAM /\ hide_closure_parameter_hints cfg = false \/
   kind_of (snd o) = LET_STMT /\ (tuple_type_hints cfg = true \/ ~ parent_kind anc TUPLE_PAT) /\ (~ parent_kind anc LET_STMT \/ takes_resource sem (fst o) (snd o) = false)).
Lemma nearest_owner_spec : forall anc o, nearest_owner anc o <-> find (fun a => is_ident_pat_owner (kind_of (snd a))) anc = Some o.
Proof.
  induction anc as [|a r IH]; intros o; cbn [find].
  - split; [intros (b & c & E & _); now destruct b|discriminate].
  - destruct (is_ident_pat_owner (kind_of (snd a))) eqn:E; split.
    + intros (b & c & F & _ & G). destruct b as [|a' b]; cbn [app] in F; injection F as -> ->; [reflexivity|]. rewrite (G a') in E by now left. discriminate.
    + intros F. injection F as <-. exists [], r. repeat split; auto. intros y [].
    + intros (b & c & F & H & G). destruct b as [|a' b]; cbn [app] in F; injection F as -> ->; [congruence|]. apply IH. exists b, c. repeat split; auto. intros y I. apply G. now right.
    + intros F. apply IH in F. destruct F as (b & c & -> & H & G). exists (a :: b), c. repeat split; auto. intros y [<-|I]; [exact E|now apply G].
Qed.
Lemma node_of_none : forall f x, node_of f x = None <-> forall y, In y (children x) -> is_node (snd y) = true -> f (kind_of (snd y)) = false.
Proof.
  intros f x. unfold node_of, nodes_of. induction (children x) as [|c l IH]; [cbn; split; [intros _ y []|reflexivity]|]. cbn [filter]. destruct (is_node (snd c) && f (kind_of (snd c))) eqn:E.
  - apply andb_true_iff in E. destruct E as [E F]. cbn. split; [discriminate|]. intros H. rewrite (H c) in F; [discriminate|now left|exact E].
  - rewrite IH. split; intros H y I; [|apply H; now right]. destruct I as [<-|I]; [intros N; now rewrite N in E|now apply H].
Qed.
Lemma parent_kind_spec : forall anc k, parent_kind anc k <-> match anc with p :: _ => kind_eqb (kind_of (snd p)) k | [] => false end = true.
Proof.
  intros [|p r] k; [split; [intros (p & r & E & _); discriminate|discriminate]|]. rewrite kind_eqb_spec. split; [intros (p' & r' & E & F); congruence|intros E; now exists p, r].
Qed.
Lemma colon_of_spec : forall cfg sem anc c, colon_of cfg sem anc = Some c <-> exists o, wants_type cfg sem anc o /\ c = token_of COLON o.
Proof.
  intros cfg sem anc c. unfold colon_of, wants_type. destruct (find _ anc) as [o|] eqn:F.
  2:{ split; [discriminate|]. intros (o & (W & _) & _). apply nearest_owner_spec in W. congruence. }
  apply nearest_owner_spec in F. assert (U : forall o', nearest_owner anc o' -> o' = o) by (intros o' W; apply nearest_owner_spec in W, F; congruence).
  set (tp := match anc with p :: _ => kind_eqb (kind_of (snd p)) TUPLE_PAT | [] => false end). set (lp := match anc with p :: _ => kind_eqb (kind_of (snd p)) LET_STMT | [] => false end).
  assert (Tp : parent_kind anc TUPLE_PAT <-> tp = true) by apply parent_kind_spec. assert (Lp : parent_kind anc LET_STMT <-> lp = true) by apply parent_kind_spec.
  split.
  - intros E. exists o. destruct (kind_of (snd o)) eqn:K; try discriminate; destruct (node_of is_type o) eqn:Ty; try discriminate; pose proof (proj1 (node_of_none _ _) Ty) as Ty'; clear Ty; rename Ty' into Ty.
    + destruct (hide_closure_parameter_hints cfg) eqn:Hc; [discriminate|]. injection E as <-. split; [|reflexivity]. split; [exact F|split; [exact Ty|left; auto]].
    + cbv zeta in E. fold tp lp in E. destruct (tuple_type_hints cfg) eqn:Tt, tp eqn:Etp; cbn [negb andb] in E; try discriminate;
        (destruct lp eqn:Elp; cbn [andb] in E; [destruct (takes_resource sem (fst o) (snd o)) eqn:Tr; [discriminate|]|]); injection E as <-; (split; [|reflexivity]; split; [exact F|split; [exact Ty|right]]);
        rewrite Tp, Lp; repeat split; auto; try (right; discriminate); left; discriminate.
  - intros (o' & (W & Ty & D) & ->). apply U in W. subst o'. pose proof (proj2 (node_of_none _ _) Ty) as Ty'; clear Ty; rename Ty' into Ty. destruct D as [(K & Hc)|(K & A & B)]; rewrite K, Ty; [now rewrite Hc|]. cbv zeta. fold tp lp. rewrite Tp in A. rewrite Lp in B.
    replace (negb (tuple_type_hints cfg) && tp) with false by (destruct A as [->|A]; [reflexivity|destruct tp; [now destruct A|now rewrite andb_false_r]]).
    replace (lp && takes_resource sem (fst o) (snd o)) with false by (destruct B as [B|B]; [destruct lp; [now destruct B|reflexivity]|now rewrite B, andb_false_r]). reflexivity.
Qed.
(** the type of a variable is shown after its name, or after the colon that is already there *)
Theorem type_hints_exact : forall cfg sem anc x h, In h (ident_pat_hints cfg sem anc x) <->
  type_hints cfg = true /\ exists ws o, type_of sem (fst x) (snd x) = Some ws /\ wants_type cfg sem anc o /\
    (forall n, node_of (kind_eqb NAME) x = Some n -> forall r, text_of (snd n) <> underscore :: r) /\
    let name := match node_of (kind_eqb NAME) x with Some n => range_of n | None => range_of x end in
    let add := render_colons cfg && match token_of COLON o with None => true | Some _ => false end in
    h = mkHint (match token_of COLON o with Some c => cover name (range_of c) | None => name end) After (negb add) false HType
          (if add then prepend_str (txt ": ") (label_of (lazy cfg) ws) else label_of (lazy cfg) ws) (Some (range_of x)).
Proof.
  intros cfg sem anc x h. unfold ident_pat_hints. destruct (type_hints cfg); cbn [negb]; [|split; [intros []|intros [F _]; discriminate]].
  destruct (type_of sem (fst x) (snd x)) as [ws|]; [|split; [intros []|intros (_ & ws & o & F & _); discriminate]]. cbv zeta.
  assert (U : forall y, starts_with_underscore y = true <-> exists r, y = underscore :: r).
  { intros [|c y]; cbn [starts_with_underscore]; [split; [discriminate|intros (r & E); discriminate]|]. rewrite N.eqb_eq. split; [intros ->; now exists y|intros (r & E); congruence]. }
  destruct (match node_of (kind_eqb NAME) x with Some n => starts_with_underscore (text_of (snd n)) | None => false end) eqn:E.
  { split; [intros []|]. intros (_ & ws' & o & _ & _ & F & _). destruct (node_of (kind_eqb NAME) x) as [n|]; [|discriminate]. apply U in E. destruct E as (r & E). now destruct (F n eq_refl r). }
  destruct (colon_of cfg sem anc) as [c|] eqn:C.
  2:{ split; [intros []|]. intros (_ & ws' & o & _ & W & _). assert (D : colon_of cfg sem anc = Some (token_of COLON o)) by (apply colon_of_spec; now exists o). congruence. }
  split.
  - intros [<-|[]]. split; [reflexivity|]. apply colon_of_spec in C. destruct C as (o & W & ->). exists ws, o. repeat split; auto; try apply W.
    intros n N r F. rewrite N in E. assert (T : starts_with_underscore (text_of (snd n)) = true) by (apply U; now exists r). congruence.
  - intros (_ & ws' & o & D & W & _ & ->). injection D as <-. assert (D : colon_of cfg sem anc = Some (token_of COLON o)) by (apply colon_of_spec; now exists o). rewrite D in C. injection C as <-. now left.
Qed.
(** ranges that leave out their end are marked *)
Theorem range_hints_exact : forall cfg x h, In h (range_hints cfg x) <->
  range_exclusive_hints cfg = true /\ exists a b r d, nodes_of is_expr x = a :: b :: r /\ token_of DOT_DOT x = Some d /\ h = mkHint (range_of d) After false false HRangeExclusive [mkPart (txt "<") None] None.
Proof.
  intros cfg x h. unfold range_hints. destruct (range_exclusive_hints cfg); cbn [andb]; [|split; [intros []|intros [F _]; discriminate]].
  destruct (nodes_of is_expr x) as [|a [|b r]]; cbn [nth_error]; try (split; [intros []|intros (_ & a' & b' & r' & d & E & _); discriminate]).
  destruct (token_of DOT_DOT x) as [d|]; [|split; [intros []|intros (_ & a' & b' & r' & d & _ & E & _); discriminate]]. split.
  - intros [<-|[]]. split; [reflexivity|]. now exists a, b, r, d.
  - intros (_ & a' & b' & r' & d' & _ & E & ->). injection E as <-. now left.
Qed.

(** * Links later *)
(** items have locations *)
Definition located (ws : list write) : Prop := ~ In (StartLink None) ws.
Definition same_hashed (a b : hint) : Prop := hashed_of a = hashed_of b.
Definition part_hashed (p : part) : text * bool := (p_text p, match p_link p with Some _ => true | None => false end).
Definition same_builder (a b : builder) : Prop := map part_hashed (b_parts a) = map part_hashed (b_parts b) /\ b_last a = b_last b /\ (b_location a = None <-> b_location b = None).
Lemma same_new_part : forall a b, same_builder a b -> same_builder (make_new_part a) (make_new_part b).
Proof.
  intros [p l o] [p' l' o'] (A & B & C). cbn [b_parts b_last b_location] in *. subst l'. unfold make_new_part, same_builder. cbn [b_parts b_last b_location]. destruct l; cbn [b_parts b_last b_location]; [auto|].
  rewrite !map_app, A. repeat split; auto. f_equal. unfold part_hashed. cbn. destruct o, o'; auto; destruct C as [C1 C2]; [now specialize (C2 eq_refl)|now specialize (C1 eq_refl)].
Qed.
Lemma label_forced : forall lz ws, located ws -> map part_hashed (label_of lz ws) = map part_hashed (label_of false ws).
Proof.
  intros lz ws L. unfold label_of. assert (G : forall a b, same_builder a b -> same_builder (fold_left (write_one lz) ws a) (fold_left (write_one false) ws b)).
  { induction ws as [|w ws IH]; intros a b S; [exact S|]. cbn [fold_left]. apply IH; [intros I; apply L; now right|]. destruct w as [x|[l|]|]; cbn [write_one].
    - destruct S as (A & B & C). unfold same_builder. cbn [b_parts b_last b_location]. rewrite B. auto.
    - apply same_new_part in S. destruct S as (A & B & C). cbv zeta. destruct lz; unfold same_builder; cbn [b_parts b_last b_location]; repeat split; auto; discriminate.
    - exfalso. apply L. now left.
    - now apply same_new_part. }
  apply (same_new_part _ _ (G (mkBuilder [] [] None) (mkBuilder [] [] None) (conj eq_refl (conj eq_refl (conj (fun e => e) (fun e => e)))))).
Qed.
Lemma prepend_hashed : forall s l l', map part_hashed l = map part_hashed l' -> map part_hashed (prepend_str s l) = map part_hashed (prepend_str s l').
Proof.
  intros s [|[x o] l] [|[x' o'] l'] E; try discriminate; [reflexivity|]. cbn [map] in E. injection E as -> O T. cbn [p_link] in O. destruct o, o'; try discriminate; cbn [prepend_str map]; rewrite T; reflexivity.
Qed.
Lemma ident_forced : forall cfg sem anc x, (forall o t ws, type_of sem o t = Some ws -> located ws) -> Forall2 same_hashed (ident_pat_hints cfg sem anc x) (ident_pat_hints (forced cfg) sem anc x).
Proof.
  intros cfg sem anc x L. unfold ident_pat_hints. cbn [type_hints forced lazy render_colons]. destruct (negb (type_hints cfg)); [constructor|]. destruct (type_of sem (fst x) (snd x)) as [ws|] eqn:W; [|constructor]. apply L in W. cbv zeta.
  destruct (match node_of (kind_eqb NAME) x with Some n => starts_with_underscore (text_of (snd n)) | None => false end); [constructor|].
  change (colon_of (forced cfg) sem anc) with (colon_of cfg sem anc). destruct (colon_of cfg sem anc) as [c|]; [|constructor]. constructor; [|constructor].
  unfold same_hashed, hashed_of. cbn [h_range h_position h_pad_left h_pad_right h_kind h_label]. f_equal. fold part_hashed. change (fun p : part => (p_text p, match p_link p with Some _ => true | None => false end)) with part_hashed.
  destruct (render_colons cfg && _); [apply prepend_hashed|]; now apply label_forced.
Qed.
Lemma same_refl : forall l, Forall2 same_hashed l l.
Proof. induction l; constructor; auto. reflexivity. Qed.
Lemma node_forced : forall cfg sem anc x, (forall o t ws, type_of sem o t = Some ws -> located ws) -> Forall2 same_hashed (node_hints cfg sem anc x) (node_hints (forced cfg) sem anc x).
Proof.
  intros cfg sem anc x L. unfold node_hints. cbv zeta. destruct (kind_eqb _ IDENT_PAT); [now apply ident_forced|]. destruct (is_call _); [apply same_refl|]. destruct (kind_eqb _ RANGE_EXPR); apply same_refl.
Qed.
Lemma walk_forced : forall limit cfg sem t anc off, (forall o s ws, type_of sem o s = Some ws -> located ws) -> Forall2 same_hashed (walk limit cfg sem anc off t) (walk limit (forced cfg) sem anc off t).
Proof.
  intros limit cfg sem t anc off L. revert anc off. induction t as [k x|k ch IH] using tree_ind'; intros anc off; [constructor|]. rewrite !walk_node. destruct (skipped _ _); [constructor|]. apply Forall2_app; [now apply node_forced|].
  generalize ((off, TNode k ch) :: anc). intros anc'. revert off. induction IH as [|c l Hc _ IHl]; intros off; [constructor|].
  change (walks ?li ?c0 sem anc' off (c :: l)) with (walk li c0 sem anc' off c ++ walks li c0 sem anc' (off + len c) l). apply Forall2_app; [apply Hc|apply IHl].
Qed.
Lemma walk_keeps : forall p cfg sem t anc off h, In h (walk None cfg sem anc off t) -> h_resolve_parent h = Some p -> In h (walk (Some p) cfg sem anc off t).
Proof.
  intros p cfg sem. induction t as [k x|k ch IH] using tree_ind'; intros anc off h I E; [destruct I|]. pose proof (walk_meets _ _ _ _ _ _ _ I) as [_ M]. specialize (M p E). rewrite walk_node in I |- *. cbn [skipped] in I |- *.
  assert (X : intersects p (range_of (off, TNode k ch)) = true) by (apply intersects_spec; unfold range_in in M; lia). rewrite X. cbn [negb]. apply in_app_iff in I. apply in_app_iff. destruct I as [I|I]; [now left|right].
  apply walks_in in I. destruct I as (a & c & b & -> & I). apply walks_in. exists a, c, b. split; [reflexivity|]. rewrite Forall_forall in IH. apply IH; auto. apply in_elt.
Qed.
Lemma walk_sub : forall r cfg sem t anc off h, In h (walk (Some r) cfg sem anc off t) -> In h (walk None cfg sem anc off t).
Proof.
  intros r cfg sem. induction t as [k x|k ch IH] using tree_ind'; intros anc off h I; [destruct I|]. rewrite walk_node in I |- *. destruct (skipped (Some r) _); [destruct I|]. cbn [skipped]. apply in_app_iff in I. apply in_app_iff. destruct I as [I|I]; [now left|right].
  apply walks_in in I. destruct I as (a & c & b & -> & I). apply walks_in. exists a, c, b. split; [reflexivity|]. rewrite Forall_forall in IH. apply IH; auto. apply in_elt.
Qed.
Lemma forall2_in : forall (l l' : list hint) a, Forall2 same_hashed l l' -> In a l -> exists b, In b l' /\ hashed_of a = hashed_of b.
Proof. intros l l' a F. induction F as [|x y l l' S _ IH]; intros []; [subst; exists y; split; [now left|exact S]|]. destruct (IH H) as (b & I & E). exists b. split; [now right|exact E]. Qed.
(** nothing is left for later in a label made at once *)
Definition no_lazy (l : list part) : Prop := forall p, In p l -> p_link p <> Some Lazy.
Lemma label_no_lazy : forall ws, no_lazy (label_of false ws).
Proof.
  intros ws. unfold label_of. assert (M : forall b, no_lazy (b_parts b) /\ b_location b <> Some Lazy -> no_lazy (b_parts (make_new_part b)) /\ b_location (make_new_part b) <> Some Lazy).
  { intros [p l o] [A B]. cbn [b_parts b_location] in *. unfold make_new_part. cbn [b_last b_parts b_location]. destruct l; cbn [b_parts b_location]; [auto|]. split; [|discriminate]. intros q I. apply in_app_iff in I. destruct I as [I|[<-|[]]]; [now apply A|exact B]. }
  assert (G : forall b, no_lazy (b_parts b) /\ b_location b <> Some Lazy -> let e := fold_left (write_one false) ws b in no_lazy (b_parts e) /\ b_location e <> Some Lazy).
  { cbv zeta. induction ws as [|w ws IH]; intros b B; [exact B|]. cbn [fold_left]. apply IH. destruct w as [x|[l|]|]; cbn [write_one]; [exact B| |now apply M|now apply M]. cbv zeta. split; [apply (M b B)|discriminate]. }
  apply M. apply (G (mkBuilder [] [] None)). split; [intros p []|discriminate].
Qed.
Lemma walk_no_lazy : forall cfg sem t h, In h (inlay_hints None (forced cfg) sem t) -> no_lazy (h_label h).
Proof.
  intros cfg sem t h I. apply hints_exact in I. destruct I as (anc & x & _ & _ & I). unfold node_hints in I. cbv zeta in I. destruct (kind_eqb _ IDENT_PAT).
  - apply type_hints_exact in I. destruct I as (_ & ws & o & _ & _ & _ & ->). cbn [h_label]. change (lazy (forced cfg)) with false. pose proof (label_no_lazy ws) as P. destruct (_ && _); [|exact P].
    intros p J. destruct (label_of false ws) as [|[y [k|]] r]; cbn [prepend_str] in J; [destruct J as [<-|[]]; discriminate|destruct J as [<-|J]; [discriminate|now apply P]|destruct J as [<-|J]; [discriminate|apply P; now right]].
  - destruct (is_call _); [apply param_hints_exact in I; destruct I as (_ & c & i & n & m & e & _ & _ & _ & _ & _ & _ & _ & ->); intros p [<-|[]]; discriminate|].
    destruct (kind_eqb _ RANGE_EXPR); [|destruct I]. apply range_hints_exact in I. destruct I as (_ & a & b & r & d & _ & _ & ->). intros p [<-|[]]. discriminate.
Qed.
(** a hint sent without its links gets them when the client asks: it stays the same, and no link is left for later *)
Theorem resolve_completes : forall hash cfg sem t h p,
  (forall o s ws, type_of sem o s = Some ws -> located ws) ->
  (forall a, In a (inlay_hints None (forced cfg) sem t) -> hash (hashed_of a) = hash (hashed_of h) -> hashed_of a = hashed_of h) ->
  In h (inlay_hints None cfg sem t) -> needs_resolve h = Some p ->
  let h' := handle_resolve hash cfg sem t h in
  In h' (inlay_hints None (forced cfg) sem t) /\ hashed_of h' = hashed_of h /\ no_lazy (h_label h').
Proof.
  intros hash cfg sem t h p L Hh I N. cbv zeta. unfold handle_resolve. rewrite N. unfold needs_resolve in N. destruct (existsb _ (h_label h)); [|discriminate].
  assert (W : In h (walk (Some p) cfg sem [] 0 t)) by now apply walk_keeps. destruct (forall2_in _ _ _ (walk_forced (Some p) cfg sem t [] 0 L) W) as (b & Ib & Eb).
  unfold inlay_hints_resolve. destruct (find _ (walk (Some p) (forced cfg) sem [] 0 t)) as [h'|] eqn:F.
  2:{ exfalso. pose proof (find_none _ _ F b Ib) as Z. cbn beta in Z. rewrite <- Eb, N.eqb_refl in Z. discriminate. }
  apply find_some in F. destruct F as [F Z]. apply N.eqb_eq in Z. apply walk_sub in F. pose proof (Hh h' F Z) as E. assert (K : shown_at h' = shown_at h /\ h_kind h' = h_kind h).
  { unfold hashed_of in E. injection E. intros _ E5 _ _ E2 E1. split; [unfold shown_at; now rewrite E1, E2|exact E5]. }
  destruct K as [K1 K2]. rewrite K1, K2, Nat.eqb_refl. cbn [andb]. replace (match proto_kind (h_kind h) with Some a => _ | None => _ end) with true; [|destruct (h_kind h); reflexivity].
  repeat split; [exact F|exact E|now apply (walk_no_lazy cfg sem t)].
Qed.

(** * What the nodes are *)
Theorem hint_kinds : forall k,
  (is_type k = true <-> k = LAMBDA_TYPE \/ k = PAREN_TYPE \/ k = PATH_TYPE \/ k = REF_TYPE \/ k = TUPLE_TYPE \/ k = UNIT_TYPE) /\
  (is_ident_pat_owner k = true <-> k = FOR_CONDITION \/ k = ITEM_SPEC_PARAM \/ k = LAMBDA_PARAM \/ k = LET_STMT \/ k = MATCH_ARM \/ k = PARAM \/ k = QUANT_BINDING \/ k = SCHEMA_FIELD) /\
  (is_call k = true <-> k = APPLY_LEMMA \/ k = ASSERT_MACRO_EXPR \/ k = BEHAVIOR_PREDICATE_EXPR \/ k = CALL_EXPR \/ k = METHOD_CALL_EXPR).
Proof.
  assert (A : forall l k, any_of l k = true <-> In k l).
  { intros l k. unfold any_of. rewrite existsb_exists. split; [intros (y & I & E); apply kind_eqb_spec in E; now subst|intros I; exists k; split; [exact I|apply kind_eqb_refl]]. }
  intros k. unfold is_type, is_ident_pat_owner, is_call. rewrite !A. cbn [In]. repeat split; intros H; intuition congruence.
Qed.
(** which functions get no names for their arguments *)
Theorem known_meaning : forall n, In n known_callables <-> n = txt "borrow_global" \/ n = txt "borrow_global_mut" \/ n = txt "move_to" \/ n = txt "move_from" \/ n = txt "freeze" \/ n = txt "assert!" \/ n = txt "exists".
Proof. intros n. unfold known_callables. cbn [map In]. repeat split; intros H; intuition congruence. Qed.
(** the first of the children that is as wanted, if there is one *)
Definition is_first (good : nat * tree -> Prop) (l : list (nat * tree)) (r : option (nat * tree)) : Prop :=
  match r with Some c => exists a b, l = a ++ c :: b /\ good c /\ Forall (fun y => ~ good y) a | None => Forall (fun y => ~ good y) l end.
Lemma find_first : forall (f : nat * tree -> bool) good l, (forall y, f y = true <-> good y) -> is_first good l (find f l).
Proof.
  intros f good l H. induction l as [|c l IH]; [constructor|]. cbn [find]. destruct (f c) eqn:E; [exists [], l; repeat split; [now apply H|constructor]|].
  assert (N : ~ good c) by (rewrite <- H; congruence). destruct (find f l) as [d|]; [|now constructor]. destruct IH as (a & b & -> & G & F). exists (c :: a), b. repeat split; auto.
Qed.
Theorem node_of_meaning : forall f x, is_first (fun y => is_node (snd y) = true /\ f (kind_of (snd y)) = true) (children x) (node_of f x).
Proof.
  intros f x. assert (E : node_of f x = find (fun c => is_node (snd c) && f (kind_of (snd c))) (children x)).
  { unfold node_of, nodes_of. induction (children x) as [|c l IH]; [reflexivity|]. cbn [filter find]. destruct (_ && _); [reflexivity|exact IH]. }
  rewrite E. apply find_first. intros y. apply andb_true_iff.
Qed.
Theorem token_of_meaning : forall k x, is_first (fun y => is_node (snd y) = false /\ kind_of (snd y) = k) (children x) (token_of k x).
Proof.
  intros k x. apply find_first. intros y. rewrite andb_true_iff, negb_true_iff, kind_eqb_spec. intuition congruence.
Qed.
(** each argument counts, also one whose expression is missing *)
Theorem arg_exprs_meaning : forall x l, node_of (kind_eqb VALUE_ARG_LIST) x = Some l ->
  List.length (arg_exprs x) = List.length (filter (fun y => is_node (snd y) && kind_eqb VALUE_ARG (kind_of (snd y))) (children l)) /\
  forall i a, nth_error (filter (fun y => is_node (snd y) && kind_eqb VALUE_ARG (kind_of (snd y))) (children l)) i = Some a -> nth_error (arg_exprs x) i = Some (node_of is_expr a).
Proof. intros x l E. unfold arg_exprs. rewrite E. fold (nodes_of (kind_eqb VALUE_ARG) l). rewrite map_length. split; [reflexivity|]. intros i a F. now rewrite nth_error_map, F. Qed.

(** * Examples: [let v = f(1,x..2)] where [v] has the type [S<u8>], and [S] is linked *)
Definition tok (k : kind) (s : string) : tree := TTok k (txt s).
Definition ex_call : tree :=
  TNode CALL_EXPR [TNode PATH_EXPR [tok IDENT "f"]; TNode VALUE_ARG_LIST [tok L_PAREN "("; TNode VALUE_ARG [TNode LITERAL [tok INT_NUMBER "1"]]; tok COMMA ",";
    TNode VALUE_ARG [TNode RANGE_EXPR [TNode PATH_EXPR [tok IDENT "x"]; tok DOT_DOT ".."; TNode LITERAL [tok INT_NUMBER "2"]]]; tok R_PAREN ")"]].
Definition ex_let : tree := TNode LET_STMT [tok LET_KW "let"; tok WHITESPACE " "; TNode IDENT_PAT [TNode NAME [tok IDENT "v"]]; tok WHITESPACE " "; tok EQ "="; tok WHITESPACE " "; ex_call].
Definition ex_file : tree := TNode SOURCE_FILE [ex_let; tok SEMICOLON ";"].
Definition ex_cfg (lz : bool) : config := mkConfig true true true true true false lz.
Definition ex_type : list write := flat_map writes_of [Linked (7, (3, 4)) (txt "S"); Plain (txt "<"); Plain (txt "u8>")].
Definition ex_sem (name : string) (params : list string) (ws : list write) : semantics :=
  mkSem (fun o _ => if o =? 4 then Some ws else None) (fun _ _ => false) (fun o _ => if o =? 8 then Some (CFunction (Some (txt name)) (map txt params)) else None) true (fun x => x).
Definition ex_hints (limit : option range) := inlay_hints limit (ex_cfg false) (ex_sem "f" ["_count"; "x"]%string ex_type) ex_file.
Example hints_of_file : ex_hints None =
  [mkHint (4, 5) After false false HType [mkPart (txt ": ") None; mkPart (txt "S") (Some (Computed (7, (3, 4)))); mkPart (txt "<u8>") None] (Some (4, 5));
   mkHint (10, 11) Before false false HParameter [mkPart (txt "count: ") None] None;
   mkHint (13, 15) After false false HRangeExclusive [mkPart (txt "<") None] None].
Proof. reflexivity. Qed.
Example hints_of_range : map h_range (ex_hints (Some (9, 12))) = [(10, 11)] /\ map h_range (ex_hints (Some (5, 13))) = [(10, 11)] /\ len ex_file = 18.
Proof. repeat split. Qed.
Example hints_visible : map h_range (handle_inlay_hints (5, 100) (ex_cfg false) (ex_sem "f" ["_count"; "x"]%string ex_type) ex_file) = [(10, 11); (13, 15)].
Proof. reflexivity. Qed.
Example label_example : (forall l x, In (Linked l x) [Linked (7, (3, 4)) (txt "S"); Plain (txt "<u8>")] -> x <> []) /\ label_of true ex_type = [mkPart (txt "S") (Some Lazy); mkPart (txt "<u8>") None].
Proof. split; [|reflexivity]. intros l x [E|[E|[]]]; [injection E as <- <-|]; discriminate. Qed.
(** a link without text would be carried over to what is written next *)
Example empty_link_leaks : label_of false [StartLink (Some (7, (3, 4))); EndLink; Write (txt "u8")] = [mkPart (txt "u8") (Some (Computed (7, (3, 4))))].
Proof. reflexivity. Qed.
(** a let with a colon and no type: the hint covers the colon and adds none *)
Example colon_there : inlay_hints None (ex_cfg false) (ex_sem "f" [] ex_type) (TNode LET_STMT [tok LET_KW "let"; tok WHITESPACE " "; TNode IDENT_PAT [TNode NAME [tok IDENT "v"]]; tok COLON ":"]) =
  [mkHint (4, 6) After true false HType [mkPart (txt "S") (Some (Computed (7, (3, 4)))); mkPart (txt "<u8>") None] (Some (4, 5))].
Proof. reflexivity. Qed.
(** the hint of the variable is sent without its link and gets it later; any hash that tells the hints of the file apart will do, here that of the kind *)
Definition ex_hash (v : hashed) : N := match v with (_, _, _, _, k, _) => match k with HType => 0 | HParameter => 1 | HRangeExclusive => 2 end%N end.
Example resolve_example :
  let sem := ex_sem "f" ["_count"; "x"]%string ex_type in let h := hd (mkHint (0, 0) After false false HType [] None) (inlay_hints None (ex_cfg true) sem ex_file) in
  (forall o s ws, type_of sem o s = Some ws -> located ws) /\ (forall a, In a (inlay_hints None (forced (ex_cfg true)) sem ex_file) -> ex_hash (hashed_of a) = ex_hash (hashed_of h) -> hashed_of a = hashed_of h) /\
  In h (inlay_hints None (ex_cfg true) sem ex_file) /\ needs_resolve h = Some (4, 5) /\ map p_link (h_label h) = [None; Some Lazy; None] /\
  map p_link (h_label (handle_resolve ex_hash (ex_cfg true) sem ex_file h)) = [None; Some (Computed (7, (3, 4))); None].
Proof.
  cbv zeta. split.
  - intros o s ws E. cbn [type_of ex_sem] in E. destruct (o =? 4); [|discriminate]. injection E as <-. intros I. cbn in I. intuition discriminate.
  - split; [|repeat split; left; reflexivity]. intros a I. vm_compute in I. destruct I as [<-|[<-|[<-|[]]]]; intros E; [reflexivity|discriminate|discriminate].
Qed.
(** an item without a location: its hint is different when it is made again, so the client is never told *)
Theorem resolve_without_location_refuted : exists hash cfg sem t h p,
  (forall a b, In a (inlay_hints None cfg sem t ++ inlay_hints None (forced cfg) sem t) -> In b (inlay_hints None cfg sem t ++ inlay_hints None (forced cfg) sem t) -> hash (hashed_of a) = hash (hashed_of b) -> hashed_of a = hashed_of b) /\
  In h (inlay_hints None cfg sem t) /\ needs_resolve h = Some p /\ ~ no_lazy (h_label (handle_resolve hash cfg sem t h)).
Proof.
  exists (fun v => (ex_hash v + 3 * N.of_nat (List.length (filter snd (snd v))))%N), (ex_cfg true), (ex_sem "f" ["_count"; "x"]%string [StartLink None; Write (txt "S"); EndLink]), ex_let.
  exists (mkHint (4, 5) After false false HType [mkPart (txt ": ") None; mkPart (txt "S") (Some Lazy)] (Some (4, 5))), (4, 5). split; [|split; [left; reflexivity|split; [reflexivity|]]].
  - intros a b I J. vm_compute in I, J. repeat (destruct I as [<-|I]; [repeat (destruct J as [<-|J]; [intros E; first [reflexivity|discriminate E]|]); destruct J|]); destruct I.
  - intros F. apply (F (mkPart (txt "S") (Some Lazy))); [vm_compute; right; now left|reflexivity].
Qed.
(** functions of the user that are called as some of the builtins are get no names for their arguments *)
Theorem builtin_names_refuted : exists cfg sem x c i n e, parameter_hints cfg = true /\ callable_info sem x = Some c /\ written_params false c = 2 /\ names_param false c i n /\
  nth_error (arg_exprs x) i = Some (Some e) /\ ~ occurs_in (lower sem n) (lower sem (text_of (snd e))) /\ param_hints cfg sem x = [].
Proof.
  exists (ex_cfg false), (ex_sem "exists" ["count"; "x"]%string ex_type), (8, ex_call). eexists _, 0, _, _. split; [reflexivity|]. split; [reflexivity|]. split; [reflexivity|]. split; [reflexivity|]. split; [reflexivity|]. split; [|reflexivity].
  rewrite <- contains_occurs. vm_compute. discriminate.
Qed.
(** an argument that only has the letters of the name inside another word gets no name: [f(1, balance)] with the parameter [a] *)
Theorem letters_refuted : exists cfg sem x c i n e, parameter_hints cfg = true /\ callable_info sem x = Some c /\ has_hints c /\ written_params false c = 2 /\ names_param false c i n /\ nth_error (arg_exprs x) i = Some (Some e) /\
  text_of (snd e) = txt "balance" /\ n = txt "a" /\ (forall h, In h (param_hints cfg sem x) -> h_range h <> range_of e).
Proof.
  exists (ex_cfg false), (ex_sem "f" ["count"; "a"]%string ex_type), (8, TNode CALL_EXPR [TNode PATH_EXPR [tok IDENT "f"]; TNode VALUE_ARG_LIST [tok L_PAREN "("; TNode VALUE_ARG [TNode LITERAL [tok INT_NUMBER "1"]]; tok COMMA ","; TNode VALUE_ARG [TNode PATH_EXPR [tok IDENT "balance"]]; tok R_PAREN ")"]]).
  eexists _, 1, _, _. split; [reflexivity|]. split; [reflexivity|]. split; [cbn [has_hints]; rewrite <- known_spec; vm_compute; discriminate|]. split; [reflexivity|]. split; [reflexivity|]. split; [reflexivity|]. split; [reflexivity|]. split; [reflexivity|].
  intros h I. vm_compute in I. destruct I as [<-|[]]. vm_compute. discriminate.
Qed.
(** a missing argument keeps its place *)
Example missing_argument : map (option_map range_of) (arg_exprs (0, TNode CALL_EXPR [TNode VALUE_ARG_LIST [tok L_PAREN "("; TNode VALUE_ARG []; tok COMMA ","; TNode VALUE_ARG [TNode LITERAL [tok INT_NUMBER "1"]]; tok R_PAREN ")"]])) = [None; Some (2, 3)].
Proof. reflexivity. Qed.
(** a call by a dot: the first parameter is the receiver, the names belong to the rest *)
Example method_example : param_names true (CFunction (Some (txt "m")) (map txt ["self"; "count"; "x"]%string)) = [Some (txt "count"); Some (txt "x")] /\ names_param true (CFunction (Some (txt "m")) (map txt ["self"; "count"; "x"]%string)) 0 (txt "count").
Proof. split; reflexivity. Qed.

Print Assumptions limited_exact.
Print Assumptions limited_members.
Print Assumptions hints_exact.
Print Assumptions hints_inside.
Print Assumptions visible_hints.
Print Assumptions label_says.
Print Assumptions label_links.
Print Assumptions prepend_says.
Print Assumptions append_says.
Print Assumptions param_hints_exact.
Print Assumptions type_hints_exact.
Print Assumptions range_hints_exact.
Print Assumptions resolve_completes.
Print Assumptions hint_kinds.
Print Assumptions known_meaning.
Print Assumptions node_of_meaning.
Print Assumptions token_of_meaning.
Print Assumptions arg_exprs_meaning.
Print Assumptions resolve_without_location_refuted.
Print Assumptions builtin_names_refuted.
Print Assumptions letters_refuted.
