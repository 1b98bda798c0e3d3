(** Item scopes follow the nearest annotated ancestor (C39). *)
From Coq Require Import String.
From Verif Require Import Base SyntaxKind AddressModel ItemScopeModel.
Local Open Scope string_scope.
Local Open Scope list_scope. Local Open Scope nat_scope.

(** * Specification *)
(** what a node says about its own scope *)
Definition says (k : kind) (attrs : list text) (s : item_scope) : Prop :=
  let spec := In k [SCHEMA; SPEC_FUN; SPEC_INLINE_FUN; ITEM_SPEC; MODULE_SPEC; SPEC_BLOCK_EXPR; LEMMA] in
  let test := In (str "test_only") attrs \/ In (str "test") attrs in
  match s with
  | ScVerify => spec \/ (~ test /\ In (str "verify_only") attrs)
  | ScTest => ~ spec /\ test
  | ScMain => ~ spec /\ ~ test /\ ~ In (str "verify_only") attrs
  end.
(** the nodes from the root (first) down to the node at [p], outermost index first *)
Fixpoint spine (t : stree) (p : list nat) : option (list (kind * list text)) :=
  match t with
  | STok => None
  | SNode k a ch =>
      match p with
      | [] => Some [(k, a)]
      | i :: p' => match nth_error ch i with Some c => option_map (cons (k, a)) (spine c p') | None => None end
      end
  end.
(** the last node on the way down that says something else than main decides *)
Inductive decides : list (kind * list text) -> item_scope -> Prop :=
| dec_none : forall l, Forall (fun n => says (fst n) (snd n) ScMain) l -> decides l ScMain
| dec_last : forall l1 k a l2 s, s <> ScMain -> says k a s -> Forall (fun n => says (fst n) (snd n) ScMain) l2 -> decides (l1 ++ (k, a) :: l2) s.

(** * Proofs *)
Lemma text_eqb_iff : forall a b, text_eqb a b = true <-> a = b.
Proof. intros a b. unfold text_eqb. destruct (text_eq_dec a b); split; intros; auto; discriminate. Qed.
Lemma contains_text_iff : forall x l, contains_text x l = true <-> In x l.
Proof. intros x l. unfold contains_text. rewrite existsb_exists. split; [intros (y & I & E); apply text_eqb_iff in E; now subst|intros I; exists x; split; auto; now apply text_eqb_iff]. Qed.
Lemma spec_kind_iff : forall k, spec_kind k = true <-> In k [SCHEMA; SPEC_FUN; SPEC_INLINE_FUN; ITEM_SPEC; MODULE_SPEC; SPEC_BLOCK_EXPR; LEMMA].
Proof. intros k. split; [intros H; destruct k; try discriminate H; cbn; tauto|intros H; cbn in H; repeat (destruct H as [<-|H]; [reflexivity|]); destruct H]. Qed.
Theorem node_scope_says : forall k a s, node_item_scope k a = s <-> says k a s.
Proof.
  assert (F : forall k a, says k a (node_item_scope k a)).
  { intros k a. unfold node_item_scope, says. destruct (spec_kind k) eqn:SK.
    - left. now apply spec_kind_iff.
    - assert (NS : ~ In k [SCHEMA; SPEC_FUN; SPEC_INLINE_FUN; ITEM_SPEC; MODULE_SPEC; SPEC_BLOCK_EXPR; LEMMA]) by (rewrite <- spec_kind_iff; congruence).
      unfold scope_from_attrs. destruct a as [|x a]; [cbn [In]; split; auto; tauto|]. set (l := x :: a).
      destruct (contains_text (str "test_only") l) eqn:T1; cbn [orb].
      { split; auto. left. now apply contains_text_iff. }
      destruct (contains_text (str "test") l) eqn:T2.
      { split; auto. right. now apply contains_text_iff. }
      assert (NT : ~ (In (str "test_only") l \/ In (str "test") l)) by (rewrite <- !contains_text_iff; intros [H|H]; congruence).
      destruct (contains_text (str "verify_only") l) eqn:V; cbn [scope_eqb negb].
      { right. split; auto. now apply contains_text_iff. }
      split; auto. split; auto. rewrite <- contains_text_iff. congruence. }
  intros k a s. split; [intros <-; apply F|]. intros H. specialize (F k a). destruct (node_item_scope k a), s; auto; exfalso; unfold says in *; tauto.
Qed.
Lemma path_eqb_iff : forall a b, path_eqb a b = true <-> a = b.
Proof. induction a as [|x a IH]; destruct b as [|y b]; cbn; split; intros H; auto; try discriminate. - apply andb_true_iff in H. destruct H as [H1 H2]. apply Nat.eqb_eq in H1. apply IH in H2. congruence. - injection H as -> ->. rewrite Nat.eqb_refl. now apply IH. Qed.
Lemma path_eqb_refl : forall a, path_eqb a a = true. Proof. intros. now apply path_eqb_iff. Qed.

(** the walk, as structural recursion *)
Fixpoint stree_ind' (P : stree -> Prop) (H1 : forall k a ch, Forall P ch -> P (SNode k a ch)) (H2 : P STok) (t : stree) {struct t} : P t :=
  match t with
  | SNode k a ch => H1 k a ch ((fix all l := match l return Forall P l with [] => Forall_nil P | x :: r => Forall_cons x (stree_ind' P H1 H2 x) (all r) end) ch)
  | STok => H2
  end.
Definition top (stack : list (path * item_scope)) : item_scope := match stack with (_, s) :: _ => s | [] => ScMain end.
(** the scope of the node at [q] below a node whose surroundings have scope [inh] *)
Fixpoint inherit (inh : item_scope) (t : stree) (q : list nat) : option item_scope :=
  match t with
  | STok => None
  | SNode k a ch =>
      let s := match node_item_scope k a with ScMain => inh | x => x end in
      match q with [] => Some s | i :: q' => match nth_error ch i with Some c => inherit s c q' | None => None end end
  end.
Definition below (p r : path) : Prop := exists q, r = q ++ p.
Definition stack_ok (p : path) (stack : list (path * item_scope)) : Prop := Forall (fun x => ~ below p (fst x)) stack.

Lemma below_child : forall p i r, below (i :: p) r -> below p r.
Proof. intros p i r [q ->]. exists (q ++ [i]). now rewrite <- app_assoc. Qed.
Lemma lookup_app : forall p a b, lookup p (a ++ b) = match lookup p a with Some s => Some s | None => lookup p b end.
Proof. induction a as [|[q s] a IH]; intros b; cbn; auto. destruct (path_eqb p q); auto. Qed.

Lemma walk_ok : forall t p map stack, stack_ok p stack ->
  exists new, fold_left walk_step (walk p t) (map, stack) = (new ++ map, stack) /\
    (forall r, ~ below p r -> lookup r new = None) /\ (forall q, lookup (rev q ++ p) new = inherit (top stack) t q).
Proof.
  induction t as [k a ch IH|] using stree_ind'; intros p map stack SO.
  2:{ exists []. split; [reflexivity|]. split; auto. intros q. destruct q; reflexivity. }
  set (s := match node_item_scope k a with ScMain => top stack | x => x end).
  set (stack1 := match node_item_scope k a with ScMain => stack | x => (p, x) :: stack end).
  assert (T1 : top stack1 = s) by (unfold stack1, s; destruct (node_item_scope k a); reflexivity).
  assert (SO1 : forall i, stack_ok (i :: p) stack1).
  { intros i. assert (A : stack_ok (i :: p) stack) by (unfold stack_ok in *; eapply Forall_impl; [|exact SO]; intros x N B; apply N; eapply below_child; eauto).
    unfold stack1. destruct (node_item_scope k a); auto; constructor; auto; cbn; intros [q E]; apply (f_equal (@length _)) in E; rewrite app_length in E; cbn in E; lia. }
  (* the children *)
  assert (CH : forall l i map, Forall (fun t => forall p map stack, stack_ok p stack -> exists new, fold_left walk_step (walk p t) (map, stack) = (new ++ map, stack) /\ (forall r, ~ below p r -> lookup r new = None) /\ (forall q, lookup (rev q ++ p) new = inherit (top stack) t q)) l ->
    exists new, fold_left walk_step ((fix go (i : nat) (l : list stree) {struct l} : list wev := match l with [] => [] | c :: r => walk (i :: p) c ++ go (S i) r end) i l) (map, stack1) = (new ++ map, stack1) /\
      (forall r, (forall j, i <= j -> ~ below (j :: p) r) -> lookup r new = None) /\
      (forall j q, lookup (rev q ++ (i + j) :: p) new = match nth_error l j with Some c => inherit s c q | None => None end)).
  { induction l as [|c l IHl]; intros i mp F.
    - exists []. split; [reflexivity|]. split; auto. intros j q. destruct j; reflexivity.
    - inversion F as [|? ? F1 F2]; subst. destruct (F1 (i :: p) mp stack1 (SO1 i)) as (n1 & E1 & N1 & L1). destruct (IHl (S i) (n1 ++ mp) F2) as (n2 & E2 & N2 & L2).
      exists (n2 ++ n1). rewrite fold_left_app, E1, E2, app_assoc. split; [reflexivity|]. split.
      + intros r H. rewrite lookup_app, N2 by (intros j Lj; apply H; lia). apply N1. apply H. lia.
      + intros j q. rewrite lookup_app. destruct j as [|j].
        * rewrite N2; [rewrite Nat.add_0_r, L1, T1; reflexivity|]. intros j' Lj [z E]. assert (E' : (rev q ++ [i + 0]) ++ p = (z ++ [j']) ++ p) by (rewrite <- !app_assoc; exact E). apply app_inv_tail in E'. apply app_inj_tail in E'. lia.
        * rewrite Nat.add_succ_r. change (S (i + j)) with (S i + j). rewrite L2. destruct (nth_error (c :: l) (S j)) as [x|] eqn:NX; cbn in NX; rewrite NX; [destruct (inherit s x q) eqn:IX; auto|].
          -- apply N1. intros [z E]. assert (E' : (rev q ++ [S i + j]) ++ p = (z ++ [i]) ++ p) by (rewrite <- !app_assoc; exact E). apply app_inv_tail in E'. apply app_inj_tail in E'. lia.
          -- apply N1. intros [z E]. assert (E' : (rev q ++ [S i + j]) ++ p = (z ++ [i]) ++ p) by (rewrite <- !app_assoc; exact E). apply app_inv_tail in E'. apply app_inj_tail in E'. lia. }
  destruct (CH ch 0 ((p, s) :: map) IH) as (new & E & N & L).
  exists (new ++ [(p, s)]). cbn [walk fold_left]. 
  assert (ST : walk_step (map, stack) (WEnter p k a) = ((p, s) :: map, stack1)) by (unfold walk_step, s, stack1, top; destruct (node_item_scope k a); reflexivity).
  rewrite ST, fold_left_app, E. cbn [fold_left walk_step]. split; [|split].
  - rewrite <- app_assoc. cbn [app]. unfold stack1. assert (KEEP : match stack with (q, _) :: rest => if path_eqb q p then (new ++ (p, s) :: map, rest) else (new ++ (p, s) :: map, stack) | [] => (new ++ (p, s) :: map, stack) end = (new ++ (p, s) :: map, stack)).
    { destruct stack as [|[q x] rest]; auto. destruct (path_eqb q p) eqn:Q; auto. apply path_eqb_iff in Q. subst q. inversion SO as [|? ? H _]; subst. exfalso. apply H. exists []. reflexivity. }
    destruct (node_item_scope k a); [exact KEEP| |]; now rewrite path_eqb_refl.
  - intros r H. rewrite lookup_app, N by (intros j _ B; apply H; eapply below_child; eauto). cbn. destruct (path_eqb r p) eqn:Q; auto. apply path_eqb_iff in Q. subst r. exfalso. apply H. exists []. reflexivity.
  - intros q. rewrite lookup_app. destruct q as [|i q]; cbn [inherit]; fold s.
    + cbn [rev app]. rewrite N; [cbn; now rewrite path_eqb_refl|]. intros j _ [z E']. apply (f_equal (@length _)) in E'. rewrite app_length in E'. cbn in E'. lia.
    + cbn [rev]. rewrite <- app_assoc. cbn [app]. specialize (L i q). cbn [Nat.add] in L. rewrite L. destruct (nth_error ch i) as [c|]; [destruct (inherit s c q)|]; auto; cbn; destruct (path_eqb (rev q ++ i :: p) p) eqn:Q; auto; apply path_eqb_iff in Q; apply (f_equal (@length _)) in Q; rewrite app_length in Q; cbn in Q; lia.
Qed.
Lemma inherit_decides : forall t q inh l s, spine t q = Some l -> inherit inh t q = Some s ->
  (s = inh /\ Forall (fun n => says (fst n) (snd n) ScMain) l) \/ (s <> ScMain /\ exists l1 k a l2, l = l1 ++ (k, a) :: l2 /\ says k a s /\ Forall (fun n => says (fst n) (snd n) ScMain) l2).
Proof.
  induction t as [k a ch IH|] using stree_ind'; intros q inh l s SP H; [|destruct q; discriminate].
  destruct q as [|i q]; cbn [spine inherit] in *. all: set (sh := match node_item_scope k a with ScMain => inh | x => x end) in *.
  - injection SP as <-. injection H as <-. unfold sh. destruct (node_item_scope k a) eqn:E; [left|right|right]; apply node_scope_says in E.
    + split; auto.
    + split; [discriminate|]. exists [], k, a, []. auto.
    + split; [discriminate|]. exists [], k, a, []. auto.
  - destruct (nth_error ch i) as [c|] eqn:N; [|discriminate]. destruct (spine c q) as [l'|] eqn:SC; [|discriminate]. injection SP as <-. rewrite Forall_forall in IH.
    destruct (IH c (nth_error_In _ _ N) q sh l' s SC H) as [[-> F]|(NM & l1 & k1 & a1 & l2 & -> & Y & F)].
    + unfold sh. destruct (node_item_scope k a) eqn:E; apply node_scope_says in E; [left; split; auto|right|right]; (split; [discriminate|]); exists [], k, a, l'; auto.
    + right. split; auto. exists ((k, a) :: l1), k1, a1, l2. auto.
Qed.
Lemma spine_inherit : forall t q inh, (exists l, spine t q = Some l) <-> (exists s, inherit inh t q = Some s).
Proof.
  induction t as [k a ch IH|] using stree_ind'; intros q inh; destruct q as [|i q]; cbn; try (split; intros [? ?]; discriminate); [split; eauto|]. destruct (nth_error ch i) as [c|] eqn:N; [|split; intros [? ?]; discriminate].
  rewrite Forall_forall in IH. specialize (IH c (nth_error_In _ _ N) q (match node_item_scope k a with ScMain => inh | x => x end)). rewrite <- IH. destruct (spine c q); cbn; split; intros [? ?]; eauto; discriminate.
Qed.

(** every node has the scope of the nearest annotated node at or above it *)
Theorem item_scope_nearest : forall t q l, spine t q = Some l -> decides l (item_scope_at t (rev q)).
Proof.
  intros t q l SP. unfold item_scope_at, item_scopes. destruct (walk_ok t [] [] [] (Forall_nil _)) as (new & E & _ & L). rewrite E. cbn [fst]. rewrite app_nil_r. specialize (L q). rewrite app_nil_r in L. rewrite L. cbn [top].
  destruct (proj1 (spine_inherit t q ScMain) (ex_intro _ _ SP)) as [s I]. rewrite I.
  destruct (inherit_decides _ _ _ _ _ SP I) as [[-> F]|(NM & l1 & k & a & l2 & -> & Y & F)]; [now constructor|econstructor; eauto].
Qed.
(** and it is the only scope satisfying that *)
Theorem decides_functional : forall l s1 s2, decides l s1 -> decides l s2 -> s1 = s2.
Proof.
  assert (U : forall k a s s', says k a s -> says k a s' -> s = s') by (intros k a s s' H1 H2; apply node_scope_says in H1; apply node_scope_says in H2; congruence).
  assert (G : forall l s, decides l s -> match rev l with [] => s = ScMain | _ => True end /\ forall l' k a, l = l' ++ [(k, a)] -> (says k a s /\ s <> ScMain) \/ (says k a ScMain /\ decides l' s)).
  { intros l s H. destruct H as [l F|l1 k a l2 s N Y F].
    - split; [destruct (rev l); auto|]. intros l' k a ->. apply Forall_app in F. destruct F as [F1 F2]. inversion F2; subst. right. split; auto. now constructor.
    - split.
      + destruct (rev (l1 ++ (k, a) :: l2)) eqn:E; auto. exfalso. apply (f_equal (@length _)) in E. rewrite rev_length, app_length in E. cbn in E. lia.
      + intros l' k' a' E. destruct l2 as [|x l2] using rev_ind.
        * apply app_inj_tail in E. destruct E as [<- E]. injection E as <- <-. left. auto.
        * rewrite app_comm_cons, app_assoc in E. apply app_inj_tail in E. destruct E as [<- ->]. apply Forall_app in F. destruct F as [F1 F2]. inversion F2; subst. right. split; auto. econstructor; eauto. }
  intros l. induction l as [|[k a] l IH] using rev_ind; intros s1 s2 H1 H2.
  - destruct (G _ _ H1) as [A _], (G _ _ H2) as [B _]. cbn in *. congruence.
  - destruct (G _ _ H1) as [_ A], (G _ _ H2) as [_ B]. specialize (A _ _ _ eq_refl). specialize (B _ _ _ eq_refl).
    destruct A as [[A1 A2]|[A1 A2]], B as [[B1 B2]|[B1 B2]]; eauto; exfalso; [apply A2|apply B2]; eapply U; eauto.
Qed.
(** nodes that are not in the tree are in the main scope *)
Theorem item_scope_elsewhere : forall t q, spine t q = None -> item_scope_at t (rev q) = ScMain.
Proof.
  intros t q SP. unfold item_scope_at, item_scopes. destruct (walk_ok t [] [] [] (Forall_nil _)) as (new & E & _ & L). rewrite E. cbn [fst]. rewrite app_nil_r. specialize (L q). rewrite app_nil_r in L. rewrite L.
  destruct (inherit (top []) t q) as [s|] eqn:I; auto. destruct (proj2 (spine_inherit t q (top [])) (ex_intro _ _ I)) as [l X]. congruence.
Qed.
(** a use statement's scope narrows only items of the main scope *)
Theorem shrink_exact : forall s adj r, shrink_scope s adj = r <-> (s = ScMain /\ r = adj) \/ (s <> ScMain /\ r = s).
Proof. intros [] [] []; cbn; intuition congruence. Qed.

(** a test-only module with a plain function, a spec block and a nested schema; beside it a plain function *)
Definition tree_ex : stree :=
  SNode SOURCE_FILE []
    [SNode MODULE [str "test_only"] [SNode FUN [] []; STok; SNode ITEM_SPEC [] [SNode SPEC_BLOCK_EXPR [] []]; SNode FUN [] []];
     SNode FUN [] []].
Example item_scope_example :
  item_scope_at tree_ex (rev []) = ScMain /\ item_scope_at tree_ex (rev [0; 0]) = ScTest /\ item_scope_at tree_ex (rev [0; 2; 0]) = ScVerify /\
  item_scope_at tree_ex (rev [0; 3]) = ScTest /\ item_scope_at tree_ex (rev [1]) = ScMain.
Proof. vm_compute. auto. Qed.
Example item_scope_nearest_example : spine tree_ex [0; 3] = Some [(SOURCE_FILE, []); (MODULE, [str "test_only"]); (FUN, [])].
Proof. reflexivity. Qed.
Example item_scope_elsewhere_example : spine tree_ex [0; 9] = None. Proof. reflexivity. Qed.
Example decides_example : decides [(SOURCE_FILE, []); (MODULE, [str "test_only"]); (FUN, [])] ScTest.
Proof. apply (dec_last [(SOURCE_FILE, [])] MODULE [str "test_only"] [(FUN, [])]); [discriminate|apply node_scope_says; vm_compute; reflexivity|constructor; auto; apply node_scope_says; reflexivity]. Qed.

Print Assumptions node_scope_says.
Print Assumptions item_scope_nearest.
Print Assumptions decides_functional.
Print Assumptions item_scope_elsewhere.
Print Assumptions shrink_exact.
