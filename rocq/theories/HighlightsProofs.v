From Verif Require Import Base HighlightsModel HighlightsSpec.

Section NodeInd.
  Variable P : node -> Prop.
  Hypothesis H : forall r l, Forall P l -> P (Node r l).
  Fixpoint node_ind2 (n : node) : P n :=
    match n with
    | Node r l => H r l ((fix go (l : list node) : Forall P l :=
        match l with [] => Forall_nil _ | c :: l' => Forall_cons _ (node_ind2 c) (go l') end) l)
    end.
End NodeInd.

(** Children lie inside their parent, in order. *)
Fixpoint good (n : node) : Prop :=
  match n with
  | Node r l =>
      wf r /\
      (fix go (s : nat) (l : list node) {struct l} : Prop :=
         match l with
         | [] => s <= h_end r
         | c :: l' => s <= h_start (n_range c) /\ good c /\ go (h_end (n_range c)) l'
         end) (h_start r) l
  end.

Fixpoint goods (s e : nat) (l : list node) : Prop :=
  match l with
  | [] => s <= e
  | c :: l' => s <= h_start (n_range c) /\ good c /\ goods (h_end (n_range c)) e l'
  end.

Lemma good_eq : forall r l, good (Node r l) <-> wf r /\ goods (h_start r) (h_end r) l.
Proof.
  intros r l. cbn [good]. 
  assert (G : forall l s, (fix go (s : nat) (l : list node) {struct l} : Prop :=
         match l with
         | [] => s <= h_end r
         | c :: l' => s <= h_start (n_range c) /\ good c /\ go (h_end (n_range c)) l'
         end) s l <-> goods s (h_end r) l).
  { induction l0 as [|c l0 IH]; intros s; cbn [goods]; [tauto|]. rewrite IH. tauto. }
  rewrite G. tauto.
Qed.

Lemma good_wf : forall n, good n -> wf (n_range n).
Proof. intros [r l] H. apply good_eq in H. apply H. Qed.

Fixpoint flat_go (t : N) (start e : nat) (l : list node) : list hl_range :=
  match l with
  | [] => piece start e t
  | c :: l' => piece start (h_start (n_range c)) t ++ flatten c ++ flat_go t (h_end (n_range c)) e l'
  end.
Lemma flatten_eq : forall r l, flatten (Node r l) = flat_go (h_tag r) (h_start r) (h_end r) l.
Proof.
  intros r l. cbn [flatten]. generalize (h_start r). induction l as [|c l IH]; intros s; cbn [flat_go]; [reflexivity|].
  now rewrite IH.
Qed.

(** Range of the deepest node covering an offset. *)
Definition coversb (r : hl_range) (o : nat) : bool := (h_start r <=? o) && (o <? h_end r).
Lemma coversb_spec : forall r o, coversb r o = true <-> covers r o.
Proof. intros r o. unfold coversb, covers. rewrite andb_true_iff, Nat.leb_le, Nat.ltb_lt. tauto. Qed.
Lemma coversb_false : forall r o, coversb r o = false <-> ~ covers r o.
Proof. intros r o. rewrite <- coversb_spec. destruct (coversb r o); split; congruence. Qed.

Fixpoint deepest (n : node) (o : nat) : hl_range :=
  match n with
  | Node r l => (fix go (l : list node) : hl_range :=
      match l with [] => r | c :: l' => if coversb (n_range c) o then deepest c o else go l' end) l
  end.
Fixpoint deepest_in (r : hl_range) (l : list node) (o : nat) : hl_range :=
  match l with [] => r | c :: l' => if coversb (n_range c) o then deepest c o else deepest_in r l' o end.
Lemma deepest_eq : forall r l o, deepest (Node r l) o = deepest_in r l o.
Proof. intros r l o. cbn [deepest]. induction l as [|c l IH]; cbn [deepest_in]; [reflexivity|]. now rewrite IH. Qed.

(** * Flattening tiles and shows the deepest node *)
Lemma piece_tiles : forall s m e t l, s <= m -> tiles m e l -> tiles s e (piece s m t ++ l).
Proof.
  intros s m e t l H Ht. unfold piece. destruct (Nat.ltb_spec s m).
  - now constructor.
  - assert (s = m) by lia. now subst.
Qed.
Lemma tiles_app : forall s m e l1 l2, tiles s m l1 -> tiles m e l2 -> tiles s e (l1 ++ l2).
Proof. intros s m e l1 l2 H. induction H; intros H2; cbn; auto. constructor; auto. Qed.

Lemma tiles_le : forall s e l, tiles s e l -> s <= e.
Proof. intros s e l H. induction H; lia. Qed.

Lemma flat_go_tiles : forall l t s e, Forall (fun c => good c -> tiles (h_start (n_range c)) (h_end (n_range c)) (flatten c)) l ->
  goods s e l -> tiles s e (flat_go t s e l).
Proof.
  induction l as [|c l IH]; intros t s e HF Hg; cbn [flat_go goods] in *.
  - rewrite <- (app_nil_r (piece s e t)). apply piece_tiles; auto. constructor.
  - destruct Hg as (H1 & H2 & H3). inversion HF; subst.
    apply piece_tiles; auto. eapply tiles_app; eauto.
Qed.

Lemma flatten_tiles : forall n, good n -> tiles (h_start (n_range n)) (h_end (n_range n)) (flatten n).
Proof.
  induction n as [r l IH] using node_ind2. intros H. apply good_eq in H. destruct H as [Hw Hg].
  rewrite flatten_eq. cbn [n_range]. now apply flat_go_tiles.
Qed.

Lemma goods_low : forall l s e c, goods s e l -> In c l -> s <= h_start (n_range c) /\ h_end (n_range c) <= e /\ good c.
Proof.
  induction l as [|d l IH]; intros s e c H HI; [destruct HI|].
  cbn [goods] in H. destruct H as (H1 & H2 & H3). pose proof (good_wf _ H2) as Hw. unfold wf in Hw.
  destruct HI as [<-|HI].
  - repeat split; auto. clear -H3. revert H3. generalize (h_end (n_range d)). induction l as [|x l IHl]; intros n H3; cbn [goods] in H3; [auto|].
    destruct H3 as (A & B & C). specialize (IHl _ C). pose proof (good_wf _ B) as Hw. unfold wf in Hw. lia.
  - destruct (IH _ _ _ H3 HI) as (A & B & C). repeat split; auto. lia.
Qed.

Lemma goods_le : forall l s e, goods s e l -> s <= e.
Proof.
  induction l as [|d l IH]; intros s e H; cbn [goods] in H; [auto|].
  destruct H as (H1 & H2 & H3). apply IH in H3. pose proof (good_wf _ H2) as Hw. unfold wf in Hw. lia.
Qed.

(** the tag shown by a piece list at an offset *)
Definition shown (l : list hl_range) (o : nat) (t : N) : Prop := exists p, In p l /\ covers p o /\ h_tag p = t.

Lemma flat_go_shown : forall l r s e o,
  Forall (fun c => good c -> forall o, covers (n_range c) o -> shown (flatten c) o (h_tag (deepest c o))) l ->
  goods s e l -> s <= o < e ->
  shown (flat_go (h_tag r) s e l) o (h_tag (deepest_in r l o)).
Proof.
  induction l as [|c l IH]; intros r s e o HF Hg Ho; cbn [flat_go goods deepest_in] in *.
  - exists (mkHl s e (h_tag r)). unfold piece. replace (s <? e) with true by (symmetry; apply Nat.ltb_lt; lia).
    split; [now left|]. split; [exact Ho|reflexivity].
  - destruct Hg as (H1 & H2 & H3). inversion HF as [|? ? Hc HF']; subst.
    destruct (coversb (n_range c) o) eqn:E.
    + apply coversb_spec in E. destruct (Hc H2 o E) as (p & Hp & Hcov & Ht).
      exists p. split; [|auto]. apply in_or_app. right. apply in_or_app. now left.
    + apply coversb_false in E. unfold covers in E.
      destruct (Nat.lt_ge_cases o (h_start (n_range c))).
      * exists (mkHl s (h_start (n_range c)) (h_tag r)). split.
        -- apply in_or_app. left. unfold piece. replace (s <? h_start (n_range c)) with true by (symmetry; apply Nat.ltb_lt; lia). now left.
        -- split; [unfold covers; cbn; lia|]. cbn.
           assert (G : forall l s', goods s' e l -> o < s' -> deepest_in r l o = r).
           { induction l0 as [|d l0 IH0]; intros s' Hg' Ho'; cbn [deepest_in goods] in *; [reflexivity|].
             destruct Hg' as (A & B & C). pose proof (good_wf _ B) as Hw. unfold wf in Hw.
             replace (coversb (n_range d) o) with false by (symmetry; apply coversb_false; unfold covers; lia).
             eapply IH0; [exact C|lia]. }
           pose proof (good_wf _ H2) as Hw. unfold wf in Hw.
           rewrite (G _ _ H3) by lia. reflexivity.
      * destruct (IH r (h_end (n_range c)) e o HF' H3) as (p & Hp & Hcov & Ht); [lia|].
        exists p. split; [|auto]. apply in_or_app. right. apply in_or_app. now right.
Qed.

Lemma flatten_shown : forall n, good n -> forall o, covers (n_range n) o -> shown (flatten n) o (h_tag (deepest n o)).
Proof.
  induction n as [r l IH] using node_ind2. intros H o Ho. apply good_eq in H. destruct H as [Hw Hg].
  rewrite flatten_eq, deepest_eq. now apply flat_go_shown.
Qed.

Lemma tiles_unique : forall s e l, tiles s e l -> forall o p q, In p l -> In q l -> covers p o -> covers q o -> p = q.
Proof.
  assert (Hlow : forall s e l, tiles s e l -> forall p, In p l -> s <= h_start p).
  { intros s e l H. induction H as [|s m e t l Hsm H IH]; intros p Hp; [destruct Hp|].
    destruct Hp as [<-|Hp]; cbn; [lia|]. apply IH in Hp. lia. }
  intros s e l H. induction H as [|s m e t l Hsm H IH]; intros o p q Hp Hq Hcp Hcq; [destruct Hp|].
  destruct Hp as [<-|Hp], Hq as [<-|Hq]; auto; unfold covers in *; cbn in *.
  - specialize (Hlow _ _ _ H _ Hq). lia.
  - specialize (Hlow _ _ _ H _ Hp). lia.
  - eapply IH; eauto.
Qed.

(** * All ranges of a tree *)
Fixpoint ranges (n : node) : list hl_range :=
  match n with
  | Node r l => r :: (fix go (l : list node) : list hl_range :=
      match l with [] => [] | c :: l' => ranges c ++ go l' end) l
  end.
Fixpoint ranges_l (l : list node) : list hl_range :=
  match l with [] => [] | c :: l' => ranges c ++ ranges_l l' end.
Lemma ranges_eq : forall r l, ranges (Node r l) = r :: ranges_l l.
Proof. intros r l. cbn [ranges]. f_equal. Qed.
Lemma ranges_root : forall n, In (n_range n) (ranges n).
Proof. intros [r l]. now left. Qed.
Lemma ranges_l_in : forall l c x, In c l -> In x (ranges c) -> In x (ranges_l l).
Proof.
  induction l as [|d l IH]; intros c x Hc Hx; [destruct Hc|]. cbn. apply in_or_app.
  destruct Hc as [<-|Hc]; [now left|right; eauto].
Qed.

Lemma deepest_inside : forall n o, good n -> covers (n_range n) o ->
  covers (deepest n o) o /\ inside (deepest n o) (n_range n).
Proof.
  induction n as [r l IH] using node_ind2. intros o H Ho. apply good_eq in H. destruct H as [Hw Hg].
  rewrite deepest_eq. cbn [n_range] in *. 
  assert (G : forall l s, Forall (fun n => forall o, good n -> covers (n_range n) o ->
                covers (deepest n o) o /\ inside (deepest n o) (n_range n)) l ->
              goods s (h_end r) l -> h_start r <= s ->
              covers (deepest_in r l o) o /\ inside (deepest_in r l o) r).
  { induction l0 as [|c l0 IHl]; intros s HF Hg' Hs; cbn [deepest_in].
    - split; [exact Ho|]. unfold inside. lia.
    - inversion HF as [|? ? Hc HF']; subst. cbn [goods] in Hg'. destruct Hg' as (A & B & C).
      destruct (coversb (n_range c) o) eqn:E.
      + apply coversb_spec in E. destruct (Hc o B E) as [D1 D2]. split; auto.
        pose proof (goods_le _ _ _ C). unfold inside in *. lia.
      + apply (IHl (h_end (n_range c))); auto. pose proof (good_wf _ B) as Hw'. unfold wf in Hw'. lia. }
  eapply G; eauto.
Qed.

(** * Insertion *)
Lemma contains_spec : forall a b, contains_range a b = true <-> inside b a.
Proof. intros a b. unfold contains_range, inside. rewrite andb_true_iff, !Nat.leb_le. tauto. Qed.

Fixpoint upd (x : hl_range) (l : list node) (i : nat) : res (list node) :=
  match l, i with
  | [], _ => Panic
  | c :: l', 0 => match add c x with Ok c' => Ok (c' :: l') | Panic => Panic end
  | c :: l', S i' => match upd x l' i' with Ok l'' => Ok (c :: l'') | Panic => Panic end
  end.
Lemma add_eq : forall r l x, add (Node r l) x =
  if contains_range r x then
    match decide l x with
    | PushEnd => Ok (Node r (l ++ [Node x []]))
    | Splice start len =>
        Ok (Node r (firstn start l ++ Node x (firstn len (skipn start l)) :: skipn (start + len) l))
    | Recurse i => match upd x l i with Ok l' => Ok (Node r l') | Panic => Panic end
    end
  else Panic.
Proof.
  intros r l x. cbn [add]. destruct (contains_range r x); [|reflexivity].
  destruct (decide l x) as [i| |]; try reflexivity.
  match goal with |- match ?a with _ => _ end = match ?b with _ => _ end => assert (E : a = b) end.
  { revert i. induction l as [|c l IH]; intros i; cbn [upd]; [reflexivity|].
    destruct i; [reflexivity|]. now rewrite IH. }
  now rewrite E.
Qed.

(** The three outcomes of [decide], in terms of the list of children. *)
Definition before_x (x : hl_range) (c : node) : Prop := h_end (n_range c) <= h_start x.
Definition after_x (x : hl_range) (c : node) : Prop := h_end x <= h_start (n_range c).
Definition strictly_inside (x : hl_range) (c : node) : Prop := inside (n_range c) x /\ size (n_range c) < size x.

Inductive decided (l : list node) (x : hl_range) : decision -> Prop :=
| dec_rec l1 c l2 : l = l1 ++ c :: l2 -> inside x (n_range c) -> decided l x (Recurse (length l1))
| dec_push : Forall (before_x x) l -> decided l x PushEnd
| dec_splice l1 l2 l3 : l = l1 ++ l2 ++ l3 -> Forall (before_x x) l1 -> Forall (strictly_inside x) l2 ->
    Forall (after_x x) l3 -> decided l x (Splice (length l1) (length l2)).

Lemma leading_split : forall p l, exists l1 l2, l = l1 ++ l2 /\ length l1 = leading p l /\ Forall (fun n => p n = true) l1 /\
  match l2 with [] => True | c :: _ => p c = false end.
Proof.
  intros p. induction l as [|x l (l1 & l2 & H1 & H2 & H3 & H4)]; cbn [leading].
  - exists [], []. auto.
  - destruct (p x) eqn:E.
    + exists (x :: l1), l2. rewrite H1 at 1. repeat split; cbn; auto.
    + exists [], (x :: l). auto.
Qed.

Lemma goods_app : forall l1 l2 s e, goods s e (l1 ++ l2) <-> exists m, goods s m l1 /\ goods m e l2 /\
  (l1 = [] -> m = s) /\ (forall l1' c, l1 = l1' ++ [c] -> m = h_end (n_range c)).
Proof.
  induction l1 as [|c l1 IH]; intros l2 s e; cbn [app goods].
  - split.
    + intros H. exists s. repeat split; auto. intros l1' c' E. destruct l1'; discriminate.
    + intros (m & H1 & H2 & H3 & _). rewrite <- (H3 eq_refl). exact H2.
  - rewrite IH. split.
    + intros (H1 & H2 & m & H3 & H4 & H5 & H6). exists m. repeat split; auto; [discriminate|].
      intros l1' c' E. destruct l1' as [|d l1']; cbn in E; injection E as <- E.
      * apply H5. exact E.
      * apply (H6 l1' c'). exact E.
    + intros (m & (H1 & H2 & H3) & H4 & H5 & H6). repeat split; auto. exists m. repeat split; auto.
      * intros ->. apply (H6 [] c). reflexivity.
      * intros l1' c' ->. apply (H6 (c :: l1') c'). reflexivity.
Qed.

Lemma goods_after : forall l s e y, goods s e l -> y <= s -> Forall (fun c => y <= h_start (n_range c)) l.
Proof.
  intros l s e y H Hy. apply Forall_forall. intros c Hc. destruct (goods_low _ _ _ _ H Hc). lia.
Qed.

Lemma goods_before : forall l s e y, goods s e l -> e <= y -> Forall (fun c => h_end (n_range c) <= y) l.
Proof.
  intros l s e y H Hy. apply Forall_forall. intros c Hc. destruct (goods_low _ _ _ _ H Hc) as (_ & A & _). lia.
Qed.

Lemma slow_path_decided : forall l x s e, goods s e l -> wf x ->
  Forall (fun c => compatible (n_range c) x) l -> decided l x (slow_path l x).
Proof.
  intros l x s e Hg Hw Hc. unfold slow_path, equal_range.
  destruct (leading_split (fun n => match range_ordering (n_range n) x with Less => true | _ => false end) l)
    as (l1 & r1 & -> & Hlen1 & HF1 & Hr1).
  rewrite <- Hlen1. rewrite skipn_app, skipn_all, Nat.sub_diag. cbn [app skipn].
  destruct (leading_split (fun n => match range_ordering (n_range n) x with Equal => true | _ => false end) r1)
    as (l2 & l3 & -> & Hlen2 & HF2 & Hl3).
  rewrite <- Hlen2.
  assert (B1 : Forall (before_x x) l1).
  { eapply Forall_impl; [|exact HF1]. intros c E. unfold before_x, range_ordering in *.
    destruct (Nat.leb_spec (h_end (n_range c)) (h_start x)); [auto|]. destruct (_ <=? _); discriminate. }
  assert (B2 : Forall (fun c => h_start x < h_end (n_range c) /\ h_start (n_range c) < h_end x) l2).
  { eapply Forall_impl; [|exact HF2]. intros c E. unfold range_ordering in *.
    destruct (Nat.leb_spec (h_end (n_range c)) (h_start x)); [discriminate|].
    destruct (Nat.leb_spec (h_end x) (h_start (n_range c))); [discriminate|]. lia. }
  apply goods_app in Hg. destruct Hg as (m1 & Hg1 & Hg23 & _ & _).
  pose proof Hg23 as Hg23'.
  apply goods_app in Hg23. destruct Hg23 as (m2 & Hg2 & Hg3 & Hm2 & Hm2').
  assert (B3 : Forall (after_x x) l3).
  { destruct l3 as [|c3 l3]; [constructor|].
    cbn [goods] in Hg3. destruct Hg3 as (A & B & C).
    assert (Hx : h_end x <= h_start (n_range c3)).
    { destruct l2 as [|c2 l2].
      - cbn [app] in Hr1. unfold range_ordering in *.
        destruct (Nat.leb_spec (h_end (n_range c3)) (h_start x)); [discriminate|].
        destruct (Nat.leb_spec (h_end x) (h_start (n_range c3))); [auto|discriminate].
      - unfold range_ordering in Hl3.
        inversion B2 as [|? ? [K1 K2] _]; subst.
        cbn [goods app] in Hg23'. destruct Hg23' as (_ & Hgc2 & Hrest).
        destruct (goods_low _ _ _ c3 Hrest) as (L1 & _ & _); [apply in_or_app; right; now left|].
        pose proof (good_wf _ B) as Hw3. unfold wf in Hw3.
        destruct (Nat.leb_spec (h_end (n_range c3)) (h_start x)); [lia|].
        destruct (Nat.leb_spec (h_end x) (h_start (n_range c3))); [auto|discriminate]. }
    constructor; [exact Hx|]. pose proof (good_wf _ B) as Hw3. unfold wf in Hw3.
    eapply goods_after in C; [eapply Forall_impl; [|exact C]; intros a K; exact K|]. lia. }
  apply Forall_app in Hc. destruct Hc as [Hc1 Hc]. apply Forall_app in Hc. destruct Hc as [Hc2 Hc3].
  assert (Hin : Forall (strictly_inside x) l2 \/ (exists c, l2 = [c] /\ inside x (n_range c))).
  { destruct l2 as [|c l2]; [left; constructor|].
    destruct l2 as [|d l2].
    - inversion Hc2 as [|? ? Hcc _]; subst. inversion B2 as [|? ? [K1 K2] _]; subst.
      destruct (contains_range (n_range c) x) eqn:E.
      + apply contains_spec in E. right. eauto.
      + left. constructor; [|constructor]. unfold strictly_inside.
        assert (Hn : ~ inside x (n_range c)) by (intros K; apply contains_spec in K; congruence).
        unfold compatible, disjoint_ranges, inside, size, wf in *. lia.
    - left.
      (* two overlapping children: neither can contain x *)
      apply Forall_forall. intros k Hk.
      rewrite Forall_forall in Hc2, B2. specialize (Hc2 k Hk). pose proof (B2 k Hk) as [K1 K2].
      assert (Hother : exists k', In k' (c :: d :: l2) /\ (h_end (n_range k') <= h_start (n_range k) \/ h_end (n_range k) <= h_start (n_range k'))).
      { cbn [goods] in Hg2. destruct Hg2 as (_ & _ & A2 & A3 & A4).
        destruct Hk as [<-|[<-|Hk]].
        - exists d. split; [right; now left|]. right. lia.
        - exists c. split; [now left|]. left. lia.
        - exists d. split; [right; now left|]. left. destruct (goods_low _ _ _ k A4 Hk). lia. }
      destruct Hother as (k' & Hk' & Hdis). destruct (B2 k' Hk') as [K3 K4].
      unfold strictly_inside, compatible, disjoint_ranges, inside, size, wf in *. lia. }
  destruct Hin as [Hin|(c & -> & Hxc)].
  - assert (Hsp : decided (l1 ++ l2 ++ l3) x (Splice (length l1) (length l2))) by (econstructor; eauto).
    destruct (length l2) as [|[|n]] eqn:El2; auto.
    rewrite nth_error_app2, Nat.sub_diag by lia.
    destruct l2 as [|c [|? ?]]; try discriminate. cbn [app nth_error].
    inversion Hin as [|? ? [Hi1 Hi2] _]; subst.
    destruct (contains_range (n_range c) x) eqn:E; [|auto].
    apply contains_spec in E. unfold inside, size in *. lia.
  - cbn [length]. rewrite nth_error_app2, Nat.sub_diag by lia. cbn [app nth_error].
    replace (contains_range (n_range c) x) with true by (symmetry; now apply contains_spec).
    eapply dec_rec; eauto.
Qed.

Lemma decide_decided : forall l x s e, goods s e l -> wf x ->
  Forall (fun c => compatible (n_range c) x) l -> decided l x (decide l x).
Proof.
  intros l x s e Hg Hw Hc. unfold decide.
  destruct l as [|c l _] using rev_ind.
  - cbn. eapply (dec_splice [] x [] [] []); auto.
  - rewrite app_length. cbn [length]. replace (length l + 1 - 1) with (length l) by lia.
    rewrite nth_error_app2, Nat.sub_diag by lia. cbn [nth_error].
    destruct (contains_range (n_range c) x) eqn:E.
    + apply contains_spec in E. eapply dec_rec; eauto.
    + destruct (Nat.leb_spec (h_end (n_range c)) (h_start x)).
      * constructor. apply Forall_app. split; [|constructor; auto; constructor].
        apply goods_app in Hg. destruct Hg as (m & Hg1 & Hg2 & _ & _). cbn [goods] in Hg2.
        destruct Hg2 as (A & B & C). pose proof (good_wf _ B) as Hw'. unfold wf in Hw'.
        eapply goods_before in Hg1; [|apply Nat.le_refl].
        eapply Forall_impl; [|exact Hg1]. intros k K. cbn in K. unfold before_x. lia.
      * eapply slow_path_decided; eauto.
Qed.

Lemma upd_split : forall x l1 c l2, upd x (l1 ++ c :: l2) (length l1) =
  match add c x with Ok c' => Ok (l1 ++ c' :: l2) | Panic => Panic end.
Proof.
  intros x. induction l1 as [|d l1 IH]; intros c l2; cbn [app length upd]; [reflexivity|].
  rewrite IH. destruct (add c x); reflexivity.
Qed.

(** Step of the winner computation. *)
Definition better (x b : hl_range) (o : nat) : hl_range :=
  if coversb x o && (size x <=? size b) then x else b.

Lemma deepest_in_app : forall l1 l2 r o, Forall (fun c => ~ covers (n_range c) o) l1 ->
  deepest_in r (l1 ++ l2) o = deepest_in r l2 o.
Proof.
  induction l1 as [|c l1 IH]; intros l2 r o H; [reflexivity|]. inversion H; subst. cbn [app deepest_in].
  replace (coversb (n_range c) o) with false by (symmetry; now apply coversb_false). auto.
Qed.

Lemma deepest_in_none : forall l r o, Forall (fun c => ~ covers (n_range c) o) l -> deepest_in r l o = r.
Proof. intros l r o H. rewrite <- (app_nil_r l), deepest_in_app by auto. reflexivity. Qed.

(** Which child of a sorted list is hit does not depend on the position of the others. *)
Lemma deepest_in_hit : forall l r o c s e, goods s e l -> In c l -> covers (n_range c) o -> deepest_in r l o = deepest c o.
Proof.
  induction l as [|d l IH]; intros r o c s e Hg Hc Ho; [destruct Hc|]. cbn [deepest_in goods] in *.
  destruct Hg as (A & B & C). destruct Hc as [<-|Hc].
  - replace (coversb (n_range d) o) with true by (symmetry; now apply coversb_spec). reflexivity.
  - destruct (goods_low _ _ _ c C Hc) as (L1 & _ & _). unfold covers in Ho.
    replace (coversb (n_range d) o) with false by (symmetry; apply coversb_false; unfold covers; lia).
    eapply IH; eauto.
Qed.

Lemma deepest_in_dec : forall l o, (exists c, In c l /\ covers (n_range c) o) \/ Forall (fun c => ~ covers (n_range c) o) l.
Proof.
  induction l as [|c l IH]; intros o; [right; constructor|].
  destruct (coversb (n_range c) o) eqn:E.
  - apply coversb_spec in E. left. exists c. split; [now left|auto].
  - apply coversb_false in E. destruct (IH o) as [(d & Hd & Hc)|H].
    + left. exists d. split; [now right|auto].
    + right. constructor; auto.
Qed.

Lemma goods_narrow : forall l s e s' e', goods s e l -> s' <= s \/ (exists c l', l = c :: l' /\ s' <= h_start (n_range c)) ->
  Forall (fun c => h_end (n_range c) <= e') l -> (l = [] -> s' <= e') -> goods s' e' l.
Proof.
  induction l as [|c l IH]; intros s e s' e' Hg Hs HF He; cbn [goods] in *; [auto|].
  destruct Hg as (A & B & C). inversion HF; subst. split; [|split; auto].
  - destruct Hs as [Hs|(d & l' & E & Hs)]; [lia|]. injection E as <- <-. auto.
  - eapply IH; eauto.
Qed.

Lemma splice_ok : forall r l1 l2 l3 x, wf r -> wf x -> inside x r ->
  goods (h_start r) (h_end r) (l1 ++ l2 ++ l3) ->
  Forall (before_x x) l1 -> Forall (strictly_inside x) l2 -> Forall (after_x x) l3 ->
  let n' := Node r (l1 ++ Node x l2 :: l3) in
  good n' /\
  (forall y, In y (ranges n') <-> y = x \/ In y (ranges (Node r (l1 ++ l2 ++ l3)))) /\
  (forall o, covers r o -> deepest n' o = better x (deepest (Node r (l1 ++ l2 ++ l3)) o) o).
Proof.
  intros r l1 l2 l3 x Hwr Hw Hin Hg Hb Hs Ha n'.
  assert (Hsplit_ranges : forall a b, ranges_l (a ++ b) = ranges_l a ++ ranges_l b).
  { induction a as [|c a IHa]; intros b; cbn; [reflexivity|]. now rewrite IHa, app_assoc. }
  pose proof Hg as Hg0.
  apply goods_app in Hg. destruct Hg as (m1 & Hg1 & Hg23 & E1 & E1').
  apply goods_app in Hg23. destruct Hg23 as (m2 & Hg2 & Hg3 & E2 & E2').
  unfold inside in Hin. unfold wf in Hw.
  assert (Hgx : good (Node x l2)).
  { apply good_eq. split; [exact Hw|]. destruct l2 as [|c l2]; [exact Hw|].
    eapply goods_narrow; [exact Hg2| | |intros _; exact Hw].
    - right. exists c, l2. split; auto. inversion Hs as [|? ? [K _] _]; subst. apply K.
    - eapply Forall_impl; [|exact Hs]. intros k [K _]. apply K. }
  assert (Hm1 : m1 <= h_start x).
  { destruct l1 as [|c l1 _] using rev_ind.
    - rewrite (E1 eq_refl). lia.
    - rewrite (E1' l1 c eq_refl). apply Forall_app in Hb. destruct Hb as [_ Hb].
      inversion Hb as [|? ? Hb' _]; subst. exact Hb'. }
  assert (Hg' : goods (h_start r) (h_end r) (l1 ++ Node x l2 :: l3)).
  { apply goods_app. exists m1. split; [auto|]. split; [|auto]. cbn [goods n_range]. split; [auto|]. split; [auto|].
    destruct l3 as [|c l3]; [cbn; lia|].
    eapply goods_narrow; [exact Hg3| | |intros _; lia].
    - right. exists c, l3. split; auto. inversion Ha; subst. auto.
    - eapply goods_before; [exact Hg3|]. lia. }
  split; [apply good_eq; auto|]. split.
  - intros y. unfold n'. rewrite !ranges_eq, !Hsplit_ranges. cbn [ranges_l]. rewrite ranges_eq.
    cbn [In]. rewrite !in_app_iff. cbn [In app]. rewrite ?in_app_iff. intuition congruence.
  - intros o Ho. unfold n'. rewrite !deepest_eq.
    destruct (coversb x o) eqn:Ex; unfold better; rewrite Ex; cbn [andb].
    + apply coversb_spec in Ex.
      rewrite (deepest_in_hit _ r o (Node x l2) _ _ Hg'); [|apply in_or_app; right; now left|exact Ex].
      rewrite deepest_eq.
      destruct (deepest_in_dec l2 o) as [(c & Hc & Hco)|Hno].
      * rewrite (deepest_in_hit _ x o c _ _ Hg2 Hc Hco).
        rewrite (deepest_in_hit _ r o c _ _ Hg0); [|apply in_or_app; right; apply in_or_app; now left|auto].
        destruct (goods_low _ _ _ c Hg2 Hc) as (_ & _ & Hgc).
        destruct (deepest_inside c o Hgc Hco) as [_ Hi].
        rewrite Forall_forall in Hs. destruct (Hs c Hc) as [_ Hlt].
        replace (size x <=? size (deepest c o)) with false; [reflexivity|].
        symmetry. apply Nat.leb_gt. unfold inside, size, covers in *. lia.
      * rewrite deepest_in_none by auto.
        rewrite deepest_in_none.
        -- replace (size x <=? size r) with true; [reflexivity|]. symmetry. apply Nat.leb_le. unfold size. lia.
        -- apply Forall_app. split; [|apply Forall_app; split; [auto|]].
           ++ eapply Forall_impl; [|exact Hb]. intros c Hc. unfold before_x, covers in *. lia.
           ++ eapply Forall_impl; [|exact Ha]. intros c Hc. unfold after_x, covers in *. lia.
    + apply coversb_false in Ex.
      assert (H2 : Forall (fun c => ~ covers (n_range c) o) l2).
      { eapply Forall_impl; [|exact Hs]. intros c [Hc _]. unfold inside, covers in *. lia. }
      clear -H2 Ex. induction l1 as [|c l1 IH]; cbn [app deepest_in].
      * cbn [n_range]. apply coversb_false in Ex. rewrite Ex. symmetry. now apply deepest_in_app.
      * now rewrite IH.
Qed.

Lemma add_ok : forall n x, good n -> wf x -> inside x (n_range n) ->
  (forall y, In y (ranges n) -> compatible y x) ->
  exists n', add n x = Ok n' /\ good n' /\ n_range n' = n_range n /\
    (forall y, In y (ranges n') <-> y = x \/ In y (ranges n)) /\
    (forall o, covers (n_range n) o -> deepest n' o = better x (deepest n o) o).
Proof.
  induction n as [r l IH] using node_ind2. intros x Hg Hw Hin Hcomp.
  rewrite add_eq. cbn [n_range] in *. replace (contains_range r x) with true by (symmetry; now apply contains_spec).
  apply good_eq in Hg. destruct Hg as [Hwr Hg].
  assert (Hcl : Forall (fun c => compatible (n_range c) x) l).
  { apply Forall_forall. intros c Hc. apply Hcomp. rewrite ranges_eq. right. eapply ranges_l_in; eauto. apply ranges_root. }
  assert (Hsplit_ranges : forall a b, ranges_l (a ++ b) = ranges_l a ++ ranges_l b).
  { induction a as [|c a IHa]; intros b; cbn; [reflexivity|]. now rewrite IHa, app_assoc. }
  pose proof (decide_decided l x _ _ Hg Hw Hcl) as HD.
  destruct HD as [l1 c l2 El Hxc|Hbef|l1 l2 l3 El Hbef Hstr Haft].
  - (* recurse *)
    subst l. rewrite upd_split.
    apply Forall_app in IH. destruct IH as [_ IH]. inversion IH as [|? ? IHc _]; subst. clear IH.
    pose proof Hg as Hg0. apply goods_app in Hg. destruct Hg as (m & Hg1 & Hg2 & Hm1 & Hm2). cbn [goods] in Hg2.
    destruct Hg2 as (A & B & C).
    destruct (IHc x B Hw Hxc) as (c' & Hadd & Hgood & Hrange & Hrs & Hdeep).
    { intros y Hy. apply Hcomp. rewrite ranges_eq. right. eapply ranges_l_in; [|exact Hy]. apply in_or_app. right. now left. }
    rewrite Hadd. eexists. split; [reflexivity|].
    assert (Hg' : goods (h_start r) (h_end r) (l1 ++ c' :: l2)).
    { apply goods_app. exists m. split; [auto|]. split; [|auto]. cbn [goods]. rewrite Hrange. auto. }
    split; [apply good_eq; auto|]. split; [reflexivity|]. split.
    + intros y. rewrite !ranges_eq, !Hsplit_ranges. cbn [ranges_l]. cbn [In]. rewrite !in_app_iff, Hrs. tauto.
    + intros o Ho. rewrite !deepest_eq.
      destruct (coversb (n_range c) o) eqn:E.
      * apply coversb_spec in E.
        rewrite (deepest_in_hit _ r o c' _ _ Hg'); [|apply in_or_app; right; now left|now rewrite Hrange].
        rewrite (deepest_in_hit _ r o c _ _ Hg0); [|apply in_or_app; right; now left|auto].
        apply Hdeep. exact E.
      * apply coversb_false in E.
        assert (Hnx : coversb x o = false).
        { apply coversb_false. unfold covers, inside in *. lia. }
        unfold better. rewrite Hnx. cbn [andb].
        assert (E' : ~ covers (n_range c') o) by (now rewrite Hrange).
        clear -E E'. induction l1 as [|d l1 IHl]; cbn [app deepest_in].
        -- apply coversb_false in E. apply coversb_false in E'. now rewrite E, E'.
        -- now rewrite IHl.
  - (* push at the end *)
    destruct (splice_ok r l [] [] x) as (A & B & C); auto; [rewrite ?app_nil_r; auto|].
    cbn [app] in *. rewrite app_nil_r in *.
    eexists. split; [reflexivity|]. auto.
  - (* splice *)
    subst l. destruct (splice_ok r l1 l2 l3 x) as (A & B & C); auto.
    eexists. split; [reflexivity|].
    rewrite firstn_app, firstn_all, Nat.sub_diag, skipn_app, skipn_all, Nat.sub_diag. cbn [firstn skipn].
    rewrite app_nil_r. cbn [app].
    rewrite firstn_app, firstn_all, Nat.sub_diag. cbn [firstn]. rewrite app_nil_r.
    rewrite app_assoc. rewrite <- app_length, skipn_app, skipn_all, Nat.sub_diag. cbn [skipn app].
    rewrite app_assoc in *. auto.
Qed.

Definition best (root : hl_range) (xs : list hl_range) (o : nat) : hl_range :=
  fold_left (fun b x => better x b o) xs root.

Lemma best_winner : forall xs root o, covers root o -> winner (root :: xs) o (best root xs o).
Proof.
  induction xs as [|x xs IH] using rev_ind; intros root o Ho.
  - exists [], []. cbn. repeat split; try apply Ho; intros y [].
  - unfold best. rewrite fold_left_app. cbn [fold_left]. fold (best root xs o).
    destruct (IH root o Ho) as (pre & post & E & Hc & Hpre & Hpost).
    unfold better. destruct (coversb x o) eqn:Ex; cbn [andb].
    + apply coversb_spec in Ex. destruct (Nat.leb_spec (size x) (size (best root xs o))).
      * exists (root :: xs), []. split; [reflexivity|]. split; [auto|]. split; [|intros y []].
        intros y Hy Hcy. rewrite E in Hy. apply in_app_or in Hy. destruct Hy as [Hy|[<-|Hy]]; auto.
        -- specialize (Hpre y Hy Hcy). lia.
        -- specialize (Hpost y Hy Hcy). lia.
      * exists pre, (post ++ [x]). rewrite app_comm_cons, E, <- app_assoc. repeat split; auto; try apply Hc.
        intros y Hy Hcy. apply in_app_or in Hy. destruct Hy as [Hy|[<-|[]]]; auto.
    + exists pre, (post ++ [x]). rewrite app_comm_cons, E, <- app_assoc. repeat split; auto; try apply Hc.
      intros y Hy Hcy. apply in_app_or in Hy. destruct Hy as [Hy|[<-|[]]]; auto.
      apply coversb_false in Ex. contradiction.
Qed.

Lemma add_all_ok : forall xs n, good n ->
  (forall x, In x xs -> wf x /\ inside x (n_range n)) ->
  ForallOrdPairs compatible xs ->
  (forall y x, In y (ranges n) -> In x xs -> compatible y x) ->
  exists n', add_all n xs = Ok n' /\ good n' /\ n_range n' = n_range n /\
    (forall o, covers (n_range n) o -> deepest n' o = best (deepest n o) xs o).
Proof.
  induction xs as [|x xs IH]; intros n Hg Hin Hp Hc; cbn [add_all].
  - exists n. auto.
  - inversion Hp as [|? ? Hx Hp']; subst.
    destruct (Hin x (or_introl eq_refl)) as [Hw Hi].
    destruct (add_ok n x Hg Hw Hi) as (n1 & E1 & Hg1 & Hr1 & Hrs & Hd1).
    { intros y Hy. apply Hc; [auto|now left]. }
    rewrite E1. cbn [bind].
    destruct (IH n1 Hg1) as (n2 & E2 & Hg2 & Hr2 & Hd2); auto.
    + rewrite Hr1. intros z Hz. apply Hin. now right.
    + intros y z Hy Hz. apply Hrs in Hy. destruct Hy as [->|Hy]; [|apply Hc; [auto|now right]].
      rewrite Forall_forall in Hx. now apply Hx.
    + exists n2. split; [auto|]. split; [auto|]. split; [congruence|].
      intros o Ho. rewrite Hd2 by now rewrite Hr1. rewrite Hd1 by auto. reflexivity.
Qed.

(** * Traversal *)
Section ElemInd.
  Variable P : elem -> Prop.
  Hypothesis HT : forall len hl, P (Tok len hl).
  Hypothesis HN : forall hl l, Forall P l -> P (Nd hl l).
  Fixpoint elem_ind2 (e : elem) : P e :=
    match e with
    | Tok len hl => HT len hl
    | Nd hl l => HN hl l ((fix go (l : list elem) : Forall P l :=
        match l with [] => Forall_nil _ | c :: l' => Forall_cons _ (elem_ind2 c) (go l') end) l)
    end.
End ElemInd.

Fixpoint widths (l : list elem) : nat := match l with [] => 0 | c :: l' => width c + widths l' end.
Lemma width_nd : forall hl l, width (Nd hl l) = widths l.
Proof. reflexivity. Qed.
Fixpoint traverse_l (view : nat * nat) (off : nat) (l : list elem) : list hl_range :=
  match l with [] => [] | c :: l' => traverse view off c ++ traverse_l view (off + width c) l' end.
Lemma traverse_nd : forall view off hl l,
  traverse view off (Nd hl l) = emit view off (off + widths l) hl ++ traverse_l view off l.
Proof.
  intros view off hl l. cbn [traverse]. rewrite width_nd. f_equal.
  revert off. induction l as [|c l IH]; intros off; cbn [traverse_l]; [reflexivity|]. now rewrite IH.
Qed.

Lemma width_elem_width : forall e, width e = elem_width e.
Proof.
  induction e as [len hl|hl l IH] using elem_ind2; [reflexivity|].
  rewrite width_nd. cbn [elem_width]. induction IH as [|c l Hc Hl IHl]; [reflexivity|].
  cbn [widths map list_sum fold_right]. rewrite Hc, IHl. reflexivity.
Qed.
Lemma widths_sum : forall l, widths l = list_sum (map elem_width l).
Proof. induction l as [|c l IH]; [reflexivity|]. cbn. now rewrite IH, width_elem_width. Qed.

Lemma traverse_inside : forall e view off x, In x (traverse view off e) ->
  wf x /\ off <= h_start x /\ h_end x <= off + width e.
Proof.
  assert (E : forall view s n hl x, In x (emit view s (s + n) hl) -> wf x /\ s <= h_start x /\ h_end x <= s + n).
  { intros view s n hl x H. unfold emit in H. destruct hl; [|destruct H]. destruct (intersects _ _ _); [|destruct H].
    destruct H as [<-|[]]. unfold wf. cbn. lia. }
  induction e as [len hl|hl l IH] using elem_ind2; intros view off x H.
  - cbn [traverse] in H. now apply E in H.
  - rewrite traverse_nd in H. rewrite width_nd. apply in_app_or in H. destruct H as [H|H]; [now apply E in H|].
    revert off H. induction IH as [|c l Hc Hl IHl]; intros off H; [destruct H|]. cbn [traverse_l widths] in *.
    apply in_app_or in H. destruct H as [H|H].
    + apply Hc in H. destruct H as (A & B & C). repeat split; auto. lia.
    + apply IHl in H. destruct H as (A & B & C). repeat split; auto; lia.
Qed.

Lemma fop_app : forall (R : hl_range -> hl_range -> Prop) l1 l2, ForallOrdPairs R l1 -> ForallOrdPairs R l2 ->
  (forall x y, In x l1 -> In y l2 -> R x y) -> ForallOrdPairs R (l1 ++ l2).
Proof.
  intros R l1 l2 H1 H2 H. induction H1 as [|a l1 Ha H1 IH]; [auto|]. cbn. constructor.
  - apply Forall_app. split; [auto|]. apply Forall_forall. intros y Hy. apply H; [now left|auto].
  - apply IH. intros x y Hx Hy. apply H; [now right|auto].
Qed.

Lemma traverse_pairs : forall e view off, ForallOrdPairs compatible (traverse view off e).
Proof.
  assert (E : forall view s n hl, ForallOrdPairs compatible (emit view s (s + n) hl)).
  { intros view s n hl. unfold emit. destruct hl; [|constructor]. destruct (intersects _ _ _); repeat constructor. }
  induction e as [len hl|hl l IH] using elem_ind2; intros view off; [apply E|].
  rewrite traverse_nd. apply fop_app; [apply E| |].
  - revert off. induction IH as [|c l Hc Hl IHl]; intros off; cbn [traverse_l]; [constructor|].
    apply fop_app; auto. intros x y Hx Hy. apply traverse_inside in Hx. 
    change (traverse_l view (off + width c) l) with (traverse_l view (off + width c) l) in Hy.
    assert (Hy' : In y (traverse view (off + width c) (Nd None l))) by (rewrite traverse_nd; apply in_or_app; now right).
    apply traverse_inside in Hy'. unfold compatible, disjoint_ranges. right. right. lia.
  - intros x y Hx Hy.
    assert (Hy' : In y (traverse view off (Nd None l))) by (rewrite traverse_nd; apply in_or_app; now right).
    apply traverse_inside in Hy'. rewrite width_nd in Hy'.
    unfold emit in Hx. destruct hl; [|destruct Hx]. destruct (intersects _ _ _); [|destruct Hx].
    destruct Hx as [<-|[]]. right. left. unfold inside. cbn. lia.
Qed.

Lemma traverse_occurs : forall e view off x, In x (traverse view off e) <->
  exists d s t, occurs e off d s /\ x = mkHl s (s + elem_width d) t /\
    (match d with Tok _ hl | Nd hl _ => hl = Some t end) /\
    Nat.max (fst view) s <= Nat.min (snd view) (s + elem_width d).
Proof.
  assert (E : forall view s n hl x, In x (emit view s (s + n) hl) <-> exists t, hl = Some t /\ x = mkHl s (s + n) t /\
     Nat.max (fst view) s <= Nat.min (snd view) (s + n)).
  { intros view s n hl x. unfold emit, intersects. destruct hl as [t|].
    - destruct (Nat.leb_spec (Nat.max (fst view) s) (Nat.min (snd view) (s + n))); cbn [In].
      + split; [intros [<-|[]]; eauto|]. intros (t' & E & -> & _). injection E as <-. auto.
      + split; [tauto|]. intros (t' & _ & _ & K). lia.
    - split; [intros []|]. intros (t' & K & _). discriminate. }
  induction e as [len hl|hl l IH] using elem_ind2; intros view off x.
  - cbn [traverse]. rewrite E. split.
    + intros (t & -> & -> & H). exists (Tok len (Some t)), off, t. repeat split; auto. constructor.
    + intros (d & s & t & Ho & -> & Hd & Hv). inversion Ho; subst. exists t. auto.
  - rewrite traverse_nd, in_app_iff, E.
    assert (G : forall off, In x (traverse_l view off l) <-> exists l1 c l2, l = l1 ++ c :: l2 /\
              In x (traverse view (off + list_sum (map elem_width l1)) c)).
    { clear IH. induction l as [|c l IHl]; intros off'; cbn [traverse_l].
      - split; [intros []|]. intros (l1 & c & l2 & K & _). destruct l1; discriminate.
      - rewrite in_app_iff, IHl. split.
        + intros [H|(l1 & d & l2 & -> & H)].
          * exists [], c, l. cbn. rewrite Nat.add_0_r. auto.
          * exists (c :: l1), d, l2. split; [reflexivity|].
            cbn [map list_sum fold_right]. change (fold_right Nat.add 0) with list_sum.
            now rewrite Nat.add_assoc, <- width_elem_width.
        + intros (l1 & d & l2 & K & H). destruct l1 as [|b l1]; cbn in K; injection K as -> ->.
          * left. cbn in H. now rewrite Nat.add_0_r in H.
          * right. exists l1, d, l2. split; auto. cbn [map list_sum fold_right] in H.
            change (fold_right Nat.add 0) with list_sum in H. now rewrite Nat.add_assoc, <- width_elem_width in H. }
    rewrite G. split.
    + intros [(t & -> & -> & H)|(l1 & c & l2 & -> & H)].
      * exists (Nd (Some t) l), off, t. rewrite widths_sum in *. repeat split; auto. constructor.
      * apply Forall_app in IH. destruct IH as [_ IH]. inversion IH as [|? ? IHc _]; subst.
        apply IHc in H. destruct H as (d & s & t & Ho & Hx & Hd & Hv).
        exists d, s, t. repeat split; auto. now constructor.
    + intros (d & s & t & Ho & -> & Hd & Hv). inversion Ho as [|? l1 c l2 ? ? ? Hoc]; subst.
      * left. exists t. rewrite widths_sum. auto.
      * right. exists l1, c, l2. split; auto.
        apply Forall_app in IH. destruct IH as [_ IH]. inversion IH as [|? ? IHc _]; subst.
        apply IHc. exists d, s, t. auto.
Qed.
