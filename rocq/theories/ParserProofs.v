(** The order in which replayed events reach the tree sink. *)
From Verif Require Import Base SyntaxKind ParserModel ParserSpec.

(** * Lists *)
Lemma replace_at_length : forall A (l : list A) i x, length (replace_at l i x) = length l.
Proof. intros A. induction l as [|y l IH]; intros [|i] x; cbn; auto. Qed.
Lemma replace_at_same : forall A (l : list A) i x, i < length l -> nth_error (replace_at l i x) i = Some x.
Proof. intros A. induction l as [|y l IH]; intros [|i] x H; cbn in *; try lia; auto. apply IH. lia. Qed.
Lemma replace_at_other : forall A (l : list A) i j x, i <> j -> nth_error (replace_at l i x) j = nth_error l j.
Proof. intros A. induction l as [|y l IH]; intros [|i] [|j] x H; cbn; auto; try lia. Qed.
Lemma replace_at_nth : forall A (l : list A) i j x, nth_error (replace_at l i x) j = if (i =? j) then (if i <? length l then Some x else None) else nth_error l j.
Proof.
  intros A l i j x. destruct (Nat.eqb_spec i j) as [->|N]; [|now apply replace_at_other].
  destruct (Nat.ltb_spec j (length l)); [now apply replace_at_same|]. apply nth_error_None. rewrite replace_at_length. lia.
Qed.
Lemma replace_at_app : forall A (a b : list A) i x, length a <= i -> replace_at (a ++ b) i x = a ++ replace_at b (i - length a) x.
Proof. intros A. induction a as [|y a IH]; intros b i x H; cbn; [now rewrite Nat.sub_0_r|]. destruct i as [|i]; cbn in *; [lia|]. f_equal. apply IH. lia. Qed.
Lemma replace_at_app1 : forall A (a b : list A) i x, i < length a -> replace_at (a ++ b) i x = replace_at a i x ++ b.
Proof. intros A. induction a as [|y a IH]; intros b i x H; cbn in *; [lia|]. destruct i as [|i]; cbn; auto. f_equal. apply IH. lia. Qed.
Lemma map_replace_at : forall A B (f : A -> B) l i x, map f (replace_at l i x) = replace_at (map f l) i (f x).
Proof. intros A B f. induction l as [|y l IH]; intros [|i] x; cbn; auto. now rewrite IH. Qed.
Lemma replace_at_id : forall A (l : list A) i x, nth_error l i = Some x -> replace_at l i x = l.
Proof. intros A. induction l as [|y l IH]; intros [|i] x H; cbn in *; try discriminate; [congruence|]. f_equal. auto. Qed.

(** * Skeletons: events without node kinds *)
Inductive sk := KS (fp : option nat) | KO (c : call).
Definition skel (e : event) : sk :=
  match e with EStart _ fp => KS fp | EFinish => KO CFinish | EToken k n => KO (CToken k n) | EError m => KO (CError m) end.
Inductive lout := LS (i : nat) | LO (c : call).

Definition link (s : list sk) (i : nat) : option nat := match nth_error s i with Some (KS (Some d)) => Some (i + d) | _ => None end.
Definition is_start (s : list sk) (i : nat) : Prop := exists fp, nth_error s i = Some (KS fp).
Definition wf_links (s : list sk) : Prop := forall i t, link s i = Some t -> i < t /\ t < length s /\ is_start s t.

Definition mem (i : nat) (c : list nat) : bool := existsb (Nat.eqb i) c.
Lemma mem_spec : forall i c, mem i c = true <-> In i c.
Proof. intros i c. unfold mem. rewrite existsb_exists. split; [intros (x & H & E); apply Nat.eqb_eq in E; now subst|intros H; exists i; split; auto; apply Nat.eqb_refl]. Qed.
Lemma mem_false : forall i c, mem i c = false <-> ~ In i c.
Proof. intros i c. rewrite <- mem_spec. destruct (mem i c); split; congruence. Qed.

Fixpoint chain (fuel : nat) (s : list sk) (c : list nat) (i : nat) : list nat :=
  match fuel with
  | O => []
  | S f => if mem i c then [] else i :: match link s i with Some t => chain f s c t | None => [] end
  end.
Fixpoint visit (k i : nat) (s : list sk) (c : list nat) : list lout :=
  match k with
  | O => []
  | S k' =>
      match nth_error s i with
      | Some (KS _) => let ch := chain (S (length s)) s c i in rev (map LS ch) ++ visit k' (S i) s (ch ++ c)
      | Some (KO o) => LO o :: visit k' (S i) s c
      | None => []
      end
  end.
Definition procL (s : list sk) : list lout := visit (length s) 0 s [].

(** ** chains *)
Lemma chain_fuel : forall f f' s c i, wf_links s -> length s - i < f -> length s - i < f' -> chain f s c i = chain f' s c i.
Proof.
  induction f as [|f IH]; intros f' s c i W H H'; [lia|]. destruct f' as [|f']; [lia|]. cbn. destruct (mem i c); auto. f_equal.
  destruct (link s i) as [t|] eqn:L; auto. destruct (W _ _ L) as (A & B & _). apply IH; auto; lia.
Qed.
Lemma chain_ge : forall f s c i x, wf_links s -> In x (chain f s c i) -> i <= x /\ ~ In x c.
Proof.
  induction f as [|f IH]; intros s c i x W H; [destruct H|]. cbn in H. destruct (mem i c) eqn:M; [destruct H|]. apply mem_false in M.
  destruct H as [<-|H]; [auto|]. destruct (link s i) as [t|] eqn:L; [|destruct H]. destruct (W _ _ L) as (A & _). apply IH in H; auto. split; [lia|tauto].
Qed.
Lemma chain_lt : forall f s c i x, wf_links s -> i < length s -> In x (chain f s c i) -> x < length s.
Proof.
  induction f as [|f IH]; intros s c i x W Hi H; [destruct H|]. cbn in H. destruct (mem i c); [destruct H|].
  destruct H as [<-|H]; auto. destruct (link s i) as [t|] eqn:L; [|destruct H]. destruct (W _ _ L) as (_ & A & _). eapply IH; eauto.
Qed.
(** an element without a link can only be the last one *)
Lemma chain_last : forall f s c i x, wf_links s -> In x (chain f s c i) -> link s x = None -> exists a, chain f s c i = a ++ [x] /\ ~ In x a.
Proof.
  induction f as [|f IH]; intros s c i x W H L; [destruct H|]. cbn in *. destruct (mem i c) eqn:M; [destruct H|].
  destruct H as [<-|H]; [rewrite L; exists []; split; auto; intros []|].
  destruct (link s i) as [t|] eqn:E; [|destruct H]. destruct (W _ _ E) as (A & _). pose proof (chain_ge _ _ _ _ _ W H) as [G _].
  destruct (IH _ _ _ _ W H L) as (a & -> & N). exists (i :: a). split; auto. intros [->|K]; [lia|auto].
Qed.
Lemma chain_ext : forall f s s' c c' i, wf_links s -> i < length s -> (forall j, j < length s -> link s' j = link s j) -> (forall j, j < length s -> mem j c' = mem j c) ->
  chain f s' c' i = chain f s c i.
Proof.
  induction f as [|f IH]; intros s s' c c' i W Hi L C; auto. cbn. rewrite C, L by auto. destruct (mem i c); auto. f_equal.
  destruct (link s i) as [t|] eqn:E; auto. destruct (W _ _ E) as (_ & A & _). now apply IH.
Qed.
(** every chain is nonempty unless its start was taken *)
Lemma chain_head : forall f s c i, ~ In i c -> exists r, chain (S f) s c i = i :: r.
Proof. intros f s c i H. cbn. apply mem_false in H. rewrite H. eauto. Qed.

(** ** a longer skeleton *)
Lemma link_app : forall s e j, j < length s -> link (s ++ [e]) j = link s j.
Proof. intros s e j H. unfold link. now rewrite nth_error_app1. Qed.
Lemma visit_app : forall k i s e c, wf_links s -> i + k = length s -> (forall x, In x c -> x < length s) ->
  exists c', (forall x, In x c' -> x < length s) /\ (forall x, In x c -> In x c') /\
  visit (S k) i (s ++ [e]) c = visit k i s c ++ visit 1 (length s) (s ++ [e]) c' /\
  (forall j, i <= j < length s -> is_start s j -> In j c').
Proof.
  induction k as [|k IH]; intros i s e c W E C.
  - exists c. replace i with (length s) by lia. split; auto. split; auto. split; [reflexivity|]. intros; lia.
  - assert (Hi : i < length s) by lia. cbn [visit]. rewrite nth_error_app1 by auto.
    destruct (nth_error s i) as [[fp|o]|] eqn:N; [| |apply nth_error_None in N; lia].
    + assert (Q : chain (S (length (s ++ [e]))) (s ++ [e]) c i = chain (S (length s)) s c i).
      { rewrite (chain_ext _ s (s ++ [e]) c c i); auto using link_app. apply chain_fuel; auto; rewrite ?app_length; cbn; lia. }
      rewrite Q. set (ch := chain (S (length s)) s c i).
      assert (C' : forall x, In x (ch ++ c) -> x < length s).
      { intros x H. apply in_app_or in H. destruct H as [H|H]; auto. eapply chain_lt; eauto. }
      destruct (IH (S i) s e (ch ++ c) W ltac:(lia) C') as (c' & A & B & D & F). exists c'. split; auto. split; [intros; apply B; apply in_or_app; auto|]. split.
      * cbn [visit] in D. rewrite D. now rewrite app_assoc.
      * intros j Hj Sj. destruct (Nat.eq_dec i j) as [->|NE]; [|apply F; auto; lia]. apply B. apply in_or_app.
        destruct (in_dec Nat.eq_dec j c) as [K|K]; auto. left. unfold ch. destruct (chain_head (length s) s c j K) as [r ->]. now left.
    + destruct (IH (S i) s e c W ltac:(lia) C) as (c' & A & B & D & F). exists c'. split; auto. split; auto. split.
      * cbn [visit] in D. rewrite D. reflexivity.
      * intros j Hj [fp Sj]. apply F; [|now exists fp]. destruct (Nat.eq_dec i j) as [->|]; [congruence|lia].
Qed.
Lemma procL_push_other : forall s o, wf_links s -> procL (s ++ [KO o]) = procL s ++ [LO o].
Proof.
  intros s o W. unfold procL. rewrite app_length, Nat.add_comm. cbn [length Nat.add].
  destruct (visit_app (length s) 0 s (KO o) [] W eq_refl ltac:(intros x [])) as (c' & A & _ & D & _). rewrite D. f_equal.
  cbn [visit]. rewrite nth_error_app2, Nat.sub_diag by lia. reflexivity.
Qed.
Lemma link_last : forall s, link (s ++ [KS None]) (length s) = None.
Proof. intros s. unfold link. rewrite nth_error_app2, Nat.sub_diag by lia. reflexivity. Qed.
Lemma procL_push_start : forall s, wf_links s -> procL (s ++ [KS None]) = procL s ++ [LS (length s)].
Proof.
  intros s W. unfold procL. rewrite app_length, Nat.add_comm. cbn [length Nat.add].
  destruct (visit_app (length s) 0 s (KS None) [] W eq_refl ltac:(intros x [])) as (c' & A & _ & D & _). rewrite D. f_equal.
  cbn [visit]. rewrite nth_error_app2, Nat.sub_diag by lia. cbn [nth_error chain].
  rewrite (proj2 (mem_false (length s) c')) by (intros H; apply A in H; lia). now rewrite link_last.
Qed.

(** ** linking to a new last start *)
Definition ins_before (n i : nat) (x : lout) : list lout := match x with LS j => if j =? i then [LS n; LS i] else [x] | _ => [x] end.
Lemma ins_before_none : forall n i l, ~ In (LS i) l -> flat_map (ins_before n i) l = l.
Proof.
  intros n i. induction l as [|x l IH]; intros H; auto. cbn in *. rewrite IH by tauto. destruct x as [j|o]; auto. cbn.
  destruct (Nat.eqb_spec j i) as [->|]; auto. exfalso. auto.
Qed.
Lemma in_map_LS : forall i l, In (LS i) (map LS l) <-> In i l.
Proof. intros i l. rewrite in_map_iff. split; [intros (x & E & H); congruence|intros H; eauto]. Qed.

Lemma visit_link : forall k j s i c0 c2, let n := length s in let s2 := replace_at (s ++ [KS None]) i (KS (Some (n - i))) in
  wf_links s -> nth_error s i = Some (KS None) -> j + k = n -> (forall x, In x c0 -> x < n) ->
  (forall x, In x c2 <-> In x c0 \/ (x = n /\ In i c0)) ->
  (i < j -> In i c0) ->
  visit (S k) j s2 c2 = flat_map (ins_before n i) (visit k j s c0).
Proof.
  intros k. induction k as [|k IH]; intros j s i c0 c2 n s2 W Ni E C0 C2 Ij.
  - assert (Hi : i < n) by (apply nth_error_Some; congruence). assert (In i c0) by (apply Ij; lia).
    cbn [visit flat_map]. replace j with n by lia. unfold s2. rewrite replace_at_other by lia. rewrite nth_error_app2, Nat.sub_diag by (unfold n; lia). cbn [nth_error chain].
    rewrite (proj2 (mem_spec n c2)) by (apply C2; auto). reflexivity.
  - assert (Hi : i < n) by (apply nth_error_Some; congruence). assert (Hj : j < n) by lia.
    assert (Ls : link s i = None) by (unfold link; now rewrite Ni).
    assert (Nth : forall x, x < n -> x <> i -> nth_error s2 x = nth_error s x).
    { intros x Hx Ne. unfold s2. rewrite replace_at_other by auto. now apply nth_error_app1. }
    assert (Lk : forall x, x < n -> x <> i -> link s2 x = link s x) by (intros x Hx Ne; unfold link; now rewrite Nth).
    assert (Li : link s2 i = Some n).
    { unfold link, s2. rewrite replace_at_same by (rewrite app_length; cbn; unfold n in *; lia). f_equal. lia. }
    assert (Ln : link s2 n = None).
    { unfold link, s2. rewrite replace_at_other by lia. rewrite nth_error_app2, Nat.sub_diag by (unfold n; lia). reflexivity. }
    assert (Len : length s2 = S n) by (unfold s2; rewrite replace_at_length, app_length; cbn; unfold n; lia).
    assert (M : forall x, x < n -> mem x c2 = mem x c0).
    { intros x Hx. destruct (mem x c0) eqn:X; [apply mem_spec in X; apply mem_spec; apply C2; auto|]. apply mem_false in X. apply mem_false. rewrite C2. intros [?|[? _]]; [auto|lia]. }
    assert (Ch : forall f x, n - x < f -> x < n -> chain (S f) s2 c2 x = if mem i (chain f s c0 x) then chain f s c0 x ++ [n] else chain f s c0 x).
    { clear IH. induction f as [|f IHf]; intros x Hf Hx; [lia|]. cbn [chain] in *. rewrite (M x Hx).
      destruct (mem x c0) eqn:X; [reflexivity|]. destruct (Nat.eq_dec x i) as [->|Ne].
      - rewrite Li, Ls, Ln. cbn [mem existsb]. rewrite Nat.eqb_refl. cbn [orb app].
        rewrite (proj2 (mem_false n c2)); auto. rewrite C2. intros [K|[_ K]]; [apply C0 in K; lia|]. apply mem_false in X. auto.
      - rewrite (Lk x Hx Ne). destruct (link s x) as [t|] eqn:T.
        + destruct (W _ _ T) as (T1 & T2 & _). specialize (IHf t ltac:(lia) T2). cbn [chain] in IHf. rewrite IHf. 
          cbn [mem existsb]. replace (i =? x) with false by (symmetry; apply Nat.eqb_neq; auto). cbn [orb]. fold (mem i (chain f s c0 t)). destruct (mem i (chain f s c0 t)); reflexivity.
        + cbn [mem existsb]. replace (i =? x) with false by (symmetry; apply Nat.eqb_neq; auto). reflexivity. }
    cbn [visit]. assert (Nj : nth_error s2 j = nth_error s j \/ (j = i /\ nth_error s2 j = Some (KS (Some (n - i))))).
    { destruct (Nat.eq_dec j i) as [->|Ne]; [right; split; auto; unfold s2; apply replace_at_same; rewrite app_length; cbn; unfold n in *; lia|left; auto]. }
    destruct (nth_error s j) as [[fp|o]|] eqn:N; [| |apply nth_error_None in N; unfold n in *; lia].
    + replace (match nth_error s2 j with Some (KS _) => _ | Some (KO o) => _ | None => _ end) with (rev (map LS (chain (S (length s2)) s2 c2 j)) ++ visit (S k) (S j) s2 (chain (S (length s2)) s2 c2 j ++ c2))
        by (destruct Nj as [->|[_ ->]]; reflexivity).
      rewrite Len. rewrite (Ch (S n) j) by lia. rewrite flat_map_app. change (chain (S n) s c0 j) with (chain (S (length s)) s c0 j). set (ch := chain (S (length s)) s c0 j).
      assert (CL : forall x, In x ch -> x < n) by (intros x Hx; eapply chain_lt; eauto).
      destruct (mem i ch) eqn:Mi.
      * apply mem_spec in Mi. destruct (chain_last _ _ _ _ _ W Mi Ls) as (a & Ea & Na). fold ch in Ea.
        apply f_equal2; [|apply (IH (S j) s i (ch ++ c0) ((ch ++ [n]) ++ c2)); auto; try lia].
        -- rewrite Ea. rewrite !map_app, !rev_app_distr. cbn. rewrite Nat.eqb_refl. cbn. rewrite ins_before_none; auto. rewrite <- in_rev, in_map_LS. exact Na.
        -- intros x Hx. apply in_app_or in Hx. destruct Hx; auto.
        -- intros x. rewrite !in_app_iff, C2. cbn. intuition (subst; auto).
        -- intros _. apply in_or_app. auto.
      * apply mem_false in Mi. apply f_equal2; [|apply (IH (S j) s i (ch ++ c0) (ch ++ c2)); auto; try lia].
        -- rewrite ins_before_none; auto. rewrite <- in_rev, in_map_LS. exact Mi.
        -- intros x Hx. apply in_app_or in Hx. destruct Hx; auto.
        -- intros x. rewrite !in_app_iff, C2. intuition (subst; auto).
        -- intros L. apply in_or_app. destruct (Nat.eq_dec i j) as [->|Ne]; [|right; apply Ij; lia].
           destruct (in_dec Nat.eq_dec j c0) as [K|K]; auto. exfalso. apply Mi. unfold ch. destruct (chain_head (length s) s c0 j K) as [r ->]. now left.
    + destruct Nj as [->|[-> _]]; [|congruence]. cbn [flat_map ins_before app]. f_equal. apply IH; auto; try lia.
      intros L. destruct (Nat.eq_dec i j) as [->|]; [congruence|]. apply Ij. lia.
Qed.
Lemma procL_link : forall s i, wf_links s -> nth_error s i = Some (KS None) ->
  procL (replace_at (s ++ [KS None]) i (KS (Some (length s - i)))) = flat_map (ins_before (length s) i) (procL s).
Proof.
  intros s i W N. unfold procL. rewrite replace_at_length, app_length, Nat.add_comm. cbn [length Nat.add].
  apply (visit_link (length s) 0 s i [] []); auto; try (intros x; cbn; tauto). intros; lia.
Qed.
Lemma wf_link : forall s i, wf_links s -> nth_error s i = Some (KS None) -> wf_links (replace_at (s ++ [KS None]) i (KS (Some (length s - i)))).
Proof.
  intros s i W N. assert (Hi : i < length s) by (apply nth_error_Some; congruence). intros a t H.
  rewrite replace_at_length, app_length. cbn [length]. unfold link in H. unfold is_start. rewrite replace_at_nth in H.
  destruct (Nat.eqb_spec i a) as [->|Ne].
  - rewrite (proj2 (Nat.ltb_lt _ _)) in H by (rewrite app_length; cbn; lia). injection H as <-. split; [lia|]. split; [lia|].
    exists None. replace (a + (length s - a)) with (length s) by lia. rewrite replace_at_other by lia. now rewrite nth_error_app2, Nat.sub_diag by lia.
  - assert (Ha : a < length s).
    { destruct (lt_dec a (length s)); auto. rewrite nth_error_app2 in H by lia. destruct (a - length s) as [|[|z]]; cbn in H; discriminate. }
    rewrite nth_error_app1 in H by auto. destruct (W a t H) as (A & B & [fp F]). split; auto. split; [lia|].
    rewrite replace_at_nth. destruct (i =? t); [|exists fp; now rewrite nth_error_app1]. exists (Some (length s - i)). rewrite app_length. cbn [length]. now rewrite (proj2 (Nat.ltb_lt _ _)) by lia.
Qed.

(** ** widening *)
Definition move_before (t m : nat) (x : lout) : list lout := match x with LS j => if j =? m then [LS t; LS m] else if j =? t then [] else [x] | _ => [x] end.
Lemma move_before_none : forall t m l, ~ In (LS m) l -> ~ In (LS t) l -> flat_map (move_before t m) l = l.
Proof.
  intros t m. induction l as [|x l IH]; intros H H'; auto. cbn in *. rewrite IH by tauto. destruct x as [j|o]; auto. cbn.
  destruct (Nat.eqb_spec j m) as [->|]; [exfalso; auto|]. destruct (Nat.eqb_spec j t) as [->|]; [exfalso; auto|]. auto.
Qed.
(** which of two starts comes first *)
Fixpoint first_of (m t : nat) (l : list lout) : option bool :=
  match l with
  | [] => None
  | LS j :: r => if j =? m then Some true else if j =? t then Some false else first_of m t r
  | _ :: r => first_of m t r
  end.
Lemma first_of_app : forall m t a b, first_of m t (a ++ b) = match first_of m t a with Some r => Some r | None => first_of m t b end.
Proof. intros m t. induction a as [|[j|o] a IH]; intros b; cbn; auto. destruct (j =? m); auto. destruct (j =? t); auto. Qed.
Lemma first_of_none : forall m t l, ~ In (LS m) l -> ~ In (LS t) l -> first_of m t l = None.
Proof.
  intros m t. induction l as [|[j|o] l IH]; intros A B; cbn in *; auto.
  destruct (Nat.eqb_spec j m) as [->|]; [exfalso; auto|]. destruct (Nat.eqb_spec j t) as [->|]; [exfalso; auto|]. apply IH; tauto.
Qed.

Lemma visit_extend : forall k j s m t c0 c2, let s2 := replace_at s m (KS (Some (t - m))) in
  wf_links s -> nth_error s m = Some (KS None) -> nth_error s t = Some (KS None) -> m < t -> j + k = length s ->
  (forall x, In x c2 <-> In x c0 \/ (x = t /\ In m c0)) ->
  (In m c0 \/ (~ In t c0 /\ first_of m t (visit k j s c0) = Some true)) ->
  visit k j s2 c2 = flat_map (move_before t m) (visit k j s c0).
Proof.
  intros k. induction k as [|k IH]; intros j s m t c0 c2 s2 W Nm Nt Lt E C2 F; [reflexivity|].
  assert (Hm : m < length s) by (apply nth_error_Some; congruence). assert (Ht : t < length s) by (apply nth_error_Some; congruence).
  assert (Lm : link s m = None) by (unfold link; now rewrite Nm). assert (Lt0 : link s t = None) by (unfold link; now rewrite Nt).
  assert (Nth : forall x, x <> m -> nth_error s2 x = nth_error s x) by (intros x Ne; unfold s2; apply replace_at_other; auto).
  assert (Lk : forall x, x <> m -> link s2 x = link s x) by (intros x Ne; unfold link; now rewrite Nth).
  assert (Lm2 : link s2 m = Some t) by (unfold link, s2; rewrite replace_at_same by auto; f_equal; lia).
  assert (Lt2 : link s2 t = None) by (rewrite Lk by lia; auto).
  assert (Len : length s2 = length s) by (unfold s2; now rewrite replace_at_length).
  assert (M : forall x, x <> t -> mem x c2 = mem x c0).
  { intros x Hx. destruct (mem x c0) eqn:X; [apply mem_spec in X; apply mem_spec; apply C2; auto|]. apply mem_false in X. apply mem_false. rewrite C2. intros [?|[? _]]; auto. }
  (* chains in the two skeletons *)
  assert (Ch1 : In m c0 -> forall f x, length s - x < f -> x < length s -> chain f s2 c2 x = filter (fun y => negb (y =? t)) (chain f s c0 x)).
  { intros Im. clear IH F. induction f as [|f IHf]; intros x Hf Hx; [lia|]. cbn [chain].
    destruct (Nat.eq_dec x t) as [->|Ne].
    - rewrite (proj2 (mem_spec t c2)) by (apply C2; auto). destruct (mem t c0); auto. rewrite Lt0. cbn. now rewrite Nat.eqb_refl.
    - rewrite (M x Ne). destruct (mem x c0) eqn:X; auto.
      assert (x <> m) by (intros ->; apply mem_false in X; auto). rewrite Lk by auto. cbn [filter].
      replace (x =? t) with false by (symmetry; now apply Nat.eqb_neq). cbn [negb]. f_equal.
      destruct (link s x) as [u|] eqn:U; auto. destruct (W _ _ U) as (U1 & U2 & _). apply IHf; lia. }
  assert (Ch0 : ~ In m c0 -> ~ In t c0 -> forall f x, length s - x < f -> x < length s -> ~ In t (chain f s c0 x) -> chain (S f) s2 c2 x = if mem m (chain f s c0 x) then chain f s c0 x ++ [t] else chain f s c0 x).
  { intros Im It. clear IH F Ch1. induction f as [|f IHf]; intros x Hf Hx NI; [lia|]. cbn [chain] in NI |- *.
    assert (T2 : mem t c2 = false) by (apply mem_false; rewrite C2; tauto).
    destruct (Nat.eq_dec x t) as [->|Ne].
    - exfalso. apply NI. apply mem_false in It. rewrite It. now left.
    - rewrite (M x Ne). destruct (mem x c0) eqn:X; [reflexivity|].
      destruct (Nat.eq_dec x m) as [->|Nx].
      + rewrite Lm2, Lm. destruct f as [|f]; [lia|]. cbn [chain]. rewrite T2, Lt2. cbn. now rewrite Nat.eqb_refl.
      + rewrite Lk by auto. cbn [mem existsb]. replace (m =? x) with false by (symmetry; apply Nat.eqb_neq; auto). cbn [orb].
        destruct (link s x) as [u|] eqn:U; [|reflexivity]. destruct (W _ _ U) as (U1 & U2 & _).
        specialize (IHf u ltac:(lia) U2). assert (NU : ~ In t (chain f s c0 u)) by (intros K; apply NI; now right). specialize (IHf NU). cbn [chain] in IHf. rewrite IHf.
        fold (mem m (chain f s c0 u)). destruct (mem m (chain f s c0 u)); reflexivity. }
  cbn [visit] in *.
  assert (Nj : nth_error s2 j = nth_error s j \/ (j = m /\ nth_error s2 j = Some (KS (Some (t - m))))).
  { destruct (Nat.eq_dec j m) as [->|Ne]; [right; split; auto; unfold s2; now apply replace_at_same|left; auto]. }
  destruct (nth_error s j) as [[fp|o]|] eqn:N; [| |apply nth_error_None in N; lia].
  - replace (match nth_error s2 j with Some (KS _) => _ | Some (KO o) => _ | None => _ end) with (rev (map LS (chain (S (length s2)) s2 c2 j)) ++ visit k (S j) s2 (chain (S (length s2)) s2 c2 j ++ c2))
      by (destruct Nj as [->|[_ ->]]; reflexivity).
    rewrite Len, flat_map_app. set (ch := chain (S (length s)) s c0 j) in *.
    destruct (in_dec Nat.eq_dec m c0) as [Im|Im].
    + rewrite (Ch1 Im) by lia. fold ch. 
      assert (Nm' : ~ In m ch) by (intros K; apply chain_ge in K; auto; tauto).
      f_equal.
      * clear -Nm'. induction ch as [|x l IHl]; auto. cbn in Nm'. cbn [filter map rev]. rewrite flat_map_app. rewrite <- IHl by tauto. cbn [flat_map move_before].
        replace (x =? m) with false by (symmetry; apply Nat.eqb_neq; intros ->; tauto). destruct (x =? t); cbn [negb map rev]; rewrite ?app_nil_r; reflexivity.
      * apply (IH (S j) s m t (ch ++ c0) (filter (fun y => negb (y =? t)) ch ++ c2)); auto; try lia.
        -- intros x. rewrite !in_app_iff, filter_In, C2, negb_true_iff, Nat.eqb_neq. destruct (Nat.eq_dec x t) as [->|]; intuition.
        -- left. apply in_or_app. auto.
    + destruct F as [F|[It F]]; [contradiction|]. rewrite first_of_app in F.
      assert (NTc : ~ In t ch).
      { intros K. destruct (chain_last _ _ _ _ _ W K Lt0) as (a & Ea & Na). fold ch in Ea. rewrite Ea, map_app, rev_app_distr in F. cbn in F.
        replace (t =? m) with false in F by (symmetry; apply Nat.eqb_neq; lia). rewrite Nat.eqb_refl in F. discriminate. }
      assert (Fu : chain (S (length s)) s2 c2 j = chain (S (S (length s))) s2 c2 j).
      { destruct (Nat.eq_dec (length s) (length s2)); [|lia]. apply chain_fuel; [|lia|lia].
        intros a b H. rewrite Len. unfold link, s2 in H. unfold is_start. rewrite replace_at_nth in H.
        destruct (Nat.eqb_spec m a) as [->|Nea].
        - rewrite (proj2 (Nat.ltb_lt _ _)) in H by auto. injection H as <-. replace (a + (t - a)) with t by lia. split; auto. split; auto. exists None. rewrite Nth by lia. auto.
        - destruct (W a b) as (X & Y & [z Z]); [exact H|]. split; auto. split; auto. unfold s2. rewrite replace_at_nth. destruct (m =? b); [|eauto]. rewrite (proj2 (Nat.ltb_lt _ _)) by auto. eauto. }
      rewrite Fu. rewrite (Ch0 Im It) by (try lia; auto). fold ch.
      destruct (mem m ch) eqn:Mm.
      * apply mem_spec in Mm. destruct (chain_last _ _ _ _ _ W Mm Lm) as (a & Ea & Na). fold ch in Ea.
        apply f_equal2; [|apply (IH (S j) s m t (ch ++ c0) ((ch ++ [t]) ++ c2)); auto; try lia].
        -- rewrite Ea, !map_app, !rev_app_distr. cbn. rewrite Nat.eqb_refl. cbn. f_equal. f_equal. symmetry. apply move_before_none; rewrite <- in_rev, in_map_LS; auto.
           intros K. apply NTc. rewrite Ea. apply in_or_app. auto.
        -- intros x. rewrite !in_app_iff, C2. cbn. intuition (subst; auto).
        -- left. apply in_or_app. auto.
      * apply mem_false in Mm. rewrite first_of_none in F by (rewrite <- in_rev, in_map_LS; auto).
        apply f_equal2; [|apply (IH (S j) s m t (ch ++ c0) (ch ++ c2)); auto; try lia].
        -- symmetry. apply move_before_none; rewrite <- in_rev, in_map_LS; auto.
        -- intros x. rewrite !in_app_iff, C2. intuition (subst; auto).
        -- right. split; auto. rewrite in_app_iff. tauto.
  - destruct Nj as [->|[-> _]]; [|congruence]. cbn [flat_map move_before app]. f_equal. apply IH; auto; try lia.
Qed.
Lemma procL_extend : forall s m t, wf_links s -> nth_error s m = Some (KS None) -> nth_error s t = Some (KS None) -> m < t -> first_of m t (procL s) = Some true ->
  procL (replace_at s m (KS (Some (t - m)))) = flat_map (move_before t m) (procL s).
Proof.
  intros s m t W A B C D. unfold procL in *. rewrite replace_at_length. apply (visit_extend (length s) 0 s m t [] []); auto. intros x. cbn. tauto.
Qed.
Lemma wf_extend : forall s m t, wf_links s -> nth_error s m = Some (KS None) -> nth_error s t = Some (KS None) -> m < t -> wf_links (replace_at s m (KS (Some (t - m)))).
Proof.
  intros s m t W A B C a b H. assert (m < length s) by (apply nth_error_Some; congruence). assert (t < length s) by (apply nth_error_Some; congruence).
  rewrite replace_at_length. unfold link in H. unfold is_start. rewrite replace_at_nth in *.
  destruct (Nat.eqb_spec m a) as [->|Ne].
  - rewrite (proj2 (Nat.ltb_lt _ _)) in H by auto. injection H as <-. replace (a + (t - a)) with t by lia. split; auto. split; auto.
    replace (a =? t) with false by (symmetry; apply Nat.eqb_neq; lia). eauto.
  - destruct (W a b H) as (X & Y & [z Z]). split; auto. split; auto. destruct (m =? b); [|eauto]. rewrite (proj2 (Nat.ltb_lt _ _)) by auto. eauto.
Qed.
Lemma wf_push : forall s e, wf_links s -> (forall d, e <> KS (Some d)) -> wf_links (s ++ [e]).
Proof.
  intros s e W N a t H. unfold link in H. destruct (lt_dec a (length s)) as [L|L].
  - rewrite nth_error_app1 in H by auto. destruct (W a t H) as (A & B & [fp F]). rewrite app_length. split; auto. split; [cbn; lia|]. exists fp. now rewrite nth_error_app1.
  - rewrite nth_error_app2 in H by lia. destruct (a - length s) as [|[|z]]; cbn in H; try discriminate. destruct e as [[d|]|]; try discriminate. exfalso. now apply (N d).
Qed.
Lemma wf_pop : forall s e, wf_links (s ++ [e]) -> (forall i, link (s ++ [e]) i <> Some (length s)) -> wf_links s.
Proof.
  intros s e W N a t H. assert (L : a < length s). { destruct (lt_dec a (length s)); auto. unfold link in H. rewrite (proj2 (nth_error_None s a)) in H by lia. discriminate. }
  assert (H' : link (s ++ [e]) a = Some t) by (rewrite link_app; auto). destruct (W a t H') as (A & B & [fp F]). rewrite app_length in B. cbn in B.
  assert (t <> length s) by (intros ->; now apply (N a)). split; auto. split; [lia|]. exists fp. rewrite nth_error_app1 in F by lia. exact F.
Qed.

(** * The replay visits the events in that order *)
Definition kind_at (es : list event) (i : nat) : kind := match nth_error es i with Some (EStart k _) => k | _ => TOMBSTONE end.
Definition render (es : list event) (x : lout) : list call :=
  match x with LS i => if kind_eqb (kind_at es i) TOMBSTONE then [] else [CStart (kind_at es i)] | LO c => [c] end.
Definition agree (es : list event) (c : list nat) (i : nat) (es' : list event) : Prop :=
  length es' = length es /\ forall j, (In j c -> j < length es -> nth_error es' j = Some tombstone) /\ (~ In j c -> i <= j -> nth_error es' j = nth_error es j).

Lemma agree_take : forall es c i es' j, agree es c i es' -> agree es (j :: c) i (replace_at es' j tombstone).
Proof.
  intros es c i es' j [L A]. split; [now rewrite replace_at_length|]. intros x. rewrite replace_at_nth, L. destruct (A x) as [A1 A2]. cbn [In]. split.
  - intros H Hx. destruct (Nat.eqb_spec j x) as [->|N]; [now rewrite (proj2 (Nat.ltb_lt _ _))|]. apply A1; auto. destruct H; [congruence|auto].
  - intros H Hx. destruct (Nat.eqb_spec j x) as [->|N]; [exfalso; apply H; auto|]. apply A2; auto.
Qed.
Definition not_tomb (k : kind) : bool := negb (kind_eqb k TOMBSTONE).

Lemma follow_spec : forall f es es' c i idx fp acc, wf_links (map skel es) -> agree es c i es' -> i <= idx ->
  (match fp with Some d => 0 < d /\ idx + d < length es /\ is_start (map skel es) (idx + d) /\ length es - (idx + d) < f | None => True end) ->
  exists es'' ks, follow f es' idx fp acc = Ok (es'', acc ++ ks) /\
    let ch := match fp with Some d => chain f (map skel es) c (idx + d) | None => [] end in
    agree es (ch ++ c) i es'' /\ filter not_tomb ks = filter not_tomb (map (kind_at es) ch).
Proof.
  induction f as [|f IH]; intros es es' c i idx fp acc W A Hi F.
  - destruct fp as [d|]; [lia|]. exists es', []. rewrite app_nil_r. cbn. auto.
  - destruct fp as [d|]; [|exists es', []; rewrite app_nil_r; cbn; auto]. destruct F as (D & B & [fp0 St] & Fu). cbn [follow chain].
    set (t := idx + d) in *. pose proof (proj2 A t) as [A1 A2].
    rewrite nth_error_map in St. destruct (nth_error es t) as [[k fpe| | |]|] eqn:N; try discriminate. 
    destruct (mem t c) eqn:M.
    + apply mem_spec in M. rewrite (A1 M B). unfold tombstone at 1. 
      assert (K : forall f es0 idx0 acc0, follow f es0 idx0 None acc0 = Ok (es0, acc0)) by (intros [|?]; reflexivity). rewrite K.
      exists (replace_at es' t tombstone), [TOMBSTONE]. split; auto. cbn [app]. split; [|reflexivity].
      rewrite replace_at_id by (apply (A1 M B)). exact A.
    + apply mem_false in M. rewrite (A2 M) by lia.
      assert (Lk : link (map skel es) t = option_map (fun x => t + x) fpe) by (unfold link; rewrite nth_error_map, N; destruct fpe; reflexivity).
      destruct (IH es (replace_at es' t tombstone) (t :: c) i t fpe (acc ++ [k]) W (agree_take _ _ _ _ t A) ltac:(lia)) as (es'' & ks & E & G & H).
      { destruct fpe as [x|]; auto. cbn in Lk. destruct (W _ _ Lk) as (W1 & W2 & W3). rewrite map_length in W2. repeat split; auto; lia. }
      exists es'', (k :: ks). split; [rewrite E; now rewrite <- app_assoc|]. rewrite Lk. destruct fpe as [x|]; cbn [option_map] in *.
      * assert (Q : chain f (map skel es) (t :: c) (t + x) = chain f (map skel es) c (t + x)).
        { destruct (W _ _ Lk) as (W1 & W2 & W3). 
          assert (GG : forall f y, t < y -> chain f (map skel es) (t :: c) y = chain f (map skel es) c y).
          { clear -W. induction f as [|f IHf]; intros y Hy; auto. cbn [chain mem existsb]. fold (mem y c). replace (y =? t) with false by (symmetry; apply Nat.eqb_neq; lia). cbn [orb].
            destruct (mem y c); auto. f_equal. destruct (link (map skel es) y) as [u|] eqn:U; auto. destruct (W _ _ U) as (U1 & _). apply IHf. lia. }
          apply GG. lia. }
        rewrite Q in *. split.
        -- destruct G as [G1 G2]. split; auto. intros y. destruct (G2 y) as [Y1 Y2]. split.
           ++ intros Hy. apply Y1. cbn [app In] in Hy. rewrite in_app_iff in Hy. rewrite in_app_iff. cbn [In]. tauto.
           ++ intros Hy. apply Y2. cbn [app In] in Hy. rewrite in_app_iff in Hy. rewrite in_app_iff. cbn [In]. tauto.
        -- cbn [map filter]. replace (kind_at es t) with k by (unfold kind_at; now rewrite N). rewrite H. reflexivity.
      * cbn [app] in G. split; [exact G|]. cbn [map filter] in *. unfold kind_at. rewrite N. rewrite H. reflexivity.
Qed.

Lemma starts_of_spec : forall es ch ks, filter not_tomb ks = filter not_tomb (map (kind_at es) ch) -> starts_of ks = flat_map (render es) (rev (map LS ch)).
Proof.
  intros es ch ks H. unfold starts_of. assert (FR : forall l : list kind, filter (fun k => negb (kind_eqb k TOMBSTONE)) (rev l) = rev (filter not_tomb l)).
  { induction l as [|k l IH]; auto. cbn [rev filter]. rewrite filter_app, IH. cbn. unfold not_tomb. destruct (kind_eqb k TOMBSTONE); cbn; auto using app_nil_r. }
  rewrite FR, H. clear. induction ch as [|i ch IH]; auto. cbn [map rev filter]. rewrite flat_map_app, <- IH. cbn [flat_map render]. unfold not_tomb at 1.
  destruct (kind_eqb (kind_at es i) TOMBSTONE); cbn [negb]; [now rewrite !app_nil_r|]. cbn [rev]. now rewrite map_app.
Qed.
Lemma process_from_spec : forall n i es es' c, wf_links (map skel es) -> agree es c i es' -> i + n = length es ->
  (forall x, In x c -> is_start (map skel es) x) ->
  process_from n i es' = Ok (flat_map (render es) (visit n i (map skel es) c)).
Proof.
  induction n as [|n IH]; intros i es es' c W A E C; [reflexivity|]. cbn [process_from visit]. pose proof (proj2 A i) as [A1 A2].
  rewrite nth_error_map. destruct (nth_error es i) as [e|] eqn:N; [|apply nth_error_None in N; lia]. cbn [option_map].
  assert (Hi : i < length es) by lia.
  assert (Adv : forall c' l, agree es c' i l -> In i c' -> agree es c' (S i) l). { intros c' l [L X] _. split; auto. intros j. destruct (X j). split; auto. intros; auto with arith. }
  destruct (in_dec Nat.eq_dec i c) as [M|M].
  - rewrite (A1 M Hi). destruct (C i M) as [fp F]. rewrite nth_error_map, N in F. injection F as F. destruct e as [k fpe| | |]; try discriminate. cbn [skel tombstone].
    cbn [follow bind]. rewrite (replace_at_id _ es' i tombstone) by auto. cbn [chain]. rewrite (proj2 (mem_spec i c) M). cbn [map rev app].
    rewrite (IH (S i) es es' c); auto; try lia. 
  - rewrite (A2 M) by lia. rewrite map_length. destruct e as [k fp| |k m|m]; cbn [skel].
    + assert (St : is_start (map skel es) i) by (exists fp; rewrite nth_error_map, N; reflexivity).
      assert (Lk : link (map skel es) i = option_map (fun x => i + x) fp) by (unfold link; rewrite nth_error_map, N; destruct fp; reflexivity).
      destruct (follow_spec (S (length es')) es (replace_at es' i tombstone) (i :: c) i i fp [k] W (agree_take _ _ _ _ i A) (le_n i)) as (es'' & ks & F & G & H).
      { destruct fp as [d|]; auto. cbn in Lk. destruct (W _ _ Lk) as (W1 & W2 & W3). rewrite map_length in W2. rewrite (proj1 A). repeat split; auto; lia. }
      rewrite F. cbn [bind app]. set (ch := chain (S (length es)) (map skel es) c i).
      assert (Q : ch = i :: match fp with Some d => chain (S (length es')) (map skel es) (i :: c) (i + d) | None => [] end).
      { unfold ch. cbn [chain]. rewrite (proj2 (mem_false i c) M). f_equal. rewrite Lk. destruct fp as [d|]; auto. cbn [option_map] in *. destruct (W _ _ Lk) as (W1 & W2 & W3).
        rewrite map_length in W2.
        rewrite (chain_fuel (length es) (S (length es')) (map skel es) c (i + d)) by (auto; rewrite ?map_length, ?(proj1 A); lia).
        assert (GG : forall f y, i < y -> chain f (map skel es) (i :: c) y = chain f (map skel es) c y).
        { clear -W. induction f as [|f IHf]; intros y Hy; auto. cbn [chain mem existsb]. fold (mem y c). replace (y =? i) with false by (symmetry; apply Nat.eqb_neq; lia). cbn [orb].
          destruct (mem y c); auto. f_equal. destruct (link (map skel es) y) as [u|] eqn:U; auto. destruct (W _ _ U) as (U1 & _). apply IHf. lia. }
        symmetry. apply (GG (S (length es'))). lia. }
      rewrite (IH (S i) es es'' (ch ++ c)); auto; try lia.
      * cbn [bind]. f_equal. rewrite flat_map_app. f_equal. apply starts_of_spec. rewrite Q. cbn [map filter]. replace (kind_at es i) with k by (unfold kind_at; now rewrite N). rewrite H. reflexivity.
      * apply Adv; [|rewrite Q; now left]. rewrite Q. destruct G as [G1 G2]. split; auto. intros y. destruct (G2 y) as [Y1 Y2]. split.
        -- intros Hy. apply Y1. cbn [app In] in Hy. rewrite in_app_iff in Hy. rewrite in_app_iff. cbn [In]. tauto.
        -- intros Hy. apply Y2. cbn [app In] in Hy. rewrite in_app_iff in Hy. rewrite in_app_iff. cbn [In]. tauto.
      * intros x Hx. apply in_app_or in Hx. destruct Hx as [Hx|Hx]; auto. unfold ch in Hx. clear -W Hx St. revert i St Hx. generalize (S (length es)) as f.
        induction f as [|f IHf]; intros i St Hx; [destruct Hx|]. cbn in Hx. destruct (mem i c); [destruct Hx|]. destruct Hx as [<-|Hx]; auto.
        destruct (link (map skel es) i) as [t|] eqn:L; [|destruct Hx]. destruct (W _ _ L) as (_ & _ & W3). eapply IHf; eauto.
    + rewrite (IH (S i) es (replace_at es' i tombstone) c); auto; try lia. destruct A as [AL AA]. split; [now rewrite replace_at_length|]. intros j. destruct (AA j) as [X Y]. rewrite replace_at_nth, AL. split.
      * intros Hj Hl. destruct (Nat.eqb_spec i j) as [->|]; auto. now rewrite (proj2 (Nat.ltb_lt _ _)).
      * intros Hj Hl. destruct (Nat.eqb_spec i j) as [->|]; [lia|]. apply Y; auto; lia.
    + rewrite (IH (S i) es (replace_at es' i tombstone) c); auto; try lia. destruct A as [AL AA]. split; [now rewrite replace_at_length|]. intros j. destruct (AA j) as [X Y]. rewrite replace_at_nth, AL. split.
      * intros Hj Hl. destruct (Nat.eqb_spec i j) as [->|]; auto. now rewrite (proj2 (Nat.ltb_lt _ _)).
      * intros Hj Hl. destruct (Nat.eqb_spec i j) as [->|]; [lia|]. apply Y; auto; lia.
    + rewrite (IH (S i) es (replace_at es' i tombstone) c); auto; try lia. destruct A as [AL AA]. split; [now rewrite replace_at_length|]. intros j. destruct (AA j) as [X Y]. rewrite replace_at_nth, AL. split.
      * intros Hj Hl. destruct (Nat.eqb_spec i j) as [->|]; auto. now rewrite (proj2 (Nat.ltb_lt _ _)).
      * intros Hj Hl. destruct (Nat.eqb_spec i j) as [->|]; [lia|]. apply Y; auto; lia.
Qed.
Theorem process_spec : forall es, wf_links (map skel es) -> process es = Ok (flat_map (render es) (procL (map skel es))).
Proof.
  intros es W. unfold process, procL. rewrite map_length. apply process_from_spec; auto.
  - split; auto. intros j. split; [intros []|auto].
  - intros x [].
Qed.
