(** Proofs about the tree diff. *)
From Coq Require Import Permutation Sorted.
From Verif Require Import Base SyntaxKind TextEditModel TextEditSpec TextEditProofs TreeSinkModel TreeSinkSpec TreeDiffModel TreeDiffSpec.

Fixpoint tree_ind2 (P : tree -> Prop) (H1 : forall k ch, Forall P ch -> P (TNode k ch)) (H2 : forall k t, P (TTok k t)) (t : tree) {struct t} : P t :=
  match t with
  | TNode k ch => H1 k ch ((fix f l : Forall P l := match l with [] => Forall_nil P | x :: r => Forall_cons x (tree_ind2 P H1 H2 x) (f r) end) ch)
  | TTok k x => H2 k x
  end.

Lemma elem_text_tree_text : forall t, elem_text t = tree_text t.
Proof.
  intros t. induction t as [k ch IH|k x] using tree_ind2; unfold tree_text in *; cbn [elem_text leaves map concat].
  - induction IH as [|c ch H _ IH2]; cbn; [reflexivity|]. rewrite H, IH2, map_app, concat_app. reflexivity.
  - cbn. rewrite app_nil_r. reflexivity.
Qed.

(** * The loop as a function of its own *)
Fixpoint loop (path : list nat) (start : nat) (lch : list tree) (i off : nat) (rch : list tree) (d : tree_diff) {struct lch} : tree_diff :=
  match lch with
  | [] => let '(k, o) := anchor path i start off in push_rest k o rch d
  | e :: lch' =>
      let off' := off + length (elem_text e) in
      match rch with
      | [] => loop path start lch' (S i) off' [] (add_deletion (mkRange off off') d)
      | f :: rch' =>
          if element_eq e f then loop path start lch' (S i) off' rch' d
          else match look_ahead e rch' with
               | Some (between, rest) =>
                   let '(k, o) := anchor path i start off in
                   loop path start lch' (S i) off' rest (add_insertion k o (map elem_text (f :: between)) d)
               | None => loop path start lch' (S i) off' rch' (go (path ++ [i]) off e f d)
               end
      end
  end.
Lemma go_node : forall path start k lch k' rch d, go path start (TNode k lch) (TNode k' rch) d = loop path start lch 0 start rch d.
Proof.
  intros path start k lch k' rch d. cbn [go]. generalize 0 at 1 2. generalize start at 3 5. revert rch d.
  induction lch as [|e lch IH]; intros rch d off i; [reflexivity|]. cbn [loop].
  destruct rch as [|f rch]; [apply IH|]. destruct (element_eq e f); [apply IH|].
  destruct (look_ahead e rch) as [[a b]|]; [|apply IH]. destruct (anchor path i start off) as [k0 o]. apply IH.
Qed.

(** * Keys *)
Definition keys (d : tree_diff) : list insert_pos := map fst (d_insertions d).
Definition here (path : list nat) (i : nat) (k : insert_pos) : Prop :=
  match k with
  | After q => exists j r, q = path ++ j :: r /\ (i <= j \/ (S j = i /\ r = []))
  | AsFirstChild q => (exists j r, q = path ++ j :: r /\ i <= j) \/ (q = path /\ i = 0)
  end.
Lemma here_next : forall p i k, here p (S i) k -> here p i k.
Proof.
  intros p i [q|q]; cbn.
  - intros (j & r & E & [H|[H1 H2]]); exists j, r; split; auto; left; lia.
  - intros [(j & r & E & H)|[_ H]]; [|lia]. left. exists j, r. split; auto. lia.
Qed.
Lemma here_sub : forall p i k, here (p ++ [i]) 0 k -> here p i k.
Proof.
  intros p i [q|q]; cbn.
  - intros (j & r & E & _). exists i, (j :: r). split; [rewrite E, <- app_assoc; reflexivity|left; lia].
  - intros [(j & r & E & _)|[E _]]; left; [exists i, (j :: r)|exists i, []]; (split; [rewrite E, <- ?app_assoc; reflexivity|lia]).
Qed.
Lemma path_inj : forall (p : list nat) i j a b, p ++ i :: a = p ++ j :: b -> i = j /\ a = b.
Proof. intros p i j a b H. apply app_inv_head in H. inversion H; auto. Qed.
Lemma here_sub_not_next : forall p i k, here (p ++ [i]) 0 k -> ~ here p (S i) k.
Proof.
  intros p i [q|q]; cbn.
  - intros (j & r & E & _) (j' & r' & E' & H). rewrite <- app_assoc in E. cbn in E. rewrite E in E'.
    apply path_inj in E' as [<- <-]. destruct H as [H|[_ H]]; [lia|discriminate].
  - intros H [(j' & r' & E' & H')|[_ H']]; [|lia].
    destruct H as [(j & r & E & _)|[E _]]; rewrite <- ?app_assoc in E; cbn in E; rewrite E in E';
      apply path_inj in E' as [<- <-]; lia.
Qed.
Lemma anchor_here : forall p i s o k x, anchor p i s o = (k, x) -> here p i k /\ ~ here p (S i) k.
Proof.
  intros p [|j] s o k x H; cbn in H; inversion H; subst; cbn.
  - split; [right; auto|]. intros [(j & r & E & H1)|[_ H1]]; [|lia]. rewrite <- (app_nil_r x) in E at 1 || rewrite <- (app_nil_r p) in E at 1. apply app_inv_head in E. discriminate.
  - split; [exists j, []; auto|]. intros (j' & r & E & H1). apply path_inj in E as [<- <-]. destruct H1 as [|[H1 _]]; lia.
Qed.
Lemma anchor_off : forall p i s o, (i = 0 -> s = o) -> snd (anchor p i s o) = o.
Proof. intros p [|j] s o H; cbn; auto. Qed.

Lemma entry_fresh : forall k o new l, ~ In k (map fst l) -> entry_extend k o new l = l ++ [(k, (o, new))].
Proof.
  intros k o new l. induction l as [|[k' [o' old]] l IH]; cbn; intros H; [reflexivity|].
  destruct (pos_eq_dec k k'); [exfalso; apply H; auto|]. rewrite IH; auto.
Qed.
Lemma entry_last : forall k o new o' x l, ~ In k (map fst l) -> entry_extend k o new (l ++ [(k, (o', x))]) = l ++ [(k, (o', x ++ new))].
Proof.
  intros k o new o' x l. induction l as [|[k' [o2 old]] l IH]; cbn; intros H.
  - destruct (pos_eq_dec k k); [reflexivity|contradiction].
  - destruct (pos_eq_dec k k'); [exfalso; apply H; auto|]. rewrite IH; auto.
Qed.
Lemma push_rest_last : forall k o rs rep del l x, ~ In k (map fst l) ->
  push_rest k o rs (mkDiff rep del (l ++ [(k, (o, x))])) = mkDiff rep del (l ++ [(k, (o, x ++ map elem_text rs))]).
Proof.
  intros k o rs. induction rs as [|r rs IH]; intros rep del l x H; cbn [push_rest map].
  - rewrite app_nil_r. reflexivity.
  - unfold add_insertion. cbn [d_insertions d_replacements d_deletions]. rewrite entry_last by exact H.
    rewrite IH by exact H. rewrite <- app_assoc. reflexivity.
Qed.
Lemma push_rest_fresh : forall k o rs d, ~ In k (keys d) -> rs <> [] ->
  push_rest k o rs d = mkDiff (d_replacements d) (d_deletions d) (d_insertions d ++ [(k, (o, map elem_text rs))]).
Proof.
  intros k o [|r rs] d H N; [contradiction|]. cbn [push_rest]. unfold add_insertion. rewrite entry_fresh by exact H.
  rewrite push_rest_last by exact H. reflexivity.
Qed.

(** * Equal elements *)
Lemma element_eq_text : forall l r, element_eq l r = true -> elem_text l = elem_text r.
Proof.
  intros l r. unfold element_eq. rewrite !andb_true_iff. intros [_ H].
  destruct l, r; try discriminate; apply text_eqb_eq in H; exact H.
Qed.
Lemma look_ahead_text : forall l rs a b, look_ahead l rs = Some (a, b) ->
  exists x, rs = a ++ x :: b /\ elem_text x = elem_text l.
Proof.
  intros l rs. induction rs as [|r rs IH]; cbn; intros a b H; [discriminate|].
  destruct (element_eq l r) eqn:E.
  - inversion H; subst. exists r. split; [reflexivity|]. symmetry. apply element_eq_text, E.
  - destruct (look_ahead l rs) as [[a' b']|]; [|discriminate]. inversion H; subst.
    destruct (IH _ _ eq_refl) as (x & -> & X). exists x. auto.
Qed.

(** * Character boundaries *)
Lemma boundary_app : forall a b, starts_at_char b -> is_char_boundary (a ++ b) (length a) = true.
Proof.
  intros a b H. unfold is_char_boundary. destruct (length a =? 0); [reflexivity|].
  destruct (length a =? length (a ++ b)) eqn:E; [reflexivity|].
  rewrite nth_error_app2 by lia. rewrite Nat.sub_diag. destruct b as [|x b]; cbn in *.
  - rewrite app_nil_r, Nat.eqb_refl in E. discriminate.
  - rewrite H. reflexivity.
Qed.
Lemma starts_app : forall a b, starts_at_char a -> starts_at_char b -> starts_at_char (a ++ b).
Proof. intros [|x a] b Ha Hb; cbn in *; auto. Qed.
Lemma utf8_starts : forall t, utf8_tokens t -> starts_at_char (elem_text t).
Proof.
  intros t H. rewrite elem_text_tree_text. unfold tree_text, utf8_tokens in *.
  induction H as [|x l H _ IH]; cbn; [exact I|]. apply starts_app; auto.
Qed.
Lemma utf8_child : forall k ch, utf8_tokens (TNode k ch) -> Forall utf8_tokens ch.
Proof.
  intros k ch H. unfold utf8_tokens in *. cbn in H. rewrite Forall_forall in *. intros c Hc. rewrite Forall_forall.
  intros x Hx. apply H. rewrite in_flat_map. eauto.
Qed.
Lemma utf8_flat : forall ch, Forall utf8_tokens ch -> starts_at_char (flat_map elem_text ch).
Proof. intros ch H. induction H as [|c ch H _ IH]; cbn; [exact I|]. apply starts_app; auto using utf8_starts. Qed.

(** * Composing edits *)
Lemma edited_app : forall o a s1 a', edited o a s1 a' -> forall b s2 b', edited (o + length a) b s2 b' ->
  edited o (a ++ b) (s1 ++ s2) (a' ++ b').
Proof.
  intros o a s1 a' H. induction H as [pos t|pos keep old rest new cs out s e E1 E2 H IH]; intros b s2 b' H2.
  - cbn. apply edited_shift_head; [exact H2|]. inversion H2; subst; [exact I|]. unfold c_start; cbn. lia.
  - cbn [app]. rewrite <- !app_assoc. econstructor; eauto. apply IH.
    replace (e + length rest) with (pos + length (keep ++ old ++ rest)) by (rewrite !app_length; lia). exact H2.
Qed.
Lemma edited_insertions : forall o ts, edited o [] (map (insert_change o) ts) (concat ts).
Proof.
  intros o ts. induction ts as [|t ts IH]; cbn; [constructor|].
  change (edited o ([] ++ [] ++ []) (mkChange (mkRange o o) t :: map (insert_change o) ts) ([] ++ t ++ concat ts)).
  econstructor; cbn; try lia; exact IH.
Qed.
Lemma edited_same : forall o t, edited o t [] t.
Proof. constructor. Qed.
Lemma edited_replace : forall o a b, edited o a [mkChange (mkRange o (o + length a)) b] b.
Proof.
  intros o a b. pose proof (edited_cons o [] a [] b [] [] o (o + length a)) as H. cbn in H. rewrite !app_nil_r in H.
  apply H; try lia. constructor.
Qed.

Definition is_ins (c : change) : bool := c_start c =? c_end c.
Definition not_ins (c : change) : bool := negb (is_ins c).
Definition rep_changes (R : list (range * text)) : list change := map (fun '(r, t) => replace_change r t) R.
Definition del_changes (D : list range) : list change := map delete_change D.

Definition outcome (P : insert_pos -> Prop) (d d' : tree_diff) (pre old new post : text) : Prop :=
  exists I R D s,
    insertion_changes (d_insertions d') = insertion_changes (d_insertions d) ++ I /\
    d_replacements d' = d_replacements d ++ R /\ d_deletions d' = d_deletions d ++ D /\
    (forall k, In k (keys d') -> In k (keys d) \/ P k) /\
    edited (length pre) old s new /\
    filter is_ins s = I /\ Permutation (rep_changes R ++ del_changes D) (filter not_ins s) /\
    Forall (fits (pre ++ old ++ post)) s /\ Forall wf_change s.

Lemma outcome_app : forall (P Q S : insert_pos -> Prop) d0 d1 d2 pre a a' b b' post,
  (forall k, P k -> S k) -> (forall k, Q k -> S k) ->
  outcome P d0 d1 pre a a' (b ++ post) -> outcome Q d1 d2 (pre ++ a) b b' post ->
  outcome S d0 d2 pre (a ++ b) (a' ++ b') post.
Proof.
  intros P Q S d0 d1 d2 pre a a' b b' post HP HQ
    (I1 & R1 & D1 & s1 & A1 & B1 & C1 & K1 & E1 & F1 & G1 & T1 & W1)
    (I2 & R2 & D2 & s2 & A2 & B2 & C2 & K2 & E2 & F2 & G2 & T2 & W2).
  exists (I1 ++ I2), (R1 ++ R2), (D1 ++ D2), (s1 ++ s2). repeat apply conj.
  - rewrite A2, A1, app_assoc. reflexivity.
  - rewrite B2, B1, app_assoc. reflexivity.
  - rewrite C2, C1, app_assoc. reflexivity.
  - intros k Hk. destruct (K2 k Hk) as [Hk2|Hk2]; [destruct (K1 k Hk2)|]; auto.
  - eapply edited_app; eauto. rewrite app_length in E2. exact E2.
  - rewrite filter_app, F1, F2. reflexivity.
  - rewrite filter_app, <- G1, <- G2. unfold rep_changes, del_changes. rewrite !map_app, <- !app_assoc.
    apply Permutation_app_head. rewrite !app_assoc. apply Permutation_app_tail. apply Permutation_app_comm.
  - apply Forall_app. rewrite <- !app_assoc in *. auto.
  - apply Forall_app. auto.
Qed.
Lemma outcome_same : forall (P : insert_pos -> Prop) d pre a post, outcome P d d pre a a post.
Proof.
  intros P d pre a post. exists [], [], [], []. rewrite !app_nil_r. repeat apply conj; auto; try constructor.
Qed.
Lemma fits_between : forall pre a post x, starts_at_char (a ++ post) -> starts_at_char post -> fits (pre ++ a ++ post) (mkChange (mkRange (length pre) (length pre + length a)) x).
Proof.
  intros pre a post x Ha Hp. unfold fits, c_start, c_end; cbn. repeat split.
  - rewrite !app_length. lia.
  - apply boundary_app, Ha.
  - rewrite app_assoc. rewrite <- app_length. apply boundary_app, Hp.
Qed.
Lemma outcome_change : forall (P : insert_pos -> Prop) d d' pre a b post,
  a <> [] -> starts_at_char a -> starts_at_char b -> starts_at_char post ->
  d_insertions d' = d_insertions d ->
  (d' = add_replacement (mkRange (length pre) (length pre + length a)) b d \/
   (b = [] /\ d' = add_deletion (mkRange (length pre) (length pre + length a)) d)) ->
  outcome P d d' pre a b post.
Proof.
  intros P d d' pre a b post Na Ha Hb Hp EI H.
  set (c := mkChange (mkRange (length pre) (length pre + length a)) b).
  assert (N : is_ins c = false).
  { unfold is_ins, c_start, c_end; cbn. apply Nat.eqb_neq. destruct a; [contradiction|cbn; lia]. }
  assert (X : exists R D, d_replacements d' = d_replacements d ++ R /\ d_deletions d' = d_deletions d ++ D /\ rep_changes R ++ del_changes D = [c]).
  { destruct H as [->|[-> ->]]; [exists [(c_range c, b)], []|exists [], [c_range c]]; cbn; rewrite ?app_nil_r; auto. }
  destruct X as (R & D & HR & HD & HC). exists [], R, D, [c]. repeat apply conj; auto.
  - rewrite EI, app_nil_r. reflexivity.
  - unfold keys. rewrite EI. auto.
  - apply edited_replace.
  - cbn [filter]. rewrite N. reflexivity.
  - rewrite HC. cbn [filter]. unfold not_ins. rewrite N. cbn. auto.
  - repeat constructor; apply fits_between; auto using starts_app.
  - repeat constructor; cbn; auto; lia.
Qed.
Lemma outcome_insert : forall (P : insert_pos -> Prop) d d' k pre ts post,
  P k -> Forall starts_at_char ts -> starts_at_char post ->
  d_replacements d' = d_replacements d -> d_deletions d' = d_deletions d -> d_insertions d' = d_insertions d ++ [(k, (length pre, ts))] ->
  outcome P d d' pre [] (concat ts) post.
Proof.
  intros P d d' k pre ts post HP Hts Hp ER ED EI.
  exists (map (insert_change (length pre)) ts), [], [], (map (insert_change (length pre)) ts). repeat apply conj.
  - rewrite EI. unfold insertion_changes. rewrite flat_map_app. cbn. rewrite app_nil_r. reflexivity.
  - rewrite app_nil_r; exact ER.
  - rewrite app_nil_r; exact ED.
  - unfold keys. rewrite EI, map_app. intros x Hx. apply in_app_or in Hx. destruct Hx as [|[<-|[]]]; auto.
  - apply edited_insertions.
  - clear. induction ts as [|t ts IH]; cbn [map filter]; [reflexivity|].
    replace (is_ins (insert_change (length pre) t)) with true by (symmetry; apply Nat.eqb_refl). rewrite IH. reflexivity.
  - clear. replace (filter not_ins (map (insert_change (length pre)) ts)) with (@nil change); [constructor|].
    induction ts as [|t ts IH]; cbn [map filter]; [reflexivity|].
    replace (not_ins (insert_change (length pre) t)) with false; [exact IH|].
    unfold not_ins. replace (is_ins (insert_change (length pre) t)) with true by (symmetry; apply Nat.eqb_refl). reflexivity.
  - apply Forall_map. apply Forall_forall. intros t _. pose proof (fits_between pre [] post t Hp Hp) as F. cbn in F. rewrite Nat.add_0_r in F. exact F.
  - apply Forall_map. eapply Forall_impl; [|exact Hts]. intros t Ht. split; cbn; auto.
Qed.

(** * The recursion *)
Lemma solid_child : forall k ch, solid (TNode k ch) -> Forall (fun c => elem_text c <> [] /\ solid c) ch.
Proof.
  intros k ch H. apply Forall_forall. intros c Hc. split.
  - rewrite elem_text_tree_text. apply H. constructor. exact Hc.
  - intros x Hx. apply H. econstructor 2; eauto.
Qed.
Lemma concat_map_flat : forall rs, concat (map elem_text rs) = flat_map elem_text rs.
Proof. intros rs. symmetry. apply flat_map_concat_map. Qed.
Lemma texts_start : forall rs, Forall utf8_tokens rs -> Forall starts_at_char (map elem_text rs).
Proof. intros rs H. apply Forall_map. eapply Forall_impl; [|exact H]. apply utf8_starts. Qed.
Lemma outcome_keys : forall (P : insert_pos -> Prop) d d' pre a b post, outcome P d d' pre a b post -> forall k, In k (keys d') -> In k (keys d) \/ P k.
Proof. intros P d d' pre a b post (I & R & D & s & _ & _ & _ & K & _). exact K. Qed.

Definition go_ok (t : tree) : Prop := forall r path d pre post,
  (elem_text t <> [] \/ (is_node t /\ is_node r)) -> solid t -> utf8_tokens t -> utf8_tokens r -> starts_at_char post ->
  (forall k, In k (keys d) -> ~ here path 0 k) ->
  outcome (here path 0) d (go path (length pre) t r d) pre (elem_text t) (elem_text r) post.

Lemma loop_ok : forall lch, Forall go_ok lch -> forall path start i rch d pre post,
  (i = 0 -> start = length pre) ->
  Forall (fun c => elem_text c <> [] /\ solid c) lch -> Forall utf8_tokens lch -> Forall utf8_tokens rch -> starts_at_char post ->
  (forall k, In k (keys d) -> ~ here path i k) ->
  outcome (here path i) d (loop path start lch i (length pre) rch d) pre (flat_map elem_text lch) (flat_map elem_text rch) post.
Proof.
  intros lch HG. induction HG as [|e lch He HG IH]; intros path start i rch d pre post Hst Hs Hl Hr Hp Hk.
  - cbn [loop flat_map]. destruct (anchor path i start (length pre)) as [k o] eqn:EA.
    pose proof (anchor_here _ _ _ _ _ _ EA) as [H1 H2]. pose proof (anchor_off path i start (length pre) Hst) as Ho.
    rewrite EA in Ho. cbn in Ho. subst o. destruct rch as [|r rch]; [apply outcome_same|].
    rewrite push_rest_fresh; [|intros X; exact (Hk _ X H1)|discriminate].
    rewrite <- concat_map_flat. eapply outcome_insert; try reflexivity; auto using texts_start.
  - inversion Hs as [|? ? [Ne Se] Hs']; subst. inversion Hl as [|? ? Ue Hl']; subst.
    pose proof (utf8_flat _ Hl') as Ul.
    assert (Spost : starts_at_char (flat_map elem_text lch ++ post)) by (apply starts_app; auto).
    assert (Hnext : S i = 0 -> start = length (pre ++ elem_text e)) by lia.
    assert (Kn : forall k, In k (keys d) -> ~ here path (S i) k) by (intros k Hin X; apply (Hk k Hin), here_next, X).
    cbn [loop flat_map]. cbv zeta. rewrite <- app_length.
    destruct rch as [|f rch].
    + eapply (outcome_app (here path i) (here path (S i)) (here path i)) with (a' := []); [auto|apply here_next| |].
      * apply (outcome_change _ d (add_deletion (mkRange (length pre) (length (pre ++ elem_text e))) d)); auto using utf8_starts; [exact I|].
        right; split; [reflexivity|]. rewrite app_length. reflexivity.
      * apply (IH path start (S i) [] _ (pre ++ elem_text e) post); auto.
    + inversion Hr as [|? ? Uf Hr']; subst. cbn [flat_map].
      destruct (element_eq e f) eqn:EQ.
      { rewrite <- (element_eq_text _ _ EQ).
        eapply (outcome_app (here path i) (here path (S i)) (here path i)); [auto|apply here_next|apply outcome_same|].
        apply (IH path start (S i) rch d (pre ++ elem_text e) post); auto. }
      destruct (look_ahead e rch) as [[a b]|] eqn:LA.
      * destruct (anchor path i start (length pre)) as [k o] eqn:EA.
        pose proof (anchor_here _ _ _ _ _ _ EA) as [H1 H2]. pose proof (anchor_off path i start (length pre) Hst) as Ho.
        rewrite EA in Ho. cbn in Ho. subst o.
        destruct (look_ahead_text _ _ _ _ LA) as (x & -> & Ex).
        apply Forall_app in Hr' as [Ua Hxb]. inversion Hxb as [|? ? Ux Ub]; subst.
        assert (Fresh : ~ In k (keys d)) by (intros X; exact (Hk _ X H1)).
        replace (elem_text f ++ flat_map elem_text (a ++ x :: b)) with (concat (map elem_text (f :: a)) ++ elem_text e ++ flat_map elem_text b)
          by (rewrite concat_map_flat, flat_map_app; cbn; rewrite Ex, <- !app_assoc; reflexivity).
        change (elem_text e ++ flat_map elem_text lch) with ([] ++ elem_text e ++ flat_map elem_text lch).
        eapply (outcome_app (here path i) (here path (S i)) (here path i)); [auto|apply here_next| |].
        -- apply (outcome_insert _ d (add_insertion k (length pre) (map elem_text (f :: a)) d) k); [exact H1|apply texts_start; auto|rewrite <- app_assoc; apply starts_app; auto using utf8_starts|reflexivity|reflexivity|].
           cbn [add_insertion d_insertions]. apply entry_fresh. exact Fresh.
        -- rewrite app_nil_r.
           eapply (outcome_app (here path (S i)) (here path (S i)) (here path (S i))); [auto|auto|apply outcome_same|].
           apply (IH path start (S i) b _ (pre ++ elem_text e) post); auto.
           unfold keys. cbn [add_insertion d_insertions]. rewrite entry_fresh by exact Fresh. rewrite map_app. cbn.
           intros y Hy. apply in_app_or in Hy. destruct Hy as [Hy|[<-|[]]]; auto.
      * pose proof (He f (path ++ [i]) d pre (flat_map elem_text lch ++ post) (or_introl Ne) Se Ue Uf Spost
          (fun k Hin X => Hk k Hin (here_sub _ _ _ X))) as OG.
        eapply (outcome_app (here (path ++ [i]) 0) (here path (S i)) (here path i)); [apply here_sub|apply here_next|exact OG|].
        apply (IH path start (S i) rch _ (pre ++ elem_text e) post); auto.
        intros k Hin. destruct (outcome_keys _ _ _ _ _ _ _ OG k Hin) as [Hd|Hd]; auto using here_sub_not_next.
Qed.
Lemma go_all_ok : forall t, go_ok t.
Proof.
  intros t. induction t as [k ch IH|k x] using tree_ind2; intros r path d pre post Hne Hs Hu Hur Hp Hk.
  - destruct r as [k' rch|k' x].
    + rewrite go_node. cbn [elem_text]. apply loop_ok; auto; try (eapply solid_child; eauto); eapply utf8_child; eauto.
    + cbn [go]. destruct Hne as [Hne|[_ (a & b & E)]]; [|discriminate].
      eapply outcome_change; auto using utf8_starts.
  - cbn [go]. destruct Hne as [Hne|[(a & b & E) _]]; [|discriminate].
    eapply outcome_change; auto using utf8_starts.
Qed.

(** * From the outcome to the builder *)
Lemma edited_bound : forall pos t s out, edited pos t s out -> Forall (fun c => pos <= c_start c /\ c_start c <= c_end c) s.
Proof.
  intros pos t s out H. induction H as [|pos keep old rest new cs out s e E1 E2 H IH]; constructor.
  - unfold c_start, c_end; cbn. lia.
  - eapply Forall_impl; [|exact IH]. cbn. intros c [A B]. lia.
Qed.
Definition ends_first (a b : change) : Prop := c_end a <= c_start b.
Lemma edited_ordered : forall pos t s out, edited pos t s out -> StronglySorted ends_first s.
Proof.
  intros pos t s out H. induction H as [|pos keep old rest new cs out s e E1 E2 H IH]; constructor; auto.
  eapply Forall_impl; [|exact (edited_bound _ _ _ _ H)]. cbn. intros c [A B]. unfold ends_first, c_end; cbn. exact A.
Qed.
Lemma ordered_sorted : forall s, Forall (fun c => c_start c <= c_end c) s -> StronglySorted ends_first s -> StronglySorted before_or_same s.
Proof.
  intros s Hr H. induction H as [|a s H IH Ha]; inversion Hr; subst; constructor; auto.
  rewrite Forall_forall in *. intros b Hb. specialize (Ha b Hb). unfold ends_first, before_or_same in *.
  match goal with H : forall x, In x s -> _ |- _ => specialize (H b Hb) end. lia.
Qed.
Lemma filter_perm : forall {A} (f : A -> bool) l l', Permutation l l' -> Permutation (filter f l) (filter f l').
Proof.
  intros A f l l' H. induction H; cbn; auto.
  - destruct (f x); auto.
  - destruct (f x), (f y); auto. constructor.
  - eapply perm_trans; eauto.
Qed.
Lemma same_place_ins : forall c x, same_place c x = true -> is_ins c = is_ins x.
Proof. intros c x. unfold same_place, is_ins. rewrite andb_true_iff, !Nat.eqb_eq. intros [-> ->]. reflexivity. Qed.
Lemma filter_place_ins : forall c l, is_ins c = true -> filter (same_place c) (filter is_ins l) = filter (same_place c) l.
Proof.
  intros c l Hc. induction l as [|x l IH]; cbn; [reflexivity|].
  destruct (is_ins x) eqn:Ex; cbn; rewrite IH; [reflexivity|].
  destruct (same_place c x) eqn:E; [|reflexivity]. apply same_place_ins in E. congruence.
Qed.
Lemma filter_place_none : forall c l, is_ins c = true -> Forall (fun x => is_ins x = false) l -> filter (same_place c) l = [].
Proof.
  intros c l Hc H. induction H as [|x l Hx H IH]; cbn; [reflexivity|].
  destruct (same_place c x) eqn:E; [|exact IH]. apply same_place_ins in E. congruence.
Qed.
(** a place that is not an insertion point occurs at most once *)
Lemma place_once : forall c s, is_ins c = false -> Forall (fun c => c_start c <= c_end c) s -> StronglySorted ends_first s -> length (filter (same_place c) s) <= 1.
Proof.
  intros c s Hc Hr H. induction H as [|a s H IH Ha]; cbn; [lia|]. inversion Hr as [|? ? Ra Rs]; subst.
  destruct (same_place c a) eqn:E; [|apply IH; auto]. cbn.
  replace (filter (same_place c) s) with (@nil change); [cbn; lia|].
  symmetry. rewrite Forall_forall in Ha. clear IH H Hr.
  assert (Q : forall b, In b s -> same_place c b = false).
  { intros b Hb. specialize (Ha b Hb). unfold ends_first in Ha. unfold same_place, is_ins in *. apply andb_true_iff in E as [E1 E2].
    apply Nat.eqb_eq in E1, E2. apply Nat.eqb_neq in Hc. apply andb_false_iff. left. apply Nat.eqb_neq. lia. }
  clear Ha Rs. induction s as [|b s IH]; cbn; [reflexivity|]. rewrite Q by (left; reflexivity). apply IH. intros; apply Q; right; auto.
Qed.
Lemma short_perm : forall {A} (l l' : list A), Permutation l l' -> length l' <= 1 -> l = l'.
Proof.
  intros A l l' H L. destruct l' as [|x [|y l']]; cbn in L; [| |lia].
  - apply Permutation_sym, Permutation_nil in H. exact H.
  - apply Permutation_sym, Permutation_length_1_inv in H. exact H.
Qed.
Lemma partition_perm : forall {A} (f : A -> bool) l, Permutation (filter f l ++ filter (fun x => negb (f x)) l) l.
Proof.
  intros A f l. induction l as [|x l IH]; cbn; [constructor|]. destruct (f x); cbn; [auto|].
  eapply perm_trans; [apply Permutation_sym, Permutation_middle|]. auto.
Qed.

Lemma order_of_parts : forall I N s, StronglySorted ends_first s -> Forall (fun c => c_start c <= c_end c) s ->
  filter is_ins s = I -> Permutation N (filter not_ins s) -> document_order (I ++ N) s.
Proof.
  intros I N s Hs Hr HI HN.
  assert (P : Permutation (I ++ N) s).
  { eapply perm_trans; [|apply (partition_perm is_ins)]. rewrite HI. apply Permutation_app_head, HN. }
  split; [exact P|]. split; [apply ordered_sorted; auto|]. intros c.
  destruct (is_ins c) eqn:Ec.
  - rewrite filter_app. rewrite (filter_place_none c N Ec), app_nil_r.
    + rewrite <- HI. apply filter_place_ins, Ec.
    + apply Forall_forall. intros x Hx. apply (Permutation_in x HN) in Hx. apply filter_In in Hx as [_ Hx]. unfold not_ins in Hx.
      apply negb_true_iff in Hx. exact Hx.
  - apply short_perm; [apply filter_perm, P|apply place_once; auto].
Qed.
Lemma ordered_disjoint : forall s l, StronglySorted ends_first s -> Permutation l s -> pairwise_disjoint l.
Proof.
  intros s l H P. unfold pairwise_disjoint.
  assert (D : ForallOrdPairs disjoint s).
  { clear P. induction H as [|a s H IH Ha]; constructor; auto. eapply Forall_impl; [|exact Ha]. intros b Hb. left. exact Hb. }
  apply Permutation_sym in P. clear H. induction P.
  - constructor.
  - inversion D as [|? ? Hf Hd]; subst. constructor; [|apply IHP; exact Hd]. rewrite Forall_forall in *. intros y Hy. apply Hf.
    eapply Permutation_in; [apply Permutation_sym; exact P|exact Hy].
  - inversion D as [|? ? Hf Hd]; subst. inversion Hd as [|? ? Hf2 Hd2]; subst. inversion Hf as [|? ? Hxy Hf3]; subst.
    constructor; [constructor; [|exact Hf2]|constructor; [exact Hf3|exact Hd2]]. unfold disjoint in *. tauto.
  - auto.
Qed.
