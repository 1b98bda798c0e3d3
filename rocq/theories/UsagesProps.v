(** Find usages reports every use of a name, once. *)
From Coq Require Import String.
Close Scope string_scope.
From Verif Require Import Base SyntaxKind TextEditModel TreeSinkModel TreeSinkSpec TreeDiffModel TreeDiffSpec TreeDiffProofs EditorModel EditorSpec EditorProofs EditorOrder AddressModel SelectionModel SelectionProofs SelectionProps SignatureModel SignatureProofs SignatureProps UsagesModel.
From Coq Require Import Sorted.
Close Scope N_scope.
Open Scope nat_scope.
Open Scope list_scope.

(** * The specification *)
Definition word (b : byte) : Prop := (65 <= b <= 90 \/ 97 <= b <= 122 \/ b = 95 \/ 48 <= b <= 57)%N.
Definition identifier (n : text) : Prop := n <> [] /\ Forall word n.
(** what UTF-8 guarantees: no continuation byte follows an ASCII byte *)
Definition ascii_ends (s : text) : Prop := forall i a b, nth_error s i = Some a -> nth_error s (S i) = Some b -> (a < 128)%N -> is_cont b = false.
Definition token_of (t : tree) (n : text) (p : place_path) : Prop := exists k, element_at t p = Some (TTok k n).
(** a token spelled like the name is not glued to other letters or digits *)
Definition standalone (t : tree) (n : text) : Prop := forall p, token_of t n p ->
  (forall i b, r_start (range_at t p) = S i -> nth_error (elem_text t) i = Some b -> ~ word b) /\
  (forall b, nth_error (elem_text t) (r_end (range_at t p)) = Some b -> ~ word b).
Definition name_node (t : tree) (p : place_path) : Prop := exists k ch, element_at t p = Some (TNode k ch) /\ (k = NAME \/ k = NAME_REF).
(** a name is one token *)
Definition one_token (t : tree) : Prop := forall p i j k k' x y, name_node t p -> element_at t (p ++ [i]) = Some (TTok k x) -> element_at t (p ++ [j]) = Some (TTok k' y) -> i = j.
(** the node is spelled like the name, and lies in one of the ranges *)
Definition used_in (t : tree) (n : text) (ranges : list range) (p : place_path) : Prop :=
  exists j r, token_of t n (p ++ [j]) /\ In r ranges /\ r_start r <= r_start (range_at t (p ++ [j])) <= r_end r.

(** * The text search *)
Lemma word_spec b : letter_ b || digit b = true <-> word b.
Proof. unfold letter_, digit, word. rewrite !orb_true_iff, !andb_true_iff, !N.leb_le, N.eqb_eq. lia. Qed.
Lemma letter_word b : letter_ b = true -> word b. Proof. intros H. apply word_spec. now rewrite H. Qed.
Lemma starts_with_spec n s : starts_with n s = true <-> exists r, s = n ++ r.
Proof.
  revert s. induction n as [|x n IH]; intros s; cbn; [split; [now exists s|auto]|]. destruct s as [|y s]; [split; [discriminate|intros (r & H); discriminate]|].
  rewrite andb_true_iff, N.eqb_eq, IH. split; [intros [-> (r & ->)]; now exists r|]. intros (r & H). inversion H. eauto.
Qed.
Lemma nth_skipn' {A} (l : list A) i j : nth_error (skipn i l) j = nth_error l (i + j).
Proof. revert l. induction i as [|i IH]; intros l; [reflexivity|]. destruct l as [|a l]; [now destruct j|]. cbn. apply IH. Qed.
Lemma at_match n s o : starts_with n (skipn o s) = true -> forall j b, nth_error n j = Some b -> nth_error s (o + j) = Some b.
Proof. intros H j b E. apply starts_with_spec in H as (r & H). rewrite <- nth_skipn', H, nth_error_app1; [exact E|]. apply nth_error_Some. congruence. Qed.
Lemma match_len n s o : n <> [] -> starts_with n (skipn o s) = true -> o + length n <= length s.
Proof.
  intros N H. apply starts_with_spec in H as (r & H). apply (f_equal (@length byte)) in H. rewrite skipn_length, app_length in H. assert (0 < length n) by (destruct n; [congruence|cbn; lia]). lia.
Qed.
Lemma find_iter_sound n s : forall i skip o, In o (find_iter n s i skip) -> i + skip <= o /\ starts_with n (skipn (o - i) s) = true.
Proof.
  induction s as [|b s IH]; intros i skip o; cbn [find_iter]; [intros []|]. destruct skip as [|k].
  - destruct (starts_with n (b :: s)) eqn:E.
    + intros [<-|H]; [rewrite Nat.sub_diag; cbn; split; [lia|exact E]|]. apply IH in H as [L H]. split; [lia|]. replace (o - i) with (S (o - S i)) by lia. exact H.
    + intros H. apply IH in H as [L H]. split; [lia|]. replace (o - i) with (S (o - S i)) by lia. exact H.
  - intros H. apply IH in H as [L H]. split; [lia|]. replace (o - i) with (S (o - S i)) by lia. exact H.
Qed.
Lemma find_iter_sorted n s : forall i skip, StronglySorted lt (find_iter n s i skip).
Proof.
  induction s as [|b s IH]; intros i skip; cbn [find_iter]; [constructor|]. destruct skip as [|k]; [|apply IH]. destruct (starts_with n (b :: s)); [|apply IH]. constructor; [apply IH|]. apply Forall_forall. intros o O. apply find_iter_sound in O as [L _]. lia.
Qed.
Lemma find_iter_complete n s : Forall word n -> forall i skip (pw : Prop), (0 < skip -> pw) -> (forall j b, j < skip -> nth_error s j = Some b -> word b) ->
  forall d, starts_with n (skipn d s) = true -> d < length s -> (d = 0 -> ~ pw) -> (forall e b, d = S e -> nth_error s e = Some b -> ~ word b) -> In (i + d) (find_iter n s i skip).
Proof.
  intros Wn. induction s as [|b s IH]; intros i skip pw P1 P2 d M L N0 N1; [cbn in L; lia|]. cbn [find_iter]. 
  assert (Step : forall skip', (0 < skip' -> word b) -> (forall j c, j < skip' -> nth_error s j = Some c -> word c) -> d <> 0 -> In (i + d) (find_iter n s (S i) skip')).
  { intros skip' Q1 Q2 D. destruct d as [|d]; [congruence|]. replace (i + S d) with (S i + d) by lia. apply (IH (S i) skip' (word b) Q1 Q2 d M); [cbn in L; lia| |].
    - intros ->. now apply (N1 0 b).
    - intros e c -> E. now apply (N1 (S e) c). }
  destruct skip as [|k].
  - destruct (starts_with n (b :: s)) eqn:E.
    + destruct d as [|d]; [left; lia|]. right. apply starts_with_spec in E as (r & E). apply Step; [| |discriminate].
      * intros Lk. destruct n as [|x n]; [cbn in Lk; lia|]. inversion E; subst. now inversion Wn.
      * intros j c J C. destruct n as [|x n]; [cbn in J; lia|]. inversion E; subst. cbn in J. rewrite nth_error_app1 in C by lia. inversion Wn; subst. rewrite Forall_forall in H2. apply H2. eapply nth_error_In; eauto.
    + destruct d as [|d]; [cbn [skipn] in M; congruence|]. apply Step; [lia|lia|discriminate].
  - destruct d as [|d]; [exfalso; apply N0; [reflexivity|apply P1; lia]|]. apply Step; [intros _; apply (P2 0 b); [lia|reflexivity]|intros j c J C; apply (P2 (S j) c); [lia|exact C]|discriminate].
Qed.
Lemma boundary_intro s i : i <= length s -> (forall b, nth_error s i = Some b -> is_cont b = false) -> is_char_boundary s i = true.
Proof.
  intros L H. unfold is_char_boundary. destruct (i =? 0); [reflexivity|]. destruct (i =? length s) eqn:E; [reflexivity|]. apply Nat.eqb_neq in E. destruct (nth_error s i) as [b|] eqn:N; [now rewrite (H b eq_refl)|]. apply nth_error_None in N. lia.
Qed.
Lemma word_ascii b : word b -> (b < 128)%N. Proof. unfold word. lia. Qed.
Lemma ascii_not_cont b : (b < 128)%N -> is_cont b = false.
Proof. intros H. unfold is_cont. assert ((128 <=? b)%N = false) as -> by (apply N.leb_gt; lia). reflexivity. Qed.
(** the occurrences that are looked at: whole words *)
Lemma find_matches_spec s n ranges : ascii_ends s -> identifier n -> forall l, (forall o, In o l -> starts_with n (skipn o s) = true) ->
  exists m, find_matches s n ranges l = Ok m /\ (forall o, In o m <-> In o l /\ (exists r, In r ranges /\ r_start r <= o <= r_end r) /\ letter_before s o = false /\ word_after s (o + length n) = false) /\ (NoDup l -> NoDup m).
Proof.
  intros U [Nn Wn]. induction l as [|i l IH]; intros A.
  - exists []. cbn. split; [reflexivity|]. split; [tauto|constructor].
  - destruct IH as (m & E & I & D); [intros o O; apply A; now right|]. cbn [find_matches]. rewrite E. cbn [bind]. assert (M := A i (or_introl eq_refl)).
    assert (R : existsb (fun it => contains_inclusive it i) ranges = true <-> exists r, In r ranges /\ r_start r <= i <= r_end r).
    { rewrite existsb_exists. unfold contains_inclusive. split; intros (r & Ir & C); exists r; (split; [exact Ir|]); rewrite andb_true_iff, !Nat.leb_le in *; exact C. }
    destruct (existsb _ ranges) eqn:X; cbn [negb].
    2:{ exists m. split; [reflexivity|]. split; [|intros N; inversion N; auto]. intros o. rewrite I. cbn [In]. split; [tauto|]. intros ([<-|H] & H' & Q); [|tauto]. apply R in H'. discriminate. }
    assert (B1 : is_char_boundary s i = true).
    { apply boundary_intro; [pose proof (match_len n s i Nn M); lia|]. intros b Eb. destruct n as [|x n]; [congruence|]. pose proof (at_match _ _ _ M 0 x eq_refl) as Z. rewrite Nat.add_0_r, Eb in Z. inversion Z; subst b. inversion Wn; subst. now apply ascii_not_cont, word_ascii. }
    assert (B2 : is_char_boundary s (i + length n) = true).
    { apply boundary_intro; [now apply match_len|]. intros b Eb. destruct n as [|z n _] using rev_ind; [congruence|]. apply Forall_app in Wn as [_ Wz]. inversion Wz; subst. apply (U (i + length n) z b); [|rewrite app_length in Eb; cbn in Eb; replace (S (i + length n)) with (i + (length n + 1)) by lia; exact Eb|now apply word_ascii].
      apply (at_match _ _ _ M). now rewrite nth_error_app2, Nat.sub_diag. }
    rewrite B1, B2. cbn [negb andb]. destruct (letter_before s i || word_after s (i + length n)) eqn:W.
    + exists m. split; [reflexivity|]. split; [|intros N; inversion N; auto]. intros o. rewrite I. cbn [In]. split; [tauto|]. intros ([<-|H] & H' & Q1 & Q2); [rewrite Q1, Q2 in W; discriminate|tauto].
    + exists (i :: m). split; [reflexivity|]. apply orb_false_iff in W as [W1 W2]. split.
      * intros o. cbn [In]. rewrite I. split; [|tauto]. intros [<-|H]; [|tauto]. split; [now left|]. split; [now apply R|auto].
      * intros N. inversion N; subst. constructor; [|auto]. rewrite I. tauto.
Qed.

(** * The nodes *)
Lemma word_before s i b : nth_error s i = Some b -> letter_before s (S i) = true -> word b.
Proof. intros E. cbn. rewrite E. apply letter_word. Qed.
Lemma text_nth t p j b : exists_at t p -> nth_error (text_at t p) j = Some b -> nth_error (elem_text t) (r_start (range_at t p) + j) = Some b.
Proof.
  unfold exists_at, range_at, text_at. destruct (element_at t p) as [e|] eqn:Ee; [|congruence]. intros _ E. destruct (slice t p e Ee) as (a & c & S & L). cbn [r_start]. rewrite S, <- L, nth_error_app2 by lia.
  replace (length a + j - length a) with j by lia. rewrite nth_error_app1; [exact E|]. apply nth_error_Some. congruence.
Qed.
Lemma text_match t p : exists_at t p -> starts_with (text_at t p) (skipn (r_start (range_at t p)) (elem_text t)) = true.
Proof.
  unfold exists_at, range_at, text_at. destruct (element_at t p) as [e|] eqn:Ee; [|congruence]. intros _. destruct (slice t p e Ee) as (a & c & S & L). cbn [r_start]. rewrite S, <- L, skipn_app, skipn_all, Nat.sub_diag. cbn. apply starts_with_spec. eauto.
Qed.
Lemma spelled_spec t n p : spelled t n p = true <-> text_at t p = n.
Proof. unfold spelled. destruct (list_eq_dec N.eq_dec (text_at t p) n); split; congruence. Qed.
Lemma token_text t n p : token_of t n p -> text_at t p = n /\ exists_at t p /\ r_end (range_at t p) = r_start (range_at t p) + length n.
Proof. intros (k & E). unfold text_at, exists_at, range_at, text_at. rewrite E. repeat split; congruence. Qed.
Lemma touching_token t n o p : touching t o p -> text_at t p = n -> token_of t n p.
Proof. intros ((k & x & E & _) & _) T. unfold text_at in T. rewrite E in T. cbn in T. subst. now exists k. Qed.
(** the token spelled like the name at a whole-word occurrence starts there *)
Lemma touching_start t n o p : identifier n -> standalone t n -> starts_with n (skipn o (elem_text t)) = true -> touching t o p -> text_at t p = n -> r_start (range_at t p) = o.
Proof.
  intros [Nn Wn] S M T E. pose proof (touching_token t n o p T E) as K. destruct (token_text t n p K) as (_ & X & Re). destruct T as [_ T]. destruct (S p K) as [_ Se].
  destruct (Nat.eq_dec (r_start (range_at t p)) o) as [Q|Q]; [exact Q|exfalso].
  set (j := r_end (range_at t p) - o). assert (Lj : j < length n) by (unfold j; lia). destruct (nth_error n j) as [b|] eqn:B; [|apply nth_error_None in B; lia].
  pose proof (at_match _ _ _ M j b B) as Z. replace (o + j) with (r_end (range_at t p)) in Z by (unfold j; lia). apply (Se b Z). rewrite Forall_forall in Wn. apply Wn. eapply nth_error_In; eauto.
Qed.
Lemma same_start t n p q : identifier n -> token_of t n p -> token_of t n q -> r_start (range_at t p) = r_start (range_at t q) -> p = q.
Proof.
  intros [Nn _] P Q E. destruct (token_text t n p P) as (_ & _ & Rp). destruct (token_text t n q Q) as (_ & _ & Rq). assert (0 < length n) by (destruct n; [congruence|cbn; lia]). destruct P as (k & P). destruct Q as (k' & Q).
  destruct (prefix_dec p q) as [(s & ->)|N1]; [|destruct (prefix_dec q p) as [(s & ->)|N2]].
  - destruct s as [|z s]; [now rewrite app_nil_r|]. rewrite element_at_app, P in Q. discriminate Q.
  - destruct s as [|z s]; [now rewrite app_nil_r|]. rewrite element_at_app, Q in P. discriminate P.
  - exfalso. destruct (disjoint_ranges t p q N1 N2) as [D|D]; try congruence; lia.
Qed.
Lemma find_nodes_spec t n o : identifier n -> standalone t n -> starts_with n (skipn o (elem_text t)) = true ->
  (forall p, In p (find_nodes t n o) <-> exists j, token_of t n (p ++ [j]) /\ r_start (range_at t (p ++ [j])) = o) /\ length (find_nodes t n o) <= 1.
Proof.
  intros I S M. unfold find_nodes. destruct (find (spelled t n) (token_at_offset t o)) as [tok|] eqn:F.
  - apply find_some in F as [T E]. apply token_at_touching in T. apply spelled_spec in E. pose proof (touching_start t n o tok I S M T E) as St. pose proof (touching_token t n o tok T E) as K.
    destruct tok as [|z q _] using rev_ind; cbn [rev].
    + split; [|cbn; lia]. intros p. split; [intros []|]. intros (j & Kj & Sj). assert (Z : p ++ [j] = []) by (apply (same_start t n); auto; now rewrite St). destruct p; discriminate Z.
    + rewrite rev_app_distr. cbn [rev app]. rewrite rev_involutive. split; [|cbn; lia]. intros p. cbn. split; [intros [<-|[]]; now exists z|]. intros (j & Kj & Sj). left.
      assert (Z : p ++ [j] = q ++ [z]) by (apply (same_start t n); auto; now rewrite St). apply app_inj_tail in Z as [-> _]. reflexivity.
  - split; [|cbn; lia]. intros p. split; [intros []|]. intros (j & Kj & Sj). exfalso. destruct (token_text t n _ Kj) as (Tx & X & Re).
    assert (T : touching t o (p ++ [j])). { destruct Kj as (k & Kj). split; [exists k, n; split; [exact Kj|apply I]|]. lia. }
    apply token_at_touching in T. pose proof (find_none _ _ F _ T) as Z. cbn in Z. rewrite (proj2 (spelled_spec t n _) Tx) in Z. discriminate.
Qed.
Lemma name_node_like t p j n : token_of t n (p ++ [j]) -> is_name_like t p = true <-> name_node t p.
Proof.
  intros (k & E). rewrite element_at_app in E. unfold is_name_like, name_node, kind_at. destruct (element_at t p) as [[k' ch|k' x]|]; [|discriminate|discriminate]. cbn. split.
  - intros H. exists k', ch. split; [reflexivity|]. destruct k'; try discriminate; auto.
  - intros (k2 & ch2 & Z & [->| ->]); inversion Z; reflexivity.
Qed.
Lemma NoDup_app' {A} (l m : list A) : NoDup l -> NoDup m -> (forall x, In x l -> In x m -> False) -> NoDup (l ++ m).
Proof.
  intros N M D. induction N as [|a l Na N IH]; [exact M|]. cbn. constructor; [|apply IH; intros x X; apply D; now right]. rewrite in_app_iff. intros [H|H]; [contradiction|]. apply (D a); [now left|exact H].
Qed.
Lemma sorted_nodup l : StronglySorted lt l -> NoDup l.
Proof. induction 1 as [|a l S IH F]; constructor; [|exact IH]. intros H. rewrite Forall_forall in F. specialize (F a H). lia. Qed.
Lemma filter_flat_map {A B} (g : B -> bool) (f : A -> list B) l : filter g (flat_map f l) = flat_map (fun a => filter g (f a)) l.
Proof. induction l as [|a l IH]; cbn; [reflexivity|]. now rewrite filter_app, IH. Qed.
Lemma NoDup_flat_map {A B} (f : A -> list B) l : NoDup l -> (forall a, In a l -> NoDup (f a)) -> (forall a b x, In a l -> In b l -> In x (f a) -> In x (f b) -> a = b) -> NoDup (flat_map f l).
Proof.
  intros N. induction N as [|a l Na N IH]; intros D U; cbn; [constructor|]. apply NoDup_app'; [apply D; now left|apply IH; [intros; apply D; now right|intros b c x Hb Hc; apply U; now right]|].
  intros x X Y. apply in_flat_map in Y as (b & Ib & Xb). assert (a = b) by (eapply (U a b x); eauto; [now left|now right]). subst. contradiction.
Qed.

Lemma no_letter s o : (forall i b, o = S i -> nth_error s i = Some b -> ~ word b) -> letter_before s o = false.
Proof.
  destruct o as [|i]; [reflexivity|]. intros H. cbn. destruct (nth_error s i) as [b|] eqn:E; [|reflexivity]. destruct (letter_ b) eqn:L; [|reflexivity]. exfalso. apply (H i b eq_refl E). now apply letter_word.
Qed.
Theorem usages_exact : forall refers t n ranges, solid t -> ascii_ends (elem_text t) -> identifier n -> standalone t n -> one_token t ->
  exists l, usages refers (elem_text t) t n ranges = Ok l /\ NoDup l /\
    forall p, In p l <-> name_node t p /\ refers p = true /\ used_in t n ranges p.
Proof.
  intros refers t n ranges W U I S O. unfold usages.
  destruct (find_matches_spec (elem_text t) n ranges U I (find_iter n (elem_text t) 0 0)) as (m & -> & Im & Dm). { intros o H. apply find_iter_sound in H as [_ H]. now rewrite Nat.sub_0_r in H. }
  cbn [bind]. eexists. split; [reflexivity|]. assert (Ma : forall o, In o m -> starts_with n (skipn o (elem_text t)) = true). { intros o H. apply Im in H as (H & _). apply find_iter_sound in H as [_ H]. now rewrite Nat.sub_0_r in H. }
  assert (Char : forall p, In p (filter (fun p => is_name_like t p && refers p) (flat_map (find_nodes t n) m)) <-> name_node t p /\ refers p = true /\ used_in t n ranges p).
  { intros p. rewrite filter_In, in_flat_map, andb_true_iff. split.
    - intros ((o & Io & Ip) & L & R). pose proof (Ma o Io) as M. apply (find_nodes_spec t n o I S M) in Ip as (j & K & St). split; [now apply (name_node_like t p j n)|]. split; [exact R|]. apply Im in Io as (_ & (r & Ir & B) & _). exists j, r. rewrite St. auto.
    - intros (N & R & j & r & K & Ir & B). destruct (token_text t n _ K) as (Tx & X & Re). split; [|split; [now apply (name_node_like t p j n)|exact R]]. set (o := r_start (range_at t (p ++ [j]))) in *.
      assert (M : starts_with n (skipn o (elem_text t)) = true) by (rewrite <- Tx; now apply text_match). exists o. destruct (S _ K) as [S1 S2]. fold o in S1. split.
      + apply Im. split.
        * replace o with (0 + o) by lia. assert (Lo : o < length (elem_text t)). { pose proof (match_len n _ o (proj1 I) M). assert (0 < length n) by (destruct I as [Nn _]; destruct n; [congruence|cbn; lia]). lia. }
          apply (find_iter_complete n (elem_text t) (proj2 I) 0 0 False); [intros H; lia|intros e b H; lia|exact M|exact Lo|intros _ []|exact S1].
        * split; [now exists r|]. split.
          -- now apply no_letter.
          -- unfold word_after. rewrite <- Re. destruct (nth_error (elem_text t) (r_end (range_at t (p ++ [j])))) as [b|] eqn:Eb; [|reflexivity]. destruct (letter_ b || digit b) eqn:Wb; [|reflexivity]. exfalso. apply (S2 b eq_refl). now apply word_spec.
      + apply (find_nodes_spec t n o I S M). now exists j. }
  split; [|exact Char].
  assert (D : NoDup m) by (apply Dm, sorted_nodup, find_iter_sorted).
  rewrite filter_flat_map. apply NoDup_flat_map; [exact D| |].
  - intros o Io. apply NoDup_filter. destruct (find_nodes_spec t n o I S (Ma o Io)) as [_ L]. destruct (find_nodes t n o) as [|a [|b l]]; [constructor|constructor; [intros []|constructor]|cbn in L; lia].
  - intros o o' p Io Io' P P'. apply filter_In in P as [P G]. apply filter_In in P' as [P' _]. apply andb_true_iff in G as [G _].
    apply (find_nodes_spec t n o I S (Ma o Io)) in P as (j & K & St). apply (find_nodes_spec t n o' I S (Ma o' Io')) in P' as (j' & K' & St'). pose proof (proj1 (name_node_like t p j n K) G) as N.
    destruct K as (k & K). destruct K' as (k' & K'). assert (j = j') by (eapply O; eauto). subst j'. congruence.
Qed.

(** * The search scope *)
(** the closest owner above the binding *)
Definition owner_kind (k : kind) : Prop := In k [FOR_CONDITION; ITEM_SPEC_PARAM; LAMBDA_PARAM; LET_STMT; MATCH_ARM; PARAM; QUANT_BINDING; SCHEMA_FIELD].
Definition fun_kind (k : kind) : Prop := In k [FUN; LEMMA; SPEC_FUN; SPEC_INLINE_FUN].
Definition body_kind (k : kind) : Prop := k = BLOCK_EXPR \/ k = INLINE_EXPR.
Definition owned_by (t : tree) (p o : place_path) (k : kind) : Prop :=
  (exists i s, p = o ++ i :: s) /\ kind_at t o = Some k /\ owner_kind k /\
  forall q i s j r k', q = o ++ i :: s -> p = q ++ j :: r -> kind_at t q = Some k' -> ~ owner_kind k'.
Lemma is_owner_spec k : is_owner k = true <-> owner_kind k.
Proof. unfold owner_kind. cbn [In]. split; [destruct k; cbn; try discriminate; intuition|]. intros H. repeat (destruct H as [<-|H]; [reflexivity|]). destruct H. Qed.
Lemma is_any_fun_spec k : is_any_fun k = true <-> fun_kind k.
Proof. unfold fun_kind. cbn [In]. split; [destruct k; cbn; try discriminate; intuition|]. intros H. repeat (destruct H as [<-|H]; [reflexivity|]). destruct H. Qed.
Lemma is_body_spec k : is_body k = true <-> body_kind k.
Proof. unfold body_kind. split; [destruct k; cbn; try discriminate; auto|]. intros [->| ->]; reflexivity. Qed.
Lemma find_first {A} (f : A -> bool) l x : find f l = Some x -> exists a b, l = a ++ x :: b /\ f x = true /\ Forall (fun y => f y = false) a.
Proof.
  induction l as [|a l IH]; cbn; [discriminate|]. destruct (f a) eqn:E; [intros H; inversion H; subst; exists [], l; auto|]. intros H. destruct (IH H) as (u & v & -> & Fx & Fu). exists (a :: u), v. auto.
Qed.
Lemma owner_found t p o k : owned_by t p o k -> ident_owner t p = Some o.
Proof.
  intros ((i & s & E) & K & Ko & C). apply is_owner_spec in Ko. unfold ident_owner. assert (I : In o (parents p)) by (apply parents_in; eauto). assert (Fo : kind_is t is_owner o = true) by (unfold kind_is; now rewrite K).
  destruct (find (kind_is t is_owner) (parents p)) as [q|] eqn:F; [|pose proof (find_none _ _ F o I) as Z; congruence].
  destruct (find_sorted (fun a b => prefix b a) _ _ _ (ups_sorted (rev p)) F) as (Iq & Fq & M). destruct (M o I Fo) as [->|(r & ->)]; [reflexivity|]. destruct r as [|z r]; [now rewrite app_nil_r|].
  exfalso. fold (parents p) in Iq. apply parents_in in Iq as (j & r' & Ep). unfold kind_is in Fq. destruct (kind_at t (o ++ z :: r)) as [k'|] eqn:Kq; [|discriminate]. exact (C (o ++ z :: r) z r j r' k' eq_refl Ep Kq (proj1 (is_owner_spec _) Fq)).
Qed.
Lemma parent_child q i : parent_path (q ++ [i]) = Some q.
Proof. unfold parent_path. rewrite rev_app_distr. cbn. now rewrite rev_involutive. Qed.
Lemma parent_of_child t f q i k : kind_at t q = Some k -> f k = true -> parent_of t f (q ++ [i]) = Some q.
Proof. intros K F. unfold parent_of. rewrite parent_child. cbn. unfold kind_is. now rewrite K, F. Qed.
(** the first child node of a kind *)
Definition first_node (t : tree) (f : kind -> Prop) (q : place_path) (j : nat) : Prop :=
  (exists k ch, element_at t (q ++ [j]) = Some (TNode k ch) /\ f k) /\ forall i k ch, i < j -> element_at t (q ++ [i]) = Some (TNode k ch) -> ~ f k.
Lemma first_child_spec t f g q j : (forall k, f k = true <-> g k) -> first_node t g q j -> first_child t f q = Some (q ++ [j]).
Proof.
  intros FG [(k & ch & E & F) B]. apply FG in F. unfold first_child. assert (Nj : nth_error (children_of t q) j = Some (TNode k ch)). { destruct (exist_children t q j) as (e & A & C); [unfold exists_at; congruence|]. congruence. }
  destruct (find_index _ 0 (children_of t q)) as [i|] eqn:X.
  - apply find_index_some in X as (_ & (e & Ei & Fe) & M). rewrite Nat.sub_0_r in *. cbn. f_equal. f_equal. f_equal. destruct (Nat.lt_trichotomy i j) as [L|[L|L]]; [|exact L|].
    + destruct e as [k' ch'|]; [|discriminate]. apply FG in Fe. exfalso. apply (B i k' ch' L); [now apply child_at|exact Fe].
    + specialize (M j _ L Nj). cbn in M. congruence.
  - pose proof (find_index_none _ _ _ X _ _ Nj) as Z. cbn in Z. congruence.
Qed.
Definition searched (t : tree) (c : scope) (r : place_path) : Prop :=
  exists x, In x (scope_ranges (elem_text t) c) /\ r_start x <= r_start (range_at t r) <= r_end x.
Lemma in_range t q r : prefix q r -> exists_at t r -> r_start (range_at t q) <= r_start (range_at t r) <= r_end (range_at t q).
Proof. intros (s & ->) X. pose proof (range_prefix t q s X) as R. unfold inside in R. pose proof (range_order t (q ++ s)). lia. Qed.
Lemma everywhere t r : exists_at t r -> searched t Everywhere r.
Proof. intros X. exists (mkRange 0 (length (elem_text t))). split; [now left|]. pose proof (in_range t [] r (ex_intro _ r eq_refl) X) as R. exact R. Qed.

(** a binding is looked for wherever it is in scope: in the lambda, in the arm of the match, ... *)
Theorem scope_lambda : forall t specs p l i j r, owned_by t p (l ++ [i; j]) LAMBDA_PARAM -> kind_at t l = Some LAMBDA_EXPR -> prefix l r -> exists_at t r -> searched t (ident_pat_scope t specs p) r.
Proof.
  intros t specs p l i j r O K P X. unfold ident_pat_scope. destruct (find (kind_is t (is_kind MODULE)) (parents p)); [|now apply everywhere]. rewrite (owner_found _ _ _ _ O). destruct O as (_ & -> & _). replace (l ++ [i; j]) with ((l ++ [i]) ++ [j]) by now rewrite <- app_assoc. rewrite parent_child. cbn [obind].
  rewrite (parent_of_child t _ l i _ K) by reflexivity. exists (range_at t l). split; [now left|]. now apply in_range.
Qed.
Theorem scope_match_arm : forall t specs p o r, owned_by t p o MATCH_ARM -> prefix o r -> exists_at t r -> searched t (ident_pat_scope t specs p) r.
Proof.
  intros t specs p o r O P X. unfold ident_pat_scope. destruct (find (kind_is t (is_kind MODULE)) (parents p)); [|now apply everywhere]. rewrite (owner_found _ _ _ _ O). destruct O as (_ & -> & _). exists (range_at t o). split; [now left|]. now apply in_range.
Qed.
(** ... in the block of a let statement (no function starts between the block and the binding), ... *)
Theorem scope_let : forall t specs p b o r, owned_by t p o LET_STMT -> prefix b o -> prefix b r -> exists_at t r ->
  (forall f i s, p = f ++ i :: s -> kind_at t f = Some FUN -> prefix f b) -> searched t (ident_pat_scope t specs p) r.
Proof.
  intros t specs p b o r O B P X F. unfold ident_pat_scope. destruct (find (kind_is t (is_kind MODULE)) (parents p)); [|now apply everywhere]. rewrite (owner_found _ _ _ _ O). destruct O as (_ & -> & _). destruct (find (kind_is t (is_kind FUN)) (parents p)) as [f|] eqn:E; [|now apply everywhere].
  apply find_some in E as [I K]. apply parents_in in I as (i & s & ->). unfold kind_is in K. destruct (kind_at t f) as [k|] eqn:Kf; [|discriminate]. apply kind_eqb_spec in K. subst k.
  destruct (F f i s eq_refl Kf) as (u & ->). destruct P as (v & ->). exists (range_at t f). split; [now left|]. apply in_range; [|exact X]. exists (u ++ v). now rewrite app_assoc.
Qed.
(** ... in the first block of a function for its parameters, and in the body of a for loop for its index; not in
    everything that sees the parameter or the index, see below *)
Theorem scope_param_partial : forall t specs p f i j k m r, owned_by t p (f ++ [i; j]) PARAM -> kind_at t (f ++ [i]) = Some PARAM_LIST -> kind_at t f = Some k -> fun_kind k ->
  first_node t (eq BLOCK_EXPR) f m -> prefix (f ++ [m]) r -> exists_at t r -> searched t (ident_pat_scope t specs p) r.
Proof.
  intros t specs p f i j k m r O Kl Kf Ff B P X. unfold ident_pat_scope. destruct (find (kind_is t (is_kind MODULE)) (parents p)); [|now apply everywhere]. rewrite (owner_found _ _ _ _ O). destruct O as (_ & -> & _). replace (f ++ [i; j]) with ((f ++ [i]) ++ [j]) by now rewrite <- app_assoc.
  rewrite (parent_of_child t _ (f ++ [i]) j _ Kl) by reflexivity. cbn [obind]. rewrite (parent_of_child t _ f i _ Kf (proj2 (is_any_fun_spec _) Ff)). rewrite (first_child_spec t (is_kind BLOCK_EXPR) _ f m (kind_eqb_spec _) B). exists (range_at t (f ++ [m])). split; [now left|]. now apply in_range.
Qed.
(** a parameter is also looked for in the specs of its function *)
Theorem scope_param_specs : forall t specs p f i j k x r, owned_by t p (f ++ [i; j]) PARAM -> kind_at t (f ++ [i]) = Some PARAM_LIST -> kind_at t f = Some k -> fun_kind k ->
  exists_at t r -> In x (specs f) -> r_start x <= r_start (range_at t r) <= r_end x -> searched t (ident_pat_scope t specs p) r.
Proof.
  intros t specs p f i j k x r O Kl Kf Ff X I B. unfold ident_pat_scope. destruct (find (kind_is t (is_kind MODULE)) (parents p)); [|now apply everywhere]. rewrite (owner_found _ _ _ _ O). destruct O as (_ & -> & _). replace (f ++ [i; j]) with ((f ++ [i]) ++ [j]) by now rewrite <- app_assoc.
  rewrite (parent_of_child t _ (f ++ [i]) j _ Kl) by reflexivity. cbn [obind]. rewrite (parent_of_child t _ f i _ Kf (proj2 (is_any_fun_spec _) Ff)). exists x. split; [|exact B]. apply in_or_app. now right.
Qed.
Theorem scope_for_partial : forall t specs p f i m r, owned_by t p (f ++ [i]) FOR_CONDITION -> kind_at t f = Some FOR_EXPR -> first_node t body_kind f m -> prefix (f ++ [m]) r -> exists_at t r -> searched t (ident_pat_scope t specs p) r.
Proof.
  intros t specs p f i m r O K B P X. unfold ident_pat_scope. destruct (find (kind_is t (is_kind MODULE)) (parents p)); [|now apply everywhere]. rewrite (owner_found _ _ _ _ O). destruct O as (_ & -> & _). rewrite (parent_of_child t _ f i _ K) by reflexivity. cbn [obind]. rewrite (first_child_spec t _ _ f m is_body_spec B). exists (range_at t (f ++ [m])). split; [now left|]. now apply in_range.
Qed.
(** other bindings (of quantifiers, schema fields, spec parameters) are looked for in the whole file *)
Theorem scope_other : forall t specs p o k r, owned_by t p o k -> k = QUANT_BINDING \/ k = SCHEMA_FIELD \/ k = ITEM_SPEC_PARAM -> exists_at t r -> searched t (ident_pat_scope t specs p) r.
Proof.
  intros t specs p o k r O K X. unfold ident_pat_scope. destruct (find (kind_is t (is_kind MODULE)) (parents p)); [|now apply everywhere]. rewrite (owner_found _ _ _ _ O). destruct O as (_ & -> & _). destruct K as [->|[->| ->]]; now apply everywhere.
Qed.

(** * Narrowing a scope *)
Definition within (o : nat) (l : option (list range)) : Prop := match l with None => True | Some rs => exists r, In r rs /\ r_start r <= o <= r_end r end.
Lemma intersect_spec a b c : intersect a b = Some c -> forall o, r_start c <= o <= r_end c <-> r_start a <= o <= r_end a /\ r_start b <= o <= r_end b.
Proof. unfold intersect. destruct (Nat.min (r_end a) (r_end b) <? Nat.max (r_start a) (r_start b)) eqn:E; [discriminate|]. intros H. apply some_eq in H. subst c. cbn. intros o. lia. Qed.
Lemma intersect_none a b o : intersect a b = None -> r_start a <= o <= r_end a -> r_start b <= o <= r_end b -> False.
Proof. unfold intersect. destruct (Nat.min (r_end a) (r_end b) <? Nat.max (r_start a) (r_start b)) eqn:E; [|discriminate]. apply Nat.ltb_lt in E. lia. Qed.
Lemma last_intersect_sound l rs : forall acc x, last_intersect l rs acc = Some x -> acc = Some x \/ exists r, In r rs /\ intersect r l = Some x.
Proof.
  induction rs as [|r rs IH]; intros acc x H; cbn in H; [now left|]. apply IH in H as [H|(r' & I & H)]; [|right; exists r'; split; [now right|exact H]]. destruct (intersect r l) eqn:E; [|now left]. right. exists r. split; [now left|congruence].
Qed.
(** narrowing never leaves either scope; nothing is lost when one of them is at most one range *)
Theorem narrowing_sound : forall a b o, within o (intersect_ranges a b) -> within o a /\ within o b.
Proof.
  intros [a|] [b|] o; cbn; auto. intros (x & I & L). apply in_flat_map in I as (l & Il & I). destruct (last_intersect l b None) as [y|] eqn:E; [|destruct I]. destruct I as [->|[]]. apply last_intersect_sound in E as [E|(r & Ir & E)]; [discriminate|].
  apply (intersect_spec _ _ _ E) in L as [L1 L2]. split; eauto.
Qed.
(** no range on the left meets two ranges on the right *)
Definition meet (l r : range) : Prop := exists o, r_start l <= o <= r_end l /\ r_start r <= o <= r_end r.
Definition meets_one (a b : list range) : Prop := forall l r s, In l a -> In r b -> In s b -> meet l r -> meet l s -> r = s.
Lemma last_only l r x : intersect r l = Some x -> forall b acc, (forall s, In s b -> s = r \/ intersect s l = None) -> In r b \/ acc = Some x -> last_intersect l b acc = Some x.
Proof.
  intros E. induction b as [|s b IH]; intros acc U H; cbn [last_intersect]; [destruct H as [[]|H]; exact H|]. apply IH; [intros z I; apply U; now right|]. destruct (U s (or_introl eq_refl)) as [->|N]; [right; now rewrite E|].
  destruct H as [[->|I]|H]; [congruence|now left|right]. now rewrite N.
Qed.
Theorem narrowing_complete_partial : forall a b o, match a with Some a => meets_one a b | None => True end -> within o a -> within o (Some b) -> within o (intersect_ranges a (Some b)).
Proof.
  intros [a|] b o B; [|auto]. intros (l & Il & L) (r & Ir & R). cbn [intersect_ranges within].
  destruct (intersect r l) as [x|] eqn:E; [|exfalso; eapply intersect_none; eauto]. exists x. split; [|now apply (intersect_spec _ _ _ E)]. apply in_flat_map. exists l. split; [exact Il|].
  rewrite (last_only l r x E b None); [now left| |now left]. intros s Is. destruct (intersect s l) as [y|] eqn:F; [|now right]. left. symmetry. apply (B l r s Il Ir Is); [exists o; auto|].
  unfold intersect in F. destruct (_ <? _) eqn:Lt; [discriminate|]. apply Nat.ltb_ge in Lt. exists (Nat.max (r_start s) (r_start l)). lia.
Qed.
Example narrowing_complete_example : meets_one [mkRange 0 4; mkRange 10 20] [mkRange 12 15; mkRange 2 3] /\ within 12 (Some [mkRange 0 4; mkRange 10 20]) /\ within 12 (Some [mkRange 12 15; mkRange 2 3]) /\
  intersect_ranges (Some [mkRange 0 4; mkRange 10 20]) (Some [mkRange 12 15; mkRange 2 3]) = Some [mkRange 2 3; mkRange 12 15].
Proof.
  split; [|split; [exists (mkRange 10 20); cbn; split; [auto|lia]|split; [exists (mkRange 12 15); cbn; split; [auto|lia]|reflexivity]]].
  intros l r s [<-|[<-|[]]] [<-|[<-|[]]] [<-|[<-|[]]] (o & A & B) (o' & C & D); cbn in *; try reflexivity; lia.
Qed.
(** with two ranges on the other side the first one is forgotten *)
Theorem narrowing_complete_refuted : exists a b o, within o a /\ within o b /\ ~ within o (intersect_ranges a b).
Proof.
  exists (Some [mkRange 0 100]), (Some [mkRange 10 20; mkRange 50 60]), 15. split; [exists (mkRange 0 100); cbn; split; [now left|lia]|]. split; [exists (mkRange 10 20); cbn; split; [now left|lia]|].
  cbn. intros (r & [<-|[]] & L). cbn in L. lia.
Qed.

(** * Examples *)
Lemma owned_found t p o k : ident_owner t p = Some o -> kind_at t o = Some k -> owned_by t p o k.
Proof.
  intros F K. unfold ident_owner in F. destruct (find_sorted (fun a b => prefix b a) _ _ _ (ups_sorted (rev p)) F) as (Io & Fo & M). fold (parents p) in Io, M. split; [now apply parents_in|]. split; [exact K|]. split; [apply is_owner_spec; unfold kind_is in Fo; now rewrite K in Fo|].
  intros q i s j r k' -> E Kq Ko. assert (Iq : In (o ++ i :: s) (parents p)) by (apply parents_in; eauto). destruct (M _ Iq) as [Z|(u & Z)].
  - unfold kind_is. rewrite Kq. now apply is_owner_spec.
  - apply (f_equal (@length nat)) in Z. rewrite app_length in Z. cbn in Z. lia.
  - apply (f_equal (@length nat)) in Z. rewrite !app_length in Z. cbn in Z. lia.
Qed.
Lemma first_found t f g q j : (forall k, f k = true <-> g k) -> first_child t f q = Some (q ++ [j]) -> first_node t g q j.
Proof.
  intros FG H. unfold first_child in H. destruct (find_index _ 0 (children_of t q)) as [i|] eqn:X; [|discriminate H]. cbn [option_map] in H. apply some_eq in H. apply app_inv_head in H. injection H as ->.
  apply find_index_some in X as (_ & (e & Ei & Fe) & M). rewrite Nat.sub_0_r in *. destruct e as [k ch|]; [|discriminate]. split.
  - exists k, ch. split; [now apply child_at|now apply FG].
  - intros m k' ch' L E Z. destruct (exist_children t q m) as (e & A & C); [unfold exists_at; congruence|]. assert (e = TNode k' ch') by congruence. subst e. apply FG in Z. pose proof (M m _ L A) as Y. cbn in Y. congruence.
Qed.
Fixpoint ascii_ends_b (s : text) : bool := match s with a :: (b :: _) as r => (negb (a <? 128)%N || negb (is_cont b)) && ascii_ends_b r | _ => true end.
Lemma ascii_ends_sound s : ascii_ends_b s = true -> ascii_ends s.
Proof.
  induction s as [|a [|b s] IH]; intros H i x y X Y L; [destruct i; discriminate|destruct i as [|[|]]; discriminate|]. cbn in H. apply andb_true_iff in H as [H1 H2]. destruct i as [|i]; [|exact (IH H2 i x y X Y L)].
  cbn in X, Y. injection X as ->. injection Y as ->. apply N.ltb_lt in L. rewrite L in H1. now destruct (is_cont y).
Qed.
Definition standalone_b (t : tree) (n : text) : bool :=
  forallb (fun p => negb (spelled t n p) ||
    negb (match r_start (range_at t p) with O => false | S i => match nth_error (elem_text t) i with Some b => letter_ b || digit b | None => false end end) &&
    negb (match nth_error (elem_text t) (r_end (range_at t p)) with Some b => letter_ b || digit b | None => false end)) (tokens_from [] t).
Lemma standalone_sound t n : standalone_b t n = true -> standalone t n.
Proof.
  unfold standalone_b. rewrite forallb_forall. intros H p T. destruct (token_text _ _ _ T) as (X & _). destruct T as (k & T). assert (I : In p (tokens_from [] t)) by (apply all_tokens; now exists k, n). specialize (H p I). cbn beta in H. rewrite (proj2 (spelled_spec t n p) X) in H. cbn [negb orb] in H. apply andb_true_iff in H as [A B].
  split.
  - intros i b E N W. rewrite E, N in A. apply word_spec in W. rewrite W in A. discriminate.
  - intros b N W. rewrite N in B. apply word_spec in W. rewrite W in B. discriminate.
Qed.
Definition one_token_b (t : tree) : bool :=
  forallb (fun p => forallb (fun q => match parent_path p, parent_path q with Some a, Some b => if list_eq_dec Nat.eq_dec a b then negb (is_name_like t a) || (if list_eq_dec Nat.eq_dec p q then true else false) else true | _, _ => true end) (tokens_from [] t)) (tokens_from [] t).
Lemma one_token_sound t : one_token_b t = true -> one_token t.
Proof.
  unfold one_token_b. rewrite forallb_forall. intros H p i j k k' x y N E E'. assert (I : In (p ++ [i]) (tokens_from [] t)) by (apply all_tokens; now exists k, x). assert (J : In (p ++ [j]) (tokens_from [] t)) by (apply all_tokens; now exists k', y).
  specialize (H _ I). rewrite forallb_forall in H. specialize (H _ J). rewrite !parent_child in H. destruct (list_eq_dec Nat.eq_dec p p) as [_|C]; [|now destruct C].
  rewrite (proj2 (name_node_like t p i x (ex_intro _ k E)) N) in H. cbn [negb orb] in H. destruct (list_eq_dec Nat.eq_dec (p ++ [i]) (p ++ [j])) as [Z|]; [|discriminate]. apply app_inv_head in Z. now injection Z.
Qed.
Definition ex_us : text := str "module 0x1::m { fun f(n: u8) { let k = |b| b + n; match (k) { E::V { x } => x } for (i in 0..n spec { invariant i <= n; }) { g(i, nn); } } spec f { ensures n == n; } spec module { invariant forall q: num: q == q; lemma l(a: num) { ensures a == a; } proof { assert a == a; } } }".
Definition ex_us_tree : tree := match parsed ex_us with Some t => t | None => TTok COMMENT [] end.
Lemma ex_us_parsed : parsed ex_us = Some ex_us_tree.
Proof. assert (H : match parsed ex_us with Some _ => true | None => false end = true) by (vm_compute; reflexivity). unfold ex_us_tree. destruct (parsed ex_us); [reflexivity|discriminate]. Qed.
Lemma ex_us_solid : solid ex_us_tree. Proof. apply solid_b_sound. vm_compute. reflexivity. Qed.
Lemma ex_us_text : elem_text ex_us_tree = ex_us. Proof. vm_compute. reflexivity. Qed.
Lemma ex_us_ascii : ascii_ends (elem_text ex_us_tree). Proof. apply ascii_ends_sound. vm_compute. reflexivity. Qed.
Lemma ex_us_one : one_token ex_us_tree. Proof. apply one_token_sound. vm_compute. reflexivity. Qed.
Lemma ex_us_alone : standalone ex_us_tree (str "n"). Proof. apply standalone_sound. vm_compute. reflexivity. Qed.
(** the parameter n of f (not `nn`), with the spec of f; and the two operands of its spec condition *)
Definition ex_n : place_path := [0; 8; 3; 1; 0].
Definition ex_specs (f : place_path) : list range := if list_eq_dec Nat.eq_dec f [0; 8] then [range_at ex_us_tree [0; 10]] else [].
Example usages_exact_example : identifier (str "n") /\ usages (fun _ => true) ex_us ex_us_tree (str "n") (scope_ranges ex_us (ident_pat_scope ex_us_tree ex_specs ex_n)) =
  Ok [[0; 8; 5; 2; 6; 2; 4; 0; 0; 0]; [0; 8; 5; 6; 2; 5; 2; 0; 0; 0]; [0; 8; 5; 6; 2; 7; 2; 2; 2; 4; 0; 0; 0]; [0; 10; 4; 2; 2; 0; 0; 0; 0]; [0; 10; 4; 2; 2; 4; 0; 0; 0]] /\
  name_node ex_us_tree [0; 10; 4; 2; 2; 4; 0; 0; 0].
Proof.
  refine (conj (conj _ _) (conj _ _)); [discriminate| |vm_compute; reflexivity|].
  - repeat constructor; cbn; lia.
  - exists NAME_REF, [TTok IDENT (str "n")]. split; [vm_compute; reflexivity|now right].
Qed.
Example scope_param_example : owned_by ex_us_tree ex_n [0; 8; 3; 1] PARAM /\ kind_at ex_us_tree [0; 8; 3] = Some PARAM_LIST /\ kind_at ex_us_tree [0; 8] = Some FUN /\
  first_node ex_us_tree (eq BLOCK_EXPR) [0; 8] 5 /\ In (range_at ex_us_tree [0; 10]) (ex_specs [0; 8]).
Proof.
  refine (conj (owned_found _ _ _ _ _ _) (conj _ (conj _ (conj _ _)))); [vm_compute; reflexivity..| |now left]. apply (first_found ex_us_tree (is_kind BLOCK_EXPR) _ [0; 8] 5 (kind_eqb_spec _)). vm_compute. reflexivity.
Qed.
Example scope_lambda_example : owned_by ex_us_tree [0; 8; 5; 2; 6; 0; 1; 0] ([0; 8; 5; 2; 6] ++ [0; 1]) LAMBDA_PARAM /\ kind_at ex_us_tree [0; 8; 5; 2; 6] = Some LAMBDA_EXPR.
Proof. refine (conj (owned_found _ _ _ _ _ _) _); vm_compute; reflexivity. Qed.
Example scope_match_arm_example : owned_by ex_us_tree [0; 8; 5; 4; 0; 6; 2; 0; 2; 2; 0] [0; 8; 5; 4; 0; 6; 2] MATCH_ARM /\ prefix [0; 8; 5; 4; 0; 6; 2] [0; 8; 5; 4; 0; 6; 2; 4; 0; 0; 0].
Proof. refine (conj (owned_found _ _ _ _ _ _) _); [vm_compute; reflexivity..|now exists [4; 0; 0; 0]]. Qed.
Example scope_let_example : owned_by ex_us_tree [0; 8; 5; 2; 2] [0; 8; 5; 2] LET_STMT /\ kind_at ex_us_tree [0; 8; 5] = Some BLOCK_EXPR /\
  (forall f i s, [0; 8; 5; 2; 2] = f ++ i :: s -> kind_at ex_us_tree f = Some FUN -> prefix f [0; 8; 5]) /\ prefix [0; 8; 5] [0; 8; 5; 4; 0; 3; 0; 0; 0].
Proof.
  refine (conj (owned_found _ _ _ _ _ _) (conj _ (conj _ _))); [vm_compute; reflexivity..| |now exists [4; 0; 3; 0; 0; 0]]. intros f i s E K.
  assert (Z : kind_at ex_us_tree [0; 8; 5; 2] = Some LET_STMT) by (vm_compute; reflexivity).
  destruct f as [|a [|b [|c [|d [|e f]]]]]; cbn [app] in E; injection E as; subst.
  - now exists [0; 8; 5].
  - now exists [8; 5].
  - now exists [5].
  - now exists [].
  - rewrite Z in K. discriminate K.
  - clear K Z. destruct f as [|z f]; [discriminate H4|discriminate H4].
Qed.
Example scope_other_example : owned_by ex_us_tree [0; 12; 4; 2; 2; 2; 0; 0] [0; 12; 4; 2; 2; 2; 0] QUANT_BINDING.
Proof. apply owned_found; vm_compute; reflexivity. Qed.
Definition ex_i : place_path := [0; 8; 5; 6; 2; 1].
Definition ex_for : place_path := [0; 8; 5; 6].
Lemma ex_i_owner : owned_by ex_us_tree ex_i (ex_for ++ [2]) FOR_CONDITION. Proof. apply owned_found; vm_compute; reflexivity. Qed.
Example scope_for_example : owned_by ex_us_tree ex_i (ex_for ++ [2]) FOR_CONDITION /\ kind_at ex_us_tree ex_for = Some FOR_EXPR /\ first_node ex_us_tree body_kind ex_for 4.
Proof. refine (conj ex_i_owner (conj _ _)); [vm_compute; reflexivity|]. apply (first_found ex_us_tree is_body _ ex_for 4 is_body_spec). vm_compute. reflexivity. Qed.
(** the index of a for loop is visible in the whole loop (lang/src/nameres/scope_entries_owner.rs:105-111), also in its
    spec block, but is only looked for in the body: `invariant i <= n` is not found, and not renamed *)
Theorem scope_for_refuted : exists s t p f i r n, parsed s = Some t /\ solid t /\ ascii_ends (elem_text t) /\ one_token t /\ owned_by t p (f ++ [i]) FOR_CONDITION /\ kind_at t f = Some FOR_EXPR /\
  prefix f r /\ name_node t r /\ text_at t p = n /\ text_at t r = n /\ ~ searched t (ident_pat_scope t (fun _ => []) p) r /\
  exists l, usages (fun _ => true) s t n (scope_ranges s (ident_pat_scope t (fun _ => []) p)) = Ok l /\ ~ In r l.
Proof.
  exists ex_us, ex_us_tree, ex_i, ex_for, 2, [0; 8; 5; 6; 2; 7; 2; 2; 2; 0; 0; 0; 0], (str "i"). refine (conj ex_us_parsed (conj ex_us_solid (conj ex_us_ascii (conj ex_us_one (conj ex_i_owner (conj _ (conj _ (conj _ (conj _ (conj _ (conj _ _))))))))))).
  - vm_compute. reflexivity.
  - now exists [2; 7; 2; 2; 2; 0; 0; 0; 0].
  - exists NAME_REF, [TTok IDENT (str "i")]. split; [vm_compute; reflexivity|now right].
  - vm_compute. reflexivity.
  - vm_compute. reflexivity.
  - assert (R : range_at ex_us_tree [0; 8; 5; 6; 2; 7; 2; 2; 2; 0; 0; 0; 0] = mkRange 112 113) by (vm_compute; reflexivity). assert (Q : scope_ranges (elem_text ex_us_tree) (ident_pat_scope ex_us_tree (fun _ => []) ex_i) = [mkRange 123 136]) by (vm_compute; reflexivity).
    intros (x & I & L). rewrite Q in I. rewrite R in L. destruct I as [<-|[]]. cbn [r_start r_end] in L. lia.
  - exists [[0; 8; 5; 6; 4; 2; 0; 1; 1; 0; 0; 0; 0]]. split; [vm_compute; reflexivity|]. intros [E|[]]. discriminate E.
Qed.
(** the parameter of a lemma is not looked for in the proof of the lemma *)
Definition ex_a : place_path := [0; 12; 4; 4; 3; 1; 0].
Lemma ex_a_owner : owned_by ex_us_tree ex_a ([0; 12; 4; 4] ++ [3; 1]) PARAM. Proof. apply owned_found; vm_compute; reflexivity. Qed.
Theorem scope_param_refuted : exists s t p f i j r n, parsed s = Some t /\ solid t /\ ascii_ends (elem_text t) /\ one_token t /\ owned_by t p (f ++ [i; j]) PARAM /\ kind_at t (f ++ [i]) = Some PARAM_LIST /\ kind_at t f = Some LEMMA /\
  prefix f r /\ name_node t r /\ text_at t p = n /\ text_at t r = n /\ ~ searched t (ident_pat_scope t (fun _ => []) p) r /\
  exists l, usages (fun _ => true) s t n (scope_ranges s (ident_pat_scope t (fun _ => []) p)) = Ok l /\ ~ In r l.
Proof.
  exists ex_us, ex_us_tree, ex_a, [0; 12; 4; 4], 3, 1, [0; 12; 4; 4; 7; 2; 2; 2; 0; 0; 0; 0], (str "a"). refine (conj ex_us_parsed (conj ex_us_solid (conj ex_us_ascii (conj ex_us_one (conj ex_a_owner (conj _ (conj _ (conj _ (conj _ (conj _ (conj _ (conj _ _)))))))))))).
  - vm_compute. reflexivity.
  - vm_compute. reflexivity.
  - now exists [7; 2; 2; 2; 0; 0; 0; 0].
  - exists NAME_REF, [TTok IDENT (str "a")]. split; [vm_compute; reflexivity|now right].
  - vm_compute. reflexivity.
  - vm_compute. reflexivity.
  - assert (R : r_start (range_at ex_us_tree [0; 12; 4; 4; 7; 2; 2; 2; 0; 0; 0; 0]) = 264) by (vm_compute; reflexivity). assert (Q : scope_ranges (elem_text ex_us_tree) (ident_pat_scope ex_us_tree (fun _ => []) ex_a) = [mkRange 229 248]) by (vm_compute; reflexivity).
    intros (x & I & L). rewrite Q in I. rewrite R in L. destruct I as [<-|[]]. cbn [r_start r_end] in L. lia.
  - exists [[0; 12; 4; 4; 5; 2; 2; 0; 0; 0; 0]; [0; 12; 4; 4; 5; 2; 2; 4; 0; 0; 0]]. split; [vm_compute; reflexivity|]. intros [E|[E|[]]]; discriminate E.
Qed.

Print Assumptions usages_exact.
Print Assumptions scope_lambda.
Print Assumptions scope_match_arm.
Print Assumptions scope_let.
Print Assumptions scope_param_partial.
Print Assumptions scope_param_specs.
Print Assumptions scope_for_partial.
Print Assumptions scope_other.
Print Assumptions narrowing_sound.
Print Assumptions narrowing_complete_partial.
Print Assumptions narrowing_complete_refuted.
Print Assumptions scope_for_refuted.
Print Assumptions scope_param_refuted.
