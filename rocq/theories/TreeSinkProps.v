(** The tree contains the whole source (C17). *)
From Verif Require Import Base SyntaxKind ParserModel ParserSpec ParserProofs ParserProofs2 ParserProps TreeSinkModel TreeSinkSpec.

(** * Text positions *)
Lemma source_app : forall a b, source (a ++ b) = source a ++ source b.
Proof. intros. unfold source. now rewrite map_app, concat_app. Qed.
Lemma raw_of_app : forall a b, raw_of (a ++ b) = raw_of a ++ raw_of b.
Proof. intros. apply map_app. Qed.
Lemma raw_of_length : forall a, length (raw_of a) = length a.
Proof. intros. apply map_length. Qed.
Lemma sum_len_raw : forall a, sum_len (raw_of a) = length (source a).
Proof. induction a as [|[k t] a IH]; auto. change (sum_len (raw_of ((k, t) :: a))) with (length t + sum_len (raw_of a)). rewrite IH. unfold source. cbn. now rewrite app_length. Qed.
Lemma source_starts : forall b, Forall (fun t : kind * text => starts_at_char (snd t)) b -> starts_at_char (source b).
Proof.
  induction b as [|[k t] b IH]; intros H; [exact I|]. inversion H; subst. cbn in *. unfold source. cbn. destruct t as [|x t]; cbn; auto.
Qed.
Lemma boundary_at : forall a b, starts_at_char b -> is_char_boundary (a ++ b) (length a) = true.
Proof.
  intros a b H. unfold is_char_boundary. destruct (length a =? 0); auto. destruct (length a =? length (a ++ b)) eqn:E; auto.
  apply Nat.eqb_neq in E. rewrite nth_error_app2, Nat.sub_diag by lia. destruct b as [|x b]; [rewrite app_nil_r in E; congruence|]. cbn in *. now rewrite H.
Qed.
Definition well (ts : list (kind * text)) : Prop := Forall (fun t : kind * text => starts_at_char (snd t)) ts.
Lemma slice_mid : forall a b c, well (a ++ b ++ c) -> slice (source (a ++ b ++ c)) (length (source a)) (length (source a) + length (source b)) = Ok (source b).
Proof.
  intros a b c W. unfold slice. rewrite !source_app.
  assert (W1 : well (b ++ c)) by (unfold well in *; apply Forall_app in W; tauto). assert (W2 : well c) by (unfold well in *; apply Forall_app in W1; tauto).
  rewrite (proj2 (Nat.leb_le _ _)) by lia. rewrite (proj2 (Nat.leb_le _ _)) by (rewrite !app_length; lia). cbn [andb].
  rewrite boundary_at by (rewrite <- source_app; now apply source_starts). rewrite app_assoc, <- app_length.
  rewrite boundary_at by now apply source_starts. cbn [andb]. f_equal. rewrite app_length.
  replace (length (source a) + length (source b) - length (source a)) with (length (source b)) by lia.
  rewrite <- app_assoc, skipn_app, skipn_all, Nat.sub_diag. cbn. rewrite firstn_app, firstn_all, Nat.sub_diag. cbn. apply app_nil_r.
Qed.

(** * The sink *)
Section proofs.
Variable ts : list (kind * text).
Hypothesis Hlex : lexed ts.
Notation tx := (source ts).
Notation tokens := (raw_of ts).

Lemma lexed_well : well ts.
Proof. unfold well. eapply Forall_impl; [|exact Hlex]. intros t [H _]. exact H. Qed.

(** [s] stands before [rest] *)
Definition before (rest : list (kind * text)) (s : sink) : Prop :=
  exists done, ts = done ++ rest /\ sk_tok_pos s = length done /\ sk_text_pos s = length (source done).
Definition toks_out (l : list (kind * text)) : list bop := map (fun t => BTok (fst t) (snd t)) l.

Lemma before_skipn : forall rest s, before rest s -> skipn (sk_tok_pos s) tokens = raw_of rest.
Proof. intros rest s (dn & E & T & P). rewrite T. rewrite E, raw_of_app. rewrite skipn_app, raw_of_length, Nat.sub_diag. rewrite <- (raw_of_length dn), skipn_all. reflexivity. Qed.
Lemma do_token_ok : forall k seg rest s n, before (seg ++ rest) s -> n = length seg ->
  exists s', do_token tx k (length (source seg)) n s = Ok s' /\ before rest s' /\ sk_out s' = sk_out s ++ [BTok k (source seg)] /\ sk_state s' = sk_state s /\ sk_errors s' = sk_errors s.
Proof.
  intros k seg rest s n (dn & E & T & P) ->. unfold do_token. rewrite P. rewrite E, slice_mid by (rewrite <- E; apply lexed_well). cbn [bind]. eexists. split; [reflexivity|]. cbn. split; auto.
  exists (dn ++ seg). rewrite <- app_assoc. split; auto. cbn. rewrite T, source_app, !app_length. auto.
Qed.
Lemma do_token1 : forall k t rest s, before ((k, t) :: rest) s -> exists s', do_token tx k (length t) 1 s = Ok s' /\ before rest s' /\ sk_out s' = sk_out s ++ [BTok k t] /\ sk_state s' = sk_state s /\ sk_errors s' = sk_errors s.
Proof.
  intros k t rest s B. pose proof (do_token_ok k [(k, t)] rest s 1 B eq_refl) as H. unfold source in H at 1 3. cbn in H. rewrite app_nil_r in H. exact H.
Qed.
Lemma eat_list_ok : forall tr rest s, Forall (fun x => is_trivia (fst x) = true) tr -> (match rest with (k, _) :: _ => is_trivia k = false | [] => True end) -> before (tr ++ rest) s ->
  exists s', eat_trivias_list tx (raw_of (tr ++ rest)) s = Ok s' /\ before rest s' /\ sk_out s' = sk_out s ++ toks_out tr /\ sk_state s' = sk_state s /\ sk_errors s' = sk_errors s.
Proof.
  induction tr as [|[k t] tr IH]; intros rest s F N B.
  - exists s. cbn [app toks_out map]. rewrite app_nil_r. split; auto. destruct rest as [|[k t] rest]; auto. cbn. now rewrite N.
  - inversion F as [|? ? F1 F2]; subst. cbn in F1. cbn [app] in B. destruct (do_token1 _ _ _ _ B) as (s1 & E1 & B1 & O1 & S1 & R1).
    destruct (IH rest s1 F2 N B1) as (s2 & E2 & B2 & O2 & S2 & R2). exists s2. cbn [app raw_of map eat_trivias_list rt_kind rt_len fst snd]. rewrite F1, E1. cbn [bind]. unfold raw_of in E2. rewrite E2.
    split; auto. split; auto. rewrite O2, O1, <- app_assoc. cbn. split; auto. split; congruence.
Qed.
(** the trivia at the front *)
Fixpoint front (l : list (kind * text)) : list (kind * text) := match l with (k, t) :: r => if is_trivia k then (k, t) :: front r else [] | [] => [] end.
Fixpoint back (l : list (kind * text)) : list (kind * text) := match l with (k, t) :: r => if is_trivia k then back r else l | [] => [] end.
Lemma front_back : forall l, l = front l ++ back l /\ Forall (fun x => is_trivia (fst x) = true) (front l) /\ match back l with (k, _) :: _ => is_trivia k = false | [] => True end.
Proof.
  induction l as [|[k t] l (A & B & C)]; cbn; auto. destruct (is_trivia k) eqn:T; cbn.
  - split; [now rewrite <- A|]. split; auto.
  - split; auto. 
Qed.
Lemma eat_ok : forall rest s, before rest s -> exists s', eat_trivias tx tokens s = Ok s' /\ before (back rest) s' /\ sk_out s' = sk_out s ++ toks_out (front rest) /\ sk_state s' = sk_state s /\ sk_errors s' = sk_errors s.
Proof.
  intros rest s B. unfold eat_trivias. rewrite (before_skipn _ _ B). destruct (front_back rest) as (A & F & N). replace (raw_of rest) with (raw_of (front rest ++ back rest)) by now rewrite <- A. apply eat_list_ok; auto. now rewrite <- A.
Qed.
Lemma eat_n_ok : forall n rest s, before rest s -> n <= length (front rest) ->
  exists s', eat_n_trivias tx tokens n s = Ok s' /\ before (skipn n rest) s' /\ sk_out s' = sk_out s ++ toks_out (firstn n rest) /\ sk_state s' = sk_state s /\ sk_errors s' = sk_errors s.
Proof.
  induction n as [|n IH]; intros rest s B L.
  - exists s. cbn. rewrite app_nil_r. auto.
  - destruct rest as [|[k t] rest]; [cbn in L; lia|]. cbn in L. destruct (is_trivia k) eqn:T; [|cbn in L; lia]. cbn in L. cbn [eat_n_trivias].
    assert (N : nth_error tokens (sk_tok_pos s) = Some (mkRaw k (length t))).
    { destruct B as (dn & E & P & _). rewrite P. rewrite E, raw_of_app, nth_error_app2 by (rewrite raw_of_length; lia). rewrite raw_of_length, Nat.sub_diag. reflexivity. }
    rewrite N. cbn [rt_kind rt_len]. rewrite T. destruct (do_token1 _ _ _ _ B) as (s1 & E1 & B1 & O1 & S1 & R1). rewrite E1. cbn [bind].
    destruct (IH rest s1 B1 ltac:(lia)) as (s2 & E2 & B2 & O2 & S2 & R2). exists s2. cbn [skipn firstn toks_out map]. rewrite E2. split; auto. split; auto. rewrite O2, O1, <- app_assoc. cbn. split; auto. split; congruence.
Qed.
Lemma take_trivia_front : forall l, take_trivia (raw_of l) = raw_of (front l).
Proof. induction l as [|[k t] l IH]; auto. cbn. destruct (is_trivia k); auto. cbn. f_equal. exact IH. Qed.
(** the texts of the leading trivia, last first *)
Lemma rev_texts_ok : forall tr done rest, ts = done ++ tr ++ rest -> rev_texts tx (length (source done) + length (source tr)) (rev (raw_of tr)) = Ok (rev tr).
Proof.
  intros tr. induction tr as [|[k t] tr IH] using rev_ind; intros dn rest E; [reflexivity|].
  rewrite raw_of_app, rev_app_distr. cbn [raw_of map rev app rev_texts fst snd rt_len rt_kind].
  assert (LS : length (source (tr ++ [(k, t)])) = length (source tr) + length t) by (rewrite source_app, app_length; unfold source at 2; cbn; now rewrite app_nil_r).
  rewrite LS. rewrite (proj2 (Nat.leb_le _ _)) by lia. replace (length (source dn) + (length (source tr) + length t) - length t) with (length (source (dn ++ tr))) by (rewrite source_app, app_length; lia).
  replace (length (source dn) + (length (source tr) + length t)) with (length (source (dn ++ tr)) + length (source [(k, t)])) by (rewrite source_app, app_length; unfold source at 3; cbn; rewrite app_nil_r; lia).
  assert (E' : ts = (dn ++ tr) ++ [(k, t)] ++ rest) by (rewrite E, <- !app_assoc; reflexivity).
  rewrite E' at 1. rewrite slice_mid by (rewrite <- E'; apply lexed_well). cbn [bind].
  rewrite source_app, app_length. rewrite (IH dn ([(k, t)] ++ rest)) by (rewrite E, <- !app_assoc; reflexivity). cbn [bind]. rewrite rev_app_distr. cbn. unfold source. cbn. now rewrite app_nil_r.
Qed.
Lemma attach_loop_ok : forall l i r0, Forall (fun t : kind * text => fst t = COMMENT -> exists d, comment_doc (snd t) = Ok d) l -> r0 <= i -> exists n, attach_loop i r0 l = Ok n /\ n <= i + length l.
Proof.
  induction l as [|[k t] l IH]; intros i r0 F L; cbn [attach_loop]; [exists r0; cbn; split; auto; lia|]. inversion F as [|? ? F1 F2]; subst. cbn in F1.
  assert (REC : forall r1, r1 <= S i -> exists n, attach_loop (S i) r1 l = Ok n /\ n <= i + length ((k, t) :: l)).
  { intros r1 L1. destruct (IH (S i) r1 F2 L1) as (n & E & Ln). exists n. split; auto. cbn. lia. }
  assert (ST : exists n, Ok r0 = Ok n /\ n <= i + length ((k, t) :: l)) by (exists r0; cbn; split; auto; lia).
  destruct (kind_eqb k WHITESPACE && contains blank_line t).
  - destruct l as [|[k2 t2] l]; auto. destruct (kind_eqb_reflect k2 COMMENT) as [->|]; auto. inversion F2 as [|? ? F3 _]; subst. cbn in F3. destruct (F3 eq_refl) as [d ->]. cbn [bind]. destruct d as [[|]|]; auto.
  - destruct (kind_eqb_reflect k COMMENT) as [->|]; auto. destruct (F1 eq_refl) as [d ->]. cbn [bind]. destruct d as [[|]|]; auto; apply REC; lia.
Qed.
Lemma n_attached_ok : forall k l, Forall (fun t : kind * text => fst t = COMMENT -> exists d, comment_doc (snd t) = Ok d) l -> exists n, n_attached k l = Ok n /\ n <= length l.
Proof. intros k l F. unfold n_attached. destruct (attaches k); [|exists 0; split; auto; lia]. destruct (attach_loop_ok l 0 0 F (le_n 0)) as (n & E & L). exists n. auto. Qed.

(** ** one call *)
Definition pend (s : sink) : list bop := match sk_state s with PendingFinish => [BFinish] | _ => [] end.
Definition solid (o : bop) : bool := match o with BTok k _ => negb (is_trivia k) | _ => true end.
Definition view (s : sink) : list bop := filter solid (sk_out s ++ pend s).
Definition leaf_out (l : list bop) : list (kind * text) := flat_map (fun o => match o with BTok k t => [(k, t)] | _ => [] end) l.

Lemma filter_triv : forall tr, Forall (fun x : kind * text => is_trivia (fst x) = true) tr -> filter solid (toks_out tr) = [].
Proof. induction tr as [|[k t] tr IH]; intros H; auto. inversion H as [|? ? H1 H2]; subst. cbn in *. rewrite H1. cbn. auto. Qed.
Lemma leaf_toks_out : forall tr, leaf_out (toks_out tr) = tr.
Proof. induction tr as [|[k t] tr IH]; auto. cbn in *. unfold leaf_out, toks_out in IH. now rewrite IH. Qed.
Lemma leaf_app : forall a b, leaf_out (a ++ b) = leaf_out a ++ leaf_out b.
Proof. intros. apply flat_map_app. Qed.

Lemma covers_back : forall rest toks lv tt, covers rest toks lv tt -> exists lv', lv = front rest ++ lv' /\ covers (back rest) toks lv' tt.
Proof.
  intros rest toks lv tt C. induction C as [|k t ts0 toks lv tt T C (lv' & E & C')|seg k ts0 toks lv tt N F C _].
  - exists []. split; auto. constructor.
  - cbn. rewrite T. exists lv'. split; [now rewrite E|auto].
  - destruct seg as [|[k0 t0] seg]; [congruence|]. inversion F as [|? ? F1 F2]; subst. cbn in F1. cbn. rewrite F1. exists ((k, source ((k0, t0) :: seg)) :: lv). split; auto.
    change ((k0, t0) :: seg ++ ts0) with (((k0, t0) :: seg) ++ ts0). constructor; auto; discriminate.
Qed.
Lemma covers_skip : forall n rest toks lv tt, n <= length (front rest) -> covers rest toks lv tt -> exists lv', lv = firstn n rest ++ lv' /\ covers (skipn n rest) toks lv' tt.
Proof.
  induction n as [|n IH]; intros rest toks lv tt L C; [exists lv; auto|]. destruct rest as [|[k t] rest]; [cbn in L; lia|]. cbn in L. destruct (is_trivia k) eqn:T; [|cbn in L; lia]. cbn in L.
  inversion C as [|? ? ? ? ? ? T' C'|seg k0 ts0 toks0 lv0 tt0 N F C' E0]; subst.
  - destruct (IH rest toks lv0 tt ltac:(lia) C') as (lv' & -> & C2). exists lv'. auto.
  - destruct seg as [|[k1 t1] seg]; [congruence|]. injection E0 as -> -> _. inversion F as [|? ? F1 _]; subst. cbn in F1. congruence.
Qed.
Lemma firstn_triv : forall n rest, n <= length (front rest) -> Forall (fun x => is_trivia (fst x) = true) (firstn n rest) /\ length (front (skipn n rest)) = length (front rest) - n.
Proof.
  induction n as [|n IH]; intros rest L; [split; [constructor|cbn; lia]|]. destruct rest as [|[k t] rest]; [cbn in L; lia|]. cbn in L |- *. destruct (is_trivia k) eqn:T; [|cbn in L; lia]. cbn in L |- *.
  destruct (IH rest ltac:(lia)) as [A B]. split; [constructor; auto|]. exact B.
Qed.

(** the pending close is flushed *)
Lemma flush_view : forall s, sk_state s = PendingFinish -> view (emit BFinish (set_st Normal s)) = view s.
Proof. intros s H. unfold view, pend. cbn. rewrite H. now rewrite app_nil_r. Qed.
Lemma before_emit : forall rest s o st, before rest s -> before rest (emit o (set_st st s)) /\ before rest (set_st st s).
Proof. intros rest s o st B. split; exact B. Qed.

Lemma call_ok : forall c rest toks lv tt s, before rest s -> sk_state s <> PendingStart ->
  (match c with CToken k n => is_trivia k = false | _ => True end) ->
  covers rest (match c with CToken k n => (k, n) :: toks | _ => toks end) lv tt ->
  exists s' rest' lv1 lv2 tt2, sink_call tx tokens c s = Ok s' /\ before rest' s' /\ sk_state s' <> PendingStart /\
    lv = lv1 ++ lv2 /\ leaf_out (sk_out s') = leaf_out (sk_out s) ++ lv1 /\ covers rest' toks lv2 tt2 /\
    marks_of [c] tt = marks_of [c] tt /\ tt = (match c with CToken _ _ => match tt with x :: _ => [x] | [] => [] end | _ => [] end) ++ tt2 /\
    (forall k n, c = CToken k n -> tt <> []) /\
    view s' = view s ++ marks_of [c] tt /\ (exists add, sk_out s' = sk_out s ++ add) /\
    (forall m, c = CError m -> exists off, sk_errors s' = sk_errors s ++ [(m, off)] /\ off <= length tx).
Proof.
  intros c rest toks lv tt s B NP KT C. destruct c as [k| |k n|m]; cbn [sink_call].
  - (* start *)
    assert (FL : exists s1, (match sk_state s with PendingFinish => emit BFinish (set_st Normal s) | _ => s end) = s1 /\ before rest s1 /\ sk_state s1 = Normal /\ view s1 = view s /\ leaf_out (sk_out s1) = leaf_out (sk_out s) /\ exists add, sk_out s1 = sk_out s ++ add).
    { eexists. split; [reflexivity|]. destruct (sk_state s) eqn:St; [congruence| |].
      - repeat split; auto. exists []. now rewrite app_nil_r.
      - split; [exact B|]. split; [reflexivity|]. split; [now apply flush_view|]. split; [cbn; rewrite leaf_app; cbn; apply app_nil_r|]. exists [BFinish]. reflexivity. }
    destruct FL as (s1 & E1 & B1 & St1 & V1 & L1 & A1). unfold sink_start.
    replace (match sk_state s with PendingStart => _ | _ => _ end) with
      (bind (rev_texts tx (sk_text_pos s1 + sum_len (take_trivia (skipn (sk_tok_pos s1) tokens))) (rev (take_trivia (skipn (sk_tok_pos s1) tokens)))) (fun tv =>
       bind (n_attached k tv) (fun na => if na <=? length (take_trivia (skipn (sk_tok_pos s1) tokens)) then
         bind (eat_n_trivias tx tokens (length (take_trivia (skipn (sk_tok_pos s1) tokens)) - na) s1) (fun s2 => eat_n_trivias tx tokens na (emit (BStart k) s2)) else Panic)))
      by (rewrite <- E1; destruct (sk_state s); [congruence|reflexivity|reflexivity]).
    rewrite (before_skipn _ _ B1), take_trivia_front. rewrite sum_len_raw.
    destruct (front_back rest) as (FB & FF & FN).
    assert (RT : rev_texts tx (sk_text_pos s1 + length (source (front rest))) (rev (raw_of (front rest))) = Ok (rev (front rest))).
    { destruct B1 as (dn & E & P & Q). rewrite Q. apply (rev_texts_ok _ _ (back rest)). rewrite E. now rewrite <- FB. }
    rewrite RT. cbn [bind].
    assert (FC : Forall (fun t : kind * text => fst t = COMMENT -> exists d, comment_doc (snd t) = Ok d) (rev (front rest))).
    { apply Forall_rev. destruct B1 as (dn & E & _). unfold lexed in Hlex. rewrite E, FB, !Forall_app in Hlex. destruct Hlex as (_ & H & _). eapply Forall_impl; [|exact H]. intros t [_ X]. exact X. }
    destruct (n_attached_ok k _ FC) as (na & EN & LN). rewrite EN. cbn [bind]. rewrite rev_length in LN. rewrite raw_of_length. rewrite (proj2 (Nat.leb_le _ _)) by auto.
    destruct (eat_n_ok (length (front rest) - na) rest s1 B1 ltac:(lia)) as (s2 & E2 & B2 & O2 & S2 & R2). rewrite E2. cbn [bind].
    destruct (firstn_triv (length (front rest) - na) rest ltac:(lia)) as [FT1 FL1].
    destruct (eat_n_ok na (skipn (length (front rest) - na) rest) (emit (BStart k) s2) B2 ltac:(lia)) as (s3 & E3 & B3 & O3 & S3 & R3).
    destruct (firstn_triv na (skipn (length (front rest) - na) rest) ltac:(lia)) as [FT2 _].
    destruct (covers_skip (length (front rest) - na) rest toks lv tt ltac:(lia) C) as (lvA & EA & CA).
    destruct (covers_skip na (skipn (length (front rest) - na) rest) toks lvA tt ltac:(lia) CA) as (lvB & EB & CB).
    set (t1 := firstn (length (front rest) - na) rest) in *. set (t2 := firstn na (skipn (length (front rest) - na) rest)) in *.
    exists s3, (skipn na (skipn (length (front rest) - na) rest)), (t1 ++ t2), lvB, tt.
    split; [exact E3|]. split; [exact B3|]. cbn [emit sk_out sk_state sk_errors] in O3, S3, R3.
    split; [congruence|]. split; [rewrite EA, EB; apply app_assoc|].
    split; [rewrite O3, O2, !leaf_app, !leaf_toks_out, L1; cbn; rewrite app_nil_r, <- app_assoc; reflexivity|].
    split; [exact CB|]. split; [reflexivity|]. split; [reflexivity|]. split; [discriminate|].
    split.
    + assert (PS : pend s3 = []) by (unfold pend; rewrite S3, S2, St1; reflexivity). unfold view at 1. rewrite PS, app_nil_r, O3, O2, !filter_app, !filter_triv by auto. rewrite !app_nil_r. cbn.
      rewrite <- V1. unfold view, pend. rewrite St1, app_nil_r. reflexivity.
    + split; [|discriminate]. destruct A1 as [add A1]. rewrite O3, O2, A1. rewrite <- !app_assoc. eauto.
  - (* finish *)
    exists (set_st PendingFinish (match sk_state s with PendingFinish => emit BFinish s | _ => s end)), rest, [], lv, tt.
    split; [unfold sink_finish_node; destruct (sk_state s); [congruence|reflexivity|reflexivity]|].
    split; [destruct (sk_state s); exact B|]. split; [cbn; discriminate|]. split; [reflexivity|].
    split; [destruct (sk_state s); cbn; rewrite ?leaf_app; cbn; now rewrite ?app_nil_r|]. split; [exact C|]. split; [reflexivity|]. split; [reflexivity|]. split; [discriminate|]. split.
    + unfold view, pend. cbn [set_st sk_state sk_out]. destruct (sk_state s) eqn:St; [congruence| |]; cbn [emit sk_out sk_state marks_of]; rewrite !filter_app; cbn; rewrite ?app_nil_r; auto.
    + split; [|discriminate]. destruct (sk_state s); cbn; [exists []; now rewrite app_nil_r|exists []; now rewrite app_nil_r|eauto].
  - (* token *)
    assert (FL : exists s1, (match sk_state s with PendingStart => Panic | PendingFinish => Ok (emit BFinish (set_st Normal s)) | Normal => Ok s end) = Ok s1 /\ before rest s1 /\ sk_state s1 = Normal /\ view s1 = view s /\ leaf_out (sk_out s1) = leaf_out (sk_out s) /\ exists add, sk_out s1 = sk_out s ++ add).
    { destruct (sk_state s) eqn:St; [congruence| |]; eexists; (split; [reflexivity|]).
      - repeat split; auto. exists []. now rewrite app_nil_r.
      - split; [exact B|]. split; [reflexivity|]. split; [now apply flush_view|]. split; [cbn; rewrite leaf_app; cbn; apply app_nil_r|]. exists [BFinish]. reflexivity. }
    destruct FL as (s1 & E1 & B1 & St1 & V1 & L1 & A1). unfold sink_token. rewrite E1. cbn [bind].
    destruct (eat_ok rest s1 B1) as (s2 & E2 & B2 & O2 & S2 & R2). rewrite E2. cbn [bind].
    destruct (covers_back _ _ _ _ C) as (lvA & EA & CA). destruct (front_back rest) as (FB & FF & FN).
    inversion CA as [|k0 t0 ts0 toks0 lv0 tt0 T0 C0 Eb|seg k0 ts0 toks0 lv0 tt0 N0 F0 C0 Eb].
    { exfalso. rewrite <- Eb in FN. congruence. }
    subst k0 toks0 n. rewrite <- Eb in B2.
    assert (LE : sk_tok_pos s2 + length seg <= length tokens). { destruct B2 as (dn & E & P & _). rewrite raw_of_length, P, E, !app_length. lia. }
    assert (SK : skipn (sk_tok_pos s2) tokens = raw_of (seg ++ ts0)) by now apply before_skipn.
    rewrite (proj2 (Nat.leb_le _ _) LE), SK.
    assert (SUM : sum_len (firstn (length seg) (raw_of (seg ++ ts0))) = length (source seg)).
    { rewrite raw_of_app, firstn_app, raw_of_length. rewrite Nat.sub_diag. cbn [firstn]. rewrite app_nil_r. rewrite firstn_all2 by (rewrite raw_of_length; lia). apply sum_len_raw. }
    rewrite SUM. destruct (do_token_ok k seg ts0 s2 _ B2 eq_refl) as (s3 & E3 & B3 & O3 & S3 & R3). rewrite E3.
    exists s3, ts0, (front rest ++ [(k, source seg)]), lv0, tt0. split; [reflexivity|]. split; [exact B3|]. split; [congruence|].
    split; [rewrite EA; subst lvA; now rewrite <- app_assoc|].
    split; [rewrite O3, O2, !leaf_app, leaf_toks_out, L1; cbn; now rewrite <- app_assoc|].
    split; [exact C0|]. split; [reflexivity|]. split; [reflexivity|]. split; [discriminate|]. split.
    + assert (PS : pend s3 = []) by (unfold pend; rewrite S3, S2, St1; reflexivity). unfold view at 1. rewrite PS, app_nil_r, O3, O2, !filter_app, filter_triv by auto. rewrite app_nil_r. cbn. rewrite KT. cbn.
      rewrite <- V1. unfold view, pend. rewrite St1, app_nil_r. reflexivity.
    + split; [|discriminate]. destruct A1 as [add A1]. rewrite O3, O2, A1. rewrite <- !app_assoc. eauto.
  - (* error *)
    exists (sink_error m s), rest, [], lv, tt. split; [reflexivity|]. split; [exact B|]. split; [exact NP|]. split; [reflexivity|]. split; [cbn; now rewrite app_nil_r|]. split; [exact C|].
    split; [reflexivity|]. split; [reflexivity|]. split; [discriminate|]. split; [cbn [marks_of]; now rewrite app_nil_r|]. split; [exists []; cbn; now rewrite app_nil_r|].
    intros m' E. injection E as <-. eexists. split; [reflexivity|]. destruct B as (dn & E & P & Q). rewrite Q. rewrite E, source_app, app_length. lia.
Qed.

Definition tokens_solid (l : list call) : Prop := Forall (fun t : kind * nat => is_trivia (fst t) = false) (calls_tokens l).
Lemma calls_ok : forall l rest lv tt s, before rest s -> sk_state s <> PendingStart -> tokens_solid l -> covers rest (calls_tokens l) lv tt ->
  exists s' rest' lv1 lv2, sink_calls tx tokens l s = Ok s' /\ before rest' s' /\ sk_state s' <> PendingStart /\ lv = lv1 ++ lv2 /\ leaf_out (sk_out s') = leaf_out (sk_out s) ++ lv1 /\
    covers rest' [] lv2 [] /\ view s' = view s ++ marks_of l tt /\ (exists add, sk_out s' = sk_out s ++ add).
Proof.
  induction l as [|c l IH]; intros rest lv tt s B NP TS C.
  - exists s, rest, [], lv. cbn in *. assert (tt = []).
    { clear -C. remember [] as tk eqn:E in C. induction C; auto; discriminate. }
    subst tt. rewrite !app_nil_r. repeat split; auto. exists []. now rewrite app_nil_r.
  - assert (C1 : covers rest (match c with CToken k n => (k, n) :: calls_tokens l | _ => calls_tokens l end) lv tt) by (destruct c; exact C).
    assert (K1 : match c with CToken k n => is_trivia k = false | _ => True end) by (destruct c; auto; unfold tokens_solid in TS; cbn in TS; now inversion TS).
    assert (TS1 : tokens_solid l) by (destruct c; auto; unfold tokens_solid in *; cbn in TS; now inversion TS).
    destruct (call_ok c rest (calls_tokens l) lv tt s B NP K1 C1) as (s1 & rest1 & lvA & lvB & tt2 & E1 & B1 & N1 & EL & LO1 & C2 & _ & ET & ETn & V1 & (add1 & A1) & _).
    destruct (IH rest1 lvB tt2 s1 B1 N1 TS1 C2) as (s2 & rest2 & lvC & lvD & E2 & B2 & N2 & EL2 & LO2 & C3 & V2 & (add2 & A2)).
    exists s2, rest2, (lvA ++ lvC), lvD. cbn [sink_calls]. rewrite E1. cbn [bind]. split; auto. split; auto. split; auto. split; [rewrite EL, EL2; apply app_assoc|].
    split; [rewrite LO2, LO1; symmetry; apply app_assoc|]. split; auto. split; [|exists (add1 ++ add2); rewrite A2, A1; symmetry; apply app_assoc].
    rewrite V2, V1, <- app_assoc. f_equal. destruct c as [k| |k n|m]; cbn [app] in ET; subst; cbn [marks_of app]; auto.
    destruct tt as [|[k0 x0] tt]; [exfalso; eapply ETn; eauto|]. cbn in ET. injection ET as ->. reflexivity.
Qed.
Lemma covers_done : forall rest lv, covers rest [] lv [] -> rest = lv /\ rest = front rest /\ back rest = [].
Proof.
  intros rest lv C. remember [] as tk eqn:E in C. remember [] as t2 eqn:E2 in C. induction C as [|k t ts0 toks lv tt T C IH|]; try discriminate; auto. destruct (IH E E2) as (-> & A & B). cbn. rewrite T. split; auto. split; [now rewrite <- A|auto].
Qed.
End proofs.

(** * The builder *)
Fixpoint tree_ind' (P : tree -> Prop) (H1 : forall k ch, Forall P ch -> P (TNode k ch)) (H2 : forall k t, P (TTok k t)) (t : tree) {struct t} : P t :=
  match t with
  | TNode k ch => H1 k ch ((fix all l := match l return Forall P l with [] => Forall_nil P | x :: r => Forall_cons x (tree_ind' P H1 H2 x) (all r) end) ch)
  | TTok k x => H2 k x
  end.
Fixpoint bnested (d : nat) (l : list bop) : Prop :=
  match l with
  | [] => d = 0
  | BStart _ :: r => bnested (S d) r
  | BFinish :: r => match d with O => False | S d' => bnested d' r end
  | BTok _ _ :: r => bnested d r
  end.
(** a well-nested list of marks is a forest, possibly inside open nodes *)
Lemma nested_forest : forall l d, bnested d l -> exists F rest, l = flat_map marks F ++ rest /\ match d with O => rest = [] | S d' => exists r', rest = BFinish :: r' /\ bnested d' r' end.
Proof.
  intros l. remember (length l) as n eqn:En. assert (Le : length l <= n) by lia. clear En. revert l Le. induction n as [|n IH]; intros l Le d H.
  - destruct l as [|o l]; [|cbn in Le; lia]. cbn in H. subst d. exists [], []. auto.
  - destruct l as [|o l]; [cbn in H; subst d; exists [], []; auto|]. cbn in Le. destruct o as [k| |k t]; cbn in H.
    + destruct (IH l ltac:(lia) _ H) as (F1 & r1 & E1 & r1' & -> & H1). assert (L1 : length r1' <= n) by (rewrite E1 in Le; rewrite app_length in Le; cbn in Le; lia).
      destruct (IH r1' L1 _ H1) as (F2 & r2 & E2 & H2). exists (TNode k F1 :: F2), r2. split; auto. cbn. rewrite E1, E2. rewrite <- !app_assoc. reflexivity.
    + destruct d as [|d]; [destruct H|]. exists [], (BFinish :: l). split; auto. eauto.
    + destruct (IH l ltac:(lia) _ H) as (F1 & r1 & E1 & H1). exists (TTok k t :: F1), r1. cbn. rewrite E1. auto.
Qed.
Lemma b_run_app : forall l1 l2 b, b_run b (l1 ++ l2) = bind (b_run b l1) (fun b' => b_run b' l2).
Proof. induction l1 as [|o l1 IH]; intros l2 b; auto. cbn. destruct (b_step b o); auto. apply IH. Qed.
Lemma b_run_forest : forall F b, b_run b (flat_map marks F) = Ok (mkB (b_parents b) (b_children b ++ F)).
Proof.
  assert (G : forall t b, b_run b (marks t) = Ok (mkB (b_parents b) (b_children b ++ [t]))).
  { induction t as [k ch IH|k x] using tree_ind'; intros b; [|reflexivity].
    assert (GF : forall l b, Forall (fun t => forall b, b_run b (marks t) = Ok (mkB (b_parents b) (b_children b ++ [t]))) l -> b_run b (flat_map marks l) = Ok (mkB (b_parents b) (b_children b ++ l))).
    { induction l as [|x l IHl]; intros b' F; cbn; [rewrite app_nil_r; now destruct b'|]. inversion F; subst. rewrite b_run_app, H1. cbn [bind]. rewrite IHl by auto. cbn. now rewrite <- app_assoc. }
    cbn [marks b_run b_step bind]. rewrite b_run_app, GF by auto. cbn. rewrite firstn_app, firstn_all, Nat.sub_diag. cbn. rewrite app_nil_r, skipn_app, skipn_all, Nat.sub_diag. reflexivity. }
  induction F as [|t F IH]; intros b; cbn; [rewrite app_nil_r; now destruct b|]. rewrite b_run_app, G. cbn [bind]. rewrite IH. cbn. now rewrite <- app_assoc.
Qed.
Lemma leaf_marks : forall F, leaf_out (flat_map marks F) = flat_map leaves F.
Proof.
  assert (G : forall t, leaf_out (marks t) = leaves t).
  { induction t as [k ch IH|k x] using tree_ind'; [|reflexivity]. cbn. unfold leaf_out in *. rewrite flat_map_app. cbn. rewrite app_nil_r. induction ch as [|x ch IHc]; auto. inversion IH; subst. cbn. rewrite flat_map_app. f_equal; auto. }
  induction F as [|t F IH]; auto. cbn. rewrite leaf_app, G. f_equal. exact IH.
Qed.
Lemma strip_keep : forall t, keep (strip_trivia t) = keep t.
Proof. intros [k ch|k x]; reflexivity. Qed.
Lemma marks_strip : forall F, filter solid (flat_map marks F) = flat_map marks (filter keep (map strip_trivia F)).
Proof.
  assert (G : forall t, filter solid (marks t) = if keep t then marks (strip_trivia t) else []).
  { induction t as [k ch IH|k x] using tree_ind'; [|cbn; destruct (is_trivia k); reflexivity]. cbn [marks filter solid keep strip_trivia]. f_equal. rewrite filter_app. cbn. f_equal.
    induction ch as [|x ch IHc]; auto. inversion IH; subst. cbn. rewrite filter_app, H1, strip_keep, IHc by auto. destruct (keep x); reflexivity. }
  induction F as [|t F IH]; auto. cbn. rewrite filter_app, G, strip_keep, IH. destruct (keep t); reflexivity.
Qed.
Lemma bnested_solid : forall l d, bnested d (filter solid l) <-> bnested d l.
Proof. induction l as [|[k| |k t] l IH]; intros d; cbn; try tauto; auto. - destruct d; [tauto|auto]. - destruct (is_trivia k); cbn; auto. Qed.
Lemma marks_of_nested : forall l tt d, length (calls_tokens l) = length tt -> nested d l -> bnested d (marks_of l tt).
Proof.
  induction l as [|[k| |k n|m] l IH]; intros tt d L H; cbn in *; auto. - destruct d; [tauto|]. auto. - destruct tt as [|[k0 x] tt]; [discriminate|]. cbn in *. apply IH; auto.
Qed.
Lemma marks_of_app : forall a b tt, exists t1 t2, tt = t1 ++ t2 /\ (length (calls_tokens a) <= length tt -> length t1 = length (calls_tokens a) /\ marks_of (a ++ b) tt = marks_of a t1 ++ marks_of b t2).
Proof.
  induction a as [|[k| |k n|m] a IH]; intros b tt; cbn.
  - exists [], tt. auto.
  - destruct (IH b tt) as (t1 & t2 & E & H). exists t1, t2. split; auto. intros L. destruct (H L) as [H1 H2]. split; auto. now rewrite H2.
  - destruct (IH b tt) as (t1 & t2 & E & H). exists t1, t2. split; auto. intros L. destruct (H L) as [H1 H2]. split; auto. now rewrite H2.
  - destruct tt as [|[k0 x] tt]; [exists [], []; cbn; split; auto; intros; lia|]. destruct (IH b tt) as (t1 & t2 & E & H). exists ((k0, x) :: t1), t2. cbn. split; [now rewrite E|]. intros L. destruct (H ltac:(lia)) as [H1 H2]. split; [now rewrite H1|]. now rewrite H2.
  - destruct (IH b tt) as (t1 & t2 & E & H). exists t1, t2. auto.
Qed.
Lemma covers_length : forall ts toks lv tt, covers ts toks lv tt -> length toks = length tt.
Proof. intros ts toks lv tt C. induction C; cbn; auto. Qed.
Lemma covers_text : forall ts toks lv tt, covers ts toks lv tt -> concat (map snd lv) = source ts.
Proof. intros ts toks lv tt C. induction C as [|k t ts0 toks lv tt T C IH|seg k ts0 toks lv tt N F C IH]; auto; cbn; rewrite IH; [reflexivity|]. symmetry. apply source_app. Qed.

(** * C17 *)
(** the sink builds one tree whose leaves are the required ones, whose text is the source, and whose
    nodes are the ones the calls describe *)
Theorem tree_contains_source : forall ts k inner lv tt, lexed ts -> nested 0 inner -> tokens_solid inner -> covers ts (calls_tokens inner) lv tt ->
  exists F errs, build_tree (source ts) (raw_of ts) (CStart k :: inner ++ [CFinish]) = Ok (TNode k F, errs) /\
    leaves (TNode k F) = lv /\ tree_text (TNode k F) = source ts /\
    marks (strip_trivia (TNode k F)) = BStart k :: marks_of inner tt ++ [BFinish].
Proof.
  intros ts k inner lv tt LX NI TS C. unfold build_tree. cbn [sink_calls sink_call sink_start sink_new sk_state bind].
  set (s0 := emit (BStart k) (set_st Normal sink_new)).
  assert (B0 : before ts ts s0) by (exists []; auto).
  assert (TS' : tokens_solid (inner ++ [CFinish])) by (unfold tokens_solid in *; replace (calls_tokens (inner ++ [CFinish])) with (calls_tokens inner) by (clear; induction inner as [|[ | | | ] l IH]; cbn; auto; now rewrite IH); exact TS).
  assert (C' : covers ts (calls_tokens (inner ++ [CFinish])) lv tt) by (replace (calls_tokens (inner ++ [CFinish])) with (calls_tokens inner) by (clear; induction inner as [|[ | | | ] l IH]; cbn; auto; now rewrite IH); exact C).
  destruct (calls_ok ts LX _ _ _ _ s0 B0 ltac:(discriminate) TS' C') as (s1 & rest & lv1 & lv2 & E1 & B1 & N1 & EL & LO1 & C1 & V1 & (add & A1)).
  change (mkSink 0 0 Normal [BStart k] []) with s0. 
  rewrite E1. cbn [bind].
  (* the last call was a close *)
  assert (ST : sk_state s1 = PendingFinish).
  { clear -E1. revert E1. generalize s0. induction inner as [|c l IH]; intros s H; cbn [app sink_calls] in H.
    - cbn [sink_call] in H. unfold sink_finish_node in H. destruct (sk_state s); [discriminate| |]; injection H as <-; reflexivity.
    - destruct (sink_call (source ts) (raw_of ts) c s) as [s'|]; [|discriminate]. eapply IH. exact H. }
  unfold sink_finish. rewrite ST.
  destruct (eat_ok ts LX rest (set_st Normal s1) B1) as (s2 & E2 & B2 & O2 & S2 & R2). rewrite E2. cbn [bind].
  destruct (covers_done _ _ C1) as (-> & FR & BK).
  cbn [emit sk_out]. cbn [set_st sk_out] in O2.
  (* the list of marks *)
  assert (OUT : sk_out s2 = BStart k :: (add ++ toks_out lv2)) by (rewrite O2, A1; cbn; now rewrite <- FR).
  rewrite OUT. cbn [app].
  assert (LT := covers_length _ _ _ _ C).
  assert (VV : filter solid (add ++ toks_out lv2) = marks_of inner tt).
  { unfold view at 1 in V1. unfold pend in V1. rewrite ST, A1 in V1. cbn [s0 emit set_st sk_out sink_new app] in V1. unfold view, pend in V1. cbn [s0 emit set_st sk_out sk_state sink_new app] in V1. cbn [filter solid app] in V1. injection V1 as V1.
    rewrite filter_app in V1. cbn [filter solid] in V1. destruct (marks_of_app inner [CFinish] tt) as (t1 & t2 & E & H). destruct (H ltac:(lia)) as [H1 H2]. rewrite H2 in V1. cbn [marks_of] in V1. apply app_inj_tail in V1. destruct V1 as [V1 _].
    assert (t2 = []) by (destruct t2; auto; apply (f_equal (@length _)) in E; rewrite app_length in E; cbn in E; lia). subst t2. rewrite app_nil_r in E. subst t1.
    rewrite filter_app, V1. rewrite (filter_triv lv2); [apply app_nil_r|]. rewrite FR. apply (front_back lv2). }
  assert (NB : bnested 0 (add ++ toks_out lv2)) by (apply bnested_solid; rewrite VV; now apply marks_of_nested).
  destruct (nested_forest _ _ NB) as (F & r & EF & ->). rewrite app_nil_r in EF. rewrite EF.
  cbn [b_run b_step bind b_parents b_children length]. rewrite b_run_app, b_run_forest. cbn [bind b_parents b_children app b_run b_step firstn skipn]. cbn [b_finish b_children bind].
  exists F, (sk_errors s2). split; [reflexivity|].
  assert (LV : leaves (TNode k F) = lv).
  { cbn [leaves]. rewrite <- leaf_marks, <- EF, leaf_app, leaf_toks_out. rewrite A1 in LO1. cbn in LO1. rewrite EL. f_equal. exact LO1. }
  split; [exact LV|]. split; [unfold tree_text; rewrite LV; eapply covers_text; eauto|].
  cbn [strip_trivia marks]. rewrite <- marks_strip, <- EF, VV. reflexivity.
Qed.
(** the marks determine the tree *)
Theorem marks_injective : forall a b, marks a = marks b -> a = b.
Proof.
  assert (G : forall n F F' r r', length (flat_map marks F ++ r) <= n -> flat_map marks F ++ r = flat_map marks F' ++ r' ->
    (match r with BFinish :: _ | [] => True | _ => False end) -> (match r' with BFinish :: _ | [] => True | _ => False end) -> F = F' /\ r = r').
  { induction n as [|n IH]; intros F F' r r' L E R R'.
    - destruct F as [|[k ch|k x] F]; cbn in L; try lia. destruct F' as [|[k ch|k x] F']; cbn in *; auto; subst; cbn in R; destruct R.
    - destruct F as [|[k ch|k x] F]; destruct F' as [|[k' ch'|k' x'] F']; cbn in *; auto.
      + subst r. destruct R.
      + subst r. destruct R.
      + subst r'. destruct R'.
      + injection E as <- E. rewrite <- !app_assoc in E. cbn in E. assert (L1 : length (flat_map marks ch ++ BFinish :: flat_map marks F ++ r) <= n) by (rewrite !app_length in *; cbn in *; rewrite !app_length in *; cbn in L; lia).
        destruct (IH ch ch' _ _ L1 E I I) as [<- E2]. injection E2 as E2. assert (L2 : length (flat_map marks F ++ r) <= n) by (rewrite !app_length in *; cbn in *; rewrite !app_length in *; cbn in L1; lia).
        destruct (IH F F' r r' L2 E2 R R') as [<- <-]. auto.
      + discriminate.
      + subst r'. destruct R'.
      + discriminate.
      + injection E as <- <- E. destruct (IH F F' r r' ltac:(lia) E R R') as [<- <-]. auto. }
  intros a b H. destruct (G _ [a] [b] [] [] (le_n _)) as [E _]; auto; [cbn; now rewrite !app_nil_r|]. congruence.
Qed.

(** * Errors: each error of the replay is reported once, in order, inside the source *)
Fixpoint error_texts (l : list call) : list text := match l with [] => [] | CError m :: r => m :: error_texts r | _ :: r => error_texts r end.
Section errors.
Variable tx : text.
Variable tokens : list raw_token.
Definition errs_ok (s : sink) : Prop := sk_text_pos s <= length tx /\ Forall (fun e => snd e <= length tx) (sk_errors s).
(** [s'] is [s] after some output *)
Definition moved (s s' : sink) : Prop := sk_errors s' = sk_errors s /\ (sk_text_pos s <= length tx -> sk_text_pos s' <= length tx).
Lemma moved_refl : forall s, moved s s. Proof. split; auto. Qed.
Lemma moved_trans : forall a b c, moved a b -> moved b c -> moved a c. Proof. intros a b c [A B] [C D]. split; [congruence|auto]. Qed.
Lemma do_token_moved : forall k len n s s', do_token tx k len n s = Ok s' -> moved s s'.
Proof.
  intros k len n s s' H. unfold do_token in H. destruct (slice tx (sk_text_pos s) (sk_text_pos s + len)) eqn:E; [|discriminate]. injection H as <-. split; auto. intros _. cbn.
  unfold slice in E. destruct (sk_text_pos s <=? sk_text_pos s + len) eqn:A; [|discriminate]. destruct (sk_text_pos s + len <=? length tx) eqn:B; [|discriminate]. now apply Nat.leb_le in B.
Qed.
Lemma eat_list_moved : forall l s s', eat_trivias_list tx l s = Ok s' -> moved s s'.
Proof.
  induction l as [|t l IH]; intros s s' H; cbn in H; [injection H as <-; apply moved_refl|]. destruct (is_trivia (rt_kind t)); [|injection H as <-; apply moved_refl].
  destruct (do_token tx (rt_kind t) (rt_len t) 1 s) as [s1|] eqn:E; [|discriminate]. eapply moved_trans; [eapply do_token_moved; eauto|eauto].
Qed.
Lemma eat_n_moved : forall n s s', eat_n_trivias tx tokens n s = Ok s' -> moved s s'.
Proof.
  induction n as [|n IH]; intros s s' H; cbn in H; [injection H as <-; apply moved_refl|]. destruct (nth_error tokens (sk_tok_pos s)) as [t|]; [|discriminate]. destruct (is_trivia (rt_kind t)); [|discriminate].
  destruct (do_token tx (rt_kind t) (rt_len t) 1 s) as [s1|] eqn:E; [|discriminate]. eapply moved_trans; [eapply do_token_moved; eauto|eauto].
Qed.
Lemma call_moved : forall c s s', sink_call tx tokens c s = Ok s' -> match c with CError m => s' = sink_error m s | _ => moved s s' end.
Proof.
  intros [k| |k n|m] s s' H; cbn [sink_call] in H.
  - unfold sink_start in H. assert (G : forall s1, moved s s1 -> bind (rev_texts tx (sk_text_pos s1 + sum_len (take_trivia (skipn (sk_tok_pos s1) tokens))) (rev (take_trivia (skipn (sk_tok_pos s1) tokens)))) (fun tv =>
       bind (n_attached k tv) (fun na => if na <=? length (take_trivia (skipn (sk_tok_pos s1) tokens)) then
         bind (eat_n_trivias tx tokens (length (take_trivia (skipn (sk_tok_pos s1) tokens)) - na) s1) (fun s2 => eat_n_trivias tx tokens na (emit (BStart k) s2)) else Panic)) = Ok s' -> moved s s').
    { clear H. intros s1 M1 E. destruct (rev_texts tx _ _) as [tv|] in E; [|discriminate E]. cbn [bind] in E. destruct (n_attached k tv) as [na|]; [|discriminate]. cbn [bind] in E. destruct (na <=? _); [|discriminate].
      destruct (eat_n_trivias tx tokens _ s1) as [s2|] eqn:E2; [|discriminate]. cbn [bind] in E. apply eat_n_moved in E2. apply eat_n_moved in E. eapply moved_trans; [exact M1|]. eapply moved_trans; [exact E2|]. destruct E as [A B]. split; auto. }
    destruct (sk_state s); [injection H as <-; split; auto|eapply G; [apply moved_refl|exact H]|eapply G; [|exact H]; split; auto].
  - unfold sink_finish_node in H. destruct (sk_state s); [discriminate| |]; injection H as <-; split; auto.
  - unfold sink_token in H. destruct (match sk_state s with PendingStart => _ | _ => _ end) as [s1|] eqn:E1; [|discriminate]. cbn [bind] in H.
    assert (M1 : moved s s1) by (destruct (sk_state s); [discriminate|injection E1 as <-; apply moved_refl|injection E1 as <-; split; auto]).
    destruct (eat_trivias tx tokens s1) as [s2|] eqn:E2; [|discriminate]. cbn [bind] in H. destruct (sk_tok_pos s2 + n <=? length tokens); [|discriminate]. apply eat_list_moved in E2. apply do_token_moved in H. eapply moved_trans; [exact M1|]. eapply moved_trans; eauto.
  - injection H as <-. reflexivity.
Qed.
Lemma calls_errs : forall l s s', sink_calls tx tokens l s = Ok s' -> errs_ok s -> errs_ok s' /\ map fst (sk_errors s') = map fst (sk_errors s) ++ error_texts l.
Proof.
  induction l as [|c l IH]; intros s s' H O; cbn in H; [injection H as <-; rewrite app_nil_r; auto|]. destruct (sink_call tx tokens c s) as [s1|] eqn:E; [|discriminate]. cbn [bind] in H. apply call_moved in E.
  assert (O1 : errs_ok s1 /\ map fst (sk_errors s1) = map fst (sk_errors s) ++ match c with CError m => [m] | _ => [] end).
  { destruct O as [Oa Ob]. destruct c as [k| |k n|m]; [destruct E as [E1 E2]..|]; try (split; [split; [auto|rewrite E1; auto]|rewrite E1; symmetry; apply app_nil_r]).
    subst s1. split; [split; [auto|]|cbn; apply map_app]. cbn. apply Forall_app. split; auto. }
  destruct O1 as [O1 M1]. destruct (IH _ _ H O1) as [O2 M2]. split; auto. rewrite M2, M1, <- app_assoc. f_equal. destruct c; reflexivity.
Qed.
Theorem errors_in_order : forall l t errs, build_tree tx tokens l = Ok (t, errs) -> map fst errs = error_texts l /\ Forall (fun e => snd e <= length tx) errs.
Proof.
  intros l t errs H. unfold build_tree in H. destruct (sink_calls tx tokens l sink_new) as [s|] eqn:E; [|discriminate]. cbn [bind] in H.
  destruct (calls_errs _ _ _ E) as [[_ O] M]; [split; [cbn; lia|constructor]|]. unfold sink_finish in H. destruct (sk_state s); try discriminate.
  destruct (eat_trivias tx tokens (set_st Normal s)) as [s1|] eqn:E1; [|discriminate]. cbn [bind] in H. destruct (b_run _ _) as [b|]; [|discriminate]. cbn [bind] in H. destruct (b_finish b) as [t'|]; [|discriminate]. cbn [bind] in H. injection H as <- <-.
  apply eat_list_moved in E1. destruct E1 as [E1 _]. cbn in E1. rewrite E1. auto.
Qed.
End errors.

(** * From a run of the grammar to the tree *)
(** every consumed token is one raw token, or several with nothing between them *)
Fixpoint glued (toks : list (raw_token * nat)) (i : nat) (l : list (kind * nat)) : Prop :=
  match l with
  | [] => True
  | (k, n) :: r => 1 <= n /\ is_trivia k = false /\ (forall j, S j < n -> t_jointed (token_at_pos toks (i + j)) = true) /\ glued toks (i + n) r
  end.
(** a run in which every [OBump] is of that kind *)
Definition careful (p : parser) (o : op) : Prop :=
  match o with
  | OBump k n => 1 <= n /\ is_trivia k = false /\ forall j, S j < n -> t_jointed (lookahead_nth p j) = true
  | _ => True
  end.
Fixpoint careful_run (st : state) (os : list op) : Prop :=
  match os with
  | [] => True
  | o :: os' => careful (fst st) o /\ match step st o with Some (Ok st') => careful_run st' os' | _ => True end
  end.

Lemma glued_app : forall toks a i b, glued toks i (a ++ b) <-> glued toks i a /\ glued toks (i + total a) b.
Proof.
  induction a as [|[k n] a IH]; intros i b; cbn [app glued total fold_right snd]; [rewrite Nat.add_0_r; tauto|]. rewrite IH. fold (total a). rewrite Nat.add_assoc. tauto.
Qed.
Lemma token_skip : forall s n i, token_at_pos (skipn n s) i = token_at_pos s (n + i).
Proof. intros s n i. unfold token_at_pos. rewrite <- Nat.add_succ_r. assert (N : forall j, nth_error (skipn n s) j = nth_error s (n + j)) by (intros j; revert s; induction n as [|n IHn]; intros s; auto; destruct s; [destruct j; reflexivity|cbn; apply IHn]). now rewrite !N. Qed.
Lemma glued_skip : forall s n l i, glued s (n + i) l -> glued (skipn n s) i l.
Proof.
  intros s n l. induction l as [|[k m] l IH]; intros i H; cbn in *; auto. destruct H as (A & B & C & D). split; auto. split; auto. split; [|apply IH; now rewrite Nat.add_assoc]. intros j J. rewrite token_skip, Nat.add_assoc. auto.
Qed.
Lemma sig_offset : forall raw off t o r, significant off raw = (t, o) :: r -> off <= o.
Proof. induction raw as [|x raw IH]; intros off t o r H; cbn in H; [discriminate|]. destruct (is_trivia (rt_kind x)); [apply IH in H; lia|]. injection H as <- <- _. lia. Qed.
Lemma glue_segment : forall n ts off, Forall (fun x : kind * text => 0 < length (snd x)) ts -> (forall j, S j < n -> t_jointed (token_at_pos (significant off (raw_of ts)) j) = true) -> n <= length (significant off (raw_of ts)) ->
  match ts with (k, _) :: _ => is_trivia k = false | [] => True end ->
  exists seg rest, ts = seg ++ rest /\ length seg = n /\ Forall (fun x => is_trivia (fst x) = false) seg /\ skipn n (significant off (raw_of ts)) = significant (off + length (source seg)) (raw_of rest).
Proof.
  induction n as [|n IH]; intros ts off PL J L H.
  - exists [], ts. cbn. rewrite Nat.add_0_r. auto.
  - destruct ts as [|[k t] ts]; [cbn in L; lia|]. inversion PL as [|? ? PL1 PL2]; subst. cbn [raw_of map significant fst snd rt_kind rt_len] in *. rewrite H in *. cbn [length] in L. fold (raw_of ts) in *.
    assert (HN : n = 0 \/ match ts with (k, _) :: _ => is_trivia k = false | [] => True end).
    { destruct n as [|n]; [auto|right]. specialize (J 0 ltac:(lia)). unfold token_at_pos in J. cbn in J. destruct ts as [|[k2 t2] ts]; auto. destruct (is_trivia k2) eqn:T2; auto. exfalso.
      cbn in J. rewrite T2 in J. destruct (significant (off + length t + length t2) _) as [|[x o] r] eqn:S; [discriminate|]. apply Nat.eqb_eq in J. apply sig_offset in S. inversion PL2; subst. cbn in *. lia. }
    destruct HN as [->|HN].
    + exists [(k, t)], ts. split; auto. split; auto. split; [constructor; auto|]. cbn. unfold source. cbn. now rewrite app_nil_r.
    + destruct (IH ts (off + length t) PL2) as (seg & rest & -> & LS & F & SK); auto.
      * intros j Hj. specialize (J (S j) ltac:(lia)). rewrite <- J. reflexivity.
      * lia.
      * exists ((k, t) :: seg), rest. split; auto. split; [cbn; lia|]. split; [constructor; auto|]. cbn [skipn]. rewrite SK. f_equal. unfold source. cbn. rewrite app_length. lia.
Qed.
Lemma glued_covers : forall n ts off l, length ts <= n -> Forall (fun x : kind * text => 0 < length (snd x)) ts -> glued (significant off (raw_of ts)) 0 l -> total l = length (significant off (raw_of ts)) -> exists lv tt, covers ts l lv tt.
Proof.
  induction n as [|n IH]; intros ts off l L PL G T.
  - destruct ts; [|cbn in L; lia]. destruct l as [|[k m] l]; [exists [], []; constructor|]. cbn in *. lia.
  - destruct ts as [|[k t] ts]; [destruct l as [|[k m] l]; [exists [], []; constructor|cbn in *; lia]|]. destruct (is_trivia k) eqn:TK.
    + cbn [raw_of map significant fst snd rt_kind rt_len] in *. rewrite TK in *. inversion PL; subst. destruct (IH ts (off + length t) l) as (lv & tt & C); auto; [cbn in L; lia|]. exists ((k, t) :: lv), tt. constructor; auto.
    + destruct l as [|[k1 m] l]; [cbn in T; rewrite TK in T; discriminate|]. cbn [glued] in G. destruct G as (M1 & KT & J & G). cbn [total fold_right snd] in T. fold (total l) in T.
      destruct (glue_segment m ((k, t) :: ts) off PL) as (seg & rest & E & LS & F & SK); auto; [lia|]. rewrite E in *.
      assert (PR : Forall (fun x : kind * text => 0 < length (snd x)) rest) by (apply Forall_app in PL; tauto).
      rewrite Nat.add_0_l in G. rewrite <- (Nat.add_0_r m) in G. apply glued_skip in G. rewrite SK in G.
      destruct (IH rest (off + length (source seg)) l) as (lv & tt & C); auto.
      * rewrite app_length in L. lia.
      * rewrite <- SK, skipn_length. lia.
      * exists ((k1, source seg) :: lv), ((k1, source seg) :: tt). rewrite <- LS. constructor; auto. intros ->. cbn in LS. lia.
Qed.

(** ** the tokens recorded so far *)
Lemma event_tokens_app : forall a b, event_tokens (a ++ b) = event_tokens a ++ event_tokens b.
Proof. induction a as [|[k fp| |k n|m] a IH]; intros b; cbn; auto. now rewrite IH. Qed.
Lemma event_tokens_replace : forall es i k fp k' fp', nth_error es i = Some (EStart k fp) -> event_tokens (replace_at es i (EStart k' fp')) = event_tokens es.
Proof.
  induction es as [|e es IH]; intros i k fp k' fp' H; [destruct i; discriminate|]. destruct i as [|i]; cbn in H; [injection H as ->; reflexivity|]. cbn. specialize (IH _ _ _ k' fp' H). destruct e; auto. now rewrite IH.
Qed.
Definition shorter (p p' : parser) : Prop := p_toks p' = p_toks p /\ exists cut, event_tokens (p_events p) = event_tokens (p_events p') ++ cut.
Lemma split_last_spec : forall {A} (l : list A) es e, split_last l = Some (es, e) -> l = es ++ [e].
Proof. intros A l es e H. unfold split_last in H. destruct (rev l) as [|x r] eqn:E; [discriminate|]. injection H as <- <-. rewrite <- (rev_involutive l), E. reflexivity. Qed.
Lemma pop_n_keep : forall n p p', pop_n n p = Ok p' -> p_toks p' = p_toks p /\ p_events p' = p_events p.
Proof. induction n as [|n IH]; intros p p' H; cbn in H; [injection H as <-; auto|]. unfold pop_position in H. destruct (p_pos p); [discriminate|]. cbn in H. apply IH in H. exact H. Qed.
Lemma pop_events_shorter : forall n p p', pop_events n p = Ok p' -> shorter p p'.
Proof.
  induction n as [|n IH]; intros p p' H; cbn in H; [injection H as <-; split; auto; exists []; now rewrite app_nil_r|].
  destruct (pop_event p) as [p1|] eqn:E; [|discriminate]. cbn in H. destruct (IH _ _ H) as [T [c C]].
  assert (S1 : shorter p p1).
  { unfold pop_event in E. destruct (split_last (p_events p)) as [[es e]|] eqn:SL; [|injection E as <-; split; auto; exists []; now rewrite app_nil_r]. apply split_last_spec in SL.
    assert (G : p_toks p1 = p_toks p /\ p_events p1 = es) by (destruct e; try (injection E as <-; auto); apply pop_n_keep in E; exact E).
    destruct G as [G1 G2]. split; auto. rewrite SL, event_tokens_app, G2. eauto. }
  destruct S1 as [T1 [c1 C1]]. split; [congruence|]. exists (c ++ c1). rewrite C1, C. now rewrite <- app_assoc.
Qed.
Lemma step_tokens : forall p stk o p' stk', step (p, stk) o = Some (Ok (p', stk')) ->
  shorter p p' \/ exists k n, o = OBump k n /\ p_toks p' = p_toks p /\ event_tokens (p_events p') = event_tokens (p_events p) ++ [(k, n)].
Proof.
  intros p stk o p' stk' H.
  assert (SAME : forall q, p_toks q = p_toks p -> event_tokens (p_events q) = event_tokens (p_events p) -> shorter p q) by (intros q A B; split; auto; exists []; now rewrite B, app_nil_r).
  destruct o as [|m k|m|m|c|c m| | | |k n|m]; destruct stk as [|f stk]; cbn [step] in H; try discriminate; try (destruct stk as [|g stk]; try discriminate).
  - injection H as <- <-. left. apply SAME; auto. cbn. rewrite event_tokens_app. cbn. apply app_nil_r.
  - injection H as <- <-. left. apply SAME; auto. cbn. rewrite event_tokens_app. cbn. apply app_nil_r.
  - injection H as <- <-. left. apply SAME; auto. cbn. rewrite event_tokens_app. cbn. apply app_nil_r.
  - destruct (is_mark m f && _); [|discriminate]. unfold complete in H. destruct (nth_error (p_events p) m) as [[k0 fp| | | ]|] eqn:N; try discriminate. cbn in H. injection H as <- <-. left. apply SAME; auto. cbn. rewrite event_tokens_app. cbn. rewrite app_nil_r. now apply event_tokens_replace with (k := k0) (fp := fp).
  - destruct (is_mark m f && _); [|discriminate]. unfold abandon in H. destruct (split_last (p_events p)) as [[es e]|] eqn:SL; [|discriminate]. apply split_last_spec in SL. left. destruct (m =? length es).
    + destruct e as [k0 fp| | | ]; try discriminate. assert (EQ : set_events es p = p') by (destruct k0; try discriminate; destruct fp; try discriminate; cbn in H; injection H as <- _; reflexivity). subst p'. apply SAME; auto. cbn. rewrite SL, event_tokens_app. cbn. now rewrite app_nil_r.
    + cbn in H. injection H as <- _. apply SAME; auto.
  - destruct (is_mark m f && _); [|discriminate]. unfold rollback in H. destruct (split_last (p_events p)) as [[es e]|] eqn:SL; [|discriminate]. apply split_last_spec in SL. left. destruct (m =? length es).
    + destruct e as [k0 fp| | | ]; try discriminate. assert (EQ : set_events es p = p') by (destruct k0; try discriminate; destruct fp; try discriminate; cbn in H; injection H as <- _; reflexivity). subst p'. apply SAME; auto. cbn. rewrite SL, event_tokens_app. cbn. now rewrite app_nil_r.
    + destruct (pop_events _ p) as [q|] eqn:PE; [|discriminate]. cbn in H. injection H as <- _. eapply pop_events_shorter; eauto.
  - destruct (find_node c (f_items f)) as [[[a [k ch]] b]|]; [|discriminate]. unfold precede, start in H. destruct (nth_error _ c) as [[k0 fp| | | ]|] eqn:N; try discriminate. cbn in H. injection H as <- <-. left. apply SAME; auto. cbn. erewrite event_tokens_replace by exact N. cbn. rewrite event_tokens_app. cbn. apply app_nil_r.
  - destruct (find_node c (f_items f)) as [[[a [k ch]] b]|]; [|discriminate]. unfold precede, start in H. destruct (nth_error _ c) as [[k0 fp| | | ]|] eqn:N; try discriminate. cbn in H. injection H as <- <-. left. apply SAME; auto. cbn. erewrite event_tokens_replace by exact N. cbn. rewrite event_tokens_app. cbn. apply app_nil_r.
  - destruct (is_mark m f && _); [|discriminate]. destruct (find_node c (f_items f)) as [[[a [k ch]] b]|]; [|discriminate]. unfold extend_to in H. destruct (nth_error _ m) as [[k0 fp| | | ]|] eqn:N; try discriminate. destruct (m <=? c); [|discriminate]. cbn in H. injection H as <- <-. left. apply SAME; auto. cbn. now erewrite event_tokens_replace by exact N.
  - destruct (existsb _ _); [|discriminate]. destruct (event_pos p); [|discriminate]. cbn in H. injection H as <- <-. left. apply SAME; auto.
  - destruct (existsb _ _); [|discriminate]. destruct (event_pos p); [|discriminate]. cbn in H. injection H as <- <-. left. apply SAME; auto.
  - destruct (f_mark f); [discriminate|]. injection H as <- <-. left. apply SAME; auto.
  - destruct (f_mark f); [discriminate|]. destruct (f_snap f) as [s|]; [|discriminate]. destruct (event_pos s) as [q|]; [|discriminate]. cbn in H. destruct (rollback_to q p) as [p1|] eqn:R; [|discriminate]. cbn in H. injection H as <- <-. left.
    unfold rollback_to in R. destruct (length (p_events p) <? S q); [discriminate|]. eapply pop_events_shorter; eauto.
  - destruct (p_pos p + n <=? _); [|discriminate]. injection H as <- _. right. exists k, n. split; auto. assert (BN : forall m q, p_toks (bump_n m q) = p_toks q /\ p_events (bump_n m q) = p_events q).
    { induction m as [|m IH]; intros q; cbn; auto. destruct (IH (bump1 q)) as [A B]. rewrite A, B. unfold bump1. destruct (kind_eqb _ EOF); auto. }
    destruct (BN n p) as [A B]. cbn. rewrite A, B, event_tokens_app. auto.
  - destruct (p_pos p + n <=? _); [|discriminate]. injection H as <- _. right. exists k, n. split; auto. assert (BN : forall m q, p_toks (bump_n m q) = p_toks q /\ p_events (bump_n m q) = p_events q).
    { induction m as [|m IH]; intros q; cbn; auto. destruct (IH (bump1 q)) as [A B]. rewrite A, B. unfold bump1. destruct (kind_eqb _ EOF); auto. }
    destruct (BN n p) as [A B]. cbn. rewrite A, B, event_tokens_app. auto.
  - injection H as <- _. left. apply SAME; auto. cbn. rewrite event_tokens_app. cbn. apply app_nil_r.
  - injection H as <- _. left. apply SAME; auto. cbn. rewrite event_tokens_app. cbn. apply app_nil_r.
Qed.
Lemma careful_glued : forall os p stk p' stk', Inv p stk -> steps (p, stk) os = Some (Ok (p', stk')) -> careful_run (p, stk) os ->
  glued (p_toks p) 0 (event_tokens (p_events p)) -> p_toks p' = p_toks p /\ glued (p_toks p) 0 (event_tokens (p_events p')).
Proof.
  induction os as [|o os IH]; intros p stk p' stk' I H CR G; cbn [steps] in H; [injection H as <- <-; auto|]. cbn [careful_run fst] in CR. destruct CR as [C1 CR].
  destruct (step (p, stk) o) as [[[p1 stk1]|]|] eqn:E; try discriminate.
  destruct (steps_inv [o] p stk (Ok (p1, stk1)) I) as (pa & sa & EE & I1); [cbn [steps]; now rewrite E|]. injection EE as <- <-.
  assert (T1 : p_toks p1 = p_toks p /\ glued (p_toks p) 0 (event_tokens (p_events p1))).
  { destruct (step_tokens _ _ _ _ _ E) as [[T [cut C]]|(k & n & -> & T & C)].
    - split; auto. rewrite C in G. now apply glued_app in G.
    - split; auto. rewrite C. apply glued_app. split; auto. cbn in C1 |- *. destruct C1 as (A & B & D). split; auto. split; auto. split; auto. intros j J.
      rewrite total_tokens. destruct I as [M _]. rewrite <- (mn_pos _ _ _ M). apply D; auto. }
  destruct T1 as [T1 G1]. rewrite <- T1 in G1. destruct (IH _ _ _ _ I1 H CR G1) as [T2 G2]. rewrite T1 in *. auto.
Qed.

(** what the grammar passes to [OBump] is of that kind: [eat] (and everything built on it: bump, expect,
    parser.rs:350-357,413-420), [bump_any], [bump_remap] and wildcard_ident below *)
Theorem eat_careful : forall p k p', eat k p = (true, p') -> is_trivia k = false -> careful p (OBump k (n_raw k)).
Proof.
  intros p k p' H T. unfold eat in H. destruct (nth_at p 0 k) eqn:A; [|discriminate]. clear H. cbn [careful]. split; [destruct k; cbn; lia|]. split; auto.
  assert (C2 : forall a b, at_composite2 p 0 a b = true -> t_jointed (lookahead_nth p 0) = true).
  { intros a b H. unfold at_composite2 in H. destruct (t_jointed (lookahead_nth p 0)); auto. rewrite orb_true_r in H. discriminate. }
  assert (C3 : forall a b c, at_composite3 p 0 a b c = true -> t_jointed (lookahead_nth p 0) = true /\ t_jointed (lookahead_nth p 1) = true).
  { intros a b c H. unfold at_composite3 in H. destruct (t_jointed (lookahead_nth p 0)); [|rewrite orb_true_r in H; discriminate]. destruct (negb (kind_eqb (t_kind (lookahead_nth p 0)) a) || negb true); [discriminate|]. cbn [Nat.add] in H. destruct (t_jointed (lookahead_nth p 1)); auto. rewrite orb_true_r in H. discriminate. }
  intros j J. destruct k; cbn [n_raw] in J; try lia; cbn [nth_at] in A; try (replace j with 0 by lia; eapply C2; exact A); apply C3 in A; destruct A as [A1 A2]; destruct j as [|[|j]]; auto; lia.
Qed.
(** wildcard_ident, grammar/specs/schemas.rs:228-247; [fuel] stands for the number of tokens left (the
    end of input is neither an identifier nor a star), the u8 counter is unbounded here *)
Fixpoint wildcard_count (fuel : nat) (p : parser) (i n : nat) : nat :=
  match fuel with
  | O => n
  | S f =>
      if nth_at p i IDENT || nth_at p i STAR then
        if negb (t_jointed (lookahead_nth p i)) then S n else wildcard_count f p (S i) (S n)
      else n
  end.
Lemma wildcard_joint : forall fuel p i n, i = n -> (forall j, j < n -> t_jointed (lookahead_nth p j) = true) -> forall j, S j < wildcard_count fuel p i n -> t_jointed (lookahead_nth p j) = true.
Proof.
  induction fuel as [|f IH]; intros p i n -> J j L; cbn [wildcard_count] in L; [apply J; lia|]. destruct (nth_at p n IDENT || nth_at p n STAR); [|apply J; lia].
  destruct (t_jointed (lookahead_nth p n)) eqn:T; cbn [negb] in L; [|apply J; lia]. eapply IH; [reflexivity| |exact L]. intros j' L'. destruct (Nat.eq_dec j' n) as [->|]; auto. apply J. lia.
Qed.
Theorem wildcard_careful : forall fuel p, wildcard_count fuel p 0 0 > 0 -> careful p (OBump WILDCARD_IDENT (wildcard_count fuel p 0 0)).
Proof. intros fuel p H. cbn [careful]. split; [lia|]. split; auto. apply wildcard_joint; auto. intros; lia. Qed.

(** A run of the grammar that consumes all tokens and leaves one root: replaying it and building the tree
    succeeds, and the tree contains the source. *)
Theorem parse_keeps_source : forall ts os p f h u k ch, lexed ts -> Forall (fun x : kind * text => 0 < length (snd x)) ts -> Forall (fun x : kind * text => fst x <> EOF) ts ->
  careful_run (begin (raw_of ts)) os -> steps (begin (raw_of ts)) os = Some (Ok (p, [f])) -> f_items f = [INode h u k ch] -> p_pos p = length (p_toks p) ->
  exists out t errs, process (p_events p) = Ok out /\ build_tree (source ts) (raw_of ts) out = Ok (t, errs) /\ tree_text t = source ts /\
    exists tt, map fst tt = map fst (calls_tokens out) /\ marks (strip_trivia t) = marks_of (build (INode h u k ch)) tt.
Proof.
  intros ts os p f h u k ch LX PL NE CR H FI PP.
  assert (N : no_eof (raw_of ts)) by (unfold no_eof, raw_of; rewrite Forall_map; exact NE).
  pose proof (replay_when_closed _ _ _ _ N H) as PR. rewrite FI in PR. cbn [flat_map] in PR. rewrite app_nil_r in PR.
  pose proof (replay_consumes_position _ _ _ _ _ N H PR) as TT.
  assert (CT : calls_tokens (build (INode h u k ch)) = calls_tokens (flat_map build ch)).
  { cbn. generalize (flat_map build ch). induction l as [|[ | | | ] l IHl]; cbn; auto. now rewrite IHl. }
  destruct (steps_inv _ _ _ _ (begin_inv _ N) H) as (p0 & stk0 & E0 & M & _). injection E0 as <- <-.
  pose proof (replay_keeps_tokens _ _ (mn_wf _ _ _ M) PR) as KT.
  destruct (careful_glued os _ _ _ _ (begin_inv _ N) H CR I) as [TK G]. cbn [p_toks parser_new] in TK, G.
  rewrite <- KT, CT in G. rewrite CT in TT.
  destruct (glued_covers (length ts) ts 0 (calls_tokens (flat_map build ch)) (le_n _) PL G) as (lv & tt & C); [rewrite TT, PP, TK; reflexivity|].
  assert (TS : tokens_solid (flat_map build ch)). { unfold tokens_solid. clear -G. revert G. generalize (significant 0 (raw_of ts)). generalize 0. induction (calls_tokens (flat_map build ch)) as [|[k n] l IH]; intros i sg G; constructor; cbn in G; [tauto|]. eapply IH. apply G. }
  destruct (tree_contains_source ts k (flat_map build ch) lv tt LX (builds_nested ch) TS C) as (F & errs & BT & LV & TX & MK).
  exists (build (INode h u k ch)), (TNode k F), errs. split; auto. split; [exact BT|]. split; [exact TX|].
  exists tt. split; [rewrite CT; clear -C; induction C; cbn; auto; congruence|]. rewrite MK. cbn [build marks_of]. f_equal.
  clear -C. pose proof (covers_length _ _ _ _ C) as L. destruct (marks_of_app (flat_map build ch) [CFinish] tt) as (t1 & t2 & E & H). destruct (H ltac:(lia)) as [H1 H2]. rewrite H2. cbn.
  assert (t2 = []) by (destruct t2; auto; apply (f_equal (@length _)) in E; rewrite app_length in E; cbn in E; lia). subst t2. rewrite app_nil_r in E. now subst.
Qed.

(** * Examples *)
(** "/// d\nfun a() {}" shortened: a doc comment, whitespace, `a`, `&&` written as two raw tokens, space, `b` *)
Definition ts_ex : list (kind * text) :=
  [(WHITESPACE, [32]%N); (COMMENT, [47; 47; 47; 100]%N); (WHITESPACE, [10]%N); (IDENT, [97]%N); (AMP, [38]%N); (AMP, [38]%N); (WHITESPACE, [32]%N); (IDENT, [98]%N); (WHITESPACE, [10]%N)].
Definition ops_tree : list op :=
  [OStart; OStart; OBump IDENT 1; OBump AMP_AMP 2; OErr [120%N]; OBump IDENT 1; OComplete 1 FUN; OComplete 0 SOURCE_FILE].
Example ts_ex_lexed : lexed ts_ex.
Proof. unfold lexed, ts_ex. repeat constructor; cbn; try discriminate; try lia; intros; eexists; vm_compute; reflexivity. Qed.
Example parse_keeps_source_example : exists p f h u k ch, lexed ts_ex /\ Forall (fun x : kind * text => 0 < length (snd x)) ts_ex /\ Forall (fun x : kind * text => fst x <> EOF) ts_ex /\
  careful_run (begin (raw_of ts_ex)) ops_tree /\ steps (begin (raw_of ts_ex)) ops_tree = Some (Ok (p, [f])) /\ f_items f = [INode h u k ch] /\ p_pos p = length (p_toks p).
Proof.
  do 6 eexists. split; [apply ts_ex_lexed|]. split; [unfold ts_ex; repeat constructor|]. split; [unfold ts_ex; repeat constructor; discriminate|].
  split; [vm_compute; repeat split; auto; try lia; intros [|j] J; try reflexivity; lia|]. split; [vm_compute; reflexivity|]. split; reflexivity.
Qed.
(** the doc comment goes inside the function, the blank before it and the newline after it stay outside *)
Example build_tree_example : build_tree (source ts_ex) (raw_of ts_ex) [CStart SOURCE_FILE; CStart FUN; CToken IDENT 1; CToken AMP_AMP 2; CError [120%N]; CToken IDENT 1; CFinish; CFinish] =
  Ok (TNode SOURCE_FILE [TTok WHITESPACE [32]%N;
        TNode FUN [TTok COMMENT [47; 47; 47; 100]%N; TTok WHITESPACE [10]%N; TTok IDENT [97]%N; TTok AMP_AMP [38; 38]%N; TTok WHITESPACE [32]%N; TTok IDENT [98]%N];
        TTok WHITESPACE [10]%N], [([120%N], 9)]).
Proof. vm_compute. reflexivity. Qed.
Example errors_in_order_example : exists t errs, build_tree (source ts_ex) (raw_of ts_ex) [CStart SOURCE_FILE; CToken IDENT 1; CError [120%N]; CToken AMP_AMP 2; CToken IDENT 1; CError [121%N]; CFinish] = Ok (t, errs) /\ map fst errs = [[120%N]; [121%N]].
Proof. do 2 eexists. vm_compute. split; reflexivity. Qed.
Example eat_careful_example : exists p p', eat AMP_AMP p = (true, p') /\ n_raw AMP_AMP = 2 /\ is_trivia AMP_AMP = false.
Proof. exists (parser_new [mkRaw AMP 1; mkRaw AMP 1]). eexists. split; [vm_compute; reflexivity|auto]. Qed.
Example wildcard_example : wildcard_count 9 (parser_new [mkRaw IDENT 2; mkRaw STAR 1; mkRaw WHITESPACE 1; mkRaw IDENT 1]) 0 0 = 2.
Proof. vm_compute. reflexivity. Qed.

(** The condition on glued tokens is needed: gluing two tokens with a space between them loses text
    (the sink counts raw tokens, the parser significant ones). *)
Theorem careless_glue_refuted : exists ts calls t errs, lexed ts /\ total (calls_tokens calls) = length (significant 0 (raw_of ts)) /\
  build_tree (source ts) (raw_of ts) calls = Ok (t, errs) /\ tree_text t <> source ts.
Proof.
  exists [(IDENT, [97]%N); (WHITESPACE, [32]%N); (IDENT, [98]%N)], [CStart SOURCE_FILE; CToken WILDCARD_IDENT 2; CFinish]. do 2 eexists.
  split; [unfold lexed; repeat constructor; cbn; try discriminate; lia|]. split; [reflexivity|]. split; [vm_compute; reflexivity|]. vm_compute. discriminate.
Qed.
(** A grammar that stops before the end loses the rest of the source. *)
Theorem early_stop_refuted : exists ts calls t errs, lexed ts /\ glued (significant 0 (raw_of ts)) 0 (calls_tokens calls) /\
  build_tree (source ts) (raw_of ts) calls = Ok (t, errs) /\ tree_text t <> source ts.
Proof.
  exists [(IDENT, [97]%N); (IDENT, [98]%N)], [CStart SOURCE_FILE; CToken IDENT 1; CFinish]. do 2 eexists.
  split; [unfold lexed; repeat constructor; cbn; try discriminate; lia|]. split; [vm_compute; repeat split; auto; lia|]. split; [vm_compute; reflexivity|]. vm_compute. discriminate.
Qed.

Print Assumptions tree_contains_source.
Print Assumptions marks_injective.
Print Assumptions errors_in_order.
Print Assumptions parse_keeps_source.
Print Assumptions eat_careful.
Print Assumptions wildcard_careful.
