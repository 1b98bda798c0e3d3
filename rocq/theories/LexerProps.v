(** Tokenising is total and lossless (C14). *)
From Coq Require Import String.
From Verif Require Import Base SyntaxKind AddressModel AddressProps ParserModel TreeSinkModel TreeSinkSpec LexerSpec LexerModel LexerProofs.
Local Open Scope string_scope.
Local Open Scope N_scope.
Local Open Scope list_scope.

(** The only thing required of grapheme segmentation: a cluster is a non-empty part of the text. *)
Definition sensible (cl : list N -> nat) : Prop := forall t, t <> [] -> (1 <= cl t <= length t)%nat.

Lemma first_line_good : forall t a b r, t = a :: b :: r -> a <> 10 -> b <> 10 -> b <> 13 ->
  exists s q, first_line t = a :: b :: s /\ r = s ++ q /\ ~ In 10 s.
Proof.
  intros t a b r -> Ha Hb Hc. destruct (first_line_two a b r Ha Hb Hc) as (s & E). destruct (first_line_prefix (a :: b :: r)) as (q & Q).
  pose proof (first_line_clean (a :: b :: r)) as CL. rewrite E in *. exists s, q. split; auto. injection Q as ->. split; auto. cbn in CL. tauto.
Qed.

Lemma blen_encode : forall a, blen a = length (encode a).
Proof. unfold encode, blen. induction a as [|c a IH]; auto. cbn. rewrite app_length, IH. f_equal. unfold width, utf8. repeat destruct (_ <? _); reflexivity. Qed.

Lemma find_token_good_gen : forall cl t, sensible cl -> t <> [] -> is (@firstn char (cl t) t) "/" && starts_with (str "/*") t = false \/ ascii_comments t -> exists k n, find_token cl t = Ok (k, n) /\ good_token k n t.
Proof.
  intros cl t SC NE AC'. specialize (SC t NE). unfold find_token. destruct t as [|c0 t0] eqn:Et; [tauto|]. rewrite <- Et in *. clear NE. cbv zeta.
  set (curr := @firstn char (cl t) t).
  destruct (is curr "/" && starts_with (str "//") t) eqn:B1.
  { apply andb_true_iff in B1 as [_ B]. apply starts_with_spec in B as (r & E). cbn in E.
    destruct (first_line_good t 47 47 r E ltac:(lia) ltac:(lia) ltac:(lia)) as (s & q & L & -> & CL).
    do 2 eexists. split; [reflexivity|]. exists COMMENT, (first_line t), q. rewrite L. split; [exact E|]. split; auto. split; [discriminate|]. split; auto.
    split; [|apply munch_trivial; [reflexivity|discriminate]]. cbn. exists s. left. split; auto. }
  fold curr in AC'.
  destruct (is curr "/" && starts_with (str "/*") t) eqn:B2.
  { destruct AC' as [AC'|AC]; [discriminate|]. apply andb_true_iff in B2 as [_ B]. unfold get_block_comment_len. rewrite B. apply starts_with_spec in B as (r & E). cbn in E.
    replace (slice_from 2 t) with (Ok r) by (rewrite E; symmetry; exact (slice_from_blen [47; 42] r)). cbn [bind].
    destruct (comment_rest_total r 0) as (a & CR). destruct (comment_rest_prefix _ _ _ CR) as (q & Q).
    pose proof (AC [] r a E CR) as FA.
    rewrite (block_loop _ _ _ CR FA (blen t) 0) by (rewrite E; reflexivity).
    do 2 eexists. split; [reflexivity|]. exists COMMENT, (47 :: 42 :: a), q. split; [rewrite E, Q; reflexivity|]. split; [reflexivity|]. split; [discriminate|]. split; auto.
    split; [cbn; eauto|apply munch_trivial; [reflexivity|discriminate]]. }
  destruct (is curr " " || text_eqb curr [9] || text_eqb curr [10]) eqn:B3.
  { assert (H : exists c r, t = c :: r /\ ws_char c = true).
    { repeat rewrite orb_true_iff in B3. destruct B3 as [[B|B]|B]; apply text_eqb_spec in B; destruct (single_prefix cl t _ B) as (r & ->); do 2 eexists; split; reflexivity. }
    destruct H as (c & r & E & W). do 2 eexists. split; [reflexivity|].
    unfold get_ws_len. rewrite position_run by apply ws_char_ascii.
    exists WHITESPACE, (taken ws_char t), (left_over ws_char t). split; [apply taken_app|]. split; auto.
    split; [rewrite E; cbn; rewrite W; discriminate|]. split; auto. split.
    - cbn. split; [rewrite E; cbn; rewrite W; discriminate|]. eapply Forall_impl; [|apply taken_all]. intros x H. now apply ws_char_spec.
    - split; [discriminate|]. intros _ x y H K. apply left_over_head in H. apply ws_char_spec in K. congruence. }
  destruct (is_num curr) eqn:B4.
  { unfold is_num in B4. destruct curr as [|c [|? ?]] eqn:EC; try discriminate. subst curr. destruct (single_prefix cl t c EC) as (r & E).
    assert (Wn : forall k a b, (k = TNumValue \/ k = TNumTypedValue) -> t = a ++ b -> a <> [] -> Forall (fun x => letter x \/ digit x) a -> exists k0 n0, Ok (k, blen a) = Ok (k0, n0) /\ good_token k0 n0 t).
    { intros k a b K Eab NEa Fa. do 2 eexists. split; [reflexivity|]. exists INT_NUMBER, a, b. split; auto. split; auto. split; auto. split; [destruct K as [-> | ->]; reflexivity|].
      split; [|apply munch_trivial; [reflexivity|discriminate]]. destruct a as [|x a]; [tauto|]. rewrite E in Eab. injection Eab as <- Er. cbn. exists c, a. split; auto. split; [now apply digit_spec|]. now inversion Fa. }
    destruct (starts_with (str "0x") t && (2 <? blen t)%nat) eqn:B5.
    - apply andb_true_iff in B5 as [B5 _]. apply starts_with_spec in B5 as (r2 & E2). cbn in E2.
      replace (slice_from 2 t) with (Ok r2) by (rewrite E2; symmetry; exact (slice_from_blen [48; 120] r2)). cbn [bind].
      unfold get_hex_number. rewrite find_run.
      destruct (number_suffix hex_char r2) as (k & n & a & b & EQ & Eab & -> & K & Fa & Ra); [intros x H; apply name_char_spec; charith|].
      rewrite EQ. cbn [bind fst snd]. destruct (Nat.eqb_spec (blen a) 0) as [Z|Z].
      + change 1%nat with (blen [48]). apply (Wn TNumValue [48] (120 :: r2)); [auto|rewrite E2; reflexivity|discriminate|constructor; [right; unfold digit; lia|constructor]].
      + change (2 + blen a)%nat with (blen ([48; 120] ++ a)). apply (Wn k _ b); [auto|rewrite E2, Eab; reflexivity|discriminate|].
        apply Forall_app. split; auto. constructor; [right; unfold digit; lia|constructor; [left; unfold letter; lia|constructor]].
    - unfold get_decimal_number. rewrite position_run by apply dec_char_ascii.
      destruct (number_suffix (fun c : char => is_digit c || (c =? 95)) t) as (k & n & a & b & EQ & Eab & -> & K & Fa & (ra & Ra)); [intros x H; apply name_char_spec; charith|].
      rewrite EQ. apply (Wn k a b); [auto|auto| |auto]. rewrite Ra, E. cbn. cbn in B4. rewrite B4. discriminate. }
  destruct (is_alphabetic curr) eqn:B6.
  { unfold is_alphabetic in B6. destruct curr as [|c [|? ?]] eqn:EC; try discriminate. subst curr. destruct (single_prefix cl t c EC) as (r & E).
    destruct (starts_with (str "x""") t) eqn:B7.
    { apply starts_with_spec in B7 as (r2 & E2). cbn in E2. destruct (first_line_good t 120 34 r2 E2 ltac:(lia) ltac:(lia) ltac:(lia)) as (s & q & L & -> & CL).
      unfold hex_string_len. rewrite L.
      change (starts_with (str "x""") (120 :: 34 :: s)) with true. cbn [skipn]. rewrite run_taken.
      set (f := fun c : char => is_digit c || is_lower c || is_upper c) in *. 
      assert (FT : Forall (fun x => letter x \/ digit x) (taken f s)).
      { eapply Forall_impl; [|apply taken_all]. intros x H. cbn in H. unfold f in H. apply name_char_spec. charith. }
      destruct (starts_with (str """") (left_over f s)) eqn:Q; do 2 eexists; (split; [reflexivity|]).
      - apply starts_with_spec in Q as (z & Q). exists HEX_STRING, ([120; 34] ++ taken f s ++ [34]), (z ++ q).
        split. { rewrite E2. rewrite (taken_app f s) at 1. rewrite Q. cbn. rewrite <- !app_assoc. reflexivity. }
        split. { rewrite !blen_app. cbn. lia. } split; [discriminate|]. split; auto. split; [|apply munch_trivial; [reflexivity|discriminate]].
        cbn. exists (taken f s), [34]. auto.
      - exists HEX_STRING, ([120; 34] ++ taken f s ++ []), (left_over f s ++ q).
        split. { rewrite E2. rewrite (taken_app f s) at 1. cbn. rewrite <- !app_assoc. reflexivity. }
        split. { rewrite !blen_app. cbn. lia. } split; [discriminate|]. split; auto. split; [|apply munch_trivial; [reflexivity|discriminate]].
        cbn. exists (taken f s), []. auto. }
    destruct (starts_with (str "b""") t) eqn:B8.
    { apply starts_with_spec in B8 as (r2 & E2). cbn in E2. destruct (first_line_good t 98 34 r2 E2 ltac:(lia) ltac:(lia) ltac:(lia)) as (s & q & L & -> & CL).
      do 2 eexists. split; [reflexivity|]. unfold byte_string_len. rewrite L. change (starts_with (str "b""") (98 :: 34 :: s)) with true. cbn [skipn option_map].
      destruct (byte_string_tail s) as [n|] eqn:BT.
      - destruct (byte_tail_some _ _ BT) as (u & z & -> & U & ->). cbn [option_map]. exists BYTE_STRING, ([98; 34] ++ (u ++ [34])), (z ++ q).
        split; [rewrite E2; cbn; now rewrite <- !app_assoc|]. split; [rewrite (blen_app [98; 34]); reflexivity|]. split; [discriminate|]. split; auto.
        split; [|apply munch_trivial; [reflexivity|discriminate]]. cbn. exists (u ++ [34]). split; auto. split; [intros I; apply CL; rewrite in_app_iff; auto|]. left. eauto.
      - cbn [option_map]. exists BYTE_STRING, ([98; 34] ++ s), q. split; [rewrite E2; reflexivity|]. split; [reflexivity|]. split; [discriminate|]. split; auto.
        split; [|apply munch_trivial; [reflexivity|discriminate]]. cbn. exists s. split; auto. split; auto. right. intros (u & z & -> & U). exact (byte_tail_none u U z BT). }
    unfold get_name_len. rewrite position_run by apply name_char_ascii.
    assert (ST : slice_to (blen (taken name_char t)) t = Ok (taken name_char t)) by (rewrite (taken_app name_char t) at 2; apply slice_to_blen). rewrite ST. cbn [bind].
    do 2 eexists. split; [reflexivity|].
    assert (NC : name_char c = true) by (unfold name_char; now rewrite B6).
    assert (TN : taken name_char t = c :: taken name_char r) by (rewrite E; cbn; now rewrite NC).
    assert (LO : forall x y, left_over name_char t = x :: y -> ~ (letter x \/ digit x)) by (intros x y H K; apply left_over_head in H; apply name_char_spec in K; congruence).
    destruct (lookup_good name_tokens (taken name_char t)) as [(kd & s & TK & SP & N)|(TK & N)]; [vm_compute; reflexivity| |].
    - exists kd, (taken name_char t), (left_over name_char t). split; [apply taken_app|]. split; auto. split; [rewrite TN; discriminate|]. split; [exact TK|].
      split; [unfold token_shape; now rewrite SP|]. split; [intros _; exact LO|intros ->; discriminate].
    - exists IDENT, (taken name_char t), (left_over name_char t). split; [apply taken_app|]. split; auto. split; [rewrite TN; discriminate|]. split; [unfold get_name_token; now rewrite TK|].
      split; [|split; [intros _; exact LO|discriminate]]. cbn. split.
      + exists c, (taken name_char r). split; auto. split; [now apply alpha_letter|]. eapply Forall_impl; [|apply taken_all]. intros x H. now apply name_char_spec.
      + intros k s SP EQ. pose proof (spelled_words k s SP) as W. rewrite <- EQ in W. specialize (W (ex_intro _ c (ex_intro _ _ (conj TN (proj1 (alpha_letter c) B6))))).
        apply in_map_iff in W as ([s' k'] & <- & I). exact (N _ _ I EQ). }
  destruct (is curr "'") eqn:B9.
  { apply text_eqb_spec in B9. destruct (single_prefix cl t 39 B9) as (r & E). unfold quote_ident_len. rewrite E. 
    assert (BAD : exists k n, Ok (TBadCharacter, 1%nat) = Ok (k, n) /\ good_token k n (39 :: r)).
    { do 2 eexists. split; [reflexivity|]. exists BAD_CHARACTER, [39], r. split; auto. split; auto. split; [discriminate|]. split; auto. split; [cbn; discriminate|apply munch_trivial; [reflexivity|discriminate]]. }
    destruct r as [|d r]; [exact BAD|]. destruct ((39 =? 39) && alpha_char d) eqn:A; [|exact BAD]. cbn in A. rewrite run_taken. cbn [fst].
    do 2 eexists. split; [reflexivity|]. exists QUOTE_IDENT, (39 :: d :: taken name_char r), (left_over name_char r). split; [cbn; do 2 f_equal; apply taken_app|].
    split. { rewrite !blen_cons. rewrite (width_ascii 39), (width_ascii d); [reflexivity|apply name_char_ascii; unfold name_char; now rewrite A|unfold ascii; lia]. }
    split; [discriminate|]. split; auto. split.
    - cbn. exists d, (taken name_char r). split; auto. split; [now apply alpha_letter|]. eapply Forall_impl; [|apply taken_all]. intros x H. now apply name_char_spec.
    - split; [|discriminate]. intros _ x y H K. apply left_over_head in H. apply name_char_spec in K. congruence. }
  destruct (is curr """") eqn:B10.
  { apply text_eqb_spec in B10. destruct (single_prefix cl t 34 B10) as (r & E). do 2 eexists. split; [reflexivity|]. exists BAD_CHARACTER, [34], r.
    split; auto. split; auto. split; [discriminate|]. split; auto. split; [cbn; discriminate|apply munch_trivial; [reflexivity|discriminate]]. }
  destruct (find_operator operators curr t) as [k n] eqn:FO. do 2 eexists. split; [reflexivity|].
  pose proof (operator_good cl t (proj1 SC)) as OG. cbn zeta in OG. fold curr in OG. rewrite FO in OG. apply OG. rewrite Et. discriminate.
Qed.

Lemma find_token_good : forall cl t, sensible cl -> t <> [] -> ascii_comments t -> exists k n, find_token cl t = Ok (k, n) /\ good_token k n t.
Proof. intros. apply find_token_good_gen; auto. Qed.
Lemma find_token_good' : forall cl t, sensible cl -> t <> [] -> is (@firstn char (cl t) t) "/" && starts_with (str "/*") t = false -> exists k n, find_token cl t = Ok (k, n) /\ good_token k n t.
Proof. intros. apply find_token_good_gen; auto. Qed.

(** Consecutive tokens: a name is not followed directly by a name character, blanks are not followed by
    blanks. *)
Fixpoint munched (l : list (raw_token * list N)) : Prop :=
  match l with
  | (r, _) :: l' => munch (rt_kind r) (concat (map snd l')) /\ munched l'
  | [] => True
  end.
Lemma tokenize_loop_good : forall cl, sensible cl -> forall fuel t, (length t < fuel)%nat -> ascii_comments t ->
  exists l, tokenize_loop cl fuel t = Some (Ok l) /\ concat (map snd l) = t /\
    Forall (fun x => (0 < rt_len (fst x))%nat /\ rt_len (fst x) = blen (snd x) /\ token_shape (rt_kind (fst x)) (snd x)) l /\ munched l.
Proof.
  intros cl SC. induction fuel as [|f IH]; intros t L AC; [lia|]. destruct t as [|c t'] eqn:Et; [exists []; cbn; auto|]. rewrite <- Et in *.
  assert (NE : t <> []) by (rewrite Et; discriminate). destruct (find_token_good cl t SC NE AC) as (k & n & FT & kd & a & b & E & -> & NA & TK & SH & MU).
  cbn [tokenize_loop]. rewrite FT, TK. replace (split_bytes (blen a) t) with (Some (a, b)) by (rewrite E; symmetry; apply split_blen).
  destruct (IH b) as (l & EQ & CC & FL & ML).
  { apply (f_equal (@length _)) in E. rewrite app_length in E. destruct a; [tauto|]. cbn in E. lia. }
  { intros x y z Eb. apply (AC (a ++ x)). rewrite E, Eb, <- app_assoc. reflexivity. }
  rewrite EQ. cbn [option_map bind]. exists ((mkRaw kd (blen a), a) :: l).
  assert (match k with TEOF => Some (Ok []) | _ => Some (Ok ((mkRaw kd (blen a), a) :: l)) end = Some (Ok ((mkRaw kd (blen a), a) :: l))) as -> by (destruct k; auto; discriminate).
  split; auto. split; [cbn; now rewrite CC|]. split; [|cbn [munched rt_kind]; rewrite CC; auto]. constructor; auto. cbn [fst snd rt_len rt_kind]. split; auto.
  destruct a as [|x a]; [tauto|]. rewrite blen_cons. pose proof (width_pos x). lia.
Qed.

(** For every text whose block comments are ASCII, tokenising succeeds, token lengths are positive and
    count the bytes of the token texts, the token texts make up the source, and every token looks the way its
    kind says. *)
Theorem tokenize_lossless_partial : forall cl t, sensible cl -> ascii_comments t ->
  exists l, tokenize cl t = Some (Ok l) /\ concat (map snd l) = t /\
    Forall (fun x => (0 < rt_len (fst x))%nat /\ rt_len (fst x) = length (encode (snd x)) /\ token_shape (rt_kind (fst x)) (snd x)) l /\ munched l.
Proof.
  intros cl t SC AC.
  assert (G : exists l, tokenize cl t = Some (Ok l) /\ concat (map snd l) = t /\
    Forall (fun x => (0 < rt_len (fst x))%nat /\ rt_len (fst x) = blen (snd x) /\ token_shape (rt_kind (fst x)) (snd x)) l /\ munched l).
  { destruct t as [|c t]; [exists []; cbn; auto|]. apply tokenize_loop_good; auto. }
  destruct G as (l & EQ & CC & FL & ML). exists l. split; auto. split; auto. split; auto.
  eapply Forall_impl; [|exact FL]. intros x (H1 & H2 & H3). split; auto. split; auto. rewrite H2. clear.
  apply blen_encode.
Qed.

(** plain ASCII sources, and sources without the opening of a block comment *)
Corollary tokenize_ascii_partial : forall cl t, sensible cl -> Forall ascii t ->
  exists l, tokenize cl t = Some (Ok l) /\ concat (map snd l) = t /\
    Forall (fun x => (0 < rt_len (fst x))%nat /\ rt_len (fst x) = length (encode (snd x)) /\ token_shape (rt_kind (fst x)) (snd x)) l /\ munched l.
Proof.
  intros cl t SC F. apply tokenize_lossless_partial; auto. intros a b c E CR. destruct (comment_rest_prefix _ _ _ CR) as (r & ->). rewrite E in F.
  apply Forall_app in F as [_ F]. inversion F as [|? ? _ F1]; subst. inversion F1 as [|? ? _ F2]; subst. now apply Forall_app in F2.
Qed.
Corollary tokenize_no_block_comment_partial : forall cl t, sensible cl -> (forall a b, t <> a ++ 47 :: 42 :: b) ->
  exists l, tokenize cl t = Some (Ok l) /\ concat (map snd l) = t /\
    Forall (fun x => (0 < rt_len (fst x))%nat /\ rt_len (fst x) = length (encode (snd x)) /\ token_shape (rt_kind (fst x)) (snd x)) l /\ munched l.
Proof. intros cl t SC F. apply tokenize_lossless_partial; auto. intros a b c E. destruct (F _ _ E). Qed.

(** Whatever the text: tokenising ends, and if it does not panic nothing is lost. *)
Lemma split_bytes_app : forall t n a b, split_bytes n t = Some (a, b) -> t = a ++ b /\ n = blen a.
Proof.
  induction t as [|c t IH]; intros [|n] a b H; cbn [split_bytes] in H; try discriminate; try (injection H as <- <-; auto; fail).
  destruct (width c <=? S n)%nat eqn:W; [|discriminate]. destruct (split_bytes (S n - width c) t) as [[x y]|] eqn:S; [|discriminate]. injection H as <- <-.
  apply IH in S as [-> E]. split; auto. rewrite blen_cons, <- E. apply Nat.leb_le in W. lia.
Qed.
Lemma block_loop_ge : forall t total pos d, (2 <= total)%nat -> (2 <= block_comment_loop total t pos d)%nat.
Proof.
  intros t. remember (length t) as n eqn:L. assert (Hn : (length t <= n)%nat) by lia. clear L. revert t Hn.
  induction n as [|n IH]; intros t Hn total pos d T; [destruct t; [cbn; lia|cbn in *; lia]|].
  destruct t as [|c [|e t]]; [cbn; lia|cbn; lia|]. cbn in Hn.
  change (block_comment_loop total (c :: e :: t) pos d) with
      (if (c =? 47) && (e =? 42) then block_comment_loop total t (pos + 2)%nat (S d)
       else if (c =? 42) && (e =? 47) then match d with O => (2 + pos + 2)%nat | S k => block_comment_loop total t (pos + 2)%nat k end
       else block_comment_loop total (e :: t) (pos + 1)%nat d).
  destruct (_ && _); [apply IH; lia|]. destruct (_ && _); [destruct d; [lia|apply IH; lia]|]. apply IH; cbn; lia.
Qed.
(** the comments do not matter for the length being positive *)
Lemma find_token_positive : forall cl t k n, sensible cl -> t <> [] -> find_token cl t = Ok (k, n) -> (0 < n)%nat.
Proof.
  intros cl t k n SC NE H.
  destruct (is (@firstn char (cl t) t) "/" && starts_with (str "/*") t) eqn:B.
  - unfold find_token in H. destruct t as [|c0 t0] eqn:Et; [tauto|]. rewrite <- Et in *. cbv zeta in H.
    destruct (is _ "/" && starts_with (str "//") t) eqn:B1.
    { apply andb_true_iff in B1 as [_ B1]. apply starts_with_spec in B1 as (r & E). cbn in E. destruct (first_line_good t 47 47 r E ltac:(lia) ltac:(lia) ltac:(lia)) as (s & q & L & _ & _).
      injection H as <- <-. rewrite L, blen_cons. pose proof (width_pos 47). lia. }
    rewrite B in H. unfold get_block_comment_len in H. apply andb_true_iff in B as [_ B]. rewrite B in H. apply starts_with_spec in B as (r & E). cbn in E.
    replace (slice_from 2 t) with (Ok r) in H by (rewrite E; symmetry; exact (slice_from_blen [47; 42] r)). cbn [bind] in H. injection H as <- <-.
    enough (2 <= block_comment_loop (blen t) r 0 0)%nat by lia. apply block_loop_ge. rewrite E, !blen_cons. pose proof (width_pos 47). pose proof (width_pos 42). lia.
  - destruct (find_token_good' cl t SC NE B) as (k' & n' & H' & G). rewrite H in H'. injection H' as <- <-. destruct G as (kd & a & b & _ & -> & NA & _).
    destruct a as [|x a]; [tauto|]. rewrite blen_cons. pose proof (width_pos x). lia.
Qed.
Theorem tokenize_total_lossless : forall cl t, sensible cl ->
  tokenize cl t = Some Panic \/ exists l, tokenize cl t = Some (Ok l) /\ concat (map snd l) = t /\ Forall (fun x => (0 < rt_len (fst x))%nat /\ rt_len (fst x) = length (encode (snd x))) l.
Proof.
  intros cl t SC.
  assert (G : forall f t, (length t < f)%nat -> tokenize_loop cl f t = Some Panic \/ exists l, tokenize_loop cl f t = Some (Ok l) /\ concat (map snd l) = t /\ Forall (fun x => (0 < rt_len (fst x))%nat /\ rt_len (fst x) = blen (snd x)) l).
  { clear t. induction f as [|f IH]; intros t L; [lia|]. destruct t as [|c t'] eqn:Et; [right; exists []; cbn; auto|]. rewrite <- Et in *.
    assert (NE : t <> []) by (rewrite Et; discriminate). cbn [tokenize_loop]. destruct (find_token cl t) as [[k n]|] eqn:FT; [|auto].
    pose proof (find_token_positive cl t k n SC NE FT) as P.
    assert (GO : match tok_kind k, split_bytes n t with
          | Ok kd, Some (a, b) => option_map (fun r => bind r (fun l => Ok ((mkRaw kd n, a) :: l))) (tokenize_loop cl f b)
          | _, _ => Some Panic
          end = Some Panic \/ exists l, match tok_kind k, split_bytes n t with
          | Ok kd, Some (a, b) => option_map (fun r => bind r (fun l => Ok ((mkRaw kd n, a) :: l))) (tokenize_loop cl f b)
          | _, _ => Some Panic
          end = Some (Ok l) /\ concat (map snd l) = t /\ Forall (fun x => (0 < rt_len (fst x))%nat /\ rt_len (fst x) = blen (snd x)) l).
    { destruct (tok_kind k) as [kd|]; [|auto]. destruct (split_bytes n t) as [[a b]|] eqn:SB; [|auto]. apply split_bytes_app in SB as [E ->].
      destruct (IH b) as [->|(l & -> & CC & FL)]; [apply (f_equal (@length _)) in E; rewrite app_length in E; destruct a; [cbn in P; lia|cbn in E; lia]|auto|].
      right. eexists. cbn. split; [reflexivity|]. cbn. rewrite CC. auto. }
    destruct k; try exact GO. exfalso. clear -FT NE SC. unfold find_token in FT. destruct t as [|c0 t0] eqn:Et; [tauto|]. rewrite <- Et in *. cbv zeta in FT.
    destruct (is (@firstn char (cl t) t) "/" && starts_with (str "/*") t) eqn:B.
    - destruct (is _ "/" && starts_with (str "//") t); [discriminate|]. destruct (get_block_comment_len t); discriminate.
    - destruct (find_token_good' cl t SC NE B) as (k' & n' & H' & (kd & a & b & _ & _ & _ & TK & _)). unfold find_token in H'. rewrite Et in H'. cbv zeta in H'. rewrite <- Et in H'. rewrite B in H'. rewrite FT in H'. injection H' as <- <-. discriminate. }
  assert (G2 : tokenize cl t = Some Panic \/ exists l, tokenize cl t = Some (Ok l) /\ concat (map snd l) = t /\ Forall (fun x => (0 < rt_len (fst x))%nat /\ rt_len (fst x) = blen (snd x)) l).
  { destruct t as [|c t]; [right; exists []; cbn; auto|]. apply G. lia. }
  destruct G2 as [P|(l & EQ & CC & FL)]; [auto|right]. exists l. split; auto. split; auto. eapply Forall_impl; [|exact FL]. intros x (H1 & H2). split; auto. rewrite H2. apply blen_encode.
Qed.

(** Tokenising a text with other characters in a block comment can panic: the length of the comment is counted
    in characters and used as a number of bytes.  [/*ééé*/]. *)
Definition one : list N -> nat := fun _ => 1%nat.
Lemma one_sensible : sensible one.
Proof. intros t NE. unfold one. destruct t; [tauto|cbn; lia]. Qed.
Theorem tokenize_total_refuted : exists cl t, sensible cl /\ tokenize cl t = Some Panic.
Proof. exists one, [47; 42; 233; 233; 233; 42; 47]. split; [apply one_sensible|vm_compute; reflexivity]. Qed.
(** With one such character the text is cut wrongly: [/*é*/] is one comment, and becomes a comment without its
    last slash and a slash. *)
Theorem comment_cut_refuted : exists cl t, sensible cl /\ comment_rest 0 t t /\
  tokenize cl (47 :: 42 :: t) = Some (Ok [(mkRaw COMMENT 5, [47; 42; 233; 42]); (mkRaw SLASH 1, [47])]).
Proof.
  exists one, [233; 42; 47]. split; [apply one_sensible|]. split; [|vm_compute; reflexivity].
  apply cr_char; [intros [? _]; lia|intros [? _]; lia|]. apply cr_close.
Qed.

(** The tokens are what the tree sink and the parser expect. *)
Definition sink_tokens (l : list (raw_token * list N)) : list (kind * text) := map (fun x => (rt_kind (fst x), encode (snd x))) l.
Lemma utf8_starts : forall c, exists b r, utf8 c = b :: r /\ is_cont b = false.
Proof.
  intros c. unfold utf8. destruct (c <? 128) eqn:E1; [|destruct (c <? 2048); [|destruct (c <? 65536)]]; do 2 eexists; (split; [reflexivity|]); unfold is_cont; apply andb_false_iff.
  - left. apply N.ltb_lt in E1. apply N.leb_gt. lia.
  - right. apply N.ltb_ge. generalize (c / 64). intros. lia.
  - right. apply N.ltb_ge. generalize (c / 4096). intros. lia.
  - right. apply N.ltb_ge. generalize (c / 262144). intros. lia.
Qed.
Lemma comment_doc_ok : forall r p, p = [47; 47] \/ p = [47; 42] -> exists d, comment_doc (p ++ r) = Ok d.
Proof.
  intros r p H. unfold comment_doc. destruct (find _ by_prefix) as [[x d]|] eqn:F; [eauto|]. exfalso.
  destruct H as [-> | ->].
  - pose proof (find_none _ _ F (str "//", None)) as K. cbn in K. discriminate K. tauto.
  - pose proof (find_none _ _ F (str "/*", None)) as K. cbn in K. discriminate K. tauto.
Qed.
Theorem tokens_fit_sink_partial : forall cl t, sensible cl -> ascii_comments t ->
  exists l, tokenize cl t = Some (Ok l) /\ source (sink_tokens l) = encode t /\ raw_of (sink_tokens l) = map fst l /\ lexed (sink_tokens l) /\
    Forall (fun x : kind * text => (0 < length (snd x))%nat) (sink_tokens l) /\ Forall (fun x : kind * text => fst x <> EOF) (sink_tokens l).
Proof.
  intros cl t SC AC. destruct (tokenize_lossless_partial cl t SC AC) as (l & EQ & CC & FL & _). exists l. split; auto.
  split. { rewrite <- CC. clear. unfold source, sink_tokens. induction l as [|x l IH]; auto. cbn. rewrite IH. unfold encode. now rewrite flat_map_app. }
  split. { unfold raw_of, sink_tokens. rewrite map_map. clear -FL. induction FL as [|x l (H1 & H2 & H3) F IH]; auto. cbn [map]. rewrite IH. f_equal. cbn [fst snd]. rewrite <- H2. now destruct (fst x). }
  split.
  - unfold lexed, sink_tokens. rewrite Forall_map. eapply Forall_impl; [|exact FL]. intros [r a] (H1 & H2 & H3). cbn [fst snd] in *. split.
    + destruct a as [|c a]; [cbn in H2; lia|]. unfold encode. cbn [flat_map]. destruct (utf8_starts c) as (b & q & -> & HC). exact HC.
    + intros K. rewrite K in H3. cbn in H3. destruct H3 as (q & [[-> _]| ->]); [exact (comment_doc_ok (encode q) [47; 47] (or_introl eq_refl))|exact (comment_doc_ok (encode q) [47; 42] (or_intror eq_refl))].
  - split; unfold sink_tokens; rewrite Forall_map; eapply Forall_impl; try exact FL; intros [r a] (H1 & H2 & H3); cbn [fst snd] in *; [lia|].
    intros K. rewrite K in H3. exact H3.
Qed.

(** * Examples *)
(** [module 0x1::m { /* a /* b */ */ 'l x"ff" é u8_ 12u8 }] *)
Definition src_ex : list N := Eval vm_compute in str "module 0x1::m { /* a /* b */ */ 'l x""ff"" " ++ [233] ++ str " u8_ 12u8==>1 }".
Lemma ascii_comments_check : forall t, (forall a b, t = a ++ 47 :: 42 :: b -> exists c, comment_rest 0 b c /\ Forall ascii c) -> ascii_comments t.
Proof. intros t H a b c E CR. destruct (H a b E) as (c' & CR' & F). now rewrite (comment_rest_unique _ _ _ CR _ CR'). Qed.
Ltac comment_steps := repeat first [apply cr_close | apply cr_inner | apply cr_open | apply cr_char; [intros [? ?]; lia|intros [? ?]; lia|]].
Example src_ex_comments : ascii_comments src_ex.
Proof.
  apply ascii_comments_check. intros a b E. unfold src_ex in E.
  do 57 (destruct a as [|? a]; cbn [app] in E; [first [discriminate E | injection E as E; rewrite <- E; eexists; split; [comment_steps|repeat constructor]]|injection E as _ E]).
  apply (f_equal (@length _)) in E. rewrite app_length in E. cbn in E. lia.
Qed.
Example tokenize_example : exists l, sensible one /\ tokenize one src_ex = Some (Ok l) /\
  map (fun x => rt_kind (fst x)) (filter (fun x => negb (is_trivia (rt_kind (fst x)))) l) =
  [MODULE_KW; INT_NUMBER; COLON_COLON; IDENT; L_CURLY; QUOTE_IDENT; HEX_STRING; BAD_CHARACTER; IDENT; INT_NUMBER; IMPLIES; INT_NUMBER; R_CURLY] /\
  map snd (filter (fun x => kind_eqb (rt_kind (fst x)) COMMENT) l) = [str "/* a /* b */ */"].
Proof. eexists. split; [apply one_sensible|]. split; [vm_compute; reflexivity|]. split; vm_compute; reflexivity. Qed.
Example tokenize_no_block_comment_example : forall a b, str "x" ++ [233; 128512] <> a ++ 47 :: 42 :: b.
Proof.
  intros a b E. change (str "x" ++ [233; 128512]) with [120; 233; 128512] in E.
  do 3 (destruct a as [|? a]; cbn [app] in E; [discriminate E|injection E as _ E]). destruct a; discriminate E.
Qed.
Example tokenize_ascii_example : Forall ascii (str "fun f() { /* /* } ").
Proof. cbn. repeat constructor. Qed.

Print Assumptions tokenize_lossless_partial.
Print Assumptions tokenize_ascii_partial.
Print Assumptions tokenize_no_block_comment_partial.
Print Assumptions tokenize_total_lossless.
Print Assumptions tokenize_total_refuted.
Print Assumptions comment_cut_refuted.
Print Assumptions tokens_fit_sink_partial.
