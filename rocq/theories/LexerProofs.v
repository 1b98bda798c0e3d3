(** Lemmas about the lexer. *)
From Coq Require Import String.
From Verif Require Import Base SyntaxKind AddressModel AddressProps ParserModel LexerSpec LexerModel.
Local Open Scope string_scope.
Local Open Scope N_scope.
Local Open Scope list_scope.

Lemma width_pos : forall c, (1 <= width c)%nat.
Proof. intros c. unfold width. repeat destruct (_ <? _); lia. Qed.
Lemma width_ascii : forall c, ascii c -> width c = 1%nat.
Proof. intros c H. unfold width, ascii in *. now rewrite (proj2 (N.ltb_lt _ _) H). Qed.
Lemma blen_cons : forall c a, blen (c :: a) = (width c + blen a)%nat.
Proof. reflexivity. Qed.
Lemma blen_app : forall a b, blen (a ++ b) = (blen a + blen b)%nat.
Proof. unfold blen. induction a as [|c a IH]; intros b; cbn; auto. rewrite IH. lia. Qed.
Lemma blen_ascii : forall a, Forall ascii a -> blen a = length a.
Proof. intros a F. induction F as [|c a H F IH]; auto. unfold blen in *. cbn. rewrite IH, width_ascii; auto. Qed.
Lemma split_blen : forall a b, split_bytes (blen a) (a ++ b) = Some (a, b).
Proof.
  induction a as [|c a IH]; intros b; [destruct b; reflexivity|].
  cbn [app]. change (blen (c :: a)) with (width c + blen a)%nat. pose proof (width_pos c).
  destruct (width c + blen a)%nat as [|n] eqn:E; [lia|]. cbn [split_bytes]. rewrite <- E.
  replace (width c <=? width c + blen a)%nat with true by (symmetry; apply Nat.leb_le; lia).
  replace (width c + blen a - width c)%nat with (blen a) by lia. now rewrite IH.
Qed.
Lemma slice_from_blen : forall a b, slice_from (blen a) (a ++ b) = Ok b.
Proof. intros. unfold slice_from. now rewrite split_blen. Qed.
Lemma slice_to_blen : forall a b, slice_to (blen a) (a ++ b) = Ok a.
Proof. intros. unfold slice_to. now rewrite split_blen. Qed.

Lemma starts_with_spec : forall p t, starts_with p t = true <-> exists r, t = p ++ r.
Proof.
  induction p as [|a p IH]; intros t; cbn; [split; [intros _; now exists t|auto]|].
  destruct t as [|b t]; [split; [discriminate|intros (r & E); discriminate]|].
  rewrite andb_true_iff, N.eqb_eq, IH. split.
  - intros (-> & r & ->). now exists r.
  - intros (r & E). injection E as -> ->. eauto.
Qed.

(** ** Runs *)
Fixpoint taken (f : char -> bool) (t : chars) : chars := match t with [] => [] | c :: r => if f c then c :: taken f r else [] end.
Fixpoint left_over (f : char -> bool) (t : chars) : chars := match t with [] => [] | c :: r => if f c then left_over f r else t end.
Lemma taken_app : forall f t, t = taken f t ++ left_over f t.
Proof. intros f. induction t as [|c t IH]; cbn; auto. destruct (f c); cbn; congruence. Qed.
Lemma taken_all : forall f t, Forall (fun c => f c = true) (taken f t).
Proof. intros f. induction t as [|c t IH]; cbn; auto. destruct (f c) eqn:E; auto. Qed.
Lemma left_over_head : forall f t c r, left_over f t = c :: r -> f c = false.
Proof. intros f. induction t as [|d t IH]; cbn; [discriminate|]. intros c r. destruct (f d) eqn:E; eauto. intros [= -> _]. exact E. Qed.
Lemma position_run : forall f t, (forall c, f c = true -> ascii c) -> unwrap_or (position (fun c => negb (f c)) t) (blen t) = blen (taken f t).
Proof.
  intros f t H. induction t as [|c t IH]; auto. cbn [position taken]. destruct (f c) eqn:E; auto. cbn [negb].
  change (blen (c :: taken f t)) with (width c + blen (taken f t))%nat. rewrite <- IH, width_ascii by auto.
  destruct (position _ t); cbn; auto. now rewrite width_ascii by auto.
Qed.
Lemma find_run : forall f t, unwrap_or (find_bytes (fun c => negb (f c)) t) (blen t) = blen (taken f t).
Proof.
  intros f t. induction t as [|c t IH]; auto. cbn [find_bytes taken]. destruct (f c) eqn:E; auto. cbn [negb].
  change (blen (c :: taken f t)) with (width c + blen (taken f t))%nat. rewrite <- IH.
  destruct (find_bytes _ t); cbn; auto.
Qed.
Lemma run_taken : forall f t, run_len f t = (blen (taken f t), left_over f t).
Proof. intros f. induction t as [|c t IH]; auto. cbn. destruct (f c); auto. now rewrite IH. Qed.

Ltac charith := unfold ascii, letter, digit, blank, hex_char, ws_char, name_char, alpha_char, is_digit, is_lower, is_upper, between in *;
  repeat match goal with
         | H : context [_ || _ = true] |- _ => rewrite orb_true_iff in H
         | H : context [_ && _ = true] |- _ => rewrite andb_true_iff in H
         | H : context [(_ <=? _) = true] |- _ => rewrite N.leb_le in H
         | H : context [(_ =? _) = true] |- _ => rewrite N.eqb_eq in H
         | |- context [_ || _ = true] => rewrite orb_true_iff
         | |- context [_ && _ = true] => rewrite andb_true_iff
         | |- context [(_ <=? _) = true] => rewrite N.leb_le
         | |- context [(_ =? _) = true] => rewrite N.eqb_eq
         end; try lia.
Lemma name_char_ascii : forall c, name_char c = true -> ascii c. Proof. intros c H. charith. Qed.
Lemma ws_char_ascii : forall c, ws_char c = true -> ascii c. Proof. intros c H. charith. Qed.
Lemma dec_char_ascii : forall c, (is_digit c || (c =? 95)) = true -> ascii c. Proof. intros c H. charith. Qed.
Lemma hex_char_ascii : forall c, hex_char c = true -> ascii c. Proof. intros c H. charith. Qed.
Lemma alpha_letter : forall c, alpha_char c = true <-> letter c. Proof. intros c. split; intros H; charith. Qed.
Lemma name_char_spec : forall c, name_char c = true <-> letter c \/ digit c. Proof. intros c. split; intros H; charith. Qed.
Lemma ws_char_spec : forall c, ws_char c = true <-> blank c. Proof. intros c. split; intros H; charith. Qed.
Lemma digit_spec : forall c, is_digit c = true <-> digit c. Proof. intros c. split; intros H; charith. Qed.

(** ** Lines *)
Lemma up_to_lf_prefix : forall t, exists r, t = fst (up_to_lf t) ++ r.
Proof. induction t as [|c t (r & IH)]; [now exists []|]. cbn. destruct (c =? 10); [now exists (c :: t)|]. destruct (up_to_lf t) as [a f]. cbn in *. exists r. now f_equal. Qed.
Lemma up_to_lf_clean : forall t, ~ In 10 (fst (up_to_lf t)).
Proof. induction t as [|c t IH]; cbn; auto. destruct (N.eqb_spec c 10); cbn; auto. destruct (up_to_lf t) as [a f]. cbn in *. intros [|]; auto. Qed.
Lemma strip_cr_prefix : forall t, exists r, t = strip_cr t ++ r.
Proof.
  induction t as [|c t (r & IH)]; [now exists []|]. destruct t as [|d t]; cbn in *.
  - destruct (c =? 13); [now exists [c]|now exists []].
  - exists r. now f_equal.
Qed.
Lemma first_line_prefix : forall t, exists r, t = first_line t ++ r.
Proof.
  intros t. unfold first_line. destruct (up_to_lf_prefix t) as (r & E). destruct (up_to_lf t) as [a [|]]; cbn in *; [|eauto].
  destruct (strip_cr_prefix a) as (s & E2). exists (s ++ r). rewrite app_assoc, <- E2. exact E.
Qed.
Lemma first_line_clean : forall t, ~ In 10 (first_line t).
Proof.
  intros t. pose proof (up_to_lf_clean t) as H. unfold first_line. destruct (up_to_lf t) as [a [|]]; cbn in *; auto.
  intros I. apply H. destruct (strip_cr_prefix a) as (s & E). rewrite E, in_app_iff. auto.
Qed.
Lemma first_line_two : forall a b r, a <> 10 -> b <> 10 -> b <> 13 -> exists s, first_line (a :: b :: r) = a :: b :: s.
Proof.
  intros a b r Ha Hb Hc. unfold first_line. cbn [up_to_lf].
  replace (a =? 10) with false by (symmetry; now apply N.eqb_neq). replace (b =? 10) with false by (symmetry; now apply N.eqb_neq).
  destruct (up_to_lf r) as [x [|]]; [|eauto]. cbn [strip_cr]. destruct x as [|y x]; [|eexists; reflexivity].
  replace (b =? 13) with false by (symmetry; now apply N.eqb_neq). now exists [].
Qed.

(** ** Block comments *)
Lemma comment_rest_total : forall t d, exists a, comment_rest d t a.
Proof.
  intros t. remember (length t) as n eqn:L. assert (Hn : (length t <= n)%nat) by lia. clear L. revert t Hn.
  induction n as [|n IH]; intros t Hn d; [destruct t; [exists []; constructor|cbn in *; lia]|].
  destruct t as [|c [|e t]]; [exists []; constructor|exists [c]; constructor|]. cbn in Hn.
  destruct (N.eq_dec c 47) as [->|N1]; [destruct (N.eq_dec e 42) as [->|N2]|destruct (N.eq_dec c 42) as [->|N2]; [destruct (N.eq_dec e 47) as [->|N3]|]].
  - destruct (IH t ltac:(lia) (S d)) as (a & H). eexists. constructor. eauto.
  - destruct (IH (e :: t) ltac:(cbn; lia) d) as (a & H). eexists. apply cr_char; eauto; intros [? ?]; try lia; auto.
  - destruct d as [|d]; [eexists; constructor|]. destruct (IH t ltac:(lia) d) as (a & H). eexists. apply cr_inner; eauto.
  - destruct (IH (e :: t) ltac:(cbn; lia) d) as (a & H). eexists. apply cr_char; eauto; intros [? ?]; try lia; auto.
  - destruct (IH (e :: t) ltac:(cbn; lia) d) as (a & H). eexists. apply cr_char; eauto; intros [? ?]; try lia; auto.
Qed.
Lemma comment_rest_prefix : forall d t a, comment_rest d t a -> exists r, t = a ++ r.
Proof. intros d t a H. induction H as [ |d c|d t a H [r ->]|t|d t a H [r ->]|d c e t a N1 N2 H [r E]]; try (eexists; reflexivity); try (exists []; reflexivity). exists r. cbn. now f_equal. Qed.
Lemma comment_rest_unique : forall d t a, comment_rest d t a -> forall b, comment_rest d t b -> a = b.
Proof. intros d t a H. induction H; intros b Hb; inversion Hb; subst; auto; try (exfalso; tauto); f_equal; auto; f_equal; auto. Qed.
(** when the comment is closed or ends in two characters taken together, the count is in characters;
    otherwise everything is taken *)
Lemma block_loop : forall d t a, comment_rest d t a -> Forall ascii a -> forall total pos, total = (2 + pos + blen t)%nat -> block_comment_loop total t pos d = (2 + pos + blen a)%nat.
Proof.
  intros d t a H. induction H as [d|d c|d t a H IH|t|d t a H IH|d c e t a N1 N2 H IH]; intros F total pos T.
  - cbn. lia.
  - cbn [block_comment_loop]. exact T.
  - inversion F as [|? ? F1 F2]; subst. inversion F2 as [|? ? F3 F4]; subst. cbn [block_comment_loop]. cbn [N.eqb Pos.eqb andb].
    rewrite IH; auto; rewrite !blen_cons, !width_ascii by (unfold ascii; lia); lia.
  - cbn. reflexivity || (cbn; lia).
  - inversion F as [|? ? F1 F2]; subst. inversion F2 as [|? ? F3 F4]; subst. cbn [block_comment_loop]. cbn [N.eqb Pos.eqb andb].
    rewrite IH; auto; rewrite !blen_cons, !width_ascii by (unfold ascii; lia); lia.
  - inversion F as [|? ? F1 F2]; subst. match goal with |- block_comment_loop ?T _ _ _ = _ => change (block_comment_loop T (c :: e :: t) pos d) with
      (if (c =? 47) && (e =? 42) then block_comment_loop T t (pos + 2)%nat (S d)
       else if (c =? 42) && (e =? 47) then match d with O => (2 + pos + 2)%nat | S k => block_comment_loop T t (pos + 2)%nat k end
       else block_comment_loop T (e :: t) (pos + 1)%nat d) end.
    replace ((c =? 47) && (e =? 42)) with false by (symmetry; apply andb_false_iff; destruct (N.eqb_spec c 47); [|auto]; destruct (N.eqb_spec e 42); [|auto]; tauto).
    replace ((c =? 42) && (e =? 47)) with false by (symmetry; apply andb_false_iff; destruct (N.eqb_spec c 42); [|auto]; destruct (N.eqb_spec e 47); [|auto]; tauto).
    rewrite IH; auto.
    + change (blen (c :: a)) with (width c + blen a)%nat. rewrite width_ascii by auto. lia.
    + change (blen (c :: e :: t)) with (width c + blen (e :: t))%nat. rewrite width_ascii by auto. lia.
Qed.

(** ** Byte strings *)
Lemma byte_tail_some : forall t n, byte_string_tail t = Some n -> exists u r, t = (u ++ [34]) ++ r /\ bs_units u /\ n = blen (u ++ [34]).
Proof.
  intros t. remember (length t) as m eqn:L. assert (Hm : (length t <= m)%nat) by lia. clear L. revert t Hm.
  induction m as [|m IH]; intros t Hm n H; [destruct t; [discriminate|cbn in *; lia]|].
  destruct t as [|c t]; [discriminate|]. cbn [byte_string_tail] in H. cbn in Hm.
  destruct (N.eqb_spec c 34) as [->|N1]; [injection H as <-; exists [], t; repeat split; constructor|].
  destruct (N.eqb_spec c 92) as [->|N2].
  - destruct t as [|d t]; [discriminate|]. destruct (N.eqb_spec d 10) as [|N3]; [discriminate|]. cbn in Hm.
    destruct (byte_string_tail t) as [k|] eqn:E; [|discriminate]. injection H as <-.
    destruct (IH t ltac:(lia) _ E) as (u & r & -> & U & ->). exists (92 :: d :: u), r. split; [reflexivity|]. split; [now constructor|reflexivity].
  - destruct (byte_string_tail t) as [k|] eqn:E; [|discriminate]. injection H as <-.
    destruct (IH t ltac:(lia) _ E) as (u & r & -> & U & ->). exists (c :: u), r. split; [reflexivity|]. split; [now constructor|reflexivity].
Qed.
Lemma byte_tail_none : forall u, bs_units u -> forall s, byte_string_tail (u ++ [34] ++ s) <> None.
Proof.
  intros u U. induction U as [|c t N1 N2 U IH|c t N U IH]; intros s; cbn [app byte_string_tail].
  - discriminate.
  - rewrite (proj2 (N.eqb_neq _ _) N1), (proj2 (N.eqb_neq _ _) N2). specialize (IH s). cbn [app] in IH. destruct (byte_string_tail _); [discriminate|tauto].
  - cbn [N.eqb Pos.eqb]. rewrite (proj2 (N.eqb_neq _ _) N). specialize (IH s). cbn [app] in IH. destruct (byte_string_tail (t ++ _)); [discriminate|tauto].
Qed.

(** ** One token *)
(** what follows a name is no name character, what follows a blank is no blank *)
Definition word (k : kind) : bool :=
  match k with IDENT | UNDERSCORE | QUOTE_IDENT => true | _ => match spelling k with Some s => match str s with c :: _ => alpha_char c | [] => false end | None => false end end.
Definition munch (k : kind) (b : chars) : Prop :=
  (word k = true -> forall c r, b = c :: r -> ~ (letter c \/ digit c)) /\
  (k = WHITESPACE -> forall c r, b = c :: r -> ~ blank c).
Definition good_token (k : tok) (n : nat) (t : chars) : Prop :=
  exists kd a b, t = a ++ b /\ n = blen a /\ a <> [] /\ tok_kind k = Ok kd /\ token_shape kd a /\ munch kd b.

Lemma munch_trivial : forall k b, word k = false -> k <> WHITESPACE -> munch k b.
Proof. intros k b H1 H2. split; [congruence|tauto]. Qed.

Lemma text_eqb_true : forall a b, text_eqb a b = true <-> a = b.
Proof. intros. apply text_eqb_spec. Qed.

Lemma single_prefix : forall (cl : chars -> nat) t c, firstn (cl t) t = [c] -> exists r, t = c :: r.
Proof. intros cl t c H. destruct t as [|d t]; [rewrite firstn_nil in H; discriminate|]. destruct (cl (d :: t)); cbn in H; [discriminate|]. injection H as -> _. eauto. Qed.
Lemma is_char : forall s c, is s (String.String c "") = true -> s = [Ascii.N_of_ascii c].
Proof. intros s c H. apply text_eqb_spec in H. exact H. Qed.

(** suffixes of numbers *)
Lemma number_suffix : forall f t, (forall c, f c = true -> letter c \/ digit c) ->
  exists k n a b, get_number_maybe_with_suffix t (blen (taken f t)) = Ok (k, n) /\ t = a ++ b /\ n = blen a /\ (k = TNumValue \/ k = TNumTypedValue) /\
    Forall (fun c => letter c \/ digit c) a /\ (exists r, a = taken f t ++ r).
Proof.
  intros f t Hf. unfold get_number_maybe_with_suffix. assert (SF : slice_from (blen (taken f t)) t = Ok (left_over f t)) by (rewrite (taken_app f t) at 2; apply slice_from_blen). rewrite SF. cbn [bind].
  assert (FT : Forall (fun c => letter c \/ digit c) (taken f t)) by (eapply Forall_impl; [|apply taken_all]; intros c H; cbn in H; auto).
  assert (G : forall s, starts_with (str s) (left_over f t) = true -> Forall ascii (str s) -> Forall (fun c => letter c \/ digit c) (str s) ->
    exists b, t = (taken f t ++ str s) ++ b /\ (blen (taken f t) + String.length s)%nat = blen (taken f t ++ str s) /\ Forall (fun c => letter c \/ digit c) (taken f t ++ str s) /\ exists r, taken f t ++ str s = taken f t ++ r).
  { intros s H A L. apply starts_with_spec in H as (b & E). exists b. rewrite <- app_assoc, <- E. split; [apply taken_app|].
    rewrite blen_app, (blen_ascii (str s)) by auto. split; [|split; [now apply Forall_app|eauto]]. f_equal. unfold str. rewrite map_length. clear. induction s; cbn; auto. }
  set (L := fun s => starts_with (str s) (left_over f t)) in *.
  assert (G' : forall s k m, L s = true -> m = String.length s -> forallb name_char (str s) = true -> (k = TNumValue \/ k = TNumTypedValue) ->
    exists k0 n a b, Ok (k, (blen (taken f t) + m)%nat) = Ok (k0, n) /\ t = a ++ b /\ n = blen a /\ (k0 = TNumValue \/ k0 = TNumTypedValue) /\ Forall (fun c => letter c \/ digit c) a /\ (exists r, a = taken f t ++ r)).
  { intros s k m H -> NC K. assert (A : Forall ascii (str s)) by (apply Forall_forall; intros c I; apply (proj1 (forallb_forall _ _) NC) in I; now apply name_char_ascii).
    assert (Lt : Forall (fun c => letter c \/ digit c) (str s)) by (apply Forall_forall; intros c I; apply (proj1 (forallb_forall _ _) NC) in I; now apply name_char_spec). destruct (G s H A Lt) as (b & E1 & E2 & E3 & E4). exists k, (blen (taken f t) + String.length s)%nat, (taken f t ++ str s), b. auto 10. }
  change (starts_with (str ?s) (left_over f t)) with (L s).
  destruct (L "u8" || L "i8") eqn:E1; [apply orb_true_iff in E1 as [E|E]; (eapply G'; [exact E|reflexivity|reflexivity|auto])|].
  destruct (L "u16" || L "u32" || L "u64" || L "i16" || L "i32" || L "i64") eqn:E2;
    [repeat rewrite orb_true_iff in E2; repeat destruct E2 as [E2|E2]; (eapply G'; [exact E2|reflexivity|reflexivity|auto])|].
  destruct (L "u128" || L "u256" || L "i128" || L "i256") eqn:E3;
    [repeat rewrite orb_true_iff in E3; repeat destruct E3 as [E3|E3]; (eapply G'; [exact E3|reflexivity|reflexivity|auto])|].
  exists TNumValue, (blen (taken f t)), (taken f t), (left_over f t). split; auto. split; [apply taken_app|]. split; auto. split; auto. split; auto. exists []. now rewrite app_nil_r.
Qed.

(** operators: every entry of the table spells what its kind says *)
Definition entry_ok (s : string) (k : tok) : bool :=
  match tok_kind k with
  | Ok kd => match spelling kd with Some x => String.eqb x s | None => false end && negb (word kd) && negb (kind_eqb kd WHITESPACE) && negb (length (str s) =? 0)%nat && forallb (fun c => c <? 128) (str s)
  | Panic => false
  end.
Lemma entry_good : forall s k t, entry_ok s k = true -> starts_with (str s) t = true -> good_token k (String.length s) t.
Proof.
  intros s k t H ST. unfold entry_ok in H. destruct (tok_kind k) as [kd|] eqn:TK; [|discriminate].
  repeat rewrite andb_true_iff in H. destruct H as [[[[H1 H2] H3] H4] H5]. destruct (spelling kd) as [x|] eqn:SP; [|discriminate]. apply String.eqb_eq in H1. subst x.
  apply starts_with_spec in ST as (b & ->). exists kd, (str s), b. split; auto. split.
  { rewrite blen_ascii by (apply Forall_forall; intros c I; apply (proj1 (forallb_forall _ _) H5) in I; now apply N.ltb_lt). unfold str. rewrite map_length. clear. induction s; cbn; auto. }
  split; [intros E; rewrite E in H4; discriminate|]. split; auto. split; [unfold token_shape; now rewrite SP|].
  apply munch_trivial; [now destruct (word kd)|]. intros ->. discriminate.
Qed.
Lemma longer_good : forall ls t x, forallb (fun e => entry_ok (fst e) (snd e)) ls = true -> longer ls t = Some x -> good_token (fst x) (snd x) t.
Proof.
  induction ls as [|[s k] ls IH]; intros t x H E; [discriminate|]. cbn in H, E. apply andb_true_iff in H as [H1 H2].
  destruct (starts_with (str s) t) eqn:ST; [|auto]. injection E as <-. apply entry_good; auto.
Qed.
Lemma operator_good : forall (cl : chars -> nat) t, (1 <= cl t)%nat -> t <> [] -> let r := find_operator operators (firstn (cl t) t) t in good_token (fst r) (snd r) t.
Proof.
  intros cl t C NE. assert (H : forallb (fun e => let '(s, ls, k) := e in (String.length s =? 1)%nat && entry_ok s k && forallb (fun x => entry_ok (fst x) (snd x)) ls) operators = true) by (vm_compute; reflexivity).
  revert H. generalize operators as l. induction l as [|[[s ls] k] l IH]; intros H; cbn zeta.
  - cbn. destruct t as [|c t]; [tauto|]. destruct (cl (c :: t)) as [|n] eqn:E; [lia|].
    exists BAD_CHARACTER, (firstn (S n) (c :: t)), (skipn (S n) (c :: t)). rewrite firstn_skipn. split; auto. split; auto. split; [discriminate|]. split; auto. split; [cbn; discriminate|].
    apply munch_trivial; [reflexivity|discriminate].
  - cbn [forallb] in H. apply andb_true_iff in H as [H1 H2]. repeat rewrite andb_true_iff in H1. destruct H1 as [[HL HE] HLs]. cbn [find_operator].
    destruct (is (firstn (cl t) t) s) eqn:Es; [|apply IH; auto].
    destruct (longer ls t) as [x|] eqn:Lg; [eapply longer_good; eauto|].
    apply Nat.eqb_eq in HL. cbn [fst snd]. rewrite <- HL. apply entry_good; auto.
    apply text_eqb_spec in Es. apply starts_with_spec. exists (skipn (cl t) t). now rewrite <- Es, firstn_skipn.
Qed.

(** names *)
Definition name_ok (e : string * tok) : bool :=
  match tok_kind (snd e) with Ok kd => match spelling kd with Some x => String.eqb x (fst e) | None => false end | Panic => false end.
Lemma lookup_good : forall l n, forallb name_ok l = true ->
  (exists kd s, tok_kind (lookup_name l n) = Ok kd /\ spelling kd = Some s /\ n = str s) \/
  (lookup_name l n = TIdentifier /\ forall s k, In (s, k) l -> n <> str s).
Proof.
  induction l as [|[s k] l IH]; intros n H; [right; split; auto|]. cbn [forallb] in H. apply andb_true_iff in H as [H1 H2]. cbn [lookup_name].
  destruct (is n s) eqn:E.
  - left. unfold name_ok in H1. cbn [fst snd] in H1. destruct (tok_kind k) as [kd|] eqn:TK; [|discriminate]. destruct (spelling kd) as [x|] eqn:SP; [|discriminate].
    apply String.eqb_eq in H1. subst x. exists kd, s. split; auto. split; auto. now apply text_eqb_spec.
  - destruct (IH n H2) as [H|[H3 H4]]; [now left|right]. split; auto. intros s' k' [[= <- <-]|I]; [|eauto].
    intros ->. unfold is in E. rewrite text_eqb_refl in E. discriminate.
Qed.
Lemma spelled_words : forall k s, spelling k = Some s -> (exists c r, str s = c :: r /\ letter c) -> In s (map fst name_tokens).
Proof.
  intros k s H (c & r & E & L). destruct k; cbn in H; try discriminate; injection H as <-; vm_compute in E; injection E as <- <-; try (exfalso; charith; fail); cbn; tauto.
Qed.
