(** Numbers and single tokens (C14): a literal is one token, whatever follows it. *)
From Coq Require Import String.
From Verif Require Import Base SyntaxKind AddressModel ParserModel TreeSinkModel LexerModel LexerSpec LexerProofs LexerProps.
Close Scope string_scope.
Open Scope list_scope.
Open Scope N_scope.

(** * Numbers *)
Definition hex_digit (c : N) : Prop := 48 <= c <= 57 \/ 97 <= c <= 102 \/ 65 <= c <= 70.
Definition suffixes : list string := ["u8"; "u16"; "u32"; "u64"; "u128"; "u256"; "i8"; "i16"; "i32"; "i64"; "i128"; "i256"]%string.
(** what does not continue a literal without a suffix: not one of its digits, no suffix *)
Definition stops (dig : N -> Prop) (b : list N) : Prop := (forall c r, b = c :: r -> ~ dig c /\ c <> 95) /\ forall s r, In s suffixes -> b <> str s ++ r.
(** decimal and hexadecimal literals with the text after them *)
Inductive literal : list N -> list N -> Prop :=
| lit_dec : forall c r b, digit c -> Forall (fun x => digit x \/ x = 95) r -> stops digit b -> (forall z, c = 48 -> r = [] -> b = 120 :: z -> stops hex_digit z) -> literal (c :: r) b
| lit_dec_typed : forall c r s b, digit c -> Forall (fun x => digit x \/ x = 95) r -> In s suffixes -> literal (c :: r ++ str s) b
| lit_hex : forall h r b, hex_digit h -> Forall (fun x => hex_digit x \/ x = 95) r -> stops hex_digit b -> literal (48 :: 120 :: h :: r) b
| lit_hex_typed : forall h r s b, hex_digit h -> Forall (fun x => hex_digit x \/ x = 95) r -> In s suffixes -> literal (48 :: 120 :: h :: r ++ str s) b.

Lemma taken_until : forall (f : char -> bool) (a b : chars), Forall (fun c => f c = true) a -> (forall c r, b = c :: r -> f c = false) -> taken f (a ++ b) = a /\ left_over f (a ++ b) = b.
Proof.
  intros f a b F B. induction F as [|c a H F [IH1 IH2]]; cbn [app taken left_over].
  - destruct b as [|c b]; auto. cbn [taken left_over]. rewrite (B c b eq_refl). auto.
  - rewrite H, IH1, IH2. auto.
Qed.

Lemma suffix_none : forall (f : char -> bool) (a b : chars), Forall (fun c => f c = true) a -> (forall c r, b = c :: r -> f c = false) -> (forall s r, In s suffixes -> b <> str s ++ r) ->
  get_number_maybe_with_suffix (a ++ b) (blen (taken f (a ++ b))) = Ok (TNumValue, blen a).
Proof.
  intros f a b F B NS. destruct (taken_until f a b F B) as [-> E]. unfold get_number_maybe_with_suffix. rewrite slice_from_blen. cbn [bind].
  assert (H : forall s, In s suffixes -> starts_with (str s) b = false) by (intros s I; destruct (starts_with (str s) b) eqn:ST; auto; apply starts_with_spec in ST as (r & ST); now apply NS in ST).
  rewrite !H by (cbn; tauto). reflexivity.
Qed.
Lemma starts_app : forall s b, starts_with (str s) (str s ++ b) = true.
Proof. intros s b. apply starts_with_spec. eauto. Qed.
Lemma suffix_some : forall (f : char -> bool) (a : chars) s (b : chars), Forall (fun c => f c = true) a -> f 105 = false -> f 117 = false -> In s suffixes ->
  get_number_maybe_with_suffix (a ++ str s ++ b) (blen (taken f (a ++ str s ++ b))) = Ok (TNumTypedValue, blen (a ++ str s)).
Proof.
  intros f a s b F FI FU I. assert (TU : taken f (a ++ str s ++ b) = a).
  { apply (taken_until f a (str s ++ b) F). intros c r H. cbn in I. repeat (destruct I as [<-|I]; [injection H as <- _; assumption|]). destruct I. }
  rewrite TU. unfold get_number_maybe_with_suffix. rewrite slice_from_blen. cbn [bind]. rewrite blen_app. cbn in I. repeat (destruct I as [<-|I]; [reflexivity|]). destruct I.
Qed.
Lemma dec_digit : forall x, digit x \/ x = 95 -> is_digit x || (x =? 95) = true.
Proof. intros x H. unfold digit, is_digit, between in *. destruct H; [|subst; reflexivity]. apply orb_true_iff. left. apply andb_true_iff. split; apply N.leb_le; lia. Qed.
Lemma hex_digit_ok : forall x, hex_digit x \/ x = 95 <-> hex_char x = true.
Proof. intros x. unfold hex_digit, hex_char, is_digit, between. rewrite !orb_true_iff, !andb_true_iff, !N.leb_le, N.eqb_eq. tauto. Qed.

(** A literal is one token *)
Theorem number_read : forall cl (a b : chars), literal a b -> cl (a ++ b) = 1%nat -> exists k, find_token cl (a ++ b) = Ok (k, blen a) /\ tok_kind k = Ok INT_NUMBER.
Proof.
  intros cl a b L CL.
  assert (H : exists c r, a = c :: r /\ digit c) by (destruct L; do 2 eexists; (split; [reflexivity|]); auto; unfold digit; lia).
  destruct H as (c & r & Ea & D).
  assert (IS : forall x, x < 48 -> text_eqb [c] [x] = false) by (intros x Hx; destruct (text_eqb [c] [x]) eqn:E; auto; apply text_eqb_true in E; injection E as ->; unfold digit in D; lia).
  assert (F : find_token cl (a ++ b) = if starts_with (str "0x") (a ++ b) && (2 <? blen (a ++ b))%nat then
          bind (slice_from 2 (a ++ b)) (fun r => bind (get_hex_number r) (fun x => if (snd x =? 0)%nat then Ok (TNumValue, 1%nat) else Ok (fst x, (2 + snd x)%nat)))
        else get_decimal_number (a ++ b)).
  { unfold find_token. rewrite CL. destruct (a ++ b) as [|c0 t] eqn:E; [rewrite Ea in E; discriminate|]. assert (c0 = c) by (rewrite Ea in E; now injection E). subst c0. cbn [firstn].
    unfold is. change (str "/") with [47]. change (str " ") with [32]. rewrite !IS by reflexivity. cbn [andb orb is_num]. replace (is_digit c) with true; [reflexivity|]. symmetry. now apply digit_spec. }
  rewrite F. clear F IS CL.
  assert (DEC : forall r0, digit c -> Forall (fun x => digit x \/ x = 95) r0 -> Forall (fun x => is_digit x || (x =? 95) = true) (c :: r0)).
  { intros r0 _ F. constructor; [apply dec_digit; auto|]. eapply Forall_impl; [|exact F]. intros x Hx. now apply dec_digit. }
  destruct L as [c' r' b D' Fr ST NX|c' r' s b D' Fr I|h r' b Hh Fr ST|h r' s b Hh Fr I].
  - injection Ea as <- <-. 
    assert (G : get_decimal_number (c' :: r' ++ b) = Ok (TNumValue, blen (c' :: r'))).
    { unfold get_decimal_number. rewrite position_run by apply dec_char_ascii. apply (suffix_none _ (c' :: r') b); [now apply DEC| |apply ST].
      intros x y E. destruct ST as [ST _]. destruct (ST x y E) as [S1 S2]. apply orb_false_iff. split; [|now apply N.eqb_neq]. destruct (is_digit x) eqn:DX; auto. apply digit_spec in DX. tauto. }
    cbn [app]. destruct (starts_with (str "0x") (c' :: r' ++ b) && (2 <? blen (c' :: r' ++ b))%nat) eqn:B5; [|exists TNumValue; split; [exact G|reflexivity]].
    apply andb_true_iff in B5 as [B5 _]. apply starts_with_spec in B5 as (z & E). cbn in E. injection E as -> E.
    assert (r' = [] /\ b = 120 :: z) as [-> ->].
    { destruct r' as [|x r']; [auto|]. injection E as -> _. inversion Fr as [|? ? [Q|Q] _]; subst; [unfold digit in Q; lia|discriminate]. }
    specialize (NX z eq_refl eq_refl eq_refl). destruct NX as [N1 N2].
    replace (slice_from 2 (48 :: [] ++ 120 :: z)) with (Ok z) by (symmetry; exact (slice_from_blen [48; 120] z)). cbn [bind]. unfold get_hex_number. rewrite find_run.
    pose proof (suffix_none hex_char [] z (Forall_nil _)) as SN. cbn [app] in SN. rewrite SN; [exists TNumValue; split; reflexivity| |exact N2].
    intros x y EE. destruct (N1 x y EE) as [S1 S2]. destruct (hex_char x) eqn:HX; auto. apply hex_digit_ok in HX. tauto.
  - injection Ea as <- Er. subst r.
    assert (G : get_decimal_number ((c' :: r') ++ str s ++ b) = Ok (TNumTypedValue, blen ((c' :: r') ++ str s))).
    { unfold get_decimal_number. rewrite position_run by apply dec_char_ascii. apply (suffix_some _ (c' :: r') s b); auto. }
    replace ((c' :: r' ++ str s) ++ b) with ((c' :: r') ++ str s ++ b) by (cbn; now rewrite <- app_assoc).
    destruct (starts_with (str "0x") ((c' :: r') ++ str s ++ b) && _) eqn:B5; [|exists TNumTypedValue; split; [exact G|reflexivity]].
    exfalso. apply andb_true_iff in B5 as [B5 _]. apply starts_with_spec in B5 as (z & E). cbn in E. injection E as -> E. destruct r' as [|x r'].
    + cbn in I. repeat (destruct I as [<-|I]; [discriminate E|]). exact I.
    + injection E as -> _. inversion Fr as [|? ? [Q|Q] _]; subst; [unfold digit in Q; lia|discriminate].
  - assert (FH : Forall (fun x => hex_char x = true) (h :: r')) by (constructor; [apply hex_digit_ok; auto|eapply Forall_impl; [|exact Fr]; intros x Hx; now apply hex_digit_ok]).
    change (starts_with (str "0x") ((48 :: 120 :: h :: r') ++ b)) with true.
    replace (Nat.ltb 2 (blen ((48 :: 120 :: h :: r') ++ b))) with true; [|symmetry; apply Nat.ltb_lt; cbn [app]; rewrite !blen_cons; pose proof (width_pos h); pose proof (width_pos 48); pose proof (width_pos 120); lia].
    cbn [andb]. replace (slice_from 2 ((48 :: 120 :: h :: r') ++ b)) with (Ok ((h :: r') ++ b)) by (symmetry; exact (slice_from_blen [48; 120] _)). cbn [bind]. unfold get_hex_number. rewrite find_run.
    rewrite (suffix_none hex_char (h :: r') b FH); [| |apply ST].
    + cbn [bind fst snd]. rewrite blen_cons. pose proof (width_pos h). destruct (Nat.eqb_spec (width h + blen r') 0); [lia|]. exists TNumValue. split; reflexivity.
    + intros x y E. destruct ST as [ST _]. destruct (ST x y E) as [S1 S2]. destruct (hex_char x) eqn:HX; auto. apply hex_digit_ok in HX. tauto.
  - assert (FH : Forall (fun x => hex_char x = true) (h :: r')) by (constructor; [apply hex_digit_ok; auto|eapply Forall_impl; [|exact Fr]; intros x Hx; now apply hex_digit_ok]).
    replace ((48 :: 120 :: h :: r' ++ str s) ++ b) with ([48; 120] ++ (h :: r') ++ str s ++ b) by (cbn; now rewrite <- app_assoc).
    change (starts_with (str "0x") ([48; 120] ++ (h :: r') ++ str s ++ b)) with true.
    replace (Nat.ltb 2 (blen ([48; 120] ++ (h :: r') ++ str s ++ b))) with true; [|symmetry; apply Nat.ltb_lt; cbn [app]; rewrite !blen_cons; pose proof (width_pos h); pose proof (width_pos 48); pose proof (width_pos 120); lia].
    cbn [andb]. replace (slice_from 2 ([48; 120] ++ (h :: r') ++ str s ++ b)) with (Ok ((h :: r') ++ str s ++ b)) by (symmetry; exact (slice_from_blen [48; 120] _)). cbn [bind]. unfold get_hex_number. rewrite find_run.
    rewrite (suffix_some hex_char (h :: r') s b FH eq_refl eq_refl I). cbn [bind fst snd]. cbn [app]. rewrite blen_cons. pose proof (width_pos h). destruct (Nat.eqb_spec (width h + blen (r' ++ str s)) 0); [lia|].
    exists TNumTypedValue. split; reflexivity.
Qed.
(** so the tokens of the text begin with it *)
Theorem number_token : forall cl (a b : chars) l, literal a b -> cl (a ++ b) = 1%nat -> tokenize cl (a ++ b) = Some (Ok l) -> exists n l', l = (mkRaw INT_NUMBER n, a) :: l' /\ n = length (encode a).
Proof.
  intros cl a b l L CL H. destruct (number_read cl a b L CL) as (k & F & K). unfold tokenize in H. destruct (a ++ b) as [|c t] eqn:E; [destruct L; discriminate E|]. rewrite <- E in *. cbn [tokenize_loop] in H. rewrite F, K in H.
  assert (SB : split_bytes (blen a) (a ++ b) = Some (a, b)) by apply split_blen. rewrite SB in H.
  assert (G : exists l', option_map (fun r => bind r (fun l => Ok ((mkRaw INT_NUMBER (blen a), a) :: l))) (tokenize_loop cl (length (a ++ b)) b) = Some (Ok l) -> l = (mkRaw INT_NUMBER (blen a), a) :: l').
  { destruct (tokenize_loop cl (length (a ++ b)) b) as [[l0|]|]; [exists l0|exists []..]; cbn; intros Q; try discriminate Q. now injection Q as <-. }
  destruct G as (l' & G). exists (blen a), l'. split; [|apply blen_encode]. apply G. destruct k; try discriminate K; exact H.
Qed.

(** * Single tokens: what a name is checked with before renaming *)
(** Some token only if it is the whole text *)
Theorem single_token_exact : forall cl t r, sensible cl -> parse_single_token cl t = Some (Ok (Some r)) -> rt_len r = length (encode t) /\ t <> [] /\ tokenize cl t = Some (Ok [(r, t)]).
Proof.
  intros cl t r SC H. unfold parse_single_token in H. destruct (tokenize_total_lossless cl t SC) as [E|(l & E & CC & FL)]; rewrite E in H; [discriminate|]. cbn in H.
  destruct l as [|[x a] [|? ?]]; try discriminate H. injection H as ->. cbn in CC. rewrite app_nil_r in CC. subst a. inversion FL as [|? ? [H1 H2] _]; subst. cbn [fst snd] in *. split; auto. split; auto. intros ->. cbn in H2. lia.
Qed.
(** and every text that is one token *)
Theorem single_token_found : forall cl t r a, tokenize cl t = Some (Ok [(r, a)]) -> parse_single_token cl t = Some (Ok (Some r)).
Proof. intros cl t r a H. unfold parse_single_token. now rewrite H. Qed.

(** * Examples *)
Ltac no_suffix := let s := fresh in let r := fresh in let I := fresh in let E := fresh in intros s r I E; cbn in I; repeat (destruct I as [<-|I]; [discriminate E|]); exact I.
Ltac lits := repeat match goal with |- context [str ?s] => let v := eval vm_compute in (str s) in change (str s) with v end.
Example literal_dec : literal (str "1_000") (str "u7").
Proof. lits. apply lit_dec; [unfold digit; lia|repeat constructor; unfold digit; lia|split; [intros c r [= <- <-]; split; [unfold digit; lia|lia]|no_suffix]|discriminate]. Qed.
Example literal_zero : literal (str "0") (str "xyz").
Proof.
  lits. apply lit_dec; [unfold digit; lia|constructor|split; [intros c r [= <- <-]; split; [unfold digit; lia|lia]|no_suffix]|]. intros z _ _ [= <-]. split; [intros c r [= <- <-]; split; [unfold hex_digit; lia|lia]|no_suffix].
Qed.
Example literal_hex : literal (str "0xCaFe_01") (str " + 1").
Proof. lits. apply lit_hex; [unfold hex_digit; lia|repeat constructor; unfold hex_digit; lia|split; [intros c r [= <- <-]; split; [unfold hex_digit; lia|lia]|no_suffix]]. Qed.
Example literal_typed : literal (str "0xFFu8") (str "16") /\ literal (str "7i256") (str "x").
Proof.
  split; [change (str "0xFFu8") with (48 :: 120 :: 70 :: [70] ++ str "u8"); apply lit_hex_typed|change (str "7i256") with (55 :: [] ++ str "i256"); apply lit_dec_typed]; try (cbn; tauto); repeat constructor; unfold hex_digit, digit; lia.
Qed.
Example number_token_example : exists l, tokenize LexerProps.one (str "0xCaFe_01 + 1") = Some (Ok l) /\ map snd l = [str "0xCaFe_01"; str " "; str "+"; str " "; str "1"].
Proof. eexists. split; vm_compute; reflexivity. Qed.
Example single_token_example : parse_single_token LexerProps.one (str "abc") = Some (Ok (Some (mkRaw IDENT 3))) /\ parse_single_token LexerProps.one (str "abc d") = Some (Ok None) /\ parse_single_token LexerProps.one [] = Some (Ok None).
Proof. vm_compute. auto. Qed.

Print Assumptions number_read.
Print Assumptions number_token.
Print Assumptions single_token_exact.
Print Assumptions single_token_found.
