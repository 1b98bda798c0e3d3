(** C37: address comparison is an equivalence that ignores leading zeros. *)
From Coq Require Import String Ascii.
From Verif Require Import Base AddressModel.

(** * Specification *)
(** value of a lower-case hexadecimal digit *)
Definition hex_digit (c : N) : option N :=
  (if (48 <=? c) && (c <=? 57) then Some (c - 48) else if (97 <=? c) && (c <=? 102) then Some (c - 87) else None)%N.
(** [hex_value ds acc v]: reading the digits from the left, starting from [acc], gives [v] *)
Fixpoint hex_value (ds : text) (acc : N) : option N :=
  match ds with
  | [] => Some acc
  | c :: ds' => match hex_digit c with Some d => hex_value ds' (16 * acc + d) | None => None end
  end.
(** the number written by "0x" followed by at least one lower-case hexadecimal digit *)
Definition hex_literal (t : text) (v : N) : Prop :=
  exists ds, t = str "0x" ++ ds /\ ds <> [] /\ hex_value ds 0 = Some v.

(** The last package that assigns a name wins; framework names are fixed. *)
Definition assigned (pkgs : list addr_map) (name v : text) : Prop :=
  exists before p after, pkgs = before ++ p :: after /\ In (name, v) p /\ Forall (fun q => ~ In name (map fst q)) after.
Definition account (pkgs : list addr_map) (a : address) (v : text) : Prop :=
  match a with
  | Value x => v = x
  | Named n => (In n framework_addresses /\ v = str "0x1") \/ (~ In n framework_addresses /\ assigned pkgs n v)
  end.
Definition well_formed (pkgs : list addr_map) : Prop := Forall (fun p => NoDup (map fst p)) pkgs.

(** * Lemmas *)
Lemma text_eqb_spec : forall a b, text_eqb a b = true <-> a = b.
Proof. intros a b. unfold text_eqb. destruct (text_eq_dec a b); split; intros; auto; discriminate. Qed.
Lemma text_eqb_refl : forall a, text_eqb a a = true.
Proof. intros. now apply text_eqb_spec. Qed.
Lemma text_eqb_sym : forall a b, text_eqb a b = text_eqb b a.
Proof. intros a b. apply eq_true_iff_eq. rewrite !text_eqb_spec. split; auto. Qed.
Lemma address_eqb_spec : forall a b, address_eqb a b = true <-> a = b.
Proof.
  intros [x|x] [y|y]; cbn; rewrite ?text_eqb_spec; split; intros H; try discriminate; subst; auto; injection H; auto.
Qed.

Lemma trim_zeros_head : forall t, match trim_zeros t with [] => True | c :: _ => c <> 48%N end.
Proof. induction t as [|c t IH]; cbn; auto. destruct (N.eqb_spec c 48); auto. Qed.

(** hexadecimal numerals: injectivity without leading zeros *)
Lemma hex_value_ge : forall ds acc v, hex_value ds acc = Some v -> (acc * 16 ^ N.of_nat (length ds) <= v < (acc + 1) * 16 ^ N.of_nat (length ds))%N.
Proof.
  induction ds as [|c ds IH]; intros acc v H; cbn [hex_value length] in *.
  - injection H as <-. change (16 ^ N.of_nat 0)%N with 1%N. lia.
  - destruct (hex_digit c) as [d|] eqn:E; [|discriminate]. apply IH in H. clear IH.
    rewrite Nat2N.inj_succ, N.pow_succ_r'. generalize dependent (16 ^ N.of_nat (length ds))%N. intros P H.
    assert (d < 16)%N.
    { unfold hex_digit in E. destruct ((48 <=? c) && (c <=? 57))%N eqn:E1; [injection E as <-; apply andb_true_iff in E1; destruct E1 as [E1 E2]; apply N.leb_le in E1, E2; lia|].
      destruct ((97 <=? c) && (c <=? 102))%N eqn:E2; [|discriminate]. injection E as <-. apply andb_true_iff in E2. destruct E2 as [E2 E3]. apply N.leb_le in E2, E3. lia. }
    destruct H as [H1 H2]. split.
    + eapply N.le_trans; [|exact H1]. replace (acc * (16 * P))%N with ((16 * acc) * P)%N by lia. apply N.mul_le_mono_r. lia.
    + eapply N.lt_le_trans; [exact H2|]. replace ((acc + 1) * (16 * P))%N with ((16 * acc + 16) * P)%N by lia. apply N.mul_le_mono_r. lia.
Qed.

Lemma hex_digit_inj : forall a b d, hex_digit a = Some d -> hex_digit b = Some d -> a = b.
Proof.
  intros a b d. unfold hex_digit.
  repeat match goal with |- context [(?x <=? ?y)%N] => destruct (N.leb_spec x y) end; cbn; intros Ha Hb;
    try discriminate; injection Ha as <-; injection Hb; intros; lia.
Qed.
Lemma hex_digit_lt : forall c d, hex_digit c = Some d -> (d < 16)%N.
Proof.
  intros c d. unfold hex_digit.
  repeat match goal with |- context [(?x <=? ?y)%N] => destruct (N.leb_spec x y) end; cbn; intros E; try discriminate; injection E as <-; lia.
Qed.

Lemma hex_value_inj_len : forall ds1 ds2 acc1 acc2 v, length ds1 = length ds2 ->
  hex_value ds1 acc1 = Some v -> hex_value ds2 acc2 = Some v -> ds1 = ds2 /\ acc1 = acc2.
Proof.
  induction ds1 as [|c1 ds1 IH]; intros [|c2 ds2] acc1 acc2 v L H1 H2; try discriminate L; cbn [hex_value] in *.
  - split; congruence.
  - destruct (hex_digit c1) as [d1|] eqn:E1; [|discriminate]. destruct (hex_digit c2) as [d2|] eqn:E2; [|discriminate].
    injection L as L. destruct (IH ds2 _ _ v L H1 H2) as [-> Ha].
    pose proof (hex_digit_lt _ _ E1). pose proof (hex_digit_lt _ _ E2).
    assert (acc1 = acc2 /\ d1 = d2) as [-> ->] by lia. split; [|reflexivity]. f_equal. eapply hex_digit_inj; eauto.
Qed.

Lemma hex_digit_nonzero : forall c d, hex_digit c = Some d -> c <> 48%N -> (0 < d)%N.
Proof.
  intros c d. unfold hex_digit.
  repeat match goal with |- context [(?x <=? ?y)%N] => destruct (N.leb_spec x y) end; cbn; intros E; try discriminate; injection E as <-; lia.
Qed.

Lemma hex_value_trim : forall ds, hex_value (trim_zeros ds) 0 = hex_value ds 0.
Proof.
  induction ds as [|c ds IH]; [reflexivity|]. cbn [trim_zeros hex_value]. destruct (N.eqb_spec c 48) as [->|H]; [|reflexivity].
  rewrite IH. reflexivity.
Qed.

Lemma hex_lead_pos : forall (c : byte) (ds : text) (v : N), c <> 48%N -> hex_value (c :: ds) 0 = Some v ->
  (16 ^ N.of_nat (length ds) <= v < 16 ^ N.of_nat (S (length ds)))%N.
Proof.
  intros c ds v Hc H. cbn [hex_value] in H. destruct (hex_digit c) as [d|] eqn:E; [|discriminate].
  pose proof (hex_digit_nonzero _ _ E Hc). pose proof (hex_digit_lt _ _ E).
  apply hex_value_ge in H. rewrite Nat2N.inj_succ, N.pow_succ_r'. destruct H as [H2 H3].
  unfold text, byte in *. remember (16 ^ N.of_nat (length ds))%N as P eqn:EP. clear EP. split.
  - eapply N.le_trans; [|exact H2]. rewrite <- (N.mul_1_l P) at 1. apply N.mul_le_mono_r. lia.
  - eapply N.lt_le_trans; [exact H3|]. apply N.mul_le_mono_r. lia.
Qed.

Lemma trim_inj : forall ds1 ds2 v, hex_value ds1 0 = Some v -> hex_value ds2 0 = Some v -> trim_zeros ds1 = trim_zeros ds2.
Proof.
  intros ds1 ds2 v H1 H2. rewrite <- hex_value_trim in H1, H2.
  pose proof (trim_zeros_head ds1) as N1. pose proof (trim_zeros_head ds2) as N2.
  destruct (trim_zeros ds1) as [|c1 t1], (trim_zeros ds2) as [|c2 t2]; auto.
  - cbn in H1. injection H1 as <-. apply hex_lead_pos in H2; auto. pose proof (N.pow_nonzero 16 (N.of_nat (length t2))). lia.
  - cbn in H2. injection H2 as <-. apply hex_lead_pos in H1; auto. pose proof (N.pow_nonzero 16 (N.of_nat (length t1))). lia.
  - assert (L : length t1 = length t2).
    { pose proof (hex_lead_pos _ _ _ N1 H1) as [A1 B1]. pose proof (hex_lead_pos _ _ _ N2 H2) as [A2 B2].
      destruct (Nat.lt_trichotomy (length t1) (length t2)) as [L|[L|L]]; auto; exfalso.
      - assert (16 ^ N.of_nat (S (length t1)) <= 16 ^ N.of_nat (length t2))%N by (apply N.pow_le_mono_r; lia). lia.
      - assert (16 ^ N.of_nat (S (length t2)) <= 16 ^ N.of_nat (length t1))%N by (apply N.pow_le_mono_r; lia). lia. }
    destruct (hex_value_inj_len (c1 :: t1) (c2 :: t2) 0 0 v) as [E _]; auto. cbn. now f_equal.
Qed.

Lemma short_hex : forall ds, short (str "0x" ++ ds) = str "0x" ++ match trim_zeros ds with [] => str "0" | d => d end.
Proof. reflexivity. Qed.

(** Numerically equal hexadecimal addresses are exactly the ones identified. *)
Theorem short_hex_iff : forall s1 s2 v1 v2, hex_literal s1 v1 -> hex_literal s2 v2 -> (short s1 = short s2 <-> v1 = v2).
Proof.
  intros s1 s2 v1 v2 (d1 & -> & N1 & H1) (d2 & -> & N2 & H2). rewrite !short_hex. split.
  - intros E. apply app_inv_head in E. 
    assert (Z : forall ds v, hex_value ds 0 = Some v -> hex_value (match trim_zeros ds with [] => str "0" | d => d end) 0 = Some v).
    { intros ds v H. rewrite <- hex_value_trim in H. destruct (trim_zeros ds); exact H. }
    assert (K : Some v1 = Some v2) by (rewrite <- (Z d1 v1 H1), <- (Z d2 v2 H2); f_equal; exact E). congruence.
  - intros <-. now rewrite (trim_inj d1 d2 v1 H1 H2).
Qed.
Print Assumptions short_hex_iff.

(** * The named-address table *)
Lemma map_get_filter : forall m k n, k <> n -> map_get (filter (fun e => negb (text_eqb (fst e) n)) m) k = map_get m k.
Proof.
  induction m as [|[k' v] m IH]; intros k n H; [reflexivity|]. cbn [filter fst].
  destruct (text_eqb k' n) eqn:E; cbn [negb map_get].
  - apply text_eqb_spec in E. subst. destruct (text_eqb n k) eqn:E; [apply text_eqb_spec in E; congruence|]. now apply IH.
  - destruct (text_eqb k' k); auto.
Qed.
Lemma map_get_insert : forall m k v n, map_get (map_insert m (n, v)) k = if text_eqb n k then Some v else map_get m k.
Proof.
  intros m k v n. unfold map_insert. cbn [map_get fst]. destruct (text_eqb n k) eqn:E; auto.
  apply map_get_filter. intros ->. now rewrite text_eqb_refl in E.
Qed.
Lemma insert_all : forall p m k, NoDup (map fst p) ->
  (forall v, In (k, v) p -> map_get (fold_left map_insert p m) k = Some v) /\
  (~ In k (map fst p) -> map_get (fold_left map_insert p m) k = map_get m k).
Proof.
  induction p as [|[n w] p IH]; intros m k HN; cbn [fold_left map fst] in *; [split; [intros v []|auto]|].
  inversion HN; subst. destruct (IH (map_insert m (n, w)) k H2) as [A B]. split.
  - intros v [E|E]; [|auto]. injection E as -> ->. rewrite B; auto. now rewrite map_get_insert, text_eqb_refl.
  - intros H. rewrite B; [|intros K; apply H; now right]. rewrite map_get_insert.
    destruct (text_eqb n k) eqn:E; auto. apply text_eqb_spec in E. subst. exfalso. apply H. now left.
Qed.

Lemma tracked_snoc : forall ps p, named_addresses_tracked (ps ++ [p]) = fold_left map_insert p (named_addresses_tracked ps).
Proof. intros. unfold named_addresses_tracked. rewrite fold_left_app. reflexivity. Qed.

Lemma tracked_spec : forall pkgs, well_formed pkgs -> forall n v,
  map_get (named_addresses_tracked pkgs) n = Some v <-> assigned pkgs n v.
Proof.
  induction pkgs as [|p ps IH] using rev_ind; intros HW n v.
  - split; [discriminate|]. intros (b & q & a & E & _). destruct b; discriminate.
  - apply Forall_app in HW. destruct HW as [HW Hp]. inversion Hp as [|? ? HN _]; subst.
    rewrite tracked_snoc. destruct (insert_all p (named_addresses_tracked ps) n HN) as [A B].
    destruct (in_dec text_eq_dec n (map fst p)) as [Hi|Hi].
    + apply in_map_iff in Hi. destruct Hi as ([n' w] & E & Hi). cbn in E. subst n'. rewrite (A w Hi). split.
      * intros E. injection E as <-. exists ps, p, []. auto.
      * intros (b & q & a & E & Hq & Ha). f_equal. destruct a as [|x a] using rev_ind.
        -- apply app_inj_tail in E. destruct E as [_ <-]. clear - HN Hi Hq.
           induction p as [|[k u] p IHp]; [destruct Hi|]. cbn in HN. inversion HN; subst.
           destruct Hi as [Hi|Hi], Hq as [Hq|Hq]; try congruence.
           ++ injection Hi as -> ->. exfalso. apply H1. apply (in_map fst) in Hq. exact Hq.
           ++ injection Hq as -> ->. exfalso. apply H1. apply (in_map fst) in Hi. exact Hi.
           ++ auto.
        -- rewrite app_comm_cons, app_assoc in E. apply app_inj_tail in E. destruct E as [_ <-].
           apply Forall_app in Ha. destruct Ha as [_ Ha]. inversion Ha; subst. exfalso. apply H1. apply (in_map fst) in Hi. exact Hi.
    + rewrite (B Hi), (IH HW). split.
      * intros (b & q & a & -> & Hq & Ha). exists b, q, (a ++ [p]). rewrite <- app_assoc. split; [reflexivity|]. split; auto. apply Forall_app. auto.
      * intros (b & q & a & E & Hq & Ha). destruct a as [|x a] using rev_ind.
        -- apply app_inj_tail in E. destruct E as [_ <-]. exfalso. apply Hi. apply (in_map fst) in Hq. exact Hq.
        -- rewrite app_comm_cons, app_assoc in E. apply app_inj_tail in E. destruct E as [-> <-]. exists b, q, a. split; auto. split; auto.
           apply Forall_app in Ha. tauto.
Qed.

Lemma framework_default : forall l m n, ~ In n l ->
  map_get (fold_left (fun m name => match map_get m name with Some _ => m | None => map_insert m (name, str "0x1") end) l m) n = map_get m n.
Proof.
  induction l as [|x l IH]; intros m n H; [reflexivity|]. cbn [fold_left]. rewrite IH by (intros K; apply H; now right).
  destruct (map_get m x); auto. rewrite map_get_insert. destruct (text_eqb x n) eqn:E; auto. apply text_eqb_spec in E. subst. exfalso. apply H. now left.
Qed.

(** What an address resolves to. *)
Theorem resolve_spec : forall pkgs a v, well_formed pkgs -> (resolve_to_numeric_address pkgs a = Some v <-> account pkgs a v).
Proof.
  intros pkgs [n|x] v HW; cbn [resolve_to_numeric_address account]; [|split; congruence].
  unfold resolve_named_address. destruct (existsb (text_eqb n) framework_addresses) eqn:E.
  - apply existsb_exists in E. destruct E as (x & Hx & E). apply text_eqb_spec in E. subst x.
    split; [intros H; injection H as <-; now left|]. intros [[_ ->]|[H _]]; [reflexivity|contradiction].
  - assert (H : ~ In n framework_addresses).
    { intros H. enough (existsb (text_eqb n) framework_addresses = true) by congruence.
      apply existsb_exists. exists n. split; auto. apply text_eqb_refl. }
    unfold named_addresses. rewrite framework_default by exact H. rewrite tracked_spec by exact HW. tauto.
Qed.
Print Assumptions resolve_spec.

(** * The comparison *)
(** Outside completion: same address, or two known non-"_" accounts that agree up to leading zeros. *)
Theorem equals_to_spec : forall pkgs a b, equals_to pkgs a b false = true <->
  a = b \/ exists v w, resolve_to_numeric_address pkgs a = Some v /\ resolve_to_numeric_address pkgs b = Some w /\
           v <> str "_" /\ w <> str "_" /\ short v = short w.
Proof.
  intros pkgs a b. unfold equals_to. destruct (address_eqb a b) eqn:E.
  - apply address_eqb_spec in E. split; auto.
  - assert (N : a <> b) by (intros H; apply address_eqb_spec in H; congruence).
    rewrite andb_false_r.
    destruct (resolve_to_numeric_address pkgs a) as [v|], (resolve_to_numeric_address pkgs b) as [w|].
    2-4: split; [discriminate|intros [H|(v' & w' & H1 & H2 & _)]; congruence].
    unfold is_underscore. rewrite !andb_true_iff, !negb_true_iff, text_eqb_spec. split.
    + intros [[A B] C]. right. exists v, w. repeat split; auto; intros ->; now rewrite text_eqb_refl in *.
    + intros [H|(v' & w' & H1 & H2 & H3 & H4 & H5)]; [contradiction|]. injection H1 as <-. injection H2 as <-.
      split; [split|]; auto; apply not_true_is_false; rewrite text_eqb_spec; auto.
Qed.
Print Assumptions equals_to_spec.

Theorem equals_to_equivalence : forall pkgs,
  (forall a, equals_to pkgs a a false = true) /\
  (forall a b, equals_to pkgs a b false = true -> equals_to pkgs b a false = true) /\
  (forall a b c, equals_to pkgs a b false = true -> equals_to pkgs b c false = true -> equals_to pkgs a c false = true).
Proof.
  intros pkgs. setoid_rewrite equals_to_spec. split; [auto|]. split.
  - intros a b [->|(v & w & H1 & H2 & H3 & H4 & H5)]; [auto|]. right. exists w, v. auto.
  - intros a b c [->|(v & w & H1 & H2 & H3 & H4 & H5)] [->|(v' & w' & K1 & K2 & K3 & K4 & K5)]; auto.
    + right. exists v', w'. auto.
    + right. exists v, w. auto.
    + right. exists v, w'. assert (w = v') by congruence. subst. repeat split; auto. congruence.
Qed.
Print Assumptions equals_to_equivalence.

(** In terms of numbers, when both accounts are written in lower-case hexadecimal. *)
Theorem equals_to_numeric : forall pkgs a b s t v w, well_formed pkgs -> account pkgs a s -> account pkgs b t ->
  hex_literal s v -> hex_literal t w -> (equals_to pkgs a b false = true <-> v = w).
Proof.
  intros pkgs a b s t v w HW Ha Hb Hs Ht. apply (resolve_spec pkgs _ _ HW) in Ha, Hb. rewrite equals_to_spec.
  assert (U : forall s v, hex_literal s v -> s <> str "_") by (intros s' v' (ds & -> & _) H; discriminate H).
  rewrite <- (short_hex_iff s t v w Hs Ht). split.
  - intros [->|(x & y & H1 & H2 & _ & _ & H5)]; [congruence|]. congruence.
  - intros E. right. exists s, t. repeat split; eauto.
Qed.
Print Assumptions equals_to_numeric.

(** An address still to be assigned ("_") equals only itself, and so does an unknown name. *)
Theorem equals_to_unassigned : forall pkgs a b,
  (resolve_to_numeric_address pkgs a = None \/ resolve_to_numeric_address pkgs a = Some (str "_")) ->
  (equals_to pkgs a b false = true <-> a = b).
Proof.
  intros pkgs a b H. rewrite equals_to_spec. split; [|auto]. intros [E|(v & w & H1 & H2 & H3 & _)]; auto.
  destruct H as [H|H]; congruence.
Qed.
Print Assumptions equals_to_unassigned.

(** Completion only ever separates two different names. *)
Theorem equals_to_completion : forall pkgs a b, equals_to pkgs a b true =
  match a, b with Named x, Named y => text_eqb x y | _, _ => equals_to pkgs a b false end.
Proof.
  intros pkgs a b. unfold equals_to. destruct (address_eqb a b) eqn:E.
  - apply address_eqb_spec in E. subst. destruct b; auto. now rewrite text_eqb_refl.
  - rewrite andb_true_r, andb_false_r. destruct a as [x|x], b as [y|y];
      match goal with |- context [if ?c then _ else _] => destruct c eqn:F end; auto; now rewrite ?F.
Qed.
Print Assumptions equals_to_completion.

(** * Where the comparison departs from the numeric meaning *)
(** Completion-time comparison is not transitive. *)
Theorem completion_not_transitive_refuted : exists pkgs a b c,
  equals_to pkgs a b true = true /\ equals_to pkgs b c true = true /\ equals_to pkgs a c true = false.
Proof.
  exists [[(str "alice", str "0x42"); (str "bob", str "0x042")]], (Named (str "alice")), (Value (str "0x42")), (Named (str "bob")).
  repeat split; reflexivity.
Qed.
Print Assumptions completion_not_transitive_refuted.

(** Upper-case digits, and the decimal and hexadecimal spellings of one number, are kept apart. *)
Theorem case_sensitive_refuted : exists a b, a = str "0xA" /\ b = str "0xa" /\ forall pkgs, equals_to pkgs (Value a) (Value b) false = false.
Proof. eexists _, _. repeat split; reflexivity. Qed.
Print Assumptions case_sensitive_refuted.
Theorem decimal_kept_apart_refuted : forall pkgs, equals_to pkgs (Value (str "1")) (Value (str "0x1")) false = false.
Proof. reflexivity. Qed.
Print Assumptions decimal_kept_apart_refuted.
(** A decimal address with a leading zero is read as hexadecimal: 010 (ten) is identified with 0x10 (sixteen). *)
Theorem leading_zero_decimal_refuted : forall pkgs, equals_to pkgs (Value (str "010")) (Value (str "0x10")) false = true.
Proof. reflexivity. Qed.
Print Assumptions leading_zero_decimal_refuted.

Example ex_pkgs : list addr_map := [[(str "alice", str "0x42"); (str "me", str "_")]; [(str "alice", str "0x0ff"); (str "bob", str "0xff")]].
Example ex_pkgs_wf : well_formed ex_pkgs.
Proof. repeat constructor; cbn; intuition discriminate. Qed.
Example ex_account : account ex_pkgs (Named (str "alice")) (str "0x0ff") /\ account ex_pkgs (Named (str "bob")) (str "0xff").
Proof. split; apply resolve_spec; auto using ex_pkgs_wf. Qed.
Example ex_literal : hex_literal (str "0x0ff") 255 /\ hex_literal (str "0xff") 255.
Proof. split; [exists (str "0ff")|exists (str "ff")]; repeat split; discriminate. Qed.
Example ex_equal : equals_to ex_pkgs (Named (str "alice")) (Named (str "bob")) false = true /\
  equals_to ex_pkgs (Named (str "me")) (Named (str "bob")) false = false /\ equals_to ex_pkgs (Named (str "std")) (Value (str "0x0001")) false = true.
Proof. repeat split; reflexivity. Qed.
