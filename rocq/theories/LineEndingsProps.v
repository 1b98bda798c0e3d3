(** Claims about crates/stdext/src/line_endings.rs (properties C05, C06). *)
From Verif Require Import Base LineEndingsModel LineEndingsSpec LineEndingsProofs.

(** * C05 *)
(** The in-place loop terminates within |src|+1 iterations, never goes out of bounds, removes exactly
    the CR of each CRLF and reports Dos exactly when there is a CRLF. *)
Theorem normalize_exact : forall src,
  exists e, (forall fuel, length src < fuel ->
               normalize fuel src = Some (Ok (drop_cr_before_lf src, e))) /\
            (e = Dos <-> has_crlf src).
Proof.
  intros src. destruct (normalize_correct (S (length src)) src (Nat.lt_succ_diag_r _)) as [[H _]|(H & Hd & _)].
  - exists Dos. split; [|tauto]. intros fuel Hf.
    destruct (normalize_correct fuel src Hf) as [[_ H']|[H' _]]; [exact H'|tauto].
  - exists Unix. split; [|split; [discriminate|tauto]]. intros fuel Hf.
    destruct (normalize_correct fuel src Hf) as [[H' _]|(_ & H1 & H2)]; [tauto|].
    now rewrite H1.
Qed.

(** A text without any CR that is doubled before an LF is stable after one normalisation. *)
Theorem normalize_idempotent_partial : forall src,
  ~ (exists pre post, src = pre ++ CR :: CR :: LF :: post) ->
  drop_cr_before_lf (drop_cr_before_lf src) = drop_cr_before_lf src.
Proof.
  intros src H.
  assert (G : ~ has_crlf (drop_cr_before_lf src)).
  { revert H. induction src as [|b src IH]; intros H (pre & post & Heq).
    - destruct pre; discriminate.
    - assert (H' : ~ (exists pre post, src = pre ++ CR :: CR :: LF :: post)).
      { intros (p & q & ->). apply H. exists (b :: p), q. reflexivity. }
      rewrite drop_cons in Heq. destruct src as [|c src].
      + destruct pre as [|? [|? ?]]; discriminate.
      + destruct (N.eqb b CR && N.eqb c LF)%bool eqn:E.
        * apply (IH H'). exists pre, post. exact Heq.
        * destruct pre as [|x pre]; cbn [app] in Heq.
          -- assert (Hb : b = CR) by congruence. subst b. apply (f_equal (@tl _)) in Heq. cbn [tl] in Heq.
             rewrite drop_cons in Heq.
             destruct src as [|d src].
             ++ assert (Hc : c = LF) by congruence. subst c. cbn in E. discriminate.
             ++ destruct (N.eqb c CR && N.eqb d LF)%bool eqn:E2.
                ** apply andb_true_iff in E2. destruct E2 as [E2 E3].
                   apply N.eqb_eq in E2. apply N.eqb_eq in E3. subst.
                   apply H. exists [], src. reflexivity.
                ** assert (Hc : c = LF) by congruence. subst c. cbn in E. discriminate.
          -- apply (f_equal (@tl _)) in Heq. cbn [tl] in Heq. apply (IH H'). exists pre, post. exact Heq. }
  destruct (find_crlf (drop_cr_before_lf src)) eqn:E.
  - exfalso. apply G. apply find_crlf_iff. congruence.
  - now apply find_crlf_none.
Qed.

(** Refuted part of C05: CR CR LF normalises to CR LF, which normalises further. *)
Theorem normalize_idempotent_refuted :
  exists src once twice,
    normalize 10 src = Some (Ok (once, Dos)) /\ normalize 10 once = Some (Ok (twice, Dos)) /\
    once <> twice.
Proof. exists [CR; CR; LF], [CR; LF], [LF]. repeat split; try reflexivity. discriminate. Qed.

Example normalize_case :
  (* "a\r\nb\r\n\n\rc\r\n" *)
  normalize 20 [97; CR; LF; 98; CR; LF; LF; CR; 99; CR; LF]%N =
  Some (Ok ([97; LF; 98; LF; LF; CR; 99; LF]%N, Dos)).
Proof. vm_compute. reflexivity. Qed.

(** * C06 *)
Theorem line_endings_round_trip_iff : forall src out e,
  normalize (S (length src)) src = Some (Ok (out, e)) ->
  (map_endings e out = src <-> ~ (has_crlf src /\ has_bare_lf src)).
Proof.
  intros src out e H.
  destruct (normalize_correct (S (length src)) src (Nat.lt_succ_diag_r _)) as [[Hc H']|(Hc & Hd & H')];
    rewrite H' in H; injection H as <- <-.
  - split.
    + intros Heq [_ Hb]. rewrite <- Heq in Hb. now apply map_dos_no_bare in Hb.
    + intros Hn. apply dos_round_trip. apply no_bare_lf_iff. tauto.
  - cbn. tauto.
Qed.

Example line_endings_round_trip_case :
  let src := [97; CR; LF; CR; CR; LF; 98]%N in
  ~ (has_crlf src /\ has_bare_lf src) /\
  exists out e, normalize 8 src = Some (Ok (out, e)) /\ map_endings e out = src.
Proof.
  cbn zeta. split.
  - intros [_ (pre & post & H & Hb)].
    destruct pre as [|? [|? [|? [|? [|? [|? [|? [|? ?]]]]]]]]; cbn in H; try discriminate;
      injection H; intros; subst; destruct Hb as [Hb|(p & b & Hb & Hne)]; try discriminate;
      destruct p as [|? [|? [|? [|? [|? [|? ?]]]]]]; cbn in Hb; try discriminate; injection Hb; intros; subst; congruence.
  - exists [97; LF; CR; LF; 98]%N, Dos. split; vm_compute; reflexivity.
Qed.

(** A file with both styles is rewritten. *)
Theorem line_endings_mixed_refuted :
  exists src out e, normalize 10 src = Some (Ok (out, e)) /\ map_endings e out <> src.
Proof.
  exists [97; CR; LF; 98; LF]%N, [97; LF; 98; LF]%N, Dos. split; vm_compute; [reflexivity|discriminate].
Qed.

Print Assumptions normalize_exact.
Print Assumptions normalize_idempotent_partial.
Print Assumptions normalize_idempotent_refuted.
Print Assumptions line_endings_round_trip_iff.
Print Assumptions line_endings_mixed_refuted.
