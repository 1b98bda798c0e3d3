(** Claims about semantic tokens (properties C10, C11). *)
From Verif Require Import Base LspTextModel LspTextSpec LspTextProofs SemTokensModel SemTokensSpec SemTokensProofs.
Local Open Scope N_scope.

(** * C10 *)
(** Pushing single-line tokens in document order never underflows, and decoding gives them back. *)
Theorem token_encoding_decodes : forall l, sorted_from (0, 0) l ->
  exists b, push_all new_builder l = Ok b /\ decode 0 0 (data b) = map absolute l.
Proof.
  intros l H. destruct (push_all_ok l new_builder (0, 0)) as (ks & Hk & Hd); auto.
  eexists. split; [exact Hk|]. exact Hd.
Qed.

(** Whole pipeline: highlights given in document order (char-boundary ranges, not overlapping; they may
    span lines) are turned into tokens without a panic and the client sees, for each line touched by each
    highlight, one token at the right position, of the right length and type. *)
Theorem semantic_tokens_decode : forall enc t hs ks, expected enc t 0 hs ks ->
  exists data, semantic_tokens enc t hs = Ok data /\ decode 0 0 data = ks.
Proof.
  intros enc t hs ks H.
  destruct (loop_ranges _ _ _ _ _ H new_builder (0, 0)) as (rs & H1 & H2 & H3).
  - intros a b l c _ _ _. unfold pos_le. cbn [fst snd]. lia.
  - destruct (token_encoding_decodes rs H3) as (b & Hb & Hd).
    exists (data b). unfold semantic_tokens. rewrite H1, Hb. cbn [bind]. split; [reflexivity|congruence].
Qed.

(** Every such highlight list has an expected token list, so the theorem above is not vacuous. *)
Theorem expected_exists : forall enc t hs pos,
  Forall (fun h : hl => snd h <> None) hs ->
  (exists segs, length segs = length hs /\
     (fix ok (pos : N) (hs : list hl) (segs : list (ctext * ctext * ctext)) : Prop :=
        match hs, segs with
        | [], [] => True
        | (r, _) :: hs', (a, m, b) :: segs' =>
            t = a ++ m ++ b /\ r = (blen a, blen (a ++ m)) /\ pos <= blen a /\ ok (snd r) hs' segs'
        | _, _ => False
        end) pos hs segs) ->
  exists ks, expected enc t pos hs ks.
Proof.
  intros enc t hs. induction hs as [|[r o] hs IH]; intros pos Hf (segs & Hlen & Hok).
  - exists []. constructor.
  - destruct segs as [|[[a m] b] segs]; [discriminate|]. cbn [length] in Hlen.
    destruct Hok as (Ht & -> & Hpos & Hok). inversion Hf as [|? ? Hne Hf']; subst. cbn [snd] in *.
    destruct o as [ty|]; [|congruence].
    destruct (IH (blen (a ++ m)) Hf') as (ks' & Hks').
    { exists segs. split; [lia|exact Hok]. }
    assert (Hex : forall ps, exists ks, Forall2 (shows enc ty) ps ks).
    { induction ps as [|p ps (ks & IHp)]; [exists []; constructor|].
      destruct (cursor_exists enc (fst p)) as (l & c & Hc).
      eexists. constructor; [|exact IHp]. exists l, c. split; [exact Hc|reflexivity]. }
    destruct (Hex (line_pieces a [] m)) as (ks & Hks).
    exists (ks ++ ks'). eapply ex_cons with (b := b); eauto.
Qed.

(** Tokens out of order underflow (a panic with overflow checks, a wrapped delta without). *)
Theorem token_encoding_unsorted_refuted : exists l, push_all new_builder l = Panic.
Proof. exists [(((1, 0), (1, 1)), 7); (((0, 0), (0, 1)), 7)]. reflexivity. Qed.

Example semantic_tokens_case :
  (* "ab\n  cd" with one highlight spanning both lines and a second one on "d" *)
  let t := [97; 98; NL; 32; 32; 99; 100] in
  expected (Wide Utf16) t 0 [((1, 5), Some 3); ((5, 6), None); ((6, 7), Some 4)] [(0, 1, 1, 3, 0); (1, 0, 2, 3, 0); (1, 3, 1, 4, 0)] /\
  semantic_tokens (Wide Utf16) t [((1, 5), Some 3); ((5, 6), None); ((6, 7), Some 4)]
    = Ok [mkToken 0 1 1 3 0; mkToken 1 0 2 3 0; mkToken 0 3 1 4 0].
Proof.
  cbn zeta. split; [|reflexivity].
  assert (K : forall ls x, Forall no_nl ls -> no_nl x -> cursor (Wide Utf16) (unl ls ++ x) (N.of_nat (length ls)) (units (Wide Utf16) x))
    by (apply cursor_intro).
  apply (ex_cons (Wide Utf16) _ 0 [97] [98; NL; 32; 32] [99; 100] 3
           [((5, 6), None); ((6, 7), Some 4)] [(0, 1, 1, 3, 0); (1, 0, 2, 3, 0)] [(1, 3, 1, 4, 0)]); [reflexivity|cbn; lia| |].
  - constructor; [|constructor; [|constructor]].
    + exists 0, 1. split; [|reflexivity]. apply (K [] [97]); [constructor|]. intros [H|[]]; discriminate.
    + exists 1, 0. split; [|reflexivity]. apply (K [[97; 98]] []); [|intros []].
      constructor; [|constructor]. intros [H|[H|[]]]; discriminate.
  - apply ex_skip.
    apply (ex_cons (Wide Utf16) _ _ [97; 98; NL; 32; 32; 99] [100] [] 4 [] [(1, 3, 1, 4, 0)] []); [reflexivity|cbn; lia| |constructor].
    constructor; [|constructor]. exists 1, 3. split; [|reflexivity].
    apply (K [[97; 98]] [32; 32; 99]).
    + constructor; [|constructor]. intros [H|[H|[]]]; discriminate.
    + intros [H|[H|[H|[]]]]; discriminate.
Qed.

(** * C11 *)
Theorem token_delta_reconstructs : forall old new,
  fold_left apply_tokens_edit (diff_tokens old new) (flat old) = flat new.
Proof.
  intros old new. destruct (diff_shape old new) as (p & s & o & n & -> & -> & Hd). rewrite Hd.
  assert (G : apply_tokens_edit (flat (p ++ o ++ s)) (mkEdit (5 * N.of_nat (length p)) (5 * N.of_nat (length o)) n)
              = flat (p ++ n ++ s)).
  { unfold apply_tokens_edit. cbn [ed_start ed_delete ed_data]. rewrite !flat_app.
    replace (N.to_nat (5 * N.of_nat (length p))) with (length (flat p)) by (rewrite flat_length; lia).
    replace (N.to_nat (5 * N.of_nat (length p) + 5 * N.of_nat (length o))) with (length (flat p ++ flat o))
      by (rewrite app_length, !flat_length; lia).
    rewrite firstn_app, firstn_all, Nat.sub_diag, firstn_O, app_nil_r.
    rewrite (app_assoc (flat p) (flat o) (flat s)), skipn_app, skipn_all, Nat.sub_diag. reflexivity. }
  destruct o as [|o0 o]; destruct n as [|n0 n]; cbn [fold_left]; try exact G. reflexivity.
Qed.

Theorem token_delta_empty_iff : forall old new, diff_tokens old new = [] <-> old = new.
Proof.
  intros old new. split.
  - intros H. destruct (diff_shape old new) as (p & s & o & n & -> & -> & Hd). rewrite Hd in H.
    destruct o; destruct n; try discriminate. reflexivity.
  - intros <-. destruct (diff_shape old old) as (p & s & o & n & H1 & H2 & Hd).
    unfold diff_tokens. rewrite common_prefix_refl, skipn_all. reflexivity.
Qed.

(** The delta is minimal at both ends: the replaced and the new middle part differ in their first
    token and in their last token (when both are non-empty). *)
Theorem token_delta_at_most_one_edit : forall old new, (length (diff_tokens old new) <= 1)%nat.
Proof.
  intros old new. destruct (diff_shape old new) as (p & s & o & n & _ & _ & ->).
  destruct o; destruct n; cbn; lia.
Qed.

Example token_delta_case :
  let k n := mkToken 0 n 1 2 0 in
  diff_tokens [k 1; k 1; k 2] [k 1; k 1; k 1; k 2] = [mkEdit 10 0 [k 1]].
Proof. reflexivity. Qed.

Print Assumptions token_encoding_decodes.
Print Assumptions semantic_tokens_decode.
Print Assumptions expected_exists.
Print Assumptions token_encoding_unsorted_refuted.
Print Assumptions token_delta_reconstructs.
Print Assumptions token_delta_empty_iff.
Print Assumptions token_delta_at_most_one_edit.
