(** Claims about document synchronisation and positions (properties C07, C08). *)
From Verif Require Import Base LspTextModel LspTextSpec LspTextProofs LspTextProofs2.
Local Open Scope N_scope.

(** * C08: positions *)

(** Offset to position: the reported position is the protocol's cursor position, and the conversion
    never panics on a character boundary. *)
Theorem position_of_offset : forall enc a b l c, cursor enc a l c ->
  lsp_position enc (new_index (a ++ b)) (blen a) = Ok (l, c).
Proof. exact lsp_position_cursor. Qed.

(** Position to offset: a protocol position decodes to its offset. *)
Theorem offset_of_position : forall enc a b l c, blen (a ++ b) <= u32_max -> cursor enc a l c ->
  offset enc (new_index (a ++ b)) (l, c) = Some (blen a).
Proof. exact offset_cursor. Qed.

Theorem position_round_trip : forall enc a b, blen (a ++ b) <= u32_max ->
  exists p, lsp_position enc (new_index (a ++ b)) (blen a) = Ok p /\
            offset enc (new_index (a ++ b)) p = Some (blen a).
Proof.
  intros enc a b H. destruct (cursor_exists enc a) as (l & c & Hc). exists (l, c).
  split; [now apply position_of_offset|now apply offset_of_position].
Qed.

(** Any decoded position lies inside the document and on the named line or at its end. *)
Theorem decoded_position_on_line : forall enc t l c o, offset enc (new_index t) (l, c) = Some o ->
  exists a x b, is_line t l a x b /\
    blen a <= o <= blen a + blen x + (match b with [] => 0 | _ => 1 end).
Proof. exact offset_on_line. Qed.

Theorem decoded_position_in_document : forall enc t p o, offset enc (new_index t) p = Some o -> o <= blen t.
Proof. intros enc t [l c] o H. destruct (offset_bounds _ _ _ _ _ H) as (x & _ & _ & Hb). exact Hb. Qed.

(** A decoded position is a character boundary unless the column points inside a character. *)
Theorem decoded_position_boundary : forall enc t l c o, offset enc (new_index t) (l, c) = Some o ->
  ~ inside_char enc t l c -> exists a b, t = a ++ b /\ blen a = o.
Proof. exact offset_boundary. Qed.

(** A column past the end of a line is moved past the line's newline, not to the end of the line as the
    protocol asks: on the text [a \n b], (0, 9) decodes to offset 2, the start of line 1. *)
Theorem clamp_to_line_end_refuted : exists enc t l c o a x b,
  is_line t l a x b /\ units enc x < c /\ offset enc (new_index t) (l, c) = Some o /\ o <> blen a + blen x.
Proof.
  exists (Wide Utf16), [97; NL; 98], 0, 9, 2, [], [97], [NL; 98].
  repeat split; try reflexivity; try discriminate.
  - constructor.
  - intros [H|[]]. discriminate.
  - right. eexists. reflexivity.
Qed.

(** A UTF-16 column between the two halves of a surrogate pair decodes to an offset inside the
    character, and applying a change there panics. *)
Theorem inside_char_panics_refuted : exists enc t l c new,
  inside_char enc t l c /\
  apply_document_changes enc t [Partial ((l, c), (l, c)) new] = Panic.
Proof.
  exists (Wide Utf16), [128512], 0, 1, [120]. split; [|reflexivity].
  exists [], [128512], [], [], 128512, []. repeat split; try reflexivity; try (cbn; lia).
  - constructor.
  - intros [H|[]]. discriminate.
  - now left.
Qed.

Example position_case :
  (* text: x \n é 😀 y ; the offset after the emoji is 2 + 2 + 4 = 8, i.e. line 1, UTF-16 column 3 *)
  let t := [120; NL; 233; 128512; 121] in
  lsp_position (Wide Utf16) (new_index t) 8 = Ok (1, 3) /\
  lsp_position (Wide Utf32) (new_index t) 8 = Ok (1, 2) /\
  lsp_position Utf8 (new_index t) 8 = Ok (1, 6) /\
  offset (Wide Utf16) (new_index t) (1, 3) = Some 8 /\
  cursor (Wide Utf16) [120; NL; 233; 128512] 1 3.
Proof.
  cbn zeta. repeat split; try reflexivity.
  apply (cursor_intro (Wide Utf16) [[120]] [233; 128512]).
  - constructor; [|constructor]. intros [H|[]]. discriminate.
  - intros [H|[H|[]]]; discriminate.
Qed.

(** * C07: incremental synchronisation *)

(** For protocol-conforming changes the server's text is the protocol's text. *)
Theorem document_sync_follows_protocol : forall enc t cs t',
  applied_all enc t cs t' -> apply_document_changes enc t cs = Ok t'.
Proof.
  intros enc t cs t' H.
  assert (Hord : Forall lines_ordered cs).
  { clear -H. induction H; constructor; auto. eapply applied_ordered; eauto. }
  destruct (split_last_whole cs) as [(ps & ->)|(pre & w & ps & ->)].
  - rewrite apply_no_whole by (now apply map_ordered). now apply applied_sequential.
  - apply Forall_app in Hord. destruct Hord as [_ Hord]. inversion Hord; subst.
    rewrite apply_whole by (now apply map_ordered).
    destruct (applied_all_app _ _ _ _ _ H) as (t0 & H0). inversion H0; subst.
    match goal with A : applied _ _ _ _ |- _ => inversion A; subst end.
    now apply applied_sequential.
Qed.

(** For arbitrary changes (also ones with invalid positions) whose ranges do not run backwards over
    lines, the lazily rebuilt line table gives the same result, panics included, as rebuilding it before
    every change; everything up to the last whole-document change is irrelevant. *)
Theorem document_sync_sequential : forall enc t ps,
  Forall lines_ordered ps -> ~ has_whole ps ->
  apply_document_changes enc t ps = sequential enc t ps.
Proof.
  intros enc t ps H Hw. destruct (split_last_whole ps) as [(qs & ->)|(pre & w & qs & ->)].
  - apply apply_no_whole. now apply map_ordered.
  - exfalso. apply Hw. exists w. apply in_or_app. right. now left.
Qed.

Theorem document_sync_last_whole : forall enc t pre w ps,
  Forall lines_ordered ps -> ~ has_whole ps ->
  apply_document_changes enc t (pre ++ Whole w :: ps) = sequential enc w ps.
Proof.
  intros enc t pre w ps H Hw. destruct (split_last_whole ps) as [(qs & ->)|(pre' & w' & qs & ->)].
  - apply apply_whole. now apply map_ordered.
  - exfalso. apply Hw. exists w'. apply in_or_app. right. now left.
Qed.

(** With UTF-32 columns no such change list can panic. *)
Theorem document_sync_utf32_total : forall t cs,
  Forall lines_ordered cs -> exists t', apply_document_changes (Wide Utf32) t cs = Ok t'.
Proof.
  intros t cs H. destruct (split_last_whole cs) as [(ps & ->)|(pre & w & ps & ->)].
  - rewrite apply_no_whole by (now apply map_ordered). apply sequential_utf32_total.
  - apply Forall_app in H. destruct H as [_ H]. inversion H; subst.
    rewrite apply_whole by (now apply map_ordered). apply sequential_utf32_total.
Qed.

(** Without the ordering condition the lazily rebuilt table is stale: an insertion at line 1, a
    (rejected) change from line 9 back to line 0, then an insertion at line 3. *)
Theorem document_sync_backwards_refuted : exists enc t cs t1 t2,
  apply_document_changes enc t cs = Ok t1 /\ sequential enc t cs = Ok t2 /\ t1 <> t2.
Proof.
  exists Utf8, [97; NL; 98; NL; 99; NL; 100; NL],
    [Partial ((1, 0), (1, 0)) [120; 120; NL]; Partial ((9, 0), (0, 0)) []; Partial ((3, 0), (3, 0)) [121]].
  eexists. eexists. split; [vm_compute; reflexivity|]. split; [vm_compute; reflexivity|discriminate].
Qed.

Example document_sync_case :
  (* "ab\ncd": replace "b\nc" by "é", then insert a line, then edit on it; UTF-16 *)
  let cs := [Partial ((0, 1), (1, 1)) [233]; Partial ((0, 2), (0, 2)) [NL; 120]; Partial ((1, 1), (1, 1)) [121]] in
  applied_all (Wide Utf16) [97; 98; NL; 99; 100] cs [97; 233; NL; 120; 121; 100] /\
  apply_document_changes (Wide Utf16) [97; 98; NL; 99; 100] cs = Ok [97; 233; NL; 120; 121; 100].
Proof.
  cbn zeta. split; [|reflexivity].
  assert (K : forall ls x, Forall no_nl ls -> no_nl x -> cursor (Wide Utf16) (unl ls ++ x) (N.of_nat (length ls)) (units (Wide Utf16) x))
    by (apply cursor_intro).
  apply aa_cons with (t' := [97; 233; 100]); [reflexivity| |
    apply aa_cons with (t' := [97; 233; NL; 120; 100]); [reflexivity| |
    eapply aa_cons; [reflexivity| |apply aa_nil]]].
  - apply (applied_partial _ [97] [98; NL; 99] [100] [233]).
    + apply (K [] [97]); repeat constructor. intros [H|[]]; discriminate.
    + apply (K [[97; 98]] [99]).
      * repeat constructor. intros [H|[H|[]]]; discriminate.
      * intros [H|[]]; discriminate.
  - apply (applied_partial _ [97; 233] [] [100] [NL; 120]).
    + apply (K [] [97; 233]); repeat constructor. intros [H|[H|[]]]; discriminate.
    + apply (K [] [97; 233]); repeat constructor. intros [H|[H|[]]]; discriminate.
  - apply (applied_partial _ [97; 233; NL; 120] [] [100] [121]).
    + apply (K [[97; 233]] [120]).
      * repeat constructor. intros [H|[H|[]]]; discriminate.
      * intros [H|[]]; discriminate.
    + apply (K [[97; 233]] [120]).
      * repeat constructor. intros [H|[H|[]]]; discriminate.
      * intros [H|[]]; discriminate.
Qed.

Print Assumptions position_of_offset.
Print Assumptions offset_of_position.
Print Assumptions position_round_trip.
Print Assumptions decoded_position_on_line.
Print Assumptions decoded_position_in_document.
Print Assumptions decoded_position_boundary.
Print Assumptions clamp_to_line_end_refuted.
Print Assumptions inside_char_panics_refuted.
Print Assumptions document_sync_follows_protocol.
Print Assumptions document_sync_sequential.
Print Assumptions document_sync_last_whole.
Print Assumptions document_sync_utf32_total.
Print Assumptions document_sync_backwards_refuted.
