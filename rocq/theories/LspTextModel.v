(** Positions and document synchronisation.

    Models crates/aptos-language-server/src/lsp/{from_proto,to_proto,utils}.rs on top of the external
    crate line-index 0.1 (its functions are re-modelled here from its source; they are not part of
    /repo).  A Rust [String] is a list of scalar values here, so UTF-8 validity is intrinsic and a
    byte offset is a sum of encoded lengths. *)
From Verif Require Import Base.
Local Open Scope N_scope.

Definition char := N.
Definition ctext := list char.
Definition NL : char := 10.
Definition u32_max : N := 4294967295.

(** [char::len_utf8], [char::len_utf16] *)
Definition len8 (c : char) : N :=
  if c <? 128 then 1 else if c <? 2048 then 2 else if c <? 65536 then 3 else 4.
Definition blen (t : ctext) : N := fold_right (fun c n => len8 c + n) 0 t.

(** line_index::WideEncoding; aptos-language-server/src/line_index.rs:11-14 [PositionEncoding]. *)
Inductive wide_encoding := Utf16 | Utf32.
Inductive encoding := Utf8 | Wide (e : wide_encoding).

(** line_index::WideChar, offsets relative to the start of the line *)
Record wide_char := mkWide { wc_start : N; wc_end : N }.
Definition wc_len (c : wide_char) : N := wc_end c - wc_start c.
Definition wide_len (c : wide_char) (e : wide_encoding) : N :=
  match e with Utf16 => if wc_len c =? 4 then 2 else 1 | Utf32 => 1 end.

(** line_index::LineIndex: offsets just after each newline, the multi-byte characters of each line,
    and the length of the text. *)
Record line_index := mkIndex { newlines : list N; wide : list (list wide_char); li_len : N }.

(** line_index::analyze_source_file (generic path; the SIMD path is not modelled). Returns the line
    starts, the wide characters of the current line and those of the following lines. *)
Fixpoint analyze (t : ctext) (pos line_start : N) : list N * list wide_char * list (list wide_char) :=
  match t with
  | [] => ([], [], [])
  | c :: t' =>
      if c =? NL then
        let '(nl, w, ws) := analyze t' (pos + 1) (pos + 1) in (pos + 1 :: nl, [], w :: ws)
      else
        let '(nl, w, ws) := analyze t' (pos + len8 c) line_start in
        if 1 <? len8 c
        then (nl, mkWide (pos - line_start) (pos - line_start + len8 c) :: w, ws)
        else (nl, w, ws)
  end.

(** line_index::LineIndex::new *)
Definition new_index (t : ctext) : line_index :=
  let '(nl, w, ws) := analyze t 0 0 in mkIndex nl (w :: ws) (blen t).

(** line_index::LineIndex::start_offset *)
Definition start_offset (i : line_index) (line : N) : option N :=
  if line =? 0 then Some 0 else nth_error (newlines i) (N.to_nat (line - 1)).

(** line_index::LineIndex::line *)
Definition line (i : line_index) (l : N) : option (N * N) :=
  match start_offset i l with
  | None => None
  | Some start =>
      let next := match nth_error (newlines i) (N.to_nat l) with Some n => n | None => li_len i end in
      Some (start, next)
  end.

Definition line_wide (i : line_index) (l : N) : list wide_char :=
  match nth_error (wide i) (N.to_nat l) with Some w => w | None => [] end.

(** [partition_point(|it| it <= o)]; the list is sorted, so counting the leading run is the same. *)
Fixpoint count_le (l : list N) (o : N) : N :=
  match l with
  | [] => 0
  | x :: l' => if x <=? o then 1 + count_le l' o else 0
  end.

(** line_index::LineIndex::line_col; panics ("invalid offset") past the end. *)
Definition line_col (i : line_index) (o : N) : res (N * N) :=
  if li_len i <? o then Panic
  else let l := count_le (newlines i) o in
       match start_offset i l with
       | None => Panic
       | Some start => if start <=? o then Ok (l, o - start) else Panic
       end.

(** line_index::LineIndex::to_wide: [orig] is the byte column, [col] the running result. *)
Fixpoint to_wide_loop (e : wide_encoding) (ws : list wide_char) (orig col : N) : option N :=
  match ws with
  | [] => Some col
  | c :: ws' =>
      if wc_end c <=? orig
      then (let d := wc_len c - wide_len c e in
            if d <=? col then to_wide_loop e ws' orig (col - d) else None)
      else Some col
  end.

(** line_index::LineIndex::to_utf8 *)
Fixpoint to_utf8_loop (e : wide_encoding) (ws : list wide_char) (col : N) : option N :=
  match ws with
  | [] => Some col
  | c :: ws' =>
      if wc_start c <? col
      then (let col' := col + (wc_len c - wide_len c e) in
            if col' <=? u32_max then to_utf8_loop e ws' col' else None)
      else Some col
  end.

(** to_proto.rs:39-48 [lsp_position] ([to_wide(..).unwrap()]) *)
Definition lsp_position (enc : encoding) (i : line_index) (o : N) : res (N * N) :=
  match line_col i o with
  | Panic => Panic
  | Ok (l, col) =>
      match enc with
      | Utf8 => Ok (l, col)
      | Wide e => match to_wide_loop e (line_wide i l) col col with
                  | Some c => Ok (l, c)
                  | None => Panic
                  end
      end
  end.

(** from_proto.rs:29-61 [offset]; [None] is the Err case. The logged clamp is kept. *)
Definition offset (enc : encoding) (i : line_index) (pos : N * N) : option N :=
  let '(l, col0) := pos in
  match (match enc with
         | Utf8 => Some col0
         | Wide e => to_utf8_loop e (line_wide i l) col0
         end) with
  | None => None
  | Some col =>
      match line i l with
      | None => None
      | Some (start, next) => Some (start + N.min col (next - start))
      end
  end.

(** from_proto.rs:63-70 [text_range] *)
Definition text_range (enc : encoding) (i : line_index) (r : (N * N) * (N * N)) : option (N * N) :=
  match offset enc i (fst r) with
  | None => None
  | Some s => match offset enc i (snd r) with
              | None => None
              | Some e => if e <? s then None else Some (s, e)
              end
  end.

(** Splitting a string at a byte offset; [None] when the offset is not a character boundary or lies
    beyond the end (Rust panics there). *)
Fixpoint split_at (t : ctext) (o : N) : option (ctext * ctext) :=
  if o =? 0 then Some ([], t)
  else match t with
       | [] => None
       | c :: t' => if len8 c <=? o
                    then match split_at t' (o - len8 c) with
                         | Some (a, b) => Some (c :: a, b)
                         | None => None
                         end
                    else None
       end.

(** [String::replace_range(s..e, new)] *)
Definition replace_range (t : ctext) (s e : N) (new : ctext) : res ctext :=
  if e <? s then Panic
  else match split_at t s with
       | None => Panic
       | Some (a, r) => match split_at r (e - s) with
                        | None => Panic
                        | Some (_, b) => Ok (a ++ new ++ b)
                        end
       end.

(** lsp_types::TextDocumentContentChangeEvent *)
Inductive change :=
| Partial (range : (N * N) * (N * N)) (new : ctext)
| Whole (new : ctext).

Definition partial_change := (((N * N) * (N * N)) * ctext)%type.

(** utils.rs:194-207, the [rev().try_fold]: partial changes after the last whole-document change, in
    reverse order, and that change's text if there is one. *)
Fixpoint scan_back (rev_changes : list change) (acc : list partial_change) : option ctext * list partial_change :=
  match rev_changes with
  | [] => (None, acc)
  | Partial r new :: cs => scan_back cs (acc ++ [(r, new)])
  | Whole t :: _ => (Some t, acc)
  end.

(** utils.rs:233-241: the loop with the lazily rebuilt index. *)
Fixpoint sync_loop (enc : encoding) (cs : list partial_change) (t : ctext) (i : line_index) (index_valid : N) : res ctext :=
  match cs with
  | [] => Ok t
  | (r, new) :: cs' =>
      let i' := if index_valid <=? fst (snd r) then new_index t else i in
      let valid' := fst (fst r) in
      match text_range enc i' r with
      | None => sync_loop enc cs' t i' valid'
      | Some (s, e) => match replace_range t s e new with
                       | Panic => Panic
                       | Ok t' => sync_loop enc cs' t' i' valid'
                       end
      end
  end.

(** utils.rs:186-243 [apply_document_changes] *)
Definition apply_document_changes (enc : encoding) (contents : ctext) (changes : list change) : res ctext :=
  let '(whole, r_partial) := scan_back (rev changes) [] in
  let t := match whole with Some w => w | None => contents end in
  match r_partial with
  | [] => Ok t
  | _ => sync_loop enc (rev r_partial) t (new_index t) u32_max
  end.
