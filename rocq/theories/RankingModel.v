(** Model of the relevance score of completion items: crates/ide-completion/src/item.rs:100-200 and its
    use in crates/aptos-language-server/src/lsp/to_proto.rs:386-391, 498-511. *)
From Verif Require Import Base.
Open Scope N_scope.

(** item.rs:129-150 [CompletionRelevanceTypeMatch] *)
Inductive type_match := CouldUnify | Exact.

(** item.rs:100-127 [CompletionRelevance] *)
Record relevance := mkRel {
  exact_name_match : bool;
  type_match_ : option type_match;
  is_local : bool;
  is_out_of_scope : bool
}.

Definition u32_max : N := 4294967295.

(** u32 addition with overflow check *)
Definition add_u32 (a b : N) : res N := if a + b <=? u32_max then Ok (a + b) else Panic.

(** item.rs:162 [BASE_SCORE] = u32::MAX / 2 *)
Definition BASE_SCORE : N := u32_max / 2.

(** item.rs:164-193 [score] *)
Definition score (r : relevance) : res N :=
  let s0 := BASE_SCORE in
  bind (if is_local r then add_u32 s0 1 else Ok s0) (fun s1 =>
  bind (if negb (is_out_of_scope r) then add_u32 s1 100 else Ok s1) (fun s2 =>
  bind (if exact_name_match r then add_u32 s2 20 else Ok s2) (fun s3 =>
  add_u32 s3 (match type_match_ r with Some Exact => 18 | Some CouldUnify => 5 | None => 0 end)))).

(** item.rs:198-200 [is_relevant] *)
Definition is_relevant (r : relevance) : res bool := bind (score r) (fun s => Ok (BASE_SCORE <? s)).

(** [format!("{:08x}")]: lower-case hexadecimal digits as ASCII codes, padded with zeros to eight. *)
Definition hex_digit (d : N) : N := if d <? 10 then 48 + d else 87 + d.
Fixpoint hex_digits (width : nat) (n : N) : list N :=
  match width with
  | O => []
  | S w => hex_digits w (n / 16) ++ [hex_digit (n mod 16)]
  end.

(** to_proto.rs:387-391: max of the scores, 0 if there are none *)
Fixpoint max_relevance (rs : list relevance) : res N :=
  match rs with
  | [] => Ok 0
  | r :: rs' => bind (score r) (fun s => bind (max_relevance rs') (fun m => Ok (N.max s m)))
  end.

(** to_proto.rs:498-511 [set_score]: preselect flag and sort text *)
Definition set_score (max_rel : N) (r : relevance) : res (bool * list N) :=
  bind (is_relevant r) (fun rel => bind (score r) (fun s =>
  Ok (rel && (s =? max_rel), hex_digits 8 (N.lxor s u32_max)))).

(** to_proto.rs:379-410 [completion_items], scores only *)
Fixpoint map_res {A B} (f : A -> res B) (l : list A) : res (list B) :=
  match l with
  | [] => Ok []
  | a :: l' => bind (f a) (fun b => bind (map_res f l') (fun l'' => Ok (b :: l'')))
  end.
Definition completion_scores (rs : list relevance) : res (list (bool * list N)) :=
  bind (max_relevance rs) (fun m => map_res (set_score m) rs).
