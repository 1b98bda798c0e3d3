(** Independent specification of line ending handling. *)
From Verif Require Import Base LineEndingsModel.

(** Remove every CR that is directly followed by LF, and nothing else. *)
Fixpoint drop_cr_before_lf (t : text) : text :=
  match t with
  | [] => []
  | b :: t' =>
      match t' with
      | c :: _ => if (N.eqb b CR && N.eqb c LF)%bool then drop_cr_before_lf t'
                  else b :: drop_cr_before_lf t'
      | [] => [b]
      end
  end.

Definition has_crlf (t : text) : Prop := exists pre post, t = pre ++ CR :: LF :: post.
(** A line feed that does not follow a carriage return. *)
Definition has_bare_lf (t : text) : Prop :=
  exists pre post, t = pre ++ LF :: post /\ (pre = [] \/ exists p b, pre = p ++ [b] /\ b <> CR).
