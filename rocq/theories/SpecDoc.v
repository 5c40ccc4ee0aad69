(** Specification side for documentation comments: how TypeScript reads a block comment. *)
From Verif Require Export Base.

Definition occurs (p s : string) : Prop := exists a b, s = a +++ p +++ b.
(** A block comment opens with slash-star and ends at the first star-slash after that; [rest] follows it *)
Definition comment_then (s rest : string) : Prop :=
  exists body, s = "/*" +++ body +++ "*/" +++ rest /\ ~ occurs "*/" (body +++ "*").
(** [k] terminators in a row *)
Fixpoint terminators (k : nat) : string := match k with O => "" | S n => "*/" +++ terminators n end.
