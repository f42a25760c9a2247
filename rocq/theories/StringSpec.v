(** Specification of the string functions. *)
From Verif Require Export Base.
Local Open Scope Z_scope.

(** [s] is made of the items [l], maximal runs without [d], separated and surrounded by [d]s. *)
Inductive runs (d : Z) : list Z -> list (list Z) -> Prop :=
| runs_end : forall ds, Forall (eq d) ds -> runs d ds []
| runs_last : forall ds x, Forall (eq d) ds -> x <> [] -> ~ In d x -> runs d (ds ++ x) [x]
| runs_item : forall ds x s l, Forall (eq d) ds -> x <> [] -> ~ In d x -> runs d s l -> runs d (ds ++ x ++ [d] ++ s) (x :: l).

Definition space (c : Z) : Prop := c = 32 \/ 9 <= c <= 13.
Definition char_ok (c : Z) : Prop := -1 <= c <= 127.
(** [r] is [s] without its surrounding white space. *)
Definition trimmed (s r : list Z) : Prop := exists a b, s = a ++ r ++ b /\ Forall space a /\ Forall space b /\
  (forall c t, r = c :: t -> ~ space c) /\ (forall c t, r = t ++ [c] -> ~ space c).
