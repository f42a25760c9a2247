(** Exact-real arithmetic with explicit non-finite outcomes, and finite sums. *)
From Coq Require Export Reals Lra.
From Verif Require Export Base.
Local Open Scope R_scope.

(** [a / b] on IEEE numbers: a zero divisor gives an infinity or a NaN. *)
Definition rdiv (a b : R) : res R := if Req_EM_T b 0 then NonFinite else Ok (a / b).
(** [std::sqrt]: NaN on negative arguments. *)
Definition rsqrt (a : R) : res R := if Rlt_dec a 0 then NonFinite else Ok (sqrt a).
(** [std::log]: -inf / NaN on non-positive arguments. *)
Definition rlog (a : R) : res R := if Rlt_dec 0 a then Ok (ln a) else NonFinite.

(** Sum of a list, and [f 0 + ... + f (n-1)]. *)
Fixpoint rsum (l : list R) : R :=
  match l with
  | [] => 0
  | x :: t => x + rsum t
  end.
Fixpoint sumf (f : nat -> R) (n : nat) : R :=
  match n with
  | O => 0
  | S k => sumf f k + f k
  end.

(** [std::accumulate(first, last, init, op)]. *)
Definition accumulate {A B : Type} (op : B -> A -> B) (init : B) (l : list A) : B :=
  fold_left op l init.
