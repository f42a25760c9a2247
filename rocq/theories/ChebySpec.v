(** Chebyshev polynomials of the first kind. *)
From Coq Require Import Reals.
Local Open Scope R_scope.

Fixpoint cheb_pair (n : nat) (x : R) : R * R :=
  match n with
  | O => (1, x)
  | S m => let (a, b) := cheb_pair m x in (b, 2 * x * b - a)
  end.
(** T_0 = 1, T_1 = x, T_(n+2) = 2 x T_(n+1) - T_n. *)
Definition cheb (n : nat) (x : R) : R := fst (cheb_pair n x).
