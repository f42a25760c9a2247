(** Signals as lists of samples, zero before the start. *)
From Verif Require Import RealBase.
Local Open Scope R_scope.

(** The sample [j] steps before sample number [k] of the stream [xs]. *)
Definition past (xs : list R) (k j : nat) : R := if (j <=? k)%nat then nth (k - j) xs 0 else 0.

(** Pointwise [a*x + b*y] of two signals. *)
Fixpoint lincomb (a b : R) (xs ys : list R) : list R :=
  match xs, ys with
  | x :: xs', y :: ys' => (a * x + b * y) :: lincomb a b xs' ys'
  | _, _ => []
  end.

(** The unit impulse of length [n + 1]: 1, 0, ..., 0. *)
Definition impulse (n : nat) : list R := 1 :: repeat 0 n.

(** Linear convolution of two sequences: sum over [j <= k] of [h j * x (k - j)]. *)
Definition convf (h x : nat -> R) (k : nat) : R := sumf (fun j => h j * x (k - j)%nat) (k + 1).
