(** Model of some algorithms on ranges of int: sums, products, magnitudes and quotients out of the range
    of int are undefined.  Simplification: a range longer than the largest int is undefined too (its
    length does not fit the conversion to the value type). *)
From Coq Require Import ZArith List Bool.
From Verif Require Import Base.
Import ListNotations.
Local Open Scope Z_scope.
Local Open Scope res_scope.

(** The result of an operation of type int: used by every function below. *)
Definition int_op (z : Z) : res Z := if (- 2 ^ 31 <=? z) && (z <? 2 ^ 31) then Ok z else UB.
(** Division truncates; by zero it is undefined (include/edsp/statistics/mean.hpp:47, include/edsp/algorithm/normalize.hpp:50). *)
Definition int_div (a b : Z) : res Z := if b =? 0 then UB else int_op (Z.quot a b).
(** std::abs (include/edsp/statistics/max.hpp:52-53). *)
Definition int_abs (z : Z) : res Z := int_op (Z.abs z).

(** std::accumulate (include/edsp/statistics/mean.hpp:46). *)
Fixpoint z_sum (a : Z) (l : list Z) : res Z := match l with [] => Ok a | x :: t => b <- int_op (a + x) ;; z_sum b t end.
(** include/edsp/statistics/mean.hpp:44-48. *)
Definition z_mean (l : list Z) : res Z := a <- z_sum 0 l ;; n <- int_op (Z.of_nat (length l)) ;; int_div a n.
(** include/edsp/feature/temporal/energy.hpp:46-49: std::inner_product of the range with itself. *)
Fixpoint z_inner (a : Z) (l : list Z) : res Z :=
  match l with [] => Ok a | x :: t => p <- int_op (x * x) ;; b <- int_op (a + p) ;; z_inner b t end.
Definition z_energy (l : list Z) : res Z := z_inner 0 l.
(** include/edsp/algorithm/amplifier.hpp:74-77: the lambda of the clipping amplifier, with an int factor. *)
Definition z_amp_clip (factor mn mx x : Z) : res Z :=
  s <- int_op (factor * x) ;; Ok (if s <? mn then mn else if mx <? s then mx else s).
(** include/edsp/algorithm/amplifier.hpp:72-78: std::transform over the range. *)
Fixpoint z_amplifier (factor mn mx : Z) (l : list Z) : res (list Z) :=
  match l with [] => Ok [] | x :: t => y <- z_amp_clip factor mn mx x ;; r <- z_amplifier factor mn mx t ;; Ok (y :: r) end.
(** include/edsp/statistics/max.hpp:50-54: std::max_element with the comparison of magnitudes. *)
Fixpoint z_scan (best : Z) (l : list Z) : res Z :=
  match l with [] => Ok best | x :: t => a <- int_abs best ;; b <- int_abs x ;; z_scan (if a <? b then x else best) t end.
Definition z_maxabs (l : list Z) : res Z := match l with [] => UB | x :: t => b <- z_scan x t ;; int_abs b end.
(** include/edsp/algorithm/normalize.hpp:46-52, with an output range of int. *)
Fixpoint z_quots (f : Z) (l : list Z) : res (list Z) :=
  match l with [] => Ok [] | x :: t => q <- int_div x f ;; r <- z_quots f t ;; Ok (q :: r) end.
Definition z_normalize (l : list Z) : res (list Z) := f <- z_maxabs l ;; z_quots f l.
