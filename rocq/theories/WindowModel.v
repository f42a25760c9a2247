(** Model of include/edsp/windowing/*.hpp: a call on a range of [size] samples writes the returned
    list.  Coefficients are exact decimals. *)
From Verif Require Export RealBase NumModel.
Local Open Scope R_scope.
Local Open Scope res_scope.

(** The loop common to the cosine windows: [factor] is computed once, sample [i] is a function of
    [tmp = factor * i]. *)
Definition cosine_window (f : R -> R) (size : nat) : res (list R) :=
  factor <- rdiv (2 * PI) (INR size - 1) ;;
  Ok (map (fun i => f (factor * INR i)) (seq 0 size)).
(** hanning.hpp:45-55. *)
Definition hanning := cosine_window (fun t => 5/10 - 5/10 * cos t).
(** hamming.hpp:46-56. *)
Definition hamming := cosine_window (fun t => 54/100 - 46/100 * cos t).
(** blackman.hpp:47-60. *)
Definition blackman := cosine_window (fun t => 42/100 - 50/100 * cos t + 8/100 * cos (2 * t)).
(** blackman_harris.hpp:47-60. *)
Definition blackman_harris := cosine_window (fun t =>
  35875/100000 - 48829/100000 * cos t + 14128/100000 * cos (2 * t) - 1168/100000 * cos (3 * t)).
(** blackman_nuttall.hpp:46-59. *)
Definition blackman_nutall := cosine_window (fun t =>
  3635819/10000000 - 4891775/10000000 * cos t + 1365995/10000000 * cos (2 * t) - 106411/10000000 * cos (3 * t)).
(** flattop.hpp:46-61. *)
Definition flattop := cosine_window (fun t =>
  21557895/100000000 - 41663158/100000000 * cos t + 277263158/1000000000 * cos (2 * t)
  - 83578947/1000000000 * cos (3 * t) + 6947368/1000000000 * cos (4 * t)).

(** boxcar.hpp:44-52, rectangular.hpp:44-52. *)
Definition boxcar (size : nat) : res (list R) := Ok (repeat 1 size).
Definition rectangular (size : nat) : res (list R) := Ok (repeat 1 size).

(** bartlett.hpp:36-49. *)
Definition bartlett (size : nat) : res (list R) :=
  let middle := if is_even (Z.of_nat size) then (size / 2)%nat else ((size + 1) / 2)%nat in
  factor <- ninv (INR size - 1) ;;
  Ok (map (fun i => 2 * INR i * factor) (seq 0 middle) ++
      map (fun i => 2 - 2 * INR i * factor) (seq middle (size - middle))).

(** [std::remainder(size, 2)] (IEEE remainder: quotient rounded to nearest, ties to even). *)
Definition ieee_remainder2 (z : Z) : Z :=
  let q := (z / 2)%Z in
  (z - 2 * (if Z.even z then q else if Z.even q then q else q + 1))%Z.
(** triangular.hpp:44-54. *)
Fixpoint tri_loop (n : nat) (initial rem : R) : res (list R) :=
  match n with
  | O => Ok []
  | S m => q <- rdiv initial rem ;; t <- tri_loop m (initial + 2) rem ;; Ok ((1 - Rabs q) :: t)
  end.
Definition triangular (size : nat) : res (list R) :=
  let rem := INR size + IZR (ieee_remainder2 (Z.of_nat size)) in
  tri_loop size (- (INR size - 1)) rem.

(** welch.hpp:43-52; [size / 2] is an integer division. *)
Definition welch (size : nat) : res (list R) :=
  let L := INR (size / 2) in
  mapM (fun i => q <- rdiv (INR i - L) L ;; Ok (1 - nsquare q)) (seq 0 size).
