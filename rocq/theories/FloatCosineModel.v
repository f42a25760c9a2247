(** Model of the cosine windows (windowing/*.hpp) in IEEE formats; see FloatModel for the conventions.
    The cosine of the mathematical library and [constants<T>::two_pi] are arguments.  A call on a range
    of [size] samples writes the returned list. *)
From Coq Require Import ZArith List Bool.
From Flocq Require Import Core BinarySingleNaN.
From Verif Require Import Base FloatModel FloatWaveModel.
Import ListNotations.

Section Format.
Context (prec emax : Z) {Hprec : Prec_gt_0 prec} {Hmax : Prec_lt_emax prec emax}.
Notation fl := (binary_float prec emax).
Notation ofz := (of_Z prec emax).
Notation "x +. y" := (fadd prec emax x y) (at level 50, left associativity).
Notation "x -. y" := (fsub prec emax x y) (at level 50, left associativity).
Notation "x *. y" := (fmul prec emax x y) (at level 40, left associativity).
Notation "x /. y" := (fdiv prec emax x y) (at level 40, left associativity).

(** [static_cast<value_type>(literal)] of the literal [n / d], a double: both are exact doubles, so
    their quotient is the rounding of the literal. *)
Definition flit (n d : Z) : fl := fconv prec emax (fdiv 53 1024 (of_Z 53 1024 n) (of_Z 53 1024 d)).

Context (fcos : fl -> fl) (two_pi : fl).
(** The loop of hanning.hpp:50-54 and its copies: [sample] is the right-hand side, a function of [tmp]. *)
Definition fcosine_window (sample : fl -> fl) (size : nat) : list fl :=
  let factor := two_pi /. ofz (Z.of_nat size - 1) in
  map (fun i => sample (factor *. ofz (Z.of_nat i))) (seq 0 size).
(** hanning.hpp:45-55. *)
Definition f_hanning := fcosine_window (fun tmp => flit 5 10 -. flit 5 10 *. fcos tmp).
(** hamming.hpp:46-56. *)
Definition f_hamming := fcosine_window (fun tmp => flit 54 100 -. flit 46 100 *. fcos tmp).
(** blackman.hpp:47-60. *)
Definition f_blackman := fcosine_window (fun tmp => flit 42 100 -. flit 50 100 *. fcos tmp +. flit 8 100 *. fcos (ofz 2 *. tmp)).
(** blackman_harris.hpp:47-60. *)
Definition f_blackman_harris := fcosine_window (fun tmp =>
  flit 35875 100000 -. flit 48829 100000 *. fcos tmp +. flit 14128 100000 *. fcos (ofz 2 *. tmp) -. flit 1168 100000 *. fcos (ofz 3 *. tmp)).
(** blackman_nuttall.hpp:46-59. *)
Definition f_blackman_nutall := fcosine_window (fun tmp =>
  flit 3635819 10000000 -. flit 4891775 10000000 *. fcos tmp +. flit 1365995 10000000 *. fcos (ofz 2 *. tmp) -. flit 106411 10000000 *. fcos (ofz 3 *. tmp)).
(** flattop.hpp:46-61. *)
Definition f_flattop := fcosine_window (fun tmp =>
  flit 21557895 100000000 -. flit 41663158 100000000 *. fcos tmp +. flit 277263158 1000000000 *. fcos (ofz 2 *. tmp)
  -. flit 83578947 1000000000 *. fcos (ofz 3 *. tmp) +. flit 6947368 1000000000 *. fcos (ofz 4 *. tmp)).
End Format.
