(** Model of the sample arithmetic in IEEE 754 binary formats, rounding to nearest even, with
    infinities, NaN, signed zeros and subnormals (Flocq's [binary_float]).  All definitions take the
    precision and the exponent range: [float] is (24, 128) and [double] is (53, 1024).  Every C++
    operation is one rounded operation of the format: no extended intermediate precision and no
    contraction into fused operations.  Ranges are lists, as in the models over exact reals; where
    elements live in memory is the subject of AlgModel. *)
From Coq Require Import ZArith List Bool.
From Flocq Require Import Core BinarySingleNaN.
From Verif Require Import Base.
Import ListNotations.
Local Open Scope res_scope.

Section Format.
Context (prec emax : Z) {Hprec : Prec_gt_0 prec} {Hmax : Prec_lt_emax prec emax}.
Notation fl := (binary_float prec emax).

(** The operators of the language on the type. *)
Definition fadd (x y : fl) : fl := Bplus mode_NE x y.
Definition fsub (x y : fl) : fl := Bminus mode_NE x y.
Definition fmul (x y : fl) : fl := Bmult mode_NE x y.
Definition fdiv (x y : fl) : fl := Bdiv mode_NE x y.
Definition fsqrt (x : fl) : fl := Bsqrt mode_NE x.
Definition fabs (x : fl) : fl := Babs x.
Definition flt (x y : fl) : bool := Bltb x y.
Definition fzero : fl := B754_zero false.
(** Conversion of an integer. *)
Definition of_Z (n : Z) : fl := binary_normalize prec emax Hprec Hmax mode_NE n 0 false.
Definition of_nat (n : nat) : fl := of_Z (Z.of_nat n).

(** clipper.hpp:45-50: the lambda. *)
Definition fclip (mn mx v : fl) : fl := if flt v mn then mn else if flt mx v then mx else v.
(** amplifier.hpp:42-46, 63-69: the lambdas. *)
Definition famp (factor v : fl) : fl := fmul factor v.
Definition famp_clip (factor mn mx v : fl) : fl :=
  let scaled := fmul factor v in if flt scaled mn then mn else if flt mx scaled then mx else scaled.

(** [std::max_element], [std::min_element] with [comp a b = key a < key b]. *)
Fixpoint fmax_scan (key : fl -> fl) (b : fl) (l : list fl) : fl :=
  match l with [] => b | x :: t => fmax_scan key (if flt (key b) (key x) then x else b) t end.
Fixpoint fmin_scan (key : fl -> fl) (b : fl) (l : list fl) : fl :=
  match l with [] => b | x :: t => fmin_scan key (if flt (key x) (key b) then x else b) t end.
(** max.hpp:38-40, 50-54, min.hpp:38-40, 50-54; dereferencing the end of an empty range is UB. *)
Definition f_max (l : list fl) : res fl := match l with [] => UB | x :: t => Ok (fmax_scan (fun v => v) x t) end.
Definition f_min (l : list fl) : res fl := match l with [] => UB | x :: t => Ok (fmin_scan (fun v => v) x t) end.
Definition f_maxabs (l : list fl) : res fl := match l with [] => UB | x :: t => Ok (fabs (fmax_scan fabs x t)) end.
Definition f_minabs (l : list fl) : res fl := match l with [] => UB | x :: t => Ok (fabs (fmin_scan fabs x t)) end.
(** normalize.hpp:46-52. *)
Definition f_normalize (l : list fl) : res (list fl) := factor <- f_maxabs l ;; Ok (map (fun v => fdiv v factor) l).

(** [std::accumulate(first, last, T(0))] and mean.hpp:44-48. *)
Definition f_sum (l : list fl) : fl := fold_left fadd l fzero.
Definition f_mean (l : list fl) : fl := fdiv (f_sum l) (of_nat (length l)).
(** moment.hpp:36-42, 44-58 for the second moment: [ret = x; ret *= x], and variance.hpp:44-46, 61-63. *)
Definition f_variance (l : list fl) : fl :=
  let m := f_mean l in
  fdiv (fold_left (fun sum current => let d := fsub current m in fadd sum (fmul d d)) l fzero) (of_nat (length l)).
Definition f_stddev (l : list fl) : fl := fsqrt (f_variance l).
(** [std::inner_product(first, last, first, init)]. *)
Definition f_inner (l : list fl) (init : fl) : fl := fold_left (fun acc x => fadd acc (fmul x x)) l init.
(** energy.hpp:46-49, power.hpp:44-48, rms.hpp:43-47, rssq.hpp:42-46. *)
Definition f_energy (l : list fl) : fl := f_inner l fzero.
Definition f_power (l : list fl) : fl := fdiv (f_energy l) (of_nat (length l)).
Definition f_rms (l : list fl) : fl := fsqrt (fdiv (f_inner l (of_Z 1)) (of_nat (length l))).
Definition f_rssq (l : list fl) : fl := fsqrt (f_inner l fzero).

(** linspace.hpp:39-49: [n] points, [x1 += increment] after each. *)
Fixpoint fspace_loop (x inc : fl) (n : nat) : list fl :=
  match n with O => [] | S m => x :: fspace_loop (fadd x inc) inc m end.
Definition f_linspace (x1 x2 : fl) (n : nat) : list fl :=
  fspace_loop x1 (fdiv (fsub x2 x1) (fsub (of_nat n) (of_Z 1))) n.

(** sinusoidal.hpp:136-144: the sampling period, numeric.hpp: [math::inv] is 1/x; and the time of the
    n-th sample, [timestamp_ + sampling_period_] after each call (sinusoidal.hpp:265-272,
    square.hpp:109-114, sawtooth.hpp:100-110). *)
Definition f_period (sample_rate : fl) : fl := fdiv (of_Z 1) sample_rate.
Fixpoint f_time (period : fl) (n : nat) : fl :=
  match n with O => fzero | S m => fadd (f_time period m) period end.

(** biquad.hpp:325-331: one sample of a section with coefficients b0 b1 b2 a1 a2 and states w0 w1. *)
Definition f_biquad (b0 b1 b2 a1 a2 : fl) (w : fl * fl) (x : fl) : (fl * fl) * fl :=
  let out := fadd (fmul b0 x) (fst w) in
  ((fadd (fsub (fmul b1 x) (fmul a1 out)) (snd w), fsub (fmul b2 x) (fmul a2 out)), out).
Fixpoint f_filter (b0 b1 b2 a1 a2 : fl) (w : fl * fl) (xs : list fl) : (fl * fl) * list fl :=
  match xs with
  | [] => (w, [])
  | x :: t => let p := f_biquad b0 b1 b2 a1 a2 w x in let r := f_filter b0 b1 b2 a1 a2 (fst p) t in (fst r, snd p :: snd r)
  end.

(** derivative.hpp:46-48 ([std::adjacent_difference]). *)
Fixpoint fdiff_from (prev : fl) (l : list fl) : list fl := match l with [] => [] | x :: t => fsub x prev :: fdiff_from x t end.
Definition f_derivative (l : list fl) : list fl := match l with [] => [] | x :: t => x :: fdiff_from x t end.
End Format.

(** The two formats of the language. *)
#[global] Instance Hprec32 : Prec_gt_0 24 := eq_refl.
#[global] Instance Hmax32 : Prec_lt_emax 24 128 := eq_refl.
#[global] Instance Hprec64 : Prec_gt_0 53 := eq_refl.
#[global] Instance Hmax64 : Prec_lt_emax 53 1024 := eq_refl.
Notation float := (binary_float 24 128).
Notation double := (binary_float 53 1024).
