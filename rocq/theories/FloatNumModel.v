(** Model of the rounding functions, of the scalar helpers and of the angle conversions in IEEE formats;
    see FloatModel for the conventions.  The rounding functions of <cmath> are exact. *)
From Coq Require Import ZArith List Bool.
From Flocq Require Import Core BinarySingleNaN.
From Verif Require Import Base FloatModel FloatWaveModel.
Import ListNotations.

Section Format.
Context (prec emax : Z) {Hprec : Prec_gt_0 prec} {Hmax : Prec_lt_emax prec emax}.
Notation fl := (binary_float prec emax).
(** floor.hpp:38-43, ceil.hpp:38-43, fix.hpp:38-43, round.hpp:38-43, rectify.hpp:37-42: the lambdas.
    [std::round] rounds halves away from zero. *)
Definition f_floor (x : fl) : fl := Bnearbyint mode_DN x.
Definition f_ceil (x : fl) : fl := Bnearbyint mode_UP x.
Definition f_fix (x : fl) : fl := Bnearbyint mode_ZR x.
Definition f_round (x : fl) : fl := Bnearbyint mode_NA x.
Definition f_rectify (x : fl) : fl := fabs prec emax x.
(** numeric.hpp:154-157, 187-190, 197-200, 207-210: sign, square, fract, inv. *)
Definition f_sign (x : fl) : fl := if flt prec emax x (fzero prec emax) then of_Z prec emax (-1) else of_Z prec emax 1.
Definition f_square (x : fl) : fl := fmul prec emax x x.
Definition f_fract (x : fl) : fl := fsub prec emax x (f_floor x).
Definition f_inv (x : fl) : fl := fdiv prec emax (of_Z prec emax 1) x.
(** deg2rad.hpp:37-40, rad2deg.hpp:37-40; [pi] is [constants<T>::pi]. *)
Definition f_deg2rad (pi x : fl) : fl := fdiv prec emax (fmul prec emax x pi) (of_Z prec emax 180).
Definition f_rad2deg (pi x : fl) : fl := fmul prec emax (fdiv prec emax x pi) (of_Z prec emax 180).
End Format.
(** numeric.hpp:217-220: half, [0.5 * x]: the literal is a double, the product is in double or in T if it is
    wider ([wprec], [wemax]), and is converted to T. *)
Definition f_half (prec emax wprec wemax : Z) {Hp : Prec_gt_0 prec} {He : Prec_lt_emax prec emax} {Hp' : Prec_gt_0 wprec} {He' : Prec_lt_emax wprec wemax}
  (x : binary_float prec emax) : binary_float prec emax :=
  fconv prec emax (fmul wprec wemax (fdiv wprec wemax (of_Z wprec wemax 1) (of_Z wprec wemax 2)) (fconv wprec wemax x)).
