(** Model of the constructors and the stability test of a section (filter/biquad.hpp) and of the
    cookbook pass designs (filter/internal/rbj_designer.hpp) in IEEE formats; see FloatModel for the
    conventions.  The sine and the cosine of the mathematical library are arguments. *)
From Coq Require Import ZArith List Bool.
From Flocq Require Import Core BinarySingleNaN.
From Verif Require Import Base FloatModel FloatFiltersModel.
Import ListNotations.

Section Format.
Context (prec emax : Z) {Hprec : Prec_gt_0 prec} {Hmax : Prec_lt_emax prec emax}.
Notation fl := (binary_float prec emax).
Notation ofz := (of_Z prec emax).
Notation "x +. y" := (fadd prec emax x y) (at level 50).
Notation "x -. y" := (fsub prec emax x y) (at level 50).
Notation "x *. y" := (fmul prec emax x y) (at level 40).
Notation "x /. y" := (fdiv prec emax x y) (at level 40).
Notation fneg := (@Bopp prec emax).

(** biquad.hpp:276-279. *)
Definition f_stability (a1 a2 : fl) : bool :=
  flt prec emax (fabs prec emax a2) (ofz 1) && flt prec emax (fabs prec emax a1) (ofz 1 +. a2).
(** biquad.hpp:222-230; the states start at zero (biquad.hpp:218-219). *)
Definition f_coeffs (a0 a1 a2 b0 b1 b2 : fl) : fsection prec emax :=
  mkFs prec emax (b0 /. a0) (b1 /. a0) (b2 /. a0) (a1 /. a0) (a2 /. a0) (fzero prec emax, fzero prec emax).
(** biquad.hpp:247-254: the denominator made from two poles, (real part, imaginary part) each, when the
    checks pass. [std::norm] is the sum of the squares of the parts. *)
Definition f_poles (p q : fl * fl) : fl * fl :=
  if negb (Beqb (snd p) (fzero prec emax))
  then (ofz (-2) *. fst p, fst p *. fst p +. snd p *. snd p)
  else (fneg (fst p +. fst q), fst p *. fst q).

Context (fsin fcos : fl -> fl) (pi : fl).
(** rbj_designer.hpp:39, 59, 79, 99. *)
Definition f_omega (fc fs : fl) : fl := ((ofz 2 *. pi) *. fc) /. fs.
(** rbj_designer.hpp:42, 62, 82, 102. *)
Definition f_alpha (fc fs Q : fl) : fl := fsin (f_omega fc fs) /. (ofz 2 *. Q).
(** rbj_designer.hpp:36-53. *)
Definition f_rbj_lowpass (fc fs Q : fl) : fsection prec emax :=
  let c := fcos (f_omega fc fs) in let alpha := f_alpha fc fs Q in
  let b0 := (ofz 1 -. c) /. ofz 2 in
  f_coeffs (ofz 1 +. alpha) (ofz (-2) *. c) (ofz 1 -. alpha) b0 (ofz 1 -. c) b0.
(** rbj_designer.hpp:56-73. *)
Definition f_rbj_highpass (fc fs Q : fl) : fsection prec emax :=
  let c := fcos (f_omega fc fs) in let alpha := f_alpha fc fs Q in
  let b0 := (ofz 1 +. c) /. ofz 2 in
  f_coeffs (ofz 1 +. alpha) (ofz (-2) *. c) (ofz 1 -. alpha) b0 (fneg (ofz 1 +. c)) b0.
(** rbj_designer.hpp:76-93. *)
Definition f_rbj_bandpass (fc fs Q : fl) : fsection prec emax :=
  let c := fcos (f_omega fc fs) in let alpha := f_alpha fc fs Q in
  f_coeffs (ofz 1 +. alpha) (ofz (-2) *. c) (ofz 1 -. alpha) (Q *. alpha) (ofz 0) (fneg Q *. alpha).
(** rbj_designer.hpp:96-113. *)
Definition f_rbj_allpass (fc fs Q : fl) : fsection prec emax :=
  let c := fcos (f_omega fc fs) in let alpha := f_alpha fc fs Q in
  f_coeffs (ofz 1 +. alpha) (ofz (-2) *. c) (ofz 1 -. alpha) (ofz 1 -. alpha) (ofz (-2) *. c) (ofz 1 +. alpha).
End Format.
