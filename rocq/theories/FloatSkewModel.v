(** Model of the skewness and of [logspace] in IEEE formats; see FloatModel for the conventions.
    [std::pow] in the type of the samples is an argument. *)
From Coq Require Import ZArith List.
From Flocq Require Import BinarySingleNaN.
From Verif Require Import FloatModel FloatDiffModel.
Import ListNotations.

Section Format.
Context (prec emax : Z) {Hprec : FLX.Prec_gt_0 prec} {Hmax : Prec_lt_emax prec emax}.
Notation fl := (binary_float prec emax).
(** skewness.hpp:46-51, moment.hpp:88-92. *)
Definition f_skewness (l : list fl) : fl :=
  let m := f_mean prec emax l in
  let m3 := f_nth_moment prec emax 3 l m in
  let m2 := f_nth_moment prec emax 2 l m in
  fdiv prec emax m3 (fmul prec emax m2 (fsqrt prec emax m2)).

Context (fpow : fl -> fl -> fl).
(** logspace.hpp:45-47: [n] points left, [_x1 += increment] after each. *)
Fixpoint flogspace_loop (x inc : fl) (n : nat) : list fl :=
  match n with O => [] | S m => fpow (of_Z prec emax 10) x :: flogspace_loop (fadd prec emax x inc) inc m end.
(** logspace.hpp:38-48, with an integer [n] and bounds of the type of the samples. *)
Definition f_logspace (x1 x2 : fl) (n : nat) : list fl :=
  flogspace_loop x1 (fdiv prec emax (fsub prec emax x2 x1) (fsub prec emax (of_nat prec emax n) (of_Z prec emax 1))) n.
End Format.
