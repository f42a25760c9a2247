(** Model of the decibel conversions (converter/*.hpp) and of the equivalent level (leq.hpp) in IEEE
    formats; see FloatModel for the conventions.  [std::log10] and [std::pow] in the type of the samples,
    and [std::pow] in double, are arguments. *)
From Coq Require Import ZArith List Bool.
From Flocq Require Import Core BinarySingleNaN.
From Verif Require Import Base FloatModel FloatWaveModel.
Import ListNotations.
Local Open Scope res_scope.

Section Format.
Context (prec emax : Z) {Hprec : Prec_gt_0 prec} {Hmax : Prec_lt_emax prec emax}.
Notation fl := (binary_float prec emax).
Notation dbl := (binary_float 53 1024).
Notation ofz := (of_Z prec emax).
Context (flog10 : fl -> fl) (fpow : fl -> fl -> fl) (dpow : dbl -> dbl -> dbl).

(** mag2db.hpp:41-44; a failed [expects] is UB. *)
Definition f_mag2db (magnitude : fl) : res fl :=
  if flt prec emax (fzero prec emax) magnitude then Ok (fmul prec emax (ofz 20) (flog10 magnitude)) else UB.
(** pow2db.hpp:41-44. *)
Definition f_pow2db (power : fl) : res fl :=
  if flt prec emax (fzero prec emax) power then Ok (fmul prec emax (ofz 10) (flog10 power)) else UB.
(** db2mag.hpp:39-41. *)
Definition f_db2mag (db : fl) : fl := fpow (ofz 10) (fdiv prec emax db (ofz 20)).
(** db2pow.hpp:39-41: [std::pow] of an [int] and a [T] computes in double, and the result is converted to [T]. *)
Definition f_db2pow (db : fl) : fl := fconv prec emax (dpow (of_Z 53 1024 10) (fconv 53 1024 (fdiv prec emax db (ofz 10)))).
(** leq.hpp:43-46. *)
Definition f_leq (l : list fl) : res fl := f_pow2db (f_power prec emax l).
End Format.
