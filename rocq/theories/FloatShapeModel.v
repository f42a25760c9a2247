(** Model of the geometric mean, flatness, entropy, spread, kurtosis, loudness and silence detection in IEEE
    formats; see FloatModel for the conventions.  [std::log], [std::exp] and [std::log2] in the type of the
    samples and [std::pow] in double are arguments. *)
From Coq Require Import ZArith List Bool.
From Flocq Require Import Core BinarySingleNaN.
From Verif Require Import Base FloatModel FloatWaveModel FloatNumModel FloatFeatModel FloatDiffModel FloatScaleModel.
Import ListNotations.

Section Format.
Context (prec emax : Z) {Hprec : Prec_gt_0 prec} {Hmax : Prec_lt_emax prec emax}.
Notation fl := (binary_float prec emax).
Notation dbl := (binary_float 53 1024).
Notation add := (fadd prec emax).
Notation sub := (fsub prec emax).
Notation mul := (fmul prec emax).
Notation div := (fdiv prec emax).
Notation zero := (fzero prec emax).

Context (flog fexp flog2 : fl -> fl) (dpow : dbl -> dbl -> dbl).
(** geometric_mean.hpp:43-50. *)
Definition f_geometric_mean (l : list fl) : fl :=
  fexp (div (fold_left (fun prev current => add prev (flog current)) l zero) (of_nat prec emax (length l))).
(** flatness.hpp:43-48. *)
Definition f_flatness (l : list fl) : fl := div (f_geometric_mean l) (f_mean prec emax l).
(** entropy.hpp:50-59. *)
Definition f_entropy (l : list fl) : fl :=
  div (Bopp (fold_left (fun accumulated current => add accumulated (mul (flog2 current) current)) l zero)) (flog2 (of_nat prec emax (length l))).
(** loudness.hpp:58-62: [std::pow] of a [T] and a double computes in double, and the result stays a double. *)
Definition f_loudness (l : list fl) : dbl := dpow (fconv 53 1024 (f_energy prec emax l)) (dlit 67 100).
(** silence.hpp:39-42, with a threshold of the type of the samples. *)
Definition f_silence (l : list fl) (threshold : fl) : bool := flt prec emax (f_power prec emax l) threshold.

(** spread.hpp:58-62. *)
Fixpoint fspread_loop (centroid : fl) (l : list fl) (i ws us : fl) : fl * fl :=
  match l with
  | [] => (ws, us)
  | x :: t => let diff := sub i centroid in
      fspread_loop centroid t (add i (of_Z prec emax 1)) (add ws (mul (mul diff diff) x)) (add us x)
  end.
(** spread.hpp:53-64. *)
Definition f_spread (l : list fl) : fl :=
  let r := fspread_loop (f_centroid prec emax l) l zero zero zero in fsqrt prec emax (div (fst r) (snd r)).

(** kurtosis.hpp:46-52, moment.hpp:88-92. *)
Definition f_kurtosis (l : list fl) : fl :=
  let m := f_mean prec emax l in
  let m4 := f_nth_moment prec emax 4 l m in
  let m2 := f_nth_moment prec emax 2 l m in
  div m4 (mul m2 m2).
End Format.
