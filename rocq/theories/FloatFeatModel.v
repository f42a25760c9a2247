(** Model of the zero-crossing rate, of the durations, of the crest factor, of the roll-off, of the
    centroid, of the harmonic mean and of the norm in IEEE formats; see FloatModel for the conventions.
    Parameters (rates, thresholds, percentages) have the type of the samples. *)
From Coq Require Import ZArith List Bool.
From Flocq Require Import Core BinarySingleNaN.
From Verif Require Import Base FloatModel FloatNumModel.
Import ListNotations.
Local Open Scope res_scope.

Section Format.
Context (prec emax : Z) {Hprec : Prec_gt_0 prec} {Hmax : Prec_lt_emax prec emax}.
Notation fl := (binary_float prec emax).
Notation add := (fadd prec emax).
Notation mul := (fmul prec emax).
Notation div := (fdiv prec emax).
Notation zero := (fzero prec emax).

(** azcr.hpp:55-58: the loop; [p] is the sample before the rest of the range. *)
Fixpoint fzc_loop (p : fl) (l : list fl) (acc : fl) : fl :=
  match l with
  | [] => acc
  | x :: t => fzc_loop x t (add acc (of_Z prec emax (if Beqb (f_sign prec emax x) (f_sign prec emax p) then 0 else 1)))
  end.
(** azcr.hpp:52-60: [std::next] of the end of an empty range is UB. *)
Definition f_azcr (l : list fl) : res fl :=
  match l with
  | [] => UB
  | x :: t => Ok (div (fzc_loop x t zero) (of_Z prec emax (Z.of_nat (length l) - 1)))
  end.

(** duration.hpp:42-45. *)
Definition f_duration (l : list fl) (sample_rate : fl) : fl := div (of_nat prec emax (length l)) sample_rate.
(** duration.hpp:60-66. *)
Definition f_effective_duration (l : list fl) (sample_rate threshold : fl) : res fl :=
  m <- f_maxabs prec emax l ;;
  let limit := mul threshold m in
  Ok (div (of_nat prec emax (length (filter (fun sample => flt prec emax limit (fabs prec emax sample)) l))) sample_rate).

(** crest.hpp:38-45. *)
Definition f_crest (l : list fl) : res fl :=
  let acc := fold_left (fun prev current => add prev (fabs prec emax current)) l zero in
  m <- f_maxabs prec emax l ;; Ok (div m acc).

(** rolloff.hpp:50-53: the number of elements passed. *)
Fixpoint froll_loop (l : list fl) (acc limit : fl) : nat :=
  match l with
  | [] => 0
  | x :: t => if Bleb acc limit then S (froll_loop t (add acc (f_square prec emax x)) limit) else 0
  end.
(** rolloff.hpp:44-55. *)
Definition f_rolloff (l : list fl) (percentage : fl) : fl :=
  let limit := mul percentage (f_energy prec emax l) in
  div (of_Z prec emax (Z.of_nat (froll_loop l zero limit) - 1)) (of_nat prec emax (length l)).

(** centroid.hpp:45-50: index, weighted and plain sum; [++i] adds 1 in the type of the samples. *)
Fixpoint fcen_loop (l : list fl) (i w s : fl) : fl * fl :=
  match l with
  | [] => (w, s)
  | x :: t => fcen_loop t (add i (of_Z prec emax 1)) (add w (mul i x)) (add s x)
  end.
(** centroid.hpp:43-52. *)
Definition f_centroid (l : list fl) : fl :=
  let r := fcen_loop l zero zero zero in div (fst r) (snd r).

(** harmonic_mean.hpp:45-50. *)
Definition f_harmonic_mean (l : list fl) : fl :=
  div (of_nat prec emax (length l)) (fold_left (fun prev current => add prev (f_inv prec emax current)) l zero).

(** norm.hpp:48-55. *)
Definition f_norm (l : list fl) : fl :=
  fsqrt prec emax (fold_left (fun acc x => add acc (f_square prec emax (fabs prec emax x))) l zero).
End Format.
