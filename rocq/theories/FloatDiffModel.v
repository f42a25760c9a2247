(** Model of the average difference functions, of the peaks, of the peak-to-peak value, of the central
    moments and of the decrease in IEEE formats; see FloatModel for the conventions. *)
From Coq Require Import ZArith List Bool.
From Flocq Require Import Core BinarySingleNaN.
From Verif Require Import Base FloatModel FloatNumModel.
Import ListNotations.
Local Open Scope res_scope.

Section Format.
Context (prec emax : Z) {Hprec : Prec_gt_0 prec} {Hmax : Prec_lt_emax prec emax}.
Notation fl := (binary_float prec emax).
Notation add := (fadd prec emax).
Notation sub := (fsub prec emax).
Notation mul := (fmul prec emax).
Notation div := (fdiv prec emax).
Notation zero := (fzero prec emax).

(** amdf.hpp:57-59 and asdf.hpp:71-73: the inner loop over j, [k] iterations left; [d] combines two samples. *)
Fixpoint fdf_inner (d : fl -> fl -> fl) (a : list fl) (i j k : nat) (acc : fl) : res fl :=
  match k with
  | O => Ok acc
  | S m => x <- load a j ;; y <- load a (j + i) ;; fdf_inner d a i (S j) m (add acc (d x y))
  end.
(** amdf.hpp:55-61 and asdf.hpp:69-75: the outer loop over the lag i. *)
Fixpoint fdf_outer (d : fl -> fl -> fl) (a : list fl) (i k : nat) : res (list fl) :=
  match k with
  | O => Ok []
  | S m =>
      acc <- fdf_inner d a i 0 (length a - i) zero ;;
      rmap (cons (div acc (of_nat prec emax (length a)))) (fdf_outer d a (S i) m)
  end.
(** amdf.hpp:51-62 and asdf.hpp:65-76: taking the address of the first element of an empty range is UB. *)
Definition f_df (d : fl -> fl -> fl) (a : list fl) : res (list fl) :=
  match a with [] => UB | _ => fdf_outer d a 0 (length a) end.
(** amdf.hpp:58. *)
Definition f_amdf := f_df (fun x y => fabs prec emax (sub x y)).
(** asdf.hpp:72. *)
Definition f_asdf := f_df (fun x y => f_square prec emax (sub x y)).

(** [std::max_element]: [i] is the index of the head of the rest, [bi] and [b] the best so far. *)
Fixpoint fpeak_scan (key : fl -> fl) (i bi : nat) (b : fl) (l : list fl) : nat * fl :=
  match l with
  | [] => (bi, b)
  | x :: t => if flt prec emax (key b) (key x) then fpeak_scan key (S i) i x t else fpeak_scan key (S i) bi b t
  end.
(** peak.hpp:38-42 and 52-58: dereferencing the end of an empty range is UB. *)
Definition f_peak (l : list fl) : res (nat * fl) :=
  match l with [] => UB | x :: t => Ok (fpeak_scan (fun v => v) 1 0 x t) end.
Definition f_peakabs (l : list fl) : res (nat * fl) :=
  match l with [] => UB | x :: t => Ok (fpeak_scan (fabs prec emax) 1 0 x t) end.
(** peak2peak.hpp:37-40, on ranges without NaN, where [std::minmax_element] is [std::min_element] and
    [std::max_element] up to the choice among equal elements. *)
Definition f_peak2peak (l : list fl) : res fl :=
  mx <- f_max prec emax l ;; mn <- f_min prec emax l ;; Ok (sub (fabs prec emax mx) (fabs prec emax mn)).

(** moment.hpp:36-42: [k] multiplications left. *)
Fixpoint fpow_loop (x : fl) (k : nat) (ret : fl) : fl :=
  match k with O => ret | S m => fpow_loop x m (mul ret x) end.
Definition f_nth_power (n : nat) (x : fl) : fl := fpow_loop x (n - 1) x.
(** moment.hpp:45-58, 88-92. *)
Definition f_nth_moment (n : nat) (l : list fl) (mean : fl) : fl :=
  div (fold_left (fun sum current => add sum (f_nth_power n (sub current mean))) l zero) (of_nat prec emax (length l)).
(** moment.hpp:71-75. *)
Definition f_moment (n : nat) (l : list fl) : fl := f_nth_moment n l (f_mean prec emax l).

(** decrease.hpp:54-57. *)
Fixpoint fdec_loop (initial i : fl) (l : list fl) (ws us : fl) : fl * fl :=
  match l with
  | [] => (ws, us)
  | x :: t => fdec_loop initial (add i (of_Z prec emax 1)) t (add ws (div (sub x initial) i)) (add us x)
  end.
(** decrease.hpp:50-59. *)
Definition f_decrease (l : list fl) : res fl :=
  match l with
  | [] => UB
  | x :: _ => let r := fdec_loop x zero l zero zero in Ok (div (fst r) (snd r))
  end.
End Format.
