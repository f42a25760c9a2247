(** Model of include/edsp/statistics.  A range is the list of its elements. *)
From Verif Require Export RealBase.
Local Open Scope R_scope.
Local Open Scope res_scope.

(** [std::max_element(first, last, comp)] with [comp a b = key a < key b]: offset and value of the
    element kept by the scan; [i] is the offset of the element looked at. *)
Fixpoint max_scan (key : R -> R) (bi : nat) (b : R) (i : nat) (l : list R) : nat * R :=
  match l with
  | [] => (bi, b)
  | x :: t => if Rlt_dec (key b) (key x) then max_scan key i x (S i) t else max_scan key bi b (S i) t
  end.
(** [std::min_element(first, last, comp)]. *)
Fixpoint min_scan (key : R -> R) (bi : nat) (b : R) (i : nat) (l : list R) : nat * R :=
  match l with
  | [] => (bi, b)
  | x :: t => if Rlt_dec (key x) (key b) then min_scan key i x (S i) t else min_scan key bi b (S i) t
  end.
(** Dereferencing the result on an empty range is UB. *)
Definition max_element (key : R -> R) (l : list R) : res (nat * R) :=
  match l with [] => UB | x :: t => Ok (max_scan key 0 x 1 t) end.
Definition min_element (key : R -> R) (l : list R) : res (nat * R) :=
  match l with [] => UB | x :: t => Ok (min_scan key 0 x 1 t) end.
Definition idk (x : R) : R := x.

(** max.hpp:38-40, 50-54. *)
Definition stat_max (l : list R) : res R := rmap snd (max_element idk l).
Definition stat_maxabs (l : list R) : res R := rmap (fun p => Rabs (snd p)) (max_element Rabs l).
(** min.hpp:38-40, 50-54. *)
Definition stat_min (l : list R) : res R := rmap snd (min_element idk l).
Definition stat_minabs (l : list R) : res R := rmap (fun p => Rabs (snd p)) (min_element Rabs l).
(** peak.hpp:38-42, 52-58. *)
Definition stat_peak (l : list R) : res (nat * R) := max_element idk l.
Definition stat_peakabs (l : list R) : res (nat * R) := max_element Rabs l.

(** mean.hpp:44-48. *)
Definition stat_mean (l : list R) : res R := rdiv (accumulate Rplus 0 l) (INR (length l)).

(** moment.hpp:36-42: [ret = x; for (i = 1; i < N; ++i) ret *= x]. *)
Fixpoint nth_power_loop (ret x : R) (k : nat) : R := match k with O => ret | S j => nth_power_loop (ret * x) x j end.
Definition nth_power (N : nat) (x : R) : R := nth_power_loop x x (N - 1).
(** moment.hpp:54-58, 71-75, 88-92. *)
Definition nth_moment (N : nat) (l : list R) (mean : R) : res R :=
  rdiv (accumulate (fun s x => s + nth_power N (x - mean)) 0 l) (INR (length l)).
Definition stat_moment (N : nat) (l : list R) : res R := m <- stat_mean l ;; nth_moment N l m.
(** variance.hpp:44-46, 61-63. *)
Definition stat_variance (l : list R) : res R := stat_moment 2 l.
Definition stat_stddev (l : list R) : res R := v <- stat_variance l ;; rsqrt v.
(** kurtosis.hpp:47-52. *)
Definition stat_kurtosis (l : list R) : res R :=
  m <- stat_mean l ;; m4 <- nth_moment 4 l m ;; m2 <- nth_moment 2 l m ;; rdiv m4 (m2 * m2).
(** skewness.hpp:47-52. *)
Definition stat_skewness (l : list R) : res R :=
  m <- stat_mean l ;; m3 <- nth_moment 3 l m ;; m2 <- nth_moment 2 l m ;; s <- rsqrt m2 ;; rdiv m3 (m2 * s).

(** [std::accumulate] with an operation that may be non-finite. *)
Fixpoint accumulateM {A B} (op : B -> A -> res B) (init : B) (l : list A) : res B :=
  match l with [] => Ok init | x :: t => a <- op init x ;; accumulateM op a t end.

(** geometric_mean.hpp:44-50 ([log] of a non-positive sample is non-finite). *)
Definition stat_geometric_mean (l : list R) : res R :=
  acc <- accumulateM (fun prev x => lx <- rlog x ;; Ok (prev + lx)) 0 l ;;
  q <- rdiv acc (INR (length l)) ;;
  Ok (exp q).
(** harmonic_mean.hpp:45-50. *)
Definition stat_harmonic_mean (l : list R) : res R :=
  acc <- accumulateM (fun prev x => ix <- rdiv 1 x ;; Ok (prev + ix)) 0 l ;;
  rdiv (INR (length l)) acc.

(** [std::pow(x, b)] for an integer exponent, and for a real exponent. *)
Definition rpowz (x : R) (b : Z) : res R :=
  if Req_EM_T x 0 then (if Z_lt_dec b 0 then NonFinite else Ok (powerRZ x b)) else Ok (powerRZ x b).
Definition rpow (x y : R) : res R :=
  if Rlt_dec 0 x then Ok (Rpower x y)
  else if Req_EM_T (IZR (Int_part y)) y then rpowz x (Int_part y)
  else if Req_EM_T x 0 then (if Rlt_dec 0 y then Ok 0 else NonFinite)
  else NonFinite.
(** generalized_mean.hpp:45-54.  For b = 0 the exponent is the infinity 1/0, and [pow(1, inf)] is 1. *)
Definition stat_generalized_mean (l : list R) (b : Z) : res R :=
  acc <- accumulateM (fun prev x => p <- rpowz x b ;; Ok (prev + p)) 0 l ;;
  temp <- rdiv acc (INR (length l)) ;;
  if Z.eq_dec b 0 then (if Req_EM_T temp 1 then Ok 1 else NonFinite) else
  ib <- rdiv 1 (IZR b) ;;
  rpow temp ib.

(** norm.hpp:48-55. *)
Definition stat_norm (l : list R) : res R := rsqrt (accumulate (fun a x => a + Rabs x * Rabs x) 0 l).
(** median.hpp:44-49: a stub. *)
Definition stat_median (l : list R) : res R := Ok 0.
