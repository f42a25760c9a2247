(** Specification vocabulary for the Python and C interfaces. *)
From Verif Require Import Base RealBase AlgModel AlgSpec StatModel BindModel.
Local Open Scope R_scope.

(** Python's view of an array: element [i] is [stride * i] places from the first one. *)
Definition sees {A} (x : ndarray A) (l : list A) : Prop :=
  length l = len x /\
  forall i, (i < len x)%nat -> (0 <= Z.of_nat (start x) + stride x * Z.of_nat i)%Z /\
    nth_error l i = nth_error (buf x) (Z.to_nat (Z.of_nat (start x) + stride x * Z.of_nat i)).

(** A one-dimensional array of doubles whose length fits an [int] ... *)
Definition acceptable {A} (x : ndarray A) : Prop :=
  ndim x = 1%nat /\ is_real x = true /\ (Z.of_nat (len x) < 2 ^ 31)%Z.
(** ... stored without gaps. *)
Definition contiguous {A} (x : ndarray A) : Prop := stride x = 1%Z.

(** The C++ function behind each Python function. *)
Definition native (c : stat_call) (l : list R) : res R :=
  match c with
  | SKurtosis => stat_kurtosis l | SSkewness => stat_skewness l | SMoment n => stat_moment (Z.to_nat n) l
  | SGeometric => stat_geometric_mean l | SGeneralized b => stat_generalized_mean l b | SHarmonic => stat_harmonic_mean l
  | SMax => stat_max l | SMin => stat_min l | SMaxAbs => stat_maxabs l | SMinAbs => stat_minabs l | SMean => stat_mean l
  | SMedian => stat_median l | SVariance => stat_variance l | SStdDev => stat_stddev l | SNorm => stat_norm l
  end.

(** A Python call that yields the value of [r], undefined where [r] is. *)
Definition yields {A} (p : python A) (r : res A) : Prop := p = match r with Ok a => Ok (Some a) | UB => UB | NonFinite => NonFinite end.

(** The index of the first occurrence, or -1. *)
Definition found_at (l : list R) (v : R) (k : Z) : Prop :=
  (In v l -> exists i, k = Z.of_nat i /\ first_at l v i) /\ (~ In v l -> k = (-1)%Z).
