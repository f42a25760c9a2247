(** Model of include/edsp/meta/equal.hpp on floating-point types; see FloatModel for the
    conventions. *)
From Coq Require Import ZArith List Bool.
From Flocq Require Import Core BinarySingleNaN.
From Verif Require Import Base FloatModel FloatWaveModel.
From Verif Require Export FloatProps.

(** [std::numeric_limits<float>::epsilon()]. *)
Definition float_epsilon : float := binary_normalize 24 128 _ _ mode_NE 1 (-23) false.
(** equal.hpp:34-39, 49-52: for every floating-point type [T] the arguments are converted to
    [const float&]. *)
Definition f_equal {p e : Z} (lhs rhs : binary_float p e) : bool :=
  flt 24 128 (fabs 24 128 (fsub 24 128 (fconv 24 128 lhs) (fconv 24 128 rhs))) float_epsilon.
