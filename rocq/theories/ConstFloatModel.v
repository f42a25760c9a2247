(** Model of the conversion of the constants to the type T, math/constant.hpp:31-97: every member is
    [static_cast<T>(literal)] with a literal without suffix, hence of type [double].  The literal is rounded
    to the nearest double by the compiler, and that double is rounded again to T.  Values are real numbers;
    [round] is Flocq's rounding to nearest even in a format with [prec] bits and exponents up to [emax]. *)
From Coq Require Import Reals ZArith QArith Qreals.
From Flocq Require Import Core.
From Verif Require Import ConstModel.
Local Open Scope R_scope.

(** The nearest number of the format. *)
Definition nearest (prec emax : Z) (x : R) : R := round radix2 (FLT_exp (3 - emax - prec) prec) ZnearestE x.
(** constant.hpp:31-97: the literal, a double. *)
Definition literal_double (c : constant_name) : R := nearest 53 1024 (Q2R (literal c)).
(** constant.hpp:31-97: the member of [constants<T>], T having [prec] bits and exponents up to [emax]. *)
Definition stored (prec emax : Z) (c : constant_name) : R := nearest prec emax (literal_double c).
