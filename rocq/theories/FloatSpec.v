(** Specification vocabulary for the floating-point properties: exact real sums of the numbers held by
    a range, and the error measures of a binary format. *)
From Coq Require Import ZArith Reals List.
From Flocq Require Import Core BinarySingleNaN.
Import ListNotations.
Local Open Scope R_scope.

Section Format.
Context {prec emax : Z}.
Notation fl := (binary_float prec emax).
(** The real number a finite element stands for is [B2R x]; infinities and NaN stand for none. *)
Definition finite (x : fl) : Prop := is_finite x = true.
Definition nan (x : fl) : Prop := is_nan x = true.
Definition all_finite (l : list fl) : Prop := Forall finite l.
(** x <= y of the language: false when either side is NaN. *)
Definition le (x y : fl) : Prop := Bleb x y = true.
Definition lt (x y : fl) : Prop := Bltb x y = true.
(** Exact sums. *)
Definition total (l : list fl) : R := fold_right Rplus 0 (map B2R l).
Definition abs_total (l : list fl) : R := fold_right Rplus 0 (map (fun x => Rabs (B2R x)) l).
End Format.
(** Half the distance from 1 to the next number, and the smallest positive number. *)
Definition roundoff (prec : Z) : R := / IZR (2 ^ prec).
Definition smallest (prec emax : Z) : R := / IZR (2 ^ (emax + prec - 3)).
