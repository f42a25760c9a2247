(** IEEE-754 binary64 arithmetic, by the standard library's executable
    specification (round to nearest even). *)
From Coq Require Export ZArith.
From Coq.Floats Require Export SpecFloat.

Definition prec64 : Z := 53.
Definition emax64 : Z := 1024.
Definition fadd := SFadd prec64 emax64.
Definition fsub := SFsub prec64 emax64.
Definition fmul := SFmul prec64 emax64.
Definition fdiv := SFdiv prec64 emax64.
Definition fsqrt := SFsqrt prec64 emax64.
(** Conversion of an integer to double. *)
Definition f_of_Z (z : Z) : spec_float := binary_normalize prec64 emax64 z 0 false.
Definition f_of_nat (n : nat) : spec_float := f_of_Z (Z.of_nat n).
Definition fzero : spec_float := S754_zero false.

(** Neither a NaN nor an infinity. *)
Definition is_finite64 (x : spec_float) : bool :=
  match x with
  | S754_zero _ => true
  | S754_finite _ m e => bounded prec64 emax64 m e
  | _ => false
  end.
