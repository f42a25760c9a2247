(** Model of include/edsp/math/numeric.hpp.  Machine integers are mathematical integers reduced by
    explicit conversions; signed overflow is UB. *)
From Coq Require Import Floats.SpecFloat.
From Verif Require Export RealBase AlgModel.
Local Open Scope res_scope.

Definition int32_min : Z := - 2 ^ 31.
Definition int32_max : Z := 2 ^ 31 - 1.
(** [int] arithmetic with overflow check. *)
Definition int32_op (z : Z) : res Z := if ((int32_min <=? z) && (z <=? int32_max))%Z then Ok z else UB.
(** static_cast<std::uint64_t>. *)
Definition to_uint64 (z : Z) : Z := (z mod 2 ^ 64)%Z.

(** numeric.hpp:49-51 and 59-61; [%] truncates towards zero. *)
Definition is_odd (x : Z) : bool := (Z.rem x 2 =? 1)%Z.
Definition is_even (x : Z) : bool := negb (is_odd x).

(** numeric.hpp:69-72; [&&] evaluates [tmp - 1] only for a non-zero [tmp]. *)
Definition is_power_two (x : Z) : res bool :=
  let tmp := to_int32 x in
  if (tmp =? 0)%Z then Ok false
  else t1 <- int32_op (tmp - 1) ;; Ok (Z.land tmp t1 =? 0)%Z.

(** numeric.hpp:165-180. *)
Definition smear_step (x k : Z) : Z := Z.lor x (Z.shiftr x k).
Definition smear (x : Z) : Z := smear_step (smear_step (smear_step (smear_step (smear_step x 1) 2) 4) 8) 16.
Definition next_power_two (x : Z) : res Z :=
  if (x <? 0)%Z then Ok 0%Z
  else p <- is_power_two x ;;
       if p then Ok x
       else y <- int32_op (to_int32 x - 1) ;; int32_op (smear y + 1).

(** numeric.hpp:130-147, 64-bit unsigned arithmetic; [r*r] and [r+2] wrap around.
    [fuel] bounds the number of loop iterations (None: not finished). *)
Fixpoint is_prime_loop (fuel : nat) (n r : Z) : option (res bool) :=
  match fuel with
  | O => None
  | S f =>
      if (to_uint64 (r * r) <=? n)%Z then
        if (r =? 0)%Z then Some UB else
        if (n mod r =? 0)%Z then Some (Ok false) else
        let r2 := to_uint64 (r + 2) in
        if (r2 =? 0)%Z then Some UB else
        if (n mod r2 =? 0)%Z then Some (Ok false) else
        is_prime_loop f n (to_uint64 (r + 6))
      else Some (Ok false)
  end.
Definition is_prime (fuel : nat) (x : Z) : option (res bool) :=
  let n := to_uint64 x in
  if (n <=? 1)%Z then Some (Ok false)
  else if (n <=? 3)%Z then Some (Ok true)
  else if (Z.land n 1 =? 0)%Z then Some (Ok false)
  else if (n mod 3 =? 0)%Z then Some (Ok false)
  else is_prime_loop fuel n 5.

(** numeric.hpp:198-200, 208-210, 218-220, 188-190, on exact reals. *)
Definition fract (x : R) : R := (x - cfloor x)%R.
Definition ninv (x : R) : res R := rdiv 1 x.
Definition nhalf (x : R) : R := (1 / 2 * x)%R.
Definition nsquare (x : R) : R := (x * x)%R.

(** [std::fpclassify] of a binary64 number, and the predicates of numeric.hpp:80-122. *)
Inductive fpclass := FP_NAN | FP_INFINITE | FP_ZERO | FP_SUBNORMAL | FP_NORMAL.
Definition fpclassify (f : spec_float) : fpclass :=
  match f with
  | S754_nan => FP_NAN
  | S754_infinity _ => FP_INFINITE
  | S754_zero _ => FP_ZERO
  | S754_finite _ m _ => if (Z.pos m <? 2 ^ 52)%Z then FP_SUBNORMAL else FP_NORMAL
  end.
Definition fpclass_eqb (a b : fpclass) : bool :=
  match a, b with
  | FP_NAN, FP_NAN | FP_INFINITE, FP_INFINITE | FP_ZERO, FP_ZERO | FP_SUBNORMAL, FP_SUBNORMAL | FP_NORMAL, FP_NORMAL => true
  | _, _ => false
  end.
Definition is_denormal f := fpclass_eqb (fpclassify f) FP_SUBNORMAL.
Definition is_normal f := fpclass_eqb (fpclassify f) FP_NORMAL.
Definition is_zero f := fpclass_eqb (fpclassify f) FP_ZERO.
Definition is_nan f := fpclass_eqb (fpclassify f) FP_NAN.
Definition is_inf f := fpclass_eqb (fpclassify f) FP_INFINITE.
(** numeric.hpp:39-41 and 155-157 on binary64: [x < 0]. *)
Definition is_negative_f (f : spec_float) : bool := SFltb f (S754_zero false).
Definition sign_f (f : spec_float) : Z := if is_negative_f f then (-1)%Z else 1%Z.
