(** What the names of the constants mean. *)
From Coq Require Import Reals QArith Qreals.
From Verif Require Import ConstModel.
Local Open Scope R_scope.

(** The golden ratio. *)
Definition golden : R := (1 + sqrt 5) / 2.
Definition cube_root (x : R) : R := Rpower x (1 / 3).
Definition log10 (x : R) : R := ln x / ln 10.

(** The number a constant is named after, where a formula gives it.  None: the constants defined by limits,
    see [denotes] below. *)
Definition meaning (c : constant_name) : option R :=
  match c with
  | half => Some (1 / 2)
  | third => Some (1 / 3)
  | twothirds | two_thirds => Some (2 / 3)
  | sixth => Some (1 / 6)
  | three_quarters => Some (3 / 4)
  | root_two => Some (sqrt 2)
  | root_three => Some (sqrt 3)
  | half_root_two => Some (sqrt 2 / 2)
  | ln_two => Some (ln 2)
  | ln_ln_two => Some (ln (ln 2))
  | root_ln_four => Some (sqrt (ln 4))
  | one_div_root_two => Some (1 / sqrt 2)
  | pi => Some PI
  | half_pi => Some (PI / 2)
  | third_pi => Some (PI / 3)
  | sixth_pi => Some (PI / 6)
  | two_pi => Some (2 * PI)
  | two_thirds_pi => Some (2 / 3 * PI)
  | three_quarters_pi => Some (3 / 4 * PI)
  | four_thirds_pi => Some (4 / 3 * PI)
  | one_div_two_pi => Some (1 / (2 * PI))
  | one_div_root_two_pi => Some (1 / sqrt (2 * PI))
  | root_pi => Some (sqrt PI)
  | root_half_pi => Some (sqrt (PI / 2))
  | root_two_pi => Some (sqrt (2 * PI))
  | log_root_two_pi => Some (ln (sqrt (2 * PI)))
  | one_div_root_pi => Some (1 / sqrt PI)
  | root_one_div_pi => Some (sqrt (1 / PI))
  | pi_minus_three => Some (PI - 3)
  | four_minus_pi => Some (4 - PI)
  | pi_pow_e => Some (Rpower PI (exp 1))
  | pi_sqr => Some (PI * PI)
  | pi_sqr_div_six => Some (PI * PI / 6)
  | pi_cubed => Some (PI * PI * PI)
  | cbrt_pi => Some (cube_root PI)
  | one_div_cbrt_pi => Some (1 / cube_root PI)
  | e => Some (exp 1)
  | exp_minus_half => Some (exp (- (1 / 2)))
  | e_pow_pi => Some (exp PI)
  | root_e => Some (sqrt (exp 1))
  | log10_e => Some (log10 (exp 1))
  | one_div_log10_e => Some (1 / log10 (exp 1))
  | ln_ten => Some (ln 10)
  | degree => Some (PI / 180)
  | radian => Some (180 / PI)
  | sin_one => Some (sin 1)
  | cos_one => Some (cos 1)
  | sinh_one => Some (sinh 1)
  | cosh_one => Some (cosh 1)
  | phi => Some golden
  | ln_phi => Some (ln golden)
  | one_div_ln_phi => Some (1 / ln golden)
  | zeta_two => Some (PI * PI / 6)
  | rayleigh_skewness => Some (2 * sqrt PI * (PI - 3) / ((4 - PI) * sqrt (4 - PI)))
  | rayleigh_kurtosis => Some (3 - (6 * PI * PI - 24 * PI + 16) / ((4 - PI) * (4 - PI)))
  | rayleigh_kurtosis_excess => Some (- (6 * PI * PI - 24 * PI + 16) / ((4 - PI) * (4 - PI)))
  | two_div_pi => Some (2 / PI)
  | root_two_div_pi => Some (sqrt (2 / PI))
  | euler | one_div_euler | euler_sqr | zeta_three | catalan | glaisher | khinchin | extreme_value_skewness => None
  end.
(** Euler's constant: the limit of 1 + 1/2 + ... + 1/n - ln n. *)
Definition is_euler (x : R) : Prop := Un_cv (fun n => sum_f_R0 (fun k => 1 / INR (k + 1)) n - ln (INR (n + 1))) x.
(** Apery's constant: the sum of 1/k^3. *)
Definition is_apery (x : R) : Prop := infinite_sum (fun k => 1 / INR (k + 1) ^ 3) x.
(** Catalan's constant: 1 - 1/9 + 1/25 - 1/49 + ... *)
Definition is_catalan (x : R) : Prop := infinite_sum (fun k => (-1) ^ k / INR (2 * k + 1) ^ 2) x.
(** The hyperfactorial 1^1 2^2 ... n^n. *)
Fixpoint hyperfactorial (n : nat) : R := match n with O => 1 | S k => hyperfactorial k * INR (S k) ^ S k end.
(** Glaisher's constant: the limit of the hyperfactorial of n over n^(n^2/2 + n/2 + 1/12) e^(-n^2/4). *)
Definition is_glaisher (x : R) : Prop :=
  Un_cv (fun i => let n := (i + 1)%nat in hyperfactorial n / (Rpower (INR n) (INR n ^ 2 / 2 + INR n / 2 + 1 / 12) * exp (- (INR n ^ 2 / 4)))) x.
(** Khinchin's constant: the product over k of (1 + 1/(k (k + 2))) to the power log2 k. *)
Fixpoint khinchin_product (n : nat) : R :=
  match n with O => 1 | S i => khinchin_product i * Rpower (1 + 1 / (INR (S i) * (INR (S i) + 2))) (ln (INR (S i)) / ln 2) end.
Definition is_khinchin (x : R) : Prop := Un_cv khinchin_product x.
(** [x] is the number the constant is named after. *)
Definition denotes (c : constant_name) (x : R) : Prop :=
  match c with
  | euler => is_euler x
  | one_div_euler => exists g, is_euler g /\ x = 1 / g
  | euler_sqr => exists g, is_euler g /\ x = g * g
  | zeta_three => is_apery x
  | catalan => is_catalan x
  | glaisher => is_glaisher x
  | khinchin => is_khinchin x
  | extreme_value_skewness => exists z, is_apery z /\ x = 12 * sqrt 6 * z / (PI * PI * PI)
  | _ => meaning c = Some x
  end.
(** [x] approximates [y] to 36 decimal digits. *)
Definition accurate (x y : R) : Prop := Rabs (x - y) <= Rabs y / 10 ^ 36.
