(** Model of filter/internal/chebyshev_I_designer.hpp and chebyshev_II_designer.hpp: the low-pass and
    shelf prototypes with the low-pass and high-pass transformers. *)
From Verif Require Import RealBase Cplx BiquadModel DesignModel LayoutModel.
Local Open Scope R_scope.
Local Open Scope res_scope.

(** [std::complex<T>(re, im)]. *)
Definition cmk (re im : R) : C := (re, im).

(** chebyshev_I_designer.hpp:50-55: iterations i .. i+m-1 of the pole loop; [n] poles. *)
Fixpoint cheby1_pairs (n : nat) (sinh_v0 cosh_v0 : R) (i m : nat) (l : layout) : res layout :=
  match m with
  | O => Ok l
  | S r =>
      let k := 2 * INR i + 1 - INR n in
      q <- rdiv (k * PI) (INR (n * 2)) ;;
      l' <- lay_insert_conjugate l (cmk (sinh_v0 * cos q) (cosh_v0 * sin q)) Inf ;;
      cheby1_pairs n sinh_v0 cosh_v0 (i + 1) r l'
  end.

(** chebyshev_I_designer.hpp:40-65. [ln_ten] is the literal of math/constant.hpp:74, modelled as ln 10. *)
Definition cheby1_analog (checks : bool) (l : layout) (n : nat) (ripple_db : R) : res layout :=
  if (length (pairs l) <? n)%nat then UB else
  let l0 := lay_reset l in
  e <- rdiv 1 (exp (- ripple_db * (1 / 10) * ln 10)) ;;
  eps <- rsqrt (e - 1) ;;
  ie <- rdiv 1 eps ;;
  v0 <- rdiv (arcsinh ie) (INR n) ;;
  let sinh_v0 := - sinh v0 in
  let cosh_v0 := cosh v0 in
  l1 <- cheby1_pairs n sinh_v0 cosh_v0 0 (n / 2) l0 ;;
  if Nat.odd n then
    l2 <- lay_insert checks l1 (cmk sinh_v0 0) Inf ;;
    Ok (lay_set_gain (lay_set_w l2 0) 1)
  else Ok (lay_set_gain (lay_set_w l1 0) (pow10 (- ripple_db / 20))).

(** chebyshev_I_designer.hpp:113-121. *)
Definition cheby1_lowpass (checks : bool) (cap order : nat) (sample_rate cutoff ripple_db : R) : res cascade :=
  fc <- rdiv cutoff sample_rate ;;
  a <- cheby1_analog checks (lay_new cap) order ripple_db ;;
  d <- lp_transformer checks fc a (lay_new cap) ;;
  make_cascade cap d.

(** chebyshev_I_designer.hpp:123-131. *)
Definition cheby1_highpass (checks : bool) (cap order : nat) (sample_rate cutoff ripple_db : R) : res cascade :=
  fc <- rdiv cutoff sample_rate ;;
  a <- cheby1_analog checks (lay_new cap) order ripple_db ;;
  d <- hp_transformer checks fc a (lay_new cap) ;;
  make_cascade cap d.

(** chebyshev_II_designer.hpp:51-57: [m] iterations starting at k = 2i+1. *)
Fixpoint cheby2_pairs (n : nat) (sinh_v0 cosh_v0 fn : R) (i m : nat) (l : layout) : res layout :=
  match m with
  | O => Ok l
  | S r =>
      let k := 2 * INR i + 1 in
      let a := sinh_v0 * cos ((k - INR n) * fn) in
      let b := cosh_v0 * sin ((k - INR n) * fn) in
      let d2 := a * a + b * b in
      im <- rdiv 1 (cos (k * fn)) ;;
      pa <- rdiv a d2 ;;
      pb <- rdiv b d2 ;;
      l' <- lay_insert_conjugate l (cmk pa pb) (Fin (cmk 0 im)) ;;
      cheby2_pairs n sinh_v0 cosh_v0 fn (i + 1) r l'
  end.

(** chebyshev_II_designer.hpp:40-62; expm1 x = exp x - 1. *)
Definition cheby2_analog (checks : bool) (l : layout) (n : nat) (stopband_db : R) : res layout :=
  if (length (pairs l) <? n)%nat then UB else
  let l0 := lay_reset (lay_set_gain (lay_set_w l 0) 1) in
  e <- rdiv 1 (exp (stopband_db * (1 / 10) * ln 10) - 1) ;;
  eps <- rsqrt e ;;
  ie <- rdiv 1 eps ;;
  v0 <- rdiv (arcsinh ie) (INR n) ;;
  let sinh_v0 := - sinh v0 in
  let cosh_v0 := cosh v0 in
  fn <- rdiv PI (INR (2 * n)) ;;
  l1 <- cheby2_pairs n sinh_v0 cosh_v0 fn 0 (n / 2) l0 ;;
  if Nat.odd n then
    p <- rdiv 1 sinh_v0 ;;
    lay_insert checks l1 (cmk p 0) Inf
  else Ok l1.

(** chebyshev_II_designer.hpp:110-118. *)
Definition cheby2_lowpass (checks : bool) (cap order : nat) (sample_rate cutoff stopband_db : R) : res cascade :=
  fc <- rdiv cutoff sample_rate ;;
  a <- cheby2_analog checks (lay_new cap) order stopband_db ;;
  d <- lp_transformer checks fc a (lay_new cap) ;;
  make_cascade cap d.

(** chebyshev_II_designer.hpp:120-128. *)
Definition cheby2_highpass (checks : bool) (cap order : nat) (sample_rate cutoff stopband_db : R) : res cascade :=
  fc <- rdiv cutoff sample_rate ;;
  a <- cheby2_analog checks (lay_new cap) order stopband_db ;;
  d <- hp_transformer checks fc a (lay_new cap) ;;
  make_cascade cap d.

(** chebyshev_I_designer.hpp:99-105, chebyshev_II_designer.hpp:96-102: iterations i .. i+m-1, i counted from 1. *)
Fixpoint cheby_shelf_pairs (size sinh_u cosh_u sinh_v cosh_v : R) (i m : nat) (l : layout) : res layout :=
  match m with
  | O => Ok l
  | S r =>
      a <- rdiv (PI * (2 * INR i - 1)) size ;;
      let sn := sin a in
      let cs := cos a in
      l' <- lay_insert_conjugate l (cmk (- sn * sinh_u) (cs * cosh_u)) (Fin (cmk (- sn * sinh_v) (cs * cosh_v))) ;;
      cheby_shelf_pairs size sinh_u cosh_u sinh_v cosh_v (i + 1) r l'
  end.

(** [std::pow(x, y)]: NaN for a negative base with a fractional exponent, infinite or degenerate at 0;
    only the positive base is a finite non-degenerate value here. *)
Definition rpow (x y : R) : res R := if Rlt_dec 0 x then Ok (Rpower x y) else NonFinite.

(** chebyshev_I_designer.hpp:77-81, chebyshev_II_designer.hpp:74-78: the ripple after clamping, given the negated gain. *)
Definition clamp_ripple (g ripple_db : R) : R :=
  let r := if Rle_dec (Rabs g) ripple_db then Rabs g else ripple_db in
  if Rlt_dec g 0 then - r else r.

(** chebyshev_I_designer.hpp:70-110 and chebyshev_II_designer.hpp:67-107, which compute the same values
    (g0 = 1 raised to a power: the first calls [math::inv] on an integer, the second on a T). *)
Definition cheby_shelf_analog (checks : bool) (l : layout) (n : nat) (gain_db ripple_db : R) : res layout :=
  if (length (pairs l) <? n)%nat then UB else
  let l0 := lay_reset (lay_set_gain (lay_set_w l PI) 1) in
  let g := - gain_db in
  let r := clamp_ripple g ripple_db in
  let G := pow10 (g / 20) in
  let Gb := pow10 ((g - r) / 20) in
  let G0 := 1 in
  eps <- (if Req_EM_T Gb G0 then Ok (G - 1)
          else x <- rdiv (G * G - Gb * Gb) (Gb * Gb - G0 * G0) ;; rsqrt x) ;;
  ie2 <- rdiv 1 (eps * eps) ;;
  exponent <- rsqrt (1 + ie2) ;;
  in_ <- rdiv 1 (INR n) ;;
  g0 <- rpow G0 in_ ;;
  q <- rdiv G eps ;;
  b <- rpow (q + Gb * exponent) in_ ;;
  bg <- rdiv b g0 ;;
  u <- rlog bg ;;
  ie <- rdiv 1 eps ;;
  w <- rpow (ie + exponent) in_ ;;
  v <- rlog w ;;
  l1 <- cheby_shelf_pairs (INR (2 * n)) (sinh u) (cosh u) (sinh v) (cosh v) 1 (n / 2) l0 ;;
  if Nat.odd n then lay_insert checks l1 (cmk (- sinh u) 0) (Fin (cmk (- sinh v) 0)) else Ok l1.

(** chebyshev_I_designer.hpp:155-163, chebyshev_II_designer.hpp:154-162. *)
Definition cheby_lowshelf (checks : bool) (cap order : nat) (sample_rate cutoff gain_db ripple_db : R) : res cascade :=
  fc <- rdiv cutoff sample_rate ;;
  a <- cheby_shelf_analog checks (lay_new cap) order gain_db ripple_db ;;
  d <- lp_transformer checks fc a (lay_new cap) ;;
  make_cascade cap d.

(** chebyshev_I_designer.hpp:165-173, chebyshev_II_designer.hpp:164-172. *)
Definition cheby_highshelf (checks : bool) (cap order : nat) (sample_rate cutoff gain_db ripple_db : R) : res cascade :=
  fc <- rdiv cutoff sample_rate ;;
  a <- cheby_shelf_analog checks (lay_new cap) order gain_db ripple_db ;;
  d <- hp_transformer checks fc a (lay_new cap) ;;
  make_cascade cap d.
