(** Model of the RBJ and Zoelzer designers. *)
From Verif Require Import RealBase Cplx BiquadModel.
Local Open Scope R_scope.
Local Open Scope res_scope.

(** [std::pow(10, x)]. *)
Definition pow10 (x : R) : R := Rpower 10 x.
(** [std::tan]: a pole where the cosine vanishes. *)
Definition rtan (x : R) : res R := if Req_EM_T (cos x) 0 then NonFinite else Ok (tan x).

(** rbj_designer.hpp:37-53. *)
Definition rbj_lowpass (fc fs Q : R) : res biquad :=
  omega <- rdiv (2 * PI * fc) fs ;;
  let s := sin omega in let c := cos omega in
  alpha <- rdiv s (2 * Q) ;;
  bq_coeffs (1 + alpha) (- (2) * c) (1 - alpha) ((1 - c) / 2) (1 - c) ((1 - c) / 2).

(** rbj_designer.hpp:57-73. *)
Definition rbj_highpass (fc fs Q : R) : res biquad :=
  omega <- rdiv (2 * PI * fc) fs ;;
  let s := sin omega in let c := cos omega in
  alpha <- rdiv s (2 * Q) ;;
  bq_coeffs (1 + alpha) (- (2) * c) (1 - alpha) ((1 + c) / 2) (- (1 + c)) ((1 + c) / 2).

(** rbj_designer.hpp:77-93. *)
Definition rbj_bandpass (fc fs Q : R) : res biquad :=
  omega <- rdiv (2 * PI * fc) fs ;;
  let s := sin omega in let c := cos omega in
  alpha <- rdiv s (2 * Q) ;;
  bq_coeffs (1 + alpha) (- (2) * c) (1 - alpha) (Q * alpha) 0 (- Q * alpha).

(** rbj_designer.hpp:97-113. *)
Definition rbj_allpass (fc fs Q : R) : res biquad :=
  omega <- rdiv (2 * PI * fc) fs ;;
  let s := sin omega in let c := cos omega in
  alpha <- rdiv s (2 * Q) ;;
  bq_coeffs (1 + alpha) (- (2) * c) (1 - alpha) (1 - alpha) (- (2) * c) (1 + alpha).

(** rbj_designer.hpp:117-133. *)
Definition rbj_lowshelf (fc fs Q gain_db : R) : res biquad :=
  A <- rsqrt (pow10 (gain_db / 20)) ;;
  omega <- rdiv (2 * PI * fc) fs ;;
  let s := sin omega in let c := cos omega in
  sA <- rsqrt A ;;
  beta <- rdiv sA Q ;;
  bq_coeffs ((A + 1) + (A - 1) * c + beta * s) (- (2) * ((A - 1) + (A + 1) * c)) ((A + 1) + (A - 1) * c - beta * s)
            (A * ((A + 1) - (A - 1) * c + beta * s)) (2 * A * ((A - 1) - (A + 1) * c)) (A * ((A + 1) - (A - 1) * c - beta * s)).

(** rbj_designer.hpp:137-153. *)
Definition rbj_highshelf (fc fs Q gain_db : R) : res biquad :=
  A <- rsqrt (pow10 (gain_db / 20)) ;;
  omega <- rdiv (2 * PI * fc) fs ;;
  let s := sin omega in let c := cos omega in
  sA <- rsqrt A ;;
  beta <- rdiv sA Q ;;
  bq_coeffs ((A + 1) - (A - 1) * c + beta * s) (2 * ((A - 1) - (A + 1) * c)) ((A + 1) - (A - 1) * c - beta * s)
            (A * ((A + 1) + (A - 1) * c + beta * s)) (- (2) * A * ((A - 1) + (A + 1) * c)) (A * ((A + 1) + (A - 1) * c - beta * s)).

(** The angle of zoelzer_designer.hpp:41, 56, 71, 87, 113. *)
Definition zoe_K (fc fs : R) : res R := t <- rdiv (PI * fc) fs ;; rtan t.

(** zoelzer_designer.hpp:37-49. *)
Definition zoe_lowpass (fc fs Q : R) : res biquad :=
  K <- zoe_K fc fs ;;
  kq <- rdiv K Q ;;
  norm <- rdiv 1 (1 + kq + K * K) ;;
  let b0 := K * K * norm in
  bq_coeffs 1 (2 * (K * K - 1) * norm) ((1 - kq + K * K) * norm) b0 (2 * b0) b0.

(** zoelzer_designer.hpp:52-64. *)
Definition zoe_highpass (fc fs Q : R) : res biquad :=
  K <- zoe_K fc fs ;;
  kq <- rdiv K Q ;;
  norm <- rdiv 1 (1 + kq + K * K) ;;
  let b0 := 1 * norm in
  bq_coeffs 1 (2 * (K * K - 1) * norm) ((1 - kq + K * K) * norm) b0 (- (2) * b0) b0.

(** zoelzer_designer.hpp:67-79. *)
Definition zoe_bandpass (fc fs Q : R) : res biquad :=
  K <- zoe_K fc fs ;;
  kq <- rdiv K Q ;;
  norm <- rdiv 1 (1 + kq + K * K) ;;
  let b0 := kq * norm in
  bq_coeffs 1 (2 * (K * K - 1) * norm) ((1 - kq + K * K) * norm) b0 0 (- b0).

(** zoelzer_designer.hpp:82-105; [root_two] is the constant sqrt 2, [db2mag] is
    converter/db2mag.hpp:39. *)
Definition zoe_lowshelf (fc fs gain_db : R) : res biquad :=
  let V := pow10 (gain_db / 20) in
  K <- zoe_K fc fs ;;
  s2V <- rsqrt (2 * V) ;;
  if Rle_dec 0 gain_db then
    norm <- rdiv 1 (1 + sqrt 2 * K + K * K) ;;
    bq_coeffs 1 (2 * (K * K - 1) * norm) ((1 - sqrt 2 * K + K * K) * norm)
              ((1 + s2V * K + V * K * K) * norm) (2 * (V * K * K - 1) * norm) ((1 - s2V * K + V * K * K) * norm)
  else
    norm <- rdiv 1 (1 + s2V * K + V * K * K) ;;
    bq_coeffs 1 (2 * (V * K * K - 1) * norm) ((1 - s2V * K + V * K * K) * norm)
              ((1 + sqrt 2 * K + K * K) * norm) (2 * (K * K - 1) * norm) ((1 - sqrt 2 * K + K * K) * norm).

(** zoelzer_designer.hpp:108-131; the cut branch passes (b0,b1,b2,a1,a1,a2), line 128. *)
Definition zoe_highshelf (fc fs gain_db : R) : res biquad :=
  let V := pow10 (gain_db / 20) in
  K <- zoe_K fc fs ;;
  s2V <- rsqrt (2 * V) ;;
  if Rle_dec 0 gain_db then
    norm <- rdiv 1 (1 + sqrt 2 * K + K * K) ;;
    bq_coeffs 1 (2 * (K * K - 1) * norm) ((1 - sqrt 2 * K + K * K) * norm)
              ((V + s2V * K + K * K) * norm) (2 * (K * K - V) * norm) ((V - s2V * K + K * K) * norm)
  else
    norm <- rdiv 1 (V + s2V * K + K * K) ;;
    let b0 := (1 + sqrt 2 * K + K * K) * norm in
    let b1 := 2 * (K * K - 1) * norm in
    let b2 := (1 - sqrt 2 * K + K * K) * norm in
    let a1 := 2 * (K * K - V) * norm in
    let a2 := (V - s2V * K + K * K) * norm in
    bq_coeffs b0 b1 b2 a1 a1 a2.
