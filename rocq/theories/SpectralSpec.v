(** What the transforms are documented to compute, written with sums only. *)
From Coq Require Import ZArith.
From Verif Require Import RealBase.
From Verif Require Export Cplx.
Local Open Scope R_scope.

(** A transform size is positive and fits in an [int]. *)
Definition fits (n : nat) : Prop := (0 < n)%nat /\ (Z.of_nat n < 2 ^ 31)%Z.

(** dft.hpp:33-36: X_k = sum_j x_j e^(-2 pi i k j / N). *)
Definition fourier (N : nat) (x : nat -> C) (k : nat) : C :=
  csumf (fun j => Cmul (x j) (Cexp (- (2 * PI * INR k * INR j / INR N)))) N.
(** The same for a list of reals. *)
Definition rfourier (x : list R) (k : nat) : C := fourier (length x) (fun j => RtoC (nth j x 0)) k.
(** Linear convolution: sum of x_j y_(k-j) for j from 0 to k. *)
Definition linear_convolution (x y : list R) (k : nat) : R := sumf (fun j => nth j x 0 * nth (k - j) y 0) (S k).
(** Correlation at lag k: sum of x_(j+k) y_j over the N-k pairs. *)
Definition correlation_at (N : nat) (x y : list R) (k : nat) : R := sumf (fun j => nth (j + k) x 0 * nth j y 0) (N - k).
(** dct.hpp:33-36 and 54-58: the documented DCT-II and its inverse, a DCT-III. *)
Definition dct2 (x : list R) (k : nat) : R := sumf (fun j => nth j x 0 * cos (PI / INR (length x) * (INR j + 1 / 2) * INR k)) (length x).
Definition dct3 (x : list R) (k : nat) : R :=
  1 / 2 * nth 0 x 0 + sumf (fun j => nth (S j) x 0 * cos (PI / INR (length x) * INR (S j) * (INR k + 1 / 2))) (length x - 1).
(** hartley.hpp:33-39. *)
Definition cas (t : R) : R := cos t + sin t.
Definition hartley_at (x : list R) (k : nat) : R := sumf (fun j => nth j x 0 * cas (2 * PI / INR (length x) * INR j * INR k)) (length x).
(** [l] is the list of the values of [f] on 0..n-1. *)
Definition tabulates {A} (l : list A) (n : nat) (f : nat -> A) : Prop := length l = n /\ forall k d, (k < n)%nat -> nth k l d = f k.

(** The formula in the documentation of cepstrum: | F^-1 { log |F{x}|^2 } |^2. *)
Definition documented_cepstrum (x : list R) (m : nat) : R :=
  Cnorm2 (Cscal (/ INR (length x)) (csumf (fun k => Cmul (RtoC (ln (Cnorm2 (rfourier x k)))) (Cexp (2 * PI * INR k * INR m / INR (length x)))) (length x))).
