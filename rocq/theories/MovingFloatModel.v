(** The moving filters again, with T = double and IEEE-754 rounding. *)
From Verif Require Import Base FloatBase RingModel.
Local Open Scope res_scope.

(** moving_average_filter.hpp:94-95, moving_rms_filter.hpp:95-96. *)
Record mfilterf : Type := mkMF { windowf : ring spec_float; accumulatedf : spec_float }.

(** moving_average_filter.hpp:99, moving_rms_filter.hpp:100. *)
Definition mf_new (n : nat) : mfilterf := mkMF (ring_filled fzero n) fzero.

(** moving_average_filter.hpp:123-128. *)
Definition maf_tick (m : mfilterf) (tick : spec_float) : res (mfilterf * spec_float) :=
  f <- front (windowf m) ;;
  let acc := fadd (fsub (accumulatedf m) f) tick in
  w <- push_back (windowf m) tick ;;
  Ok (mkMF w acc, fdiv acc (f_of_nat (size w))).

(** moving_rms_filter.hpp:124-130. *)
Definition mrf_tick (m : mfilterf) (tick : spec_float) : res (mfilterf * spec_float) :=
  let sqr := fmul tick tick in
  f <- front (windowf m) ;;
  let acc := fadd (fsub (accumulatedf m) f) sqr in
  w <- push_back (windowf m) sqr ;;
  Ok (mkMF w acc, fsqrt (fdiv acc (f_of_nat (size w)))).
