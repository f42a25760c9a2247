(** Model of the moving filters (filter/moving_{average,rms,median}_filter.hpp)
    on top of the ring buffer model, samples as exact reals. *)
From Verif Require Import RealBase RingModel.
Local Open Scope R_scope.
Local Open Scope res_scope.

(** moving_average_filter.hpp:94-95 (and moving_rms_filter.hpp:95-96). *)
Record mfilter : Type := mkM { window : ring R; accumulated : R }.

(** moving_average_filter.hpp:99, moving_rms_filter.hpp:100: [window_(N, T())]. *)
Definition m_new (n : nat) : mfilter := mkM (ring_filled 0 n) 0.

(** moving_average_filter.hpp:102-104: size() is the window capacity. *)
Definition m_size (m : mfilter) : nat := capacity (window m).

(** moving_average_filter.hpp:107-109, moving_rms_filter.hpp:108-110:
    only the window is cleared. *)
Definition m_reset (m : mfilter) : mfilter := mkM (clear (window m)) (accumulated m).

(** moving_average_filter.hpp:118-120, moving_rms_filter.hpp:119-121. *)
Definition m_resize (m : mfilter) (n : nat) : mfilter := mkM (resize 0 (window m) n) (accumulated m).

(** moving_average_filter.hpp:123-128. *)
Definition ma_tick (m : mfilter) (tick : R) : res (mfilter * R) :=
  f <- front (window m) ;;
  let acc := accumulated m - f + tick in
  w <- push_back (window m) tick ;;
  y <- rdiv acc (INR (size w)) ;;
  Ok (mkM w acc, y).

(** moving_rms_filter.hpp:124-130. *)
Definition mr_tick (m : mfilter) (tick : R) : res (mfilter * R) :=
  let sqr := tick * tick in
  f <- front (window m) ;;
  let acc := accumulated m - f + sqr in
  w <- push_back (window m) sqr ;;
  q <- rdiv acc (INR (size w)) ;;
  y <- rsqrt q ;;
  Ok (mkM w acc, y).

(** statistics/median.hpp:44-49: the stub returns 0 whatever the range. *)
Definition median (l : list R) : R := 0.

(** moving_median_filter.hpp:118-121. *)
Definition mmed_tick (m : mfilter) (tick : R) : res (mfilter * R) :=
  w <- push_back (window m) tick ;;
  l <- iterate w ;;
  Ok (mkM w (accumulated m), median l).

(** [filter(first,last,d_first)] = std::transform with the filter by reference:
    moving_average_filter.hpp:113-115, moving_rms_filter.hpp:114-116,
    moving_median_filter.hpp:108-110. *)
Fixpoint transform {S X Y : Type} (tick : S -> X -> res (S * Y)) (s : S) (xs : list X) : res (S * list Y) :=
  match xs with
  | [] => Ok (s, [])
  | x :: t =>
      p <- tick s x ;;
      q <- transform tick (fst p) t ;;
      Ok (fst q, snd p :: snd q)
  end.
