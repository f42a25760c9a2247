(** Model of the C interface (bindings/c/src) and of the numpy wrappers of the Python
    module (bindings/python/src).  real_t is double (bindings/c/include/cedsp/types.h);
    doubles are modelled by exact reals as in the C++ functions called. *)
From Verif Require Import Base RealBase AlgModel AlgSpec StatModel FeatModel WindowModel ConvModel SpectralModel OscModel MovingModel Cplx.
Local Open Scope res_scope.
Local Open Scope R_scope.

(** * numpy arrays *)

(** A boost::python::numpy::ndarray of element type [A]: [ndim] is get_nd(), [is_real]
    tells whether its dtype is the C++ type that the wrapper casts get_data() to,
    [block] names the allocation, [buf] holds its elements, [start] is the element
    get_data() points to, [len] is shape(0) and [stride] is the distance between
    consecutive elements (1 for a contiguous array, other values for slices such as
    x[::2] or x[::-1]). *)
Record ndarray (A : Type) := mkArr { ndim : nat; is_real : bool; block : nat; buf : list A; start : nat; len : nat; stride : Z }.
Arguments mkArr {A}. Arguments ndim {A}. Arguments is_real {A}. Arguments block {A}.
Arguments buf {A}. Arguments start {A}. Arguments len {A}. Arguments stride {A}.

(** An array returned to Python: contiguous and owning its memory. *)
Definition fresh_array {A} (b : nat) (l : list A) : ndarray A := mkArr 1 true b l 0 (length l) 1.

(** The elements a callee sees through [reinterpret_cast<real_t*>(x.get_data())] and a
    count: consecutive ones, whatever the stride.  Another dtype is read through the
    wrong type, which is undefined (for complex input the bytes are in fact readable;
    that case is not modelled). *)
Definition window_of {A} (x : ndarray A) (n : Z) : res (list A) :=
  if is_real x then
    if (0 <=? n)%Z && (Z.of_nat (start x) + n <=? Z.of_nat (length (buf x)))%Z
    then Ok (slice (buf x) (start x) (Z.to_nat n)) else UB
  else UB.

(** The count after conversion of shape(0) (a long) to the callee's [int]. *)
Definition int_len {A} (x : ndarray A) : Z := to_int32 (Z.of_nat (len x)).

(** A Python call returns a value or raises (None). *)
Definition python (A : Type) := res (option A).

(** statistics.cpp:27-36, algorithm.cpp:43-52: [f(in, size, arg...)] with [int] size. *)
Definition execute_int {A B} (f : list A -> res B) (x : ndarray A) : python B :=
  if (ndim x =? 1)%nat then l <- window_of x (int_len x) ;; rmap Some (f l) else Ok None.
(** feature_statistics.cpp:35-43, feature_temporal.cpp:34-43, feature_spectral.cpp:38-46,
    converter.cpp:27-45: pointers or a [long]. *)
Definition execute {A B} (f : list A -> res B) (x : ndarray A) : python B :=
  if (ndim x =? 1)%nat then l <- window_of x (Z.of_nat (len x)) ;; rmap Some (f l) else Ok None.

(** algorithm.cpp:28-41: a new array of shape(0) elements, uninitialised ([junk]), and a
    call of [f] on the two memories placed one after the other.  Result: the input's
    memory and the new array. *)
Definition execute_inplace (f : list R -> nat -> nat -> nat -> res (list R)) (junk : list R) (x : ndarray R) : python (list R * list R) :=
  if (ndim x =? 1)%nat then
    if is_real x then
      let n := int_len x in
      if (n <? 0)%Z then UB else
      mem <- f (buf x ++ junk) (start x) (Z.to_nat n) (length (buf x)) ;;
      Ok (Some (firstn (length (buf x)) mem, skipn (length (buf x)) mem))
    else UB
  else Ok None.

(** spectral.cpp:27-42: two arrays, the count of the first one. *)
Definition execute_pair {A B} (f : list A -> list A -> res B) (x y : ndarray A) : python B :=
  if (ndim x =? 1)%nat && (ndim y =? 1)%nat then
    a <- window_of x (int_len x) ;; b <- window_of y (int_len x) ;; rmap Some (f a b)
  else Ok None.
(** feature_statistics.cpp:45-54, feature_spectral.cpp:48-57: raises only if neither
    array is one-dimensional. *)
Definition execute_two_inputs {B} (f : list R -> list R -> res B) (x y : ndarray R) : python B :=
  if negb (ndim x =? 1)%nat && negb (ndim y =? 1)%nat then Ok None else
  a <- window_of x (Z.of_nat (len x)) ;; b <- window_of y (Z.of_nat (len x)) ;; rmap Some (f a b).

(** * Algorithms: bindings/c/src/algorithm.c and bindings/python/src/algorithm.cpp *)

(** algorithm.cpp:63-97 through algorithm.c:26-72. *)
Definition py_scale (x : ndarray R) (factor : R) (junk : list R) := execute_inplace (fun m a n d => amplifier m a n d factor) junk x.
Definition py_scale_clip (x : ndarray R) (factor mn mx : R) (junk : list R) := execute_inplace (fun m a n d => amplifier_clipped m a n d factor mn mx) junk x.
Definition py_clip (x : ndarray R) (mn mx : R) (junk : list R) := execute_inplace (fun m a n d => clipper m a n d mn mx) junk x.
Definition py_ceil (x : ndarray R) (junk : list R) := execute_inplace alg_ceil junk x.
Definition py_floor (x : ndarray R) (junk : list R) := execute_inplace alg_floor junk x.
Definition py_round (x : ndarray R) (junk : list R) := execute_inplace alg_round junk x.
Definition py_trunc (x : ndarray R) (junk : list R) := execute_inplace alg_fix junk x.
Definition py_abs (x : ndarray R) (junk : list R) := execute_inplace alg_rectify junk x.
Definition py_normalize (x : ndarray R) (junk : list R) := execute_inplace normalize junk x.

(** Equality and order of doubles. *)
Definition req (x y : R) : bool := if Req_EM_T x y then true else false.
Definition rltb (x y : R) : bool := if Rlt_dec x y then true else false.

(** algorithm.c:82-90, 96-104: an index, or -1. *)
Definition index_or_minus1 (n k : nat) : Z := if (k =? n)%nat then (-1)%Z else to_int32 (Z.of_nat k).
Definition c_binary_search (v : R) (l : list R) : res Z := rmap (index_or_minus1 (length l)) (binary_search rltb req l v).
Definition c_linear_search (v : R) (l : list R) : res Z := Ok (index_or_minus1 (length l) (linear_search req l v)).
(** algorithm.c:92-94, 106-110. *)
Definition c_index_of (v : R) (l : list R) : res Z := Ok (index_of req l v).
Definition c_contains (v : R) (l : list R) : bool := negb (linear_search req l v =? length l)%nat.
(** algorithm.cpp:107-117. *)
Definition py_binary_search (x : ndarray R) (v : R) := execute_int (c_binary_search v) x.
Definition py_linear_search (x : ndarray R) (v : R) := execute_int (c_linear_search v) x.
Definition py_index_of (x : ndarray R) (v : R) := execute_int (c_index_of v) x.

(** algorithm.cpp:119-133 with algorithm.c:78-80. *)
Definition py_equal (x y : ndarray R) : python bool :=
  if (ndim x =? 1)%nat && (ndim y =? 1)%nat then
    if (len x =? len y)%nat then
      a <- window_of x (int_len x) ;; b <- window_of y (int_len x) ;; Ok (Some (equal_fn req a b))
    else Ok (Some false)
  else Ok None.

(** algorithm.cpp:135-150; sizes are converted to [int] separately. *)
Definition py_concatenate (x y : ndarray R) (junk : list R) : python (list R) :=
  if (ndim x =? 1)%nat && (ndim y =? 1)%nat then
    if is_real x && is_real y && (0 <=? int_len x)%Z && (0 <=? int_len y)%Z then
      mem <- concatenate (buf x ++ buf y ++ junk) (start x) (Z.to_nat (int_len x)) (length (buf x) + start y) (Z.to_nat (int_len y)) (length (buf x) + length (buf y)) ;;
      Ok (Some (skipn (length (buf x) + length (buf y)) mem))
    else UB
  else Ok None.
(** algorithm.cpp:152-165: [junk] is the new array of [size] elements. *)
Definition py_pad (x : ndarray R) (junk : list R) : python (list R) :=
  if (ndim x =? 1)%nat then
    if is_real x && (0 <=? int_len x)%Z then
      mem <- padder (buf x ++ junk) (start x) (Z.to_nat (int_len x)) (length (buf x)) (length junk) ;;
      Ok (Some (skipn (length (buf x)) mem))
    else UB
  else Ok None.

(** * Statistics: bindings/c/src/statistics.c and bindings/python/src/statistics.cpp *)

(** statistics.c:28-66, 92-94, 106-116. *)
Definition c_harmonic_mean := stat_harmonic_mean.
Definition c_generalized_mean (beta : Z) (l : list R) := stat_generalized_mean l beta.
Definition c_geometric_mean := stat_geometric_mean.
Definition c_kurtosis := stat_kurtosis.
Definition c_max := stat_max.
Definition c_min := stat_min.
Definition c_max_abs := stat_maxabs.
Definition c_min_abs := stat_minabs.
Definition c_mean := stat_mean.
Definition c_median := stat_median.
Definition c_norm := stat_norm.
Definition c_skewness := stat_skewness.
Definition c_variance := stat_variance.
Definition c_standard_deviation := stat_stddev.
(** statistics.c:68-90. *)
Definition c_moment (n : Z) (l : list R) : res R :=
  match n with
  | 1%Z => stat_moment 1 l | 2%Z => stat_moment 2 l | 3%Z => stat_moment 3 l | 4%Z => stat_moment 4 l
  | 5%Z => stat_moment 5 l | 6%Z => stat_moment 6 l | 7%Z => stat_moment 7 l | 8%Z => stat_moment 8 l
  | _ => Ok 0
  end.
(** statistics.c:96-104: both call edsp::statistics::peak. *)
Definition c_peak (l : list R) : res (Z * R) := rmap (fun p => (to_int32 (Z.of_nat (fst p)), snd p)) (stat_peak l).
Definition c_peak_abs (l : list R) : res (Z * R) := rmap (fun p => (to_int32 (Z.of_nat (fst p)), snd p)) (stat_peak l).

(** statistics.cpp:38-106. *)
Inductive stat_call := SKurtosis | SSkewness | SMoment (n : Z) | SGeometric | SGeneralized (beta : Z) | SHarmonic | SMax | SMin
| SMaxAbs | SMinAbs | SMean | SMedian | SVariance | SStdDev | SNorm.
Definition py_stat (c : stat_call) (x : ndarray R) : python R :=
  match c with
  | SKurtosis => execute_int c_kurtosis x | SSkewness => execute_int c_skewness x | SMoment n => execute_int (c_moment n) x
  | SGeometric => execute_int c_geometric_mean x | SGeneralized b => execute_int (c_generalized_mean b) x
  | SHarmonic => execute_int c_harmonic_mean x | SMax => execute_int c_max x | SMin => execute_int c_min x
  | SMaxAbs => execute_int c_max_abs x | SMinAbs => execute_int c_min_abs x | SMean => execute_int c_mean x
  | SMedian => execute_int c_median x | SVariance => execute_int c_variance x | SStdDev => execute_int c_standard_deviation x
  | SNorm => execute_int c_norm x
  end.
Definition py_peak (x : ndarray R) := execute_int c_peak x.
Definition py_peak_abs (x : ndarray R) := execute_int c_peak_abs x.

(** * Converters: bindings/c/src/converter.cpp and bindings/python/src/converter.cpp *)

(** python converter.cpp:27-45. *)
Definition py_peak2rms (x : ndarray R) := execute peak2rms x.
Definition py_peak2peak (x : ndarray R) := execute peak2peak x.
(** Converting reals to complex numbers, one element after the other, when the source is
    the destination's own memory [mem] (pairs of reals): converter/real2complex.hpp. *)
Fixpoint overlapped_real2complex (mem : list R) (i n : nat) : res (list R) :=
  match n with
  | O => Ok mem
  | S m =>
      v <- load mem i ;;
      mem1 <- store mem (2 * i) v ;;
      mem2 <- store mem1 (2 * i + 1) 0 ;;
      overlapped_real2complex mem2 (S i) m
  end.
Fixpoint pairs (l : list R) : list C := match l with a :: b :: t => (a, b) :: pairs t | _ => [] end.
(** python converter.cpp:47-60: [real] points to the result.  [junk] is the content of
    the new array of shape(0) complex numbers before the call. *)
Definition py_real2complex (junk : list R) (x : ndarray R) : python (list C) :=
  if (ndim x =? 1)%nat then m <- overlapped_real2complex junk 0 (len x) ;; Ok (Some (pairs m)) else Ok None.
(** python converter.cpp:62-76. *)
Definition py_ri2complex (re im : ndarray R) : python (list C) :=
  if (ndim re =? 1)%nat && (ndim im =? 1)%nat then
    a <- window_of re (Z.of_nat (len re)) ;; b <- window_of im (Z.of_nat (len re)) ;; rmap Some (real2complex2 a b)
  else Ok None.
(** python converter.cpp:78-93. *)
Definition py_complex2real (x : ndarray C) : python (list R * list R) := execute (fun l => Ok (complex2real l)) x.

(** * Spectral: bindings/c/src/spectral.c and bindings/python/src/spectral.cpp *)

(** spectral.c:61-67; the argument and result are [int]. *)
Definition c_get_fft_size (n : Z) : Z := to_int32 (n / 2 + 1).
Definition c_get_ifft_size (n : Z) : Z := to_int32 (2 * (n - 1)).
(** numpy.zeros raises for a negative shape; [b] is the block of the new array. *)
Definition py_result {A} (zero : A) (shape : Z) (out : list A) : python (list A) :=
  if (shape <? 0)%Z then Ok None
  else if (Z.of_nat (length out) <=? shape)%Z then Ok (Some (out ++ repeat zero (Z.to_nat shape - length out))) else UB.
(** spectral.cpp:140-186 with the shapes of 27-138: the transform writes its values at the
    start of an array of zeros of the given shape. *)
Definition py_fft (x : ndarray R) : python (list C) :=
  if (ndim x =? 1)%nat then l <- window_of x (int_len x) ;; out <- dft l ;; py_result C0 (c_get_fft_size (int_len x)) out else Ok None.
Definition py_ifft (x : ndarray C) : python (list R) :=
  if (ndim x =? 1)%nat then l <- window_of x (int_len x) ;; out <- idft l ;; py_result 0 (c_get_ifft_size (int_len x)) out else Ok None.
Definition py_spectrum (x : ndarray R) : python (list R) :=
  if (ndim x =? 1)%nat then l <- window_of x (int_len x) ;; out <- spectrum l ;; py_result 0 (c_get_fft_size (int_len x)) out else Ok None.
Definition py_cfft (x : ndarray C) : python (list C) := execute_int cdft x.
Definition py_cifft (x : ndarray C) : python (list C) := execute_int cidft x.
Definition py_hilbert (x : ndarray R) : python (list C) := execute_int hilbert x.
Definition py_dct (x : ndarray R) : python (list R) := execute_int dct x.
Definition py_idct (x : ndarray R) : python (list R) := execute_int idct x.
Definition py_hartley (x : ndarray R) : python (list R) := execute_int hartley x.
Definition py_cepstrum (x : ndarray R) : python (list R) := execute_int cepstrum x.
Definition py_conv (x y : ndarray R) : python (list R) := execute_pair conv x y.
(** spectral.c:41-43: the default scale of edsp::xcorr, spectral/correlation.hpp. *)
Definition py_xcorr (x y : ndarray R) : python (list R) := execute_pair (fun a b => xcorr a b ScaleNone) x y.

(** * Features: bindings/python/src/feature_*.cpp *)

(** feature_statistics.cpp:56-89, feature_temporal.cpp:61-100, feature_spectral.cpp:59-97: the
    functions of one array. *)
Inductive feat_call := FCrest | FEntropy | FRolloff (p : R) | FFlatness | FDecrease | FCentroid | FSpread
| FRssq | FRms | FPower | FEnergy | FDuration (sr : R) | FEffective (sr thr : R) | FLeq | FAzcr | FIrregularity.
Definition feat_function (c : feat_call) : list R -> res R :=
  match c with
  | FCrest => feat_crest | FEntropy => feat_entropy | FRolloff p => fun l => feat_rolloff l p | FFlatness => feat_flatness
  | FDecrease => feat_decrease | FCentroid => feat_centroid | FSpread => feat_spread | FRssq => feat_rssq | FRms => feat_rms
  | FPower => feat_power | FEnergy => feat_energy | FDuration sr => fun l => feat_duration l sr
  | FEffective sr thr => fun l => feat_effective_duration l sr thr | FLeq => feat_leq | FAzcr => feat_azcr | FIrregularity => feat_irregularity
  end.
Definition py_feature (c : feat_call) (x : ndarray R) : python R := execute (feat_function c) x.
(** feature_statistics.cpp:91-99, 107-110. *)
Definition py_weighted_centroid (x y : ndarray R) : python R := execute_two_inputs feat_weighted_centroid x y.
Definition py_weighted_spread (x y : ndarray R) : python R := execute_two_inputs feat_weighted_spread x y.
Definition py_slope (x y : ndarray R) : python R := execute_two_inputs feat_slope x y.
(** feature_statistics.cpp:101-105: edsp::flux also forms the range from the first array
    to the end of the second one, which exists only inside one allocation. *)
Definition py_flux (x y : ndarray R) : python R :=
  if negb (ndim x =? 1)%nat && negb (ndim y =? 1)%nat then Ok None else
  if is_real x && is_real y && (block x =? block y)%nat
  then rmap Some (feat_flux euclidean (buf x) (start x) (len x) (start y)) else UB.

(** * Windows and oscillators *)

(** windowing.cpp:27-34: [size] is a long, converted to [int] by the C function; numpy.empty
    raises for a negative shape; elements not written keep their content [junk]. *)
Definition py_window (f : nat -> res (list R)) (junk : list R) (size : Z) : python (list R) :=
  if (size <? 0)%Z then Ok None else
  let n := to_int32 size in
  if (n <? 0)%Z then UB else
  w <- f (Z.to_nat n) ;; Ok (Some (w ++ skipn (length w) junk)).

(** oscillator.cpp:28-35: generate() fills a new array, advancing the oscillator itself. *)
Definition py_generate (tick : osc -> res (osc * R)) (o : osc) (size : Z) : python (osc * list R) :=
  if (size <? 0)%Z then Ok None else rmap Some (osc_run tick o (Z.to_nat size)).

(** filter.cpp:25-37: filter() runs the object over the array. *)
Definition py_filter {S} (tick : S -> R -> res (S * R)) (s : S) (x : ndarray R) : python (S * list R) := execute (transform tick s) x.
