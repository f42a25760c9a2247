(** Model of include/edsp/feature and of the algorithms that depend on statistics.
    Ranges that are only read are lists; where the code mixes two iterators into one range the
    memory is explicit (a list and offsets). *)
From Verif Require Export RealBase AlgModel StatModel DesignModel.
Local Open Scope R_scope.
Local Open Scope res_scope.

(** [std::inner_product(first, last, first2, init)]; a second range that is too short is UB. *)
Fixpoint inner_product (a b : list R) (init : R) : res R :=
  match a, b with
  | [], _ => Ok init
  | x :: s, y :: t => inner_product s t (init + x * y)
  | _ :: _, [] => UB
  end.

(** energy.hpp:46-49, power.hpp:44-48, rms.hpp:43-47, rssq.hpp:42-46. *)
Definition feat_energy (l : list R) : res R := inner_product l l 0.
Definition feat_power (l : list R) : res R := e <- feat_energy l ;; rdiv e (INR (length l)).
Definition feat_rms (l : list R) : res R :=
  acc <- inner_product l l 1 ;; q <- rdiv acc (INR (length l)) ;; rsqrt q.
Definition feat_rssq (l : list R) : res R := s <- inner_product l l 0 ;; rsqrt s.

(** numeric.hpp:39-41, 155-157. *)
Definition nsign (x : R) : R := if Rlt_dec x 0 then -1 else 1.
(** azcr.hpp:52-60; [std::next] of an empty range is UB. *)
Fixpoint azcr_loop (prev : R) (l : list R) (acc : R) : R :=
  match l with
  | [] => acc
  | x :: t => azcr_loop x t (acc + (if Req_EM_T (nsign x) (nsign prev) then 0 else 1))
  end.
Definition feat_azcr (l : list R) : res R :=
  match l with
  | [] => UB
  | x :: t => rdiv (azcr_loop x t 0) (INR (length l) - 1)
  end.

(** amdf.hpp:51-62 and asdf.hpp:65-76: the inner loop over j, then the outer loop over the lag i.
    [d] combines the two samples. *)
Fixpoint df_inner (d : R -> R -> R) (a : list R) (i j k : nat) (acc : R) : res R :=
  match k with
  | O => Ok acc
  | S m => x <- load a j ;; y <- load a (j + i) ;; df_inner d a i (S j) m (acc + d x y)
  end.
Fixpoint df_outer (d : R -> R -> R) (a : list R) (i k : nat) : res (list R) :=
  match k with
  | O => Ok []
  | S m =>
      acc <- df_inner d a i 0 (length a - i) 0 ;;
      v <- rdiv acc (INR (length a)) ;;
      rmap (cons v) (df_outer d a (S i) m)
  end.
(** Taking the address of the first element on an empty range is UB. *)
Definition feat_df (d : R -> R -> R) (a : list R) : res (list R) :=
  match a with [] => UB | _ => df_outer d a 0 (length a) end.
Definition feat_amdf := feat_df (fun x y => Rabs (x - y)).
Definition feat_asdf := feat_df (fun x y => (x - y) * (x - y)).

(** duration.hpp:42-45, 60-66. *)
Definition feat_duration (l : list R) (sample_rate : R) : res R := rdiv (INR (length l)) sample_rate.
Fixpoint count_if (p : R -> bool) (l : list R) : nat := match l with [] => O | x :: t => ((if p x then 1 else 0) + count_if p t)%nat end.
Definition feat_effective_duration (l : list R) (sample_rate threshold : R) : res R :=
  mx <- stat_maxabs l ;;
  let limit := threshold * mx in
  rdiv (INR (count_if (fun s => if Rlt_dec limit (Rabs s) then true else false) l)) sample_rate.

(** pow2db.hpp:41-44 ([expects] power > 0). *)
Definition log10 (x : R) : R := ln x / ln 10.
Definition pow2db (p : R) : res R := if Rlt_dec 0 p then Ok (10 * log10 p) else UB.
(** leq.hpp:43-46. *)
Definition feat_leq (l : list R) : res R := e <- feat_power l ;; pow2db e.

(** snr.hpp:52-62.  The variance of the reference is taken over the range from [first1] up to
    [first2], which is only a range when [first2] follows [first1] in the same array. *)
Definition mrange (mem : list R) (a b : nat) : res (list R) :=
  if ((a <=? b) && (b <=? length mem))%nat then Ok (firstn (b - a) (skipn a mem)) else UB.
Fixpoint zip_sub (a b : list R) : list R := match a, b with x :: s, y :: t => (x - y) :: zip_sub s t | _, _ => [] end.
Definition feat_snr (mem : list R) (first1 n first2 : nat) : res R :=
  a <- mrange mem first1 (first1 + n) ;;
  b <- mrange mem first2 (first2 + n) ;;
  let noise := zip_sub a b in
  ref <- mrange mem first1 first2 ;;
  vr <- stat_variance ref ;;
  vn <- stat_variance noise ;;
  q <- rdiv vr vn ;;
  pow2db q.

(** centroid.hpp:43-52: loop state (weighted sum, unweighted sum). *)
Fixpoint centroid_loop (i : R) (l : list R) (ws us : R) : R * R :=
  match l with [] => (ws, us) | x :: t => centroid_loop (i + 1) t (ws + i * x) (us + x) end.
Definition feat_centroid (l : list R) : res R := let s := centroid_loop 0 l 0 0 in rdiv (fst s) (snd s).
(** centroid.hpp:69-78; first the magnitudes, then the centres. *)
Fixpoint wcentroid_loop (a b : list R) (ws us : R) : res (R * R) :=
  match a, b with
  | [], _ => Ok (ws, us)
  | x :: s, y :: t => wcentroid_loop s t (ws + y * x) (us + x)
  | _ :: _, [] => UB
  end.
Definition feat_weighted_centroid (a b : list R) : res R := s <- wcentroid_loop a b 0 0 ;; rdiv (fst s) (snd s).
(** spread.hpp:53-64, 73-84. *)
Fixpoint spread_loop (c i : R) (l : list R) (ws us : R) : R * R :=
  match l with [] => (ws, us) | x :: t => spread_loop c (i + 1) t (ws + (i - c) * (i - c) * x) (us + x) end.
Definition feat_spread (l : list R) : res R :=
  c <- feat_centroid l ;;
  let s := spread_loop c 0 l 0 0 in
  q <- rdiv (fst s) (snd s) ;; rsqrt q.
Fixpoint wspread_loop (c : R) (a b : list R) (ws us : R) : res (R * R) :=
  match a, b with
  | [], _ => Ok (ws, us)
  | x :: s, y :: t => wspread_loop c s t (ws + (y - c) * (y - c) * x) (us + x)
  | _ :: _, [] => UB
  end.
Definition feat_weighted_spread (a b : list R) : res R :=
  c <- feat_weighted_centroid a b ;;
  s <- wspread_loop c a b 0 0 ;;
  q <- rdiv (fst s) (snd s) ;; rsqrt q.

(** crest.hpp:38-45. *)
Definition feat_crest (l : list R) : res R :=
  mx <- stat_maxabs l ;; rdiv mx (accumulate (fun p c => p + Rabs c) 0 l).
(** decrease.hpp:50-59: [initial = *first], and the first iteration divides by i = 0. *)
Fixpoint decrease_loop (initial i : R) (l : list R) (ws us : R) : res (R * R) :=
  match l with
  | [] => Ok (ws, us)
  | x :: t => q <- rdiv (x - initial) i ;; decrease_loop initial (i + 1) t (ws + q) (us + x)
  end.
Definition feat_decrease (l : list R) : res R :=
  initial <- load l 0 ;;
  s <- decrease_loop initial 0 l 0 0 ;;
  rdiv (fst s) (snd s).
(** entropy.hpp:51-59. *)
Definition log2 (x : R) : R := ln x / ln 2.
Definition rlog2 (x : R) : res R := rmap (fun l => l / ln 2) (rlog x).
Definition feat_entropy (l : list R) : res R :=
  acc <- accumulateM (fun a x => lx <- rlog2 x ;; Ok (a + lx * x)) 0 l ;;
  ls <- rlog2 (INR (length l)) ;;
  rdiv (- acc) ls.
(** spectral_entropy.hpp:56-66. *)
Definition feat_spectral_entropy (l : list R) : res R :=
  let sum := accumulate Rplus 0 l in
  acc <- accumulateM (fun a x => n <- rdiv x sum ;; lx <- rlog2 n ;; Ok (a + lx * n)) 0 l ;;
  ls <- rlog2 (INR (length l)) ;;
  rdiv (- acc) ls.
(** flatness.hpp:44-48. *)
Definition feat_flatness (l : list R) : res R :=
  g <- stat_geometric_mean l ;; m <- stat_mean l ;; rdiv g m.

(** numeric.hpp:288-323. *)
Inductive distances := manhattan | euclidean | logarithmic.
Definition ndistance (d : distances) (x y : R) : res R :=
  match d with
  | manhattan => Ok (x - y)
  | euclidean => Ok ((x - y) * (x - y))
  | logarithmic => q <- rdiv (Rabs x) (Rabs y) ;; rlog q
  end.
(** flux.hpp:48-58: [previous_sum] runs from first1 to first2 + size. *)
Fixpoint flux_loop (d : distances) (cs ps : R) (a b : list R) (acc : R) : res R :=
  match a, b with
  | [], _ => Ok acc
  | x :: s, y :: t => u <- rdiv x cs ;; v <- rdiv y ps ;; w <- ndistance d u v ;; flux_loop d cs ps s t (acc + w)
  | _ :: _, [] => UB
  end.
Definition feat_flux (d : distances) (mem : list R) (first1 n first2 : nat) : res R :=
  a <- mrange mem first1 (first1 + n) ;;
  b <- mrange mem first2 (first2 + n) ;;
  prev <- mrange mem first1 (first2 + n) ;;
  flux_loop d (accumulate Rplus 0 a) (accumulate Rplus 0 prev) a b 0.
(** rolloff.hpp:44-55: number of iterations of the loop. *)
Fixpoint rolloff_loop (limit acc : R) (l : list R) : nat :=
  match l with
  | [] => O
  | x :: t => if Rle_dec acc limit then S (rolloff_loop limit (acc + x * x) t) else O
  end.
Definition feat_rolloff (l : list R) (percentage : R) : res R :=
  e <- feat_energy l ;;
  rdiv (INR (rolloff_loop (percentage * e) 0 l) - 1) (INR (length l)).
(** slope.hpp:62-76: first the magnitudes, then the frequencies.  [first1] has reached [last1] when
    [N] is computed, so the distance is 0. *)
Fixpoint slope_loop (a b : list R) (m f mf ff : R) : res (R * R * R * R) :=
  match a, b with
  | [], _ => Ok (m, f, mf, ff)
  | x :: s, y :: t => slope_loop s t (m + x) (f + y) (mf + x * y) (ff + y * y)
  | _ :: _, [] => UB
  end.
Definition feat_slope (a b : list R) : res R :=
  s <- slope_loop a b 0 0 0 0 ;;
  match s with
  | (m, f, mf, ff) =>
      let N := 0 in
      im <- rdiv 1 m ;;
      rdiv (im * (N * mf - f * m)) (N * ff - f * f)
  end.
(** variation.hpp:58-69. *)
Fixpoint variation_loop (a b : list R) (s1 s2 s12 : R) : res (R * R * R) :=
  match a, b with
  | [], _ => Ok (s1, s2, s12)
  | x :: s, y :: t => variation_loop s t (s1 + x) (s2 + y) (s12 + x * y)
  | _ :: _, [] => UB
  end.
Definition feat_variation (a b : list R) : res R :=
  s <- variation_loop a b 0 0 0 ;;
  match s with
  | (s1, s2, s12) => r1 <- rsqrt s1 ;; r2 <- rsqrt s2 ;; q <- rdiv s2 (r1 * r2) ;; Ok (1 - q)
  end.
(** spectral_irregularity.hpp:50-60: [diff] is the first element plus one minus the first element. *)
Fixpoint irregularity_loop (l : list R) (sd sa : R) : R * R :=
  match l with
  | x :: ((_ :: _) as t) => let diff := (x + 1) - x in irregularity_loop t (sd + diff * diff) (sa + x * x)
  | _ => (sd, sa)
  end.
Definition feat_irregularity (l : list R) : res R :=
  match l with
  | [] => UB
  | _ => let s := irregularity_loop l 0 0 in rdiv (fst s) (snd s)
  end.
(** loudness.hpp:59-62. *)
Definition feat_loudness (l : list R) : res R := e <- feat_energy l ;; rpow e (67 / 100).

(** normalize.hpp:46-52, 67-73. *)
Definition normalize (mem : list R) (first n d_first : nat) : res (list R) :=
  src <- mrange mem first (first + n) ;;
  match n with
  | O => UB
  | _ => factor <- stat_maxabs src ;; mtransform (fun v => rdiv v factor) mem first d_first n
  end.
Definition normalize_rms (mem : list R) (first n d_first : nat) : res (list R) :=
  src <- mrange mem first (first + n) ;;
  match n with
  | O => Ok mem
  | _ => factor <- feat_rms src ;; mtransform (fun v => rdiv v factor) mem first d_first n
  end.
(** silence.hpp:40-42. *)
Definition silence (l : list R) (threshold : R) : res bool :=
  p <- feat_power l ;; Ok (if Rlt_dec p threshold then true else false).

(** peak2peak.hpp:37-40 and peak2rms.hpp:45-49.  [std::minmax_element] returns the first minimum
    and the last maximum; only the values are used. *)
Definition peak2peak (l : list R) : res R :=
  mx <- stat_max l ;; mn <- stat_min l ;; Ok (Rabs mx - Rabs mn).
Definition peak2rms (l : list R) : res R :=
  mx <- stat_max l ;; mn <- stat_min l ;; r <- feat_rms l ;; rdiv (Rmax (Rabs mn) (Rabs mx)) r.
