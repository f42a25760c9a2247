(** Model of include/edsp/spectral on exact numbers, FFTW back end (the default one, CMakeLists.txt:24).
    FFTW itself is represented by what its manual, section "What FFTW Really Computes", says it computes. *)
From Verif Require Export RealBase AlgModel.
From Verif Require Export Cplx.
Local Open Scope res_scope.
Local Open Scope R_scope.

(** ** FFTW *)
(** e^(2 pi i z / n). *)
Definition tw (n : nat) (z : Z) : C := Cexp (2 * PI * IZR z / INR n).
(** FFTW_FORWARD and FFTW_BACKWARD of a one-dimensional complex DFT. *)
Definition fftw_forward (n : nat) (x : list C) : list C :=
  map (fun k => csumf (fun j => Cmul (nth j x C0) (tw n (- (Z.of_nat j * Z.of_nat k)))) n) (seq 0 n).
Definition fftw_backward (n : nat) (x : list C) : list C :=
  map (fun k => csumf (fun j => Cmul (nth j x C0) (tw n (Z.of_nat j * Z.of_nat k))) n) (seq 0 n).
(** r2c: the first n/2+1 outputs of the forward DFT of a real array. *)
Definition fftw_r2c (n : nat) (x : list R) : list C := firstn (n / 2 + 1) (fftw_forward n (map RtoC x)).
(** c2r: the backward DFT of the Hermitian array whose first n/2+1 elements are given; the imaginary
    parts of elements 0 and n/2 (n even) are ignored. *)
Definition hermitian (n : nat) (h : list C) (k : nat) : C :=
  if (k =? 0)%nat || (2 * k =? n)%nat then RtoC (Re (nth k h C0))
  else if (2 * k <? n)%nat then nth k h C0 else Cconj (nth (n - k) h C0).
Definition fftw_c2r (n : nat) (h : list C) : list R :=
  map Re (fftw_backward n (map (hermitian n h) (seq 0 n))).
(** FFTW_DHT, FFTW_REDFT10 (DCT-II) and FFTW_REDFT01 (DCT-III). *)
Definition fftw_dht (n : nat) (x : list R) : list R :=
  map (fun k => sumf (fun j => nth j x 0 * (cos (2 * PI * INR j * INR k / INR n) + sin (2 * PI * INR j * INR k / INR n))) n) (seq 0 n).
Definition fftw_redft10 (n : nat) (x : list R) : list R :=
  map (fun k => 2 * sumf (fun j => nth j x 0 * cos (PI * (INR j + 1 / 2) * INR k / INR n)) n) (seq 0 n).
Definition fftw_redft01 (n : nat) (x : list R) : list R :=
  map (fun k => nth 0 x 0 + 2 * sumf (fun j => nth (S j) x 0 * cos (PI * INR (S j) * (INR k + 1 / 2) / INR n)) (n - 1)) (seq 0 n).

(** ** The engine: internal/libfftw_impl.hpp *)
Inductive fft_plan := Forward | Backward | R2C | C2R | Hartley | DctII | DctIII.
(** libfftw_impl.hpp:55-61, 145-147 (float); 150-243 is the same text for double. *)
Record engine := mkEngine { nfft : Z; plan : option fft_plan }.
(** libfftw_impl.hpp:61 (and the constructor of fft_engine.hpp): the size, a size_t, is narrowed to int. *)
Definition new_engine (n : Z) : engine := mkEngine (to_int32 n) None.
(** The common first lines of every transform: create the plan if there is none yet.  Planning a size
    that is not positive gives the null plan. *)
Definition planned (e : engine) (k : fft_plan) : option fft_plan :=
  match plan e with Some p => Some p | None => if (0 <? nfft e)%Z then Some k else None end.
Definition points (e : engine) : nat := Z.to_nat (nfft e).
(** fftw_execute_dft: executes whatever complex plan is stored; a null plan, a plan of another type and
    a source shorter than the transform are undefined. *)
Definition execute_dft (n : nat) (p : option fft_plan) (src : list C) : res (list C) :=
  if (length src <? n)%nat then UB else
  match p with Some Forward => Ok (fftw_forward n src) | Some Backward => Ok (fftw_backward n src) | _ => UB end.
Definition execute_r2c (n : nat) (p : option fft_plan) (src : list R) : res (list C) :=
  if (length src <? n)%nat then UB else match p with Some R2C => Ok (fftw_r2c n src) | _ => UB end.
Definition execute_c2r (n : nat) (p : option fft_plan) (src : list C) : res (list R) :=
  if (length src <? n / 2 + 1)%nat then UB else match p with Some C2R => Ok (fftw_c2r n src) | _ => UB end.
Definition execute_r2r (n : nat) (p : option fft_plan) (src : list R) : res (list R) :=
  if (length src <? n)%nat then UB else
  match p with Some Hartley => Ok (fftw_dht n src) | Some DctII => Ok (fftw_redft10 n src) | Some DctIII => Ok (fftw_redft01 n src) | _ => UB end.
(** libfftw_impl.hpp:69-74, 76-82, 84-90, 92-98, 100-106, 108-114, 116-122. *)
Definition eng_cdft (e : engine) (src : list C) : res (engine * list C) :=
  let p := planned e Forward in out <- execute_dft (points e) p src ;; Ok (mkEngine (nfft e) p, out).
Definition eng_cidft (e : engine) (src : list C) : res (engine * list C) :=
  let p := planned e Backward in out <- execute_dft (points e) p src ;; Ok (mkEngine (nfft e) p, out).
Definition eng_dft (e : engine) (src : list R) : res (engine * list C) :=
  let p := planned e R2C in out <- execute_r2c (points e) p src ;; Ok (mkEngine (nfft e) p, out).
Definition eng_idft (e : engine) (src : list C) : res (engine * list R) :=
  let p := planned e C2R in out <- execute_c2r (points e) p src ;; Ok (mkEngine (nfft e) p, out).
Definition eng_dht (e : engine) (src : list R) : res (engine * list R) :=
  let p := planned e Hartley in out <- execute_r2r (points e) p src ;; Ok (mkEngine (nfft e) p, out).
Definition eng_dct (e : engine) (src : list R) : res (engine * list R) :=
  let p := planned e DctII in out <- execute_r2r (points e) p src ;; Ok (mkEngine (nfft e) p, out).
Definition eng_idct (e : engine) (src : list R) : res (engine * list R) :=
  let p := planned e DctIII in out <- execute_r2r (points e) p src ;; Ok (mkEngine (nfft e) p, out).
(** libfftw_impl.hpp:124-129, 131-136: in place, over nfft elements. *)
Definition idft_scale (e : engine) (dst : list R) : res (list R) :=
  if (length dst <? points e)%nat then UB else
  s <- mapM (fun x => rdiv x (IZR (nfft e))) (firstn (points e) dst) ;; Ok (s ++ skipn (points e) dst).
Definition cidft_scale (e : engine) (dst : list C) : res (list C) :=
  if (length dst <? points e)%nat then UB else
  s <- mapM (fun z => re <- rdiv (Re z) (IZR (nfft e)) ;; im <- rdiv (Im z) (IZR (nfft e)) ;; Ok (re, im)) (firstn (points e) dst) ;;
  Ok (s ++ skipn (points e) dst).
(** libfftw_impl.hpp:138-143: 2 * nfft_ is an int multiplication. *)
Definition idct_scale (e : engine) (dst : list R) : res (list R) :=
  if (2 ^ 31 <=? 2 * nfft e)%Z then UB else
  if (length dst <? points e)%nat then UB else
  s <- mapM (fun x => rdiv x (IZR (2 * nfft e))) (firstn (points e) dst) ;; Ok (s ++ skipn (points e) dst).

(** ** The free functions; the result is what is written from d_first on *)
(** fft_engine.hpp:33-36, 43-45. *)
Definition make_fft_size (n : nat) : nat := (n / 2 + 1)%nat.
Definition make_ifft_size (c : nat) : Z := (2 * (Z.of_nat c - 1))%Z.
Definition zlen {A} (l : list A) : Z := Z.of_nat (length l).
(** dft.hpp:47-53. *)
Definition cdft (x : list C) : res (list C) := p <- eng_cdft (new_engine (zlen x)) x ;; Ok (snd p).
(** dft.hpp:71-78. *)
Definition cidft (x : list C) : res (list C) := p <- eng_cidft (new_engine (zlen x)) x ;; cidft_scale (fst p) (snd p).
(** dft.hpp:94-99. *)
Definition dft (x : list R) : res (list C) := p <- eng_dft (new_engine (zlen x)) x ;; Ok (snd p).
(** dft.hpp:115-121. *)
Definition idft (h : list C) : res (list R) := p <- eng_idft (new_engine (make_ifft_size (length h))) h ;; idft_scale (fst p) (snd p).
(** dct.hpp:44-49, 67-73. *)
Definition dct (x : list R) : res (list R) := p <- eng_dct (new_engine (zlen x)) x ;; Ok (snd p).
Definition idct (x : list R) : res (list R) := p <- eng_idct (new_engine (zlen x)) x ;; idct_scale (fst p) (snd p).
(** hartley.hpp:47-52. *)
Definition hartley (x : list R) : res (list R) := p <- eng_dht (new_engine (zlen x)) x ;; Ok (snd p).

(** std::copy into the front of a vector of zeros of twice the size. *)
Definition padded (size : nat) (x : list R) : res (list R) :=
  if (length x <? size)%nat then UB else Ok (firstn size x ++ repeat 0 (2 * size - size)).
(** std::transform of two arrays of the same length. *)
Fixpoint zip_with (f : C -> C -> C) (a b : list C) : list C :=
  match a, b with x :: a', y :: b' => f x y :: zip_with f a' b' | _, _ => [] end.
(** convolution.hpp:50-75; [y] is the storage from first2 on. *)
Definition conv (x y : list R) : res (list R) :=
  match x with [] => UB | _ =>
    let size := length x in
    let n := (2 * Z.of_nat size)%Z in
    t1 <- padded size x ;; t2 <- padded size y ;;
    p1 <- eng_dft (new_engine n) t1 ;;
    p2 <- eng_dft (fst p1) t2 ;;
    let prod := zip_with Cmul (snd p1) (snd p2) in
    q <- eng_idft (new_engine n) prod ;;
    out <- idft_scale (fst q) (snd q) ;;
    Ok (firstn size out)
  end.
(** correlation.hpp:34-38. *)
Inductive correlation_scale := ScaleNone | Biased | Unbiased.
(** correlation.hpp:78 and 129. *)
Definition xcorr_factor (n : Z) (s : correlation_scale) : R := IZR (n * match s with Biased => n | _ => 1 end)%Z.
(** correlation.hpp:59-81. *)
Definition autocorr (x : list R) (s : correlation_scale) : res (list R) :=
  match x with [] => UB | _ =>
    let size := length x in
    let n := (2 * Z.of_nat size)%Z in
    t <- padded size x ;;
    p <- eng_dft (new_engine n) t ;;
    q <- eng_idft (new_engine n) (map (fun z => Cmul z (Cconj z)) (snd p)) ;;
    mapM (fun v => rdiv v (xcorr_factor n s)) (firstn size (snd q))
  end.
(** correlation.hpp:104-132. *)
Definition xcorr (x y : list R) (s : correlation_scale) : res (list R) :=
  match x with [] => UB | _ =>
    let size := length x in
    let n := (2 * Z.of_nat size)%Z in
    t1 <- padded size x ;; t2 <- padded size y ;;
    p1 <- eng_dft (new_engine n) t1 ;;
    p2 <- eng_dft (fst p1) t2 ;;
    q <- eng_idft (new_engine n) (zip_with (fun l r => Cmul l (Cconj r)) (snd p1) (snd p2)) ;;
    mapM (fun v => rdiv v (xcorr_factor n s)) (firstn size (snd q))
  end.
(** cepstrum.hpp:45-67: the logarithm of a zero magnitude is not finite. *)
Definition cepstrum (x : list R) : res (list R) :=
  match x with [] => UB | _ =>
    let size := length x in
    let n := (2 * Z.of_nat size)%Z in
    t <- padded size x ;;
    p <- eng_dft (new_engine n) t ;;
    logs <- mapM (fun z => l <- rlog (Cmod z) ;; Ok (RtoC l)) (snd p) ;;
    q <- eng_idft (new_engine n) logs ;;
    out <- idft_scale (fst q) (snd q) ;;
    Ok (firstn size out)
  end.
(** hilbert.hpp:64-65. *)
Definition hilbert_limit1 (n : nat) : nat := if Nat.even n then (n / 2)%nat else ((n + 1) / 2)%nat.
Definition hilbert_limit2 (n : nat) : nat := if Nat.even n then (hilbert_limit1 n + 1)%nat else hilbert_limit1 n.
(** hilbert.hpp:66-72. *)
Definition hilbert_mask (n i : nat) (z : C) : C :=
  let z1 := if (1 <=? i)%nat && (i <? hilbert_limit1 n)%nat then Cscal 2 z else z in
  if (hilbert_limit2 n <=? i)%nat && (i <? n)%nat then C0 else z1.
Definition indexed {A B} (f : nat -> A -> B) (l : list A) : list B := map (fun p => f (fst p) (snd p)) (combine (seq 0 (length l)) l).
(** hilbert.hpp:52-77. *)
Definition hilbert (x : list R) : res (list C) :=
  p <- eng_cdft (new_engine (zlen x)) (map RtoC x) ;;
  q <- eng_cidft (new_engine (zlen x)) (indexed (hilbert_mask (length x)) (snd p)) ;;
  cidft_scale (fst q) (snd q).
(** spectrum.hpp:52-60: square of std::abs. *)
Definition spectrum (x : list R) : res (list R) :=
  match x with [] => UB | _ => h <- dft x ;; Ok (map (fun z => Cmod z * Cmod z) h) end.

(** ** Call histories on one engine (fft_engine.hpp:82-157) *)
Inductive call := CallDft (x : list C) | CallIdft (x : list C) | CallRDft (x : list R) | CallRIdft (x : list C)
  | CallDht (x : list R) | CallDct (x : list R) | CallIdct (x : list R).
Definition run_call (e : engine) (c : call) : res (engine * (list C + list R)) :=
  match c with
  | CallDft x => p <- eng_cdft e x ;; Ok (fst p, inl (snd p))
  | CallIdft x => p <- eng_cidft e x ;; Ok (fst p, inl (snd p))
  | CallRDft x => p <- eng_dft e x ;; Ok (fst p, inl (snd p))
  | CallRIdft x => p <- eng_idft e x ;; Ok (fst p, inr (snd p))
  | CallDht x => p <- eng_dht e x ;; Ok (fst p, inr (snd p))
  | CallDct x => p <- eng_dct e x ;; Ok (fst p, inr (snd p))
  | CallIdct x => p <- eng_idct e x ;; Ok (fst p, inr (snd p))
  end.
Fixpoint run_calls (e : engine) (h : list call) : res engine :=
  match h with [] => Ok e | c :: t => p <- run_call e c ;; run_calls (fst p) t end.
