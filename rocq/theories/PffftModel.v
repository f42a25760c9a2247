(** Model of the PFFFT back end, include/edsp/spectral/internal/libpffft_impl.hpp, on exact numbers.
    The PFFFT library itself is represented by what its header says it computes; everything else (the
    fast cosine transforms, the Hartley loop, the plan cache) is the code of the repository. *)
From Verif Require Export SpectralModel.
Local Open Scope res_scope.
Local Open Scope R_scope.

(** for (size_t i = 0; i < n; ++i) body *)
Fixpoint for_range {S : Type} (n : nat) (body : nat -> S -> res S) (s : S) : res S :=
  match n with O => Ok s | Datatypes.S k => s' <- for_range k body s ;; body k s' end.

(** ** libpffft_impl.hpp:39-57.  [v] at [vo] is vec, [t] at [o] is temp; the recursive calls swap the two
    arrays.  [fuel] bounds the recursion depth: a length of zero recurses for ever. *)
(** Lines 43-48. *)
Definition forward_split (v : list R) (vo : nat) (o len : nat) (i : nat) (t : list R) : res (list R) :=
  let half := (len / 2)%nat in
  x <- load v (vo + i) ;;
  y <- load v (vo + (len - 1 - i)) ;;
  t1 <- store t (o + i) (x + y) ;;
  q <- rdiv (x - y) (cos ((INR i + 1 / 2) * PI / INR len) * 2) ;;
  store t1 (o + (i + half)) q.
(** Lines 51-54. *)
Definition forward_merge (t : list R) (o : nat) (vo len : nat) (i : nat) (v : list R) : res (list R) :=
  let half := (len / 2)%nat in
  a <- load t (o + i) ;;
  v1 <- store v (vo + (i * 2 + 0)) a ;;
  b <- load t (o + (i + half)) ;;
  c <- load t (o + (i + half + 1)) ;;
  store v1 (vo + (i * 2 + 1)) (b + c).
Fixpoint forward_transform (fuel : nat) (v : list R) (vo : nat) (t : list R) (o : nat) (len : nat) : res (list R * list R) :=
  match fuel with
  | O => UB
  | Datatypes.S fuel' =>
    if (len =? 1)%nat then Ok (v, t) else
    let half := (len / 2)%nat in
    t1 <- for_range half (forward_split v vo o len) t ;;
    p1 <- forward_transform fuel' t1 o v vo half ;;
    p2 <- forward_transform fuel' (fst p1) (o + half) (snd p1) vo half ;;
    let t2 := fst p2 in
    v1 <- for_range (half - 1) (forward_merge t2 o vo len) (snd p2) ;;
    a <- load t2 (o + (half - 1)) ;;
    v2 <- store v1 (vo + (len - 2)) a ;;
    b <- load t2 (o + (len - 1)) ;;
    v3 <- store v2 (vo + (len - 1)) b ;;
    Ok (v3, t2)
  end.

(** ** libpffft_impl.hpp:59-77 *)
(** Lines 65-68; the loop starts at 1, so [i] here is one less. *)
Definition inverse_split (v : list R) (vo : nat) (o len : nat) (i0 : nat) (t : list R) : res (list R) :=
  let half := (len / 2)%nat in let i := Datatypes.S i0 in
  a <- load v (vo + i * 2) ;;
  t1 <- store t (o + i) a ;;
  b <- load v (vo + (i * 2 - 1)) ;;
  c <- load v (vo + (i * 2 + 1)) ;;
  store t1 (o + (i + half)) (b + c).
(** Lines 71-76. *)
Definition inverse_merge (t : list R) (o : nat) (vo len : nat) (i : nat) (v : list R) : res (list R) :=
  let half := (len / 2)%nat in
  x <- load t (o + i) ;;
  h <- load t (o + (i + half)) ;;
  y <- rdiv h (cos ((INR i + 1 / 2) * PI / INR len) * 2) ;;
  v1 <- store v (vo + i) (x + y) ;;
  store v1 (vo + (len - 1 - i)) (x - y).
Fixpoint inverse_transform (fuel : nat) (v : list R) (vo : nat) (t : list R) (o : nat) (len : nat) : res (list R * list R) :=
  match fuel with
  | O => UB
  | Datatypes.S fuel' =>
    if (len =? 1)%nat then Ok (v, t) else
    let half := (len / 2)%nat in
    a <- load v (vo + 0) ;;
    t0 <- store t (o + 0) a ;;
    b <- load v (vo + 1) ;;
    t1 <- store t0 (o + half) b ;;
    t2 <- for_range (half - 1) (inverse_split v vo o len) t1 ;;
    p1 <- inverse_transform fuel' t2 o v vo half ;;
    p2 <- inverse_transform fuel' (fst p1) (o + half) (snd p1) vo half ;;
    v1 <- for_range half (inverse_merge (fst p2) o vo len) (snd p2) ;;
    Ok (v1, fst p2)
  end.

(** ** libpffft_impl.hpp:81-87 and 91-98: in place on [vec]. *)
Definition lee_dct (vec : list R) (len : nat) : res (list R) :=
  p <- forward_transform (Datatypes.S len) vec 0 (repeat 0 len) 0 len ;;
  for_range len (fun i v => x <- load v i ;; store v i (x * 2)) (fst p).
Definition lee_idct (vec : list R) (len : nat) : res (list R) :=
  v1 <- for_range len (fun i v => x <- load v i ;; store v i (x * 2)) vec ;;
  x0 <- load v1 0 ;;
  v2 <- store v1 0 (x0 / 2) ;;
  p <- inverse_transform (Datatypes.S len) v2 0 (repeat 0 len) 0 len ;;
  Ok (fst p).
(** ** libpffft_impl.hpp:112-120: the inner loop starts at 1. *)
Definition useless_dht (input dst : list R) (n : nat) : res (list R) :=
  for_range n (fun k d =>
    d0 <- store d k 0 ;;
    for_range (n - 1) (fun j0 d' => let j := Datatypes.S j0 in
      x <- load input j ;; y <- load d' k ;;
      store d' k (y + x * (cos (2 * PI * INR j * INR k / INR n) + sin (2 * PI * INR j * INR k / INR n)))) d0) dst.

(** ** The PFFFT library *)
(** reinterpret_cast between std::complex<float>* and float*. *)
Definition floats (l : list C) : list R := flat_map (fun z => [Re z; Im z]) l.
Fixpoint complexes (l : list R) : list C := match l with a :: b :: t => (a, b) :: complexes t | _ => [] end.
Inductive pffft_kind := PReal | PComplex.
(** pffft.h: sizes are multiples of 32 (real) or 16 (complex) with no prime factor above 5; a setup for
    another size does not exist. *)
Fixpoint strip (fuel : nat) (p n : Z) : Z :=
  match fuel with O => n | Datatypes.S f => if (n mod p =? 0)%Z then strip f p (n / p) else n end.
Definition pffft_supported (k : pffft_kind) (n : Z) : bool :=
  (0 <? n)%Z && (n mod (match k with PReal => 32 | PComplex => 16 end) =? 0)%Z && (strip 31 5 (strip 31 3 (strip 31 2 n)) =? 1)%Z.
(** The real transform of n samples is n floats: the values 0 and n/2, both real, in the first pair. *)
Definition pack (n : nat) (X : nat -> C) : list R :=
  Re (X 0%nat) :: Re (X (n / 2)%nat) :: floats (map (fun i => X (Datatypes.S i)) (seq 0 (n / 2 - 1))).
Definition unpack (n : nat) (s : list R) (k : nat) : C :=
  if (k =? 0)%nat then RtoC (nth 0 s 0) else if (2 * k =? n)%nat then RtoC (nth 1 s 0)
  else if (2 * k <? n)%nat then (nth (2 * k) s 0, nth (2 * k + 1) s 0) else Cconj (nth (2 * (n - k)) s 0, nth (2 * (n - k) + 1) s 0).
Definition pffft_real_forward (n : nat) (s : list R) : list R := pack n (fun k => nth k (fftw_forward n (map RtoC s)) C0).
Definition pffft_real_backward (n : nat) (s : list R) : list R := map Re (fftw_backward n (map (unpack n s) (seq 0 n))).
(** pffft_transform_ordered: reads and writes n floats for a real setup and 2n floats for a complex one. *)
Definition pffft_run (n : nat) (p : option pffft_kind) (forward : bool) (src dst : list R) : res (list R) :=
  match p with
  | None => UB
  | Some k =>
    let m := match k with PReal => n | PComplex => (2 * n)%nat end in
    if (length src <? m)%nat || (length dst <? m)%nat then UB else
    Ok ((match k, forward with
         | PReal, true => pffft_real_forward n (firstn n src)
         | PReal, false => pffft_real_backward n src
         | PComplex, true => floats (fftw_forward n (complexes src))
         | PComplex, false => floats (fftw_backward n (complexes src))
         end) ++ skipn m dst)
  end.

(** ** libpffft_impl.hpp:128-219 *)
Record pengine := mkPengine { psize : Z; psetup : option pffft_kind }.
(** 133-138. *)
Definition new_pengine (n : Z) : res pengine :=
  if (to_int32 n mod 16 =? 0)%Z then Ok (mkPengine (to_int32 n) None) else UB.
Definition setup_for (e : pengine) (k : pffft_kind) : option pffft_kind :=
  match psetup e with Some p => Some p | None => if pffft_supported k (psize e) then Some k else None end.
Definition ppoints (e : pengine) : nat := Z.to_nat (psize e).
(** 147-153, 155-161. *)
Definition pe_cdft (e : pengine) (src dst : list C) : res (pengine * list C) :=
  let p := setup_for e PComplex in
  out <- pffft_run (ppoints e) p true (floats src) (floats dst) ;; Ok (mkPengine (psize e) p, complexes out).
Definition pe_cidft (e : pengine) (src dst : list C) : res (pengine * list C) :=
  let p := setup_for e PComplex in
  out <- pffft_run (ppoints e) p false (floats src) (floats dst) ;; Ok (mkPengine (psize e) p, complexes out).
(** 163-168, 170-175. *)
Definition pe_dft (e : pengine) (src : list R) (dst : list C) : res (pengine * list C) :=
  let p := setup_for e PReal in
  out <- pffft_run (ppoints e) p true src (floats dst) ;; Ok (mkPengine (psize e) p, complexes out).
Definition pe_idft (e : pengine) (src : list C) (dst : list R) : res (pengine * list R) :=
  let p := setup_for e PReal in
  out <- pffft_run (ppoints e) p false (floats src) dst ;; Ok (mkPengine (psize e) p, out).
(** 177-179. *)
Definition pe_dht (e : pengine) (src dst : list R) : res (pengine * list R) :=
  out <- useless_dht src dst (ppoints e) ;; Ok (e, out).
(** std::copy(src, src + n, dst). *)
Definition copy_front (src dst : list R) (n : nat) : res (list R) :=
  if (length src <? n)%nat || (length dst <? n)%nat then UB else Ok (firstn n src ++ skipn n dst).
(** 181-187: the setup is created and not used; a size it does not support fails there. *)
Definition pe_dct (e : pengine) (src dst : list R) : res (pengine * list R) :=
  match setup_for e PReal with
  | None => UB
  | Some p => d <- copy_front src dst (ppoints e) ;; out <- lee_dct d (ppoints e) ;; Ok (mkPengine (psize e) (Some p), out)
  end.
(** 189-192. *)
Definition pe_idct (e : pengine) (src dst : list R) : res (pengine * list R) :=
  d <- copy_front src dst (ppoints e) ;; out <- lee_idct d (ppoints e) ;; Ok (e, out).
(** 194-199, 201-206, 208-213: the text of the FFTW back end. *)
Definition as_engine (e : pengine) : engine := mkEngine (psize e) None.

(** ** The free functions (dft.hpp, dct.hpp, hartley.hpp, convolution.hpp, correlation.hpp, spectrum.hpp,
    hilbert.hpp, at the lines given in SpectralModel) on this back end; [dst] is the destination range. *)
Definition p_cdft (x dst : list C) : res (list C) := e <- new_pengine (zlen x) ;; p <- pe_cdft e x dst ;; Ok (snd p).
Definition p_cidft (x dst : list C) : res (list C) :=
  e <- new_pengine (zlen x) ;; p <- pe_cidft e x dst ;; cidft_scale (as_engine (fst p)) (snd p).
Definition p_dft (x : list R) (dst : list C) : res (list C) := e <- new_pengine (zlen x) ;; p <- pe_dft e x dst ;; Ok (snd p).
Definition p_idft (h : list C) (dst : list R) : res (list R) :=
  e <- new_pengine (make_ifft_size (length h)) ;; p <- pe_idft e h dst ;; idft_scale (as_engine (fst p)) (snd p).
Definition p_dct (x dst : list R) : res (list R) := e <- new_pengine (zlen x) ;; p <- pe_dct e x dst ;; Ok (snd p).
Definition p_idct (x dst : list R) : res (list R) :=
  e <- new_pengine (zlen x) ;; p <- pe_idct e x dst ;; idct_scale (as_engine (fst p)) (snd p).
Definition p_hartley (x dst : list R) : res (list R) := e <- new_pengine (zlen x) ;; p <- pe_dht e x dst ;; Ok (snd p).
Definition p_conv (x y : list R) : res (list R) :=
  match x with [] => UB | _ =>
    let size := length x in
    let n := (2 * Z.of_nat size)%Z in
    let zeros := repeat C0 (make_fft_size (2 * size)) in
    fe <- new_pengine n ;; ie <- new_pengine n ;;
    t1 <- padded size x ;; t2 <- padded size y ;;
    p1 <- pe_dft fe t1 zeros ;;
    p2 <- pe_dft (fst p1) t2 zeros ;;
    q <- pe_idft ie (zip_with Cmul (snd p1) (snd p2)) (repeat 0 (2 * size)) ;;
    out <- idft_scale (as_engine (fst q)) (snd q) ;;
    Ok (firstn size out)
  end.
Definition p_spectrum (x : list R) : res (list R) :=
  match x with [] => UB | _ =>
    h <- p_dft x (repeat C0 (make_fft_size (length x))) ;; Ok (map (fun z => Cmod z * Cmod z) h)
  end.
Definition p_hilbert (x : list R) : res (list C) :=
  let zeros := repeat C0 (length x) in
  e <- new_pengine (zlen x) ;; i <- new_pengine (zlen x) ;;
  p <- pe_cdft e (map RtoC x) zeros ;;
  q <- pe_cidft i (indexed (hilbert_mask (length x)) (snd p)) zeros ;;
  cidft_scale (as_engine (fst q)) (snd q).

(** ** Call histories on one engine: each call with its source and destination buffers. *)
Inductive pcall := PCallDft (x d : list C) | PCallIdft (x d : list C) | PCallRDft (x : list R) (d : list C) | PCallRIdft (x : list C) (d : list R)
  | PCallDht (x d : list R) | PCallDct (x d : list R) | PCallIdct (x d : list R).
Definition run_pcall (e : pengine) (c : pcall) : res (pengine * (list C + list R)) :=
  match c with
  | PCallDft x d => p <- pe_cdft e x d ;; Ok (fst p, inl (snd p))
  | PCallIdft x d => p <- pe_cidft e x d ;; Ok (fst p, inl (snd p))
  | PCallRDft x d => p <- pe_dft e x d ;; Ok (fst p, inl (snd p))
  | PCallRIdft x d => p <- pe_idft e x d ;; Ok (fst p, inr (snd p))
  | PCallDht x d => p <- pe_dht e x d ;; Ok (fst p, inr (snd p))
  | PCallDct x d => p <- pe_dct e x d ;; Ok (fst p, inr (snd p))
  | PCallIdct x d => p <- pe_idct e x d ;; Ok (fst p, inr (snd p))
  end.
Fixpoint run_pcalls (e : pengine) (h : list pcall) : res pengine :=
  match h with [] => Ok e | c :: t => p <- run_pcall e c ;; run_pcalls (fst p) t end.
