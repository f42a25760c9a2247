(** Model of the frequency-response evaluation of filter.hpp, of the continuous level meter of
    feature/temporal/leq.hpp, of make_window and make_oscillator, of programs that construct, copy,
    assign and destroy the handle-owning objects of io/, and of the histogram class. *)
From Verif Require Import Base RealBase MovingModel FeatModel WindowModel OscModel IOModel AlgModel Cplx.
Local Open Scope res_scope.
Local Open Scope R_scope.

(** * filter.hpp:170-196, freq *)

(** filter.hpp:181-184 and 188-191: the inner loop over the coefficients after the first; [m] is the
    loop counter.  [*b * (cos(rad) - i * sin(rad))] is a real times a complex number. *)
Fixpoint freq_terms (k : nat) (K : R) (m : nat) (acc : C) (cs : list R) : C :=
  match cs with
  | [] => acc
  | c :: t =>
      let rad := INR m * PI * INR k / K in
      freq_terms k K (S m) (acc + Cscal c (RtoC (cos rad) - Cscal (sin rad) Ci))%C t
  end.
(** filter.hpp:179-184, 186-191: [*first] needs a coefficient. *)
Definition freq_poly (k : nat) (K : R) (cs : list R) : res C :=
  match cs with [] => UB | c :: t => Ok (freq_terms k K 1 (RtoC c) t) end.
(** Complex division: by zero the result is not finite. *)
Definition cdiv (a b : C) : res C := if Req_EM_T (Cnorm2 b) 0 then NonFinite else Ok (a / b)%C.
(** filter.hpp:178-194: the points [k], [k+1], ..., [k + count - 1]. *)
Fixpoint freq_loop (b a : list R) (K : R) (count k : nat) (mem : list C) (d : nat) : res (list C) :=
  match count with
  | O => Ok mem
  | S c =>
      bt <- freq_poly k K b ;;
      at_ <- freq_poly k K a ;;
      v <- cdiv bt at_ ;;
      mem' <- store mem d v ;;
      freq_loop b a K c (S k) mem' (S d)
  end.
(** filter.hpp:170-196 with an integral [K]: [k < K] compares with an unsigned long, so that a negative
    [K] counts as [2^64 + K]. *)
Definition freq (b a : list R) (mem : list C) (d : nat) (K : Z) : res (list C) :=
  freq_loop b a (IZR K) (Z.to_nat (K mod 2 ^ 64)) 0 mem d.

(** * leq.hpp:66-100, continuous_leq: extract() on consecutive frames *)
Definition cleq_new (number_frames : nat) : mfilter := m_new number_frames.
Definition cleq_extract (m : mfilter) (frame : list R) : res (mfilter * R) :=
  l <- feat_leq frame ;; ma_tick m l.
Definition cleq_run := transform cleq_extract.

(** * windowing.hpp:42-54, 58-144, 153-156: make_window *)
Inductive WindowType := Bartlett | Blackman | BlackmanHarris | BlackmanNuttall | Boxcar | FlatTop | Hamming | Hanning | Rectangular | Triangular | Welch.
Definition make_window (t : WindowType) : nat -> res (list R) :=
  match t with
  | Bartlett => bartlett
  | Blackman => blackman
  | BlackmanHarris => blackman_harris
  | BlackmanNuttall => blackman_nutall
  | Boxcar => boxcar
  | FlatTop => flattop
  | Hamming => hamming
  | Hanning => hanning
  | Rectangular => rectangular
  | Triangular => triangular
  | Welch => welch
  end.

(** * oscillator.hpp:33-80: make_oscillator with all arguments given; the object and its operator() *)
Inductive OscillatorType := Sinusoidal | Square | TriangularOsc | Sawtooth.
Definition make_oscillator (t : OscillatorType) (amp sample_rate freq x : R) : res (osc * (osc -> res (osc * R))) :=
  match t with
  | Sinusoidal => o <- sin_new amp sample_rate freq x ;; Ok (o, sin_tick)
  | Square => o <- square_new amp sample_rate freq x ;; Ok (o, square_tick)
  | TriangularOsc => o <- triangular_new amp sample_rate freq ;; Ok (o, sawtooth_tick)
  | Sawtooth => o <- sawtooth_new amp sample_rate freq x ;; Ok (o, sawtooth_tick)
  end.

(** * Programs over handle-owning objects

    decoder, encoder and resampler (io/decoder.hpp:36, io/encoder.hpp:36, io/resampler.hpp:46) hold an
    implementation object by value, which holds a raw handle and releases it in its destructor
    (libsndfile_decoder_impl.hpp:84-86, libaudiofile_decoder_impl.hpp:45-47,
    libsndfile_encoder_impl.hpp:100-102, libsamplerate_impl.hpp:47-49).  None declares a copy or move
    operation: the implicit copy constructor and copy assignment duplicate the handle, and since a
    destructor is declared a move is a copy too. *)
Record store_ := mkStore { w_ : world; objs : list (option (option nat)) }.
Inductive pcmd :=
| PNew                     (* default construction *)
| PCopy (i : nat)          (* copy or move construction of a new object from object i *)
| PAssign (i j : nat)      (* copy or move assignment to object i from object j *)
| PCall (i : nat) (c : hop) (* a member call on object i *)
| PDestroy (i : nat).
(** Object [i], which must be alive. *)
Definition the_obj (s : store_) (i : nat) : res (option nat) :=
  match nth_error (objs s) i with Some (Some h) => Ok h | _ => UB end.
Definition pstep (call : world * option nat -> hop -> res (world * option nat)) (s : store_) (c : pcmd) : res store_ :=
  match c with
  | PNew => Ok (mkStore (w_ s) (objs s ++ [Some None]))
  | PCopy i => h <- the_obj s i ;; Ok (mkStore (w_ s) (objs s ++ [Some h]))
  | PAssign i j => h <- the_obj s j ;; _ <- the_obj s i ;; l <- IOModel.put (objs s) i [Some h] ;; Ok (mkStore (w_ s) l)
  | PCall i c => h <- the_obj s i ;; p <- call (w_ s, h) c ;; l <- IOModel.put (objs s) i [Some (snd p)] ;; Ok (mkStore (fst p) l)
  | PDestroy i => h <- the_obj s i ;; p <- call (w_ s, h) HClose ;; l <- IOModel.put (objs s) i [None] ;; Ok (mkStore (fst p) l)
  end.
Fixpoint prun (call : world * option nat -> hop -> res (world * option nat)) (s : store_) (cs : list pcmd) : res store_ :=
  match cs with [] => Ok s | c :: t => s' <- pstep call s c ;; prun call s' t end.
Definition pfresh : store_ := mkStore (mkWorld [] []) [].

(** The resampler as such an object: [HOpen ok] is src_new in the constructor
    (libsamplerate_impl.hpp:38-45), [HClose] is src_delete (null is accepted), process() and reset()
    on a null state report an error (51-67, 81-85).  The constructor runs once per object. *)
Definition src_hop (s : world * option nat) (c : hop) : res (world * option nat) :=
  match c with
  | HOpen ok => match snd s with None => Ok (w_open (fst s) ok) | Some _ => UB end
  | HClose => match snd s with None => Ok s | Some h => w <- w_close (fst s) h ;; Ok (w, None) end
  | HUse => match snd s with None => Ok s | Some h => if liveb (fst s) h then Ok s else UB end
  end.

(** * histogram.hpp:64-70: compute() has an empty body; [out] is the memory behind the iterator *)
Definition hist_compute (num_bins cache_size : nat) (samples : list R) (out : list (R * R)) : res (list (R * R)) := Ok out.
