(** Model of include/edsp/oscillators/*.hpp over exact reals. *)
From Verif Require Export RealBase NumModel.
Local Open Scope R_scope.
Local Open Scope res_scope.

(** [std::fmod]: the remainder of the truncated quotient. *)
Definition rfmod (x y : R) : res R := q <- rdiv x y ;; Ok (x - y * ctrunc q).

(** sinusoidal.hpp:126-134: class oscillator.  [extra] is the member of the derived class: [duty_]
    (square.hpp:88) or [width_] (sawtooth.hpp:80). *)
Record osc := mkOsc { amplitude : R; timestamp : R; sample_rate : R; sampling_period : R;
                      frequency : R; inverse_frequency : R; phase : R; extra : R }.
(** sinusoidal.hpp:136-144. *)
Definition osc_new (amp sr freq ph : R) : res osc :=
  sp <- ninv sr ;; inf <- ninv freq ;; Ok (mkOsc amp 0 sr sp freq inf ph 0).

(** sinusoidal.hpp:146-200: the setters and reset. *)
Definition set_timestamp (o : osc) (t : R) := mkOsc (amplitude o) t (sample_rate o) (sampling_period o) (frequency o) (inverse_frequency o) (phase o) (extra o).
Definition osc_reset (o : osc) := set_timestamp o 0.
Definition set_sample_rate (o : osc) (sr : R) : res osc :=
  sp <- ninv sr ;; Ok (mkOsc (amplitude o) (timestamp o) sr sp (frequency o) (inverse_frequency o) (phase o) (extra o)).
(** sinusoidal.hpp:183-186: only [frequency_] is assigned. *)
Definition set_frequency (o : osc) (f : R) := mkOsc (amplitude o) (timestamp o) (sample_rate o) (sampling_period o) f (inverse_frequency o) (phase o) (extra o).
Definition set_phase (o : osc) (p : R) := mkOsc (amplitude o) (timestamp o) (sample_rate o) (sampling_period o) (frequency o) (inverse_frequency o) p (extra o).
Definition set_amplitude (o : osc) (a : R) := mkOsc a (timestamp o) (sample_rate o) (sampling_period o) (frequency o) (inverse_frequency o) (phase o) (extra o).
Definition set_extra (o : osc) (e : R) := mkOsc (amplitude o) (timestamp o) (sample_rate o) (sampling_period o) (frequency o) (inverse_frequency o) (phase o) e.
(** Every operator() first advances the time by one sampling period. *)
Definition advance (o : osc) := set_timestamp o (timestamp o + sampling_period o).

(** sinusoidal.hpp:245-248, 265-272. *)
Definition sin_new := osc_new.
Definition sin_tick (o : osc) : res (osc * R) :=
  Ok (advance o, sin (2 * PI * frequency o * timestamp o + phase o) * amplitude o).

(** square.hpp:91-102: [expects] 0 <= duty <= 1. *)
Definition set_duty (o : osc) (d : R) : res osc :=
  if Rle_dec 0 d then if Rle_dec d 1 then Ok (set_extra o (d * inverse_frequency o)) else UB else UB.
Definition square_new (amp sr freq duty : R) : res osc := o <- osc_new amp sr freq 0 ;; set_duty o duty.
(** square.hpp:104-107. *)
Definition get_duty (o : osc) : R := extra o * frequency o.
(** square.hpp:109-114. *)
Definition square_tick (o : osc) : res (osc * R) :=
  t <- rfmod (timestamp o) (inverse_frequency o) ;;
  Ok (advance o, (if Rle_dec (extra o) t then 1 else -1) * amplitude o).

(** sawtooth.hpp:83-98: [expects] 0 <= width <= 1. *)
Definition set_width (o : osc) (w : R) : res osc :=
  if Rle_dec 0 w then if Rle_dec w 1 then Ok (set_extra o w) else UB else UB.
Definition sawtooth_new (amp sr freq width : R) : res osc := o <- osc_new amp sr freq 0 ;; set_width o width.
(** sawtooth.hpp:100-110. *)
Definition sawtooth_tick (o : osc) : res (osc * R) :=
  t <- rfmod (frequency o * timestamp o) 1 ;;
  let w := extra o in
  if Req_EM_T w 0 then
    (if Rle_dec w t then (q <- rdiv (-2 * (t - w)) (1 - w) ;; Ok (advance o, amplitude o * (q + 1))) else Ok (advance o, 0))
  else if Rlt_dec t w then (q <- rdiv (2 * t) w ;; Ok (advance o, amplitude o * (q - 1)))
  else if Req_EM_T w 1 then Ok (advance o, 0)
  else (q <- rdiv (-2 * (t - w)) (1 - w) ;; Ok (advance o, amplitude o * (q + 1))).
(** triangular.hpp:56-60. *)
Definition triangular_new (amp sr freq : R) : res osc := sawtooth_new amp sr freq (1/2).

(** Consecutive samples. *)
Fixpoint osc_run (tick : osc -> res (osc * R)) (o : osc) (n : nat) : res (osc * list R) :=
  match n with
  | O => Ok (o, [])
  | S m => p <- tick o ;; q <- osc_run tick (fst p) m ;; Ok (fst q, snd p :: snd q)
  end.

(** A history of calls on a square oscillator. *)
Inductive osc_op := OpFrequency (f : R) | OpAmplitude (a : R) | OpTimestamp (t : R) | OpReset | OpSampleRate (sr : R) | OpDuty (d : R) | OpPhase (p : R) | OpTick.
Definition square_step (o : osc) (c : osc_op) : res osc :=
  match c with
  | OpFrequency f => Ok (set_frequency o f)
  | OpAmplitude a => Ok (set_amplitude o a)
  | OpTimestamp t => Ok (set_timestamp o t)
  | OpReset => Ok (osc_reset o)
  | OpSampleRate sr => set_sample_rate o sr
  | OpDuty d => set_duty o d
  | OpPhase p => Ok (set_phase o p)
  | OpTick => p <- square_tick o ;; Ok (fst p)
  end.
Fixpoint square_history (o : osc) (h : list osc_op) : res osc :=
  match h with [] => Ok o | c :: t => o' <- square_step o c ;; square_history o' t end.

(** A history of calls on a sine or sawtooth oscillator: the calls of class oscillator
    (sinusoidal.hpp:146-200), [operator()], and for the sawtooth [set_width] (sawtooth.hpp:91-95)
    in the place of [OpDuty]; a sine oscillator has no such call. *)
Definition wave_step (tick : osc -> res (osc * R)) (set : osc -> R -> res osc) (o : osc) (c : osc_op) : res osc :=
  match c with
  | OpFrequency f => Ok (set_frequency o f)
  | OpAmplitude a => Ok (set_amplitude o a)
  | OpTimestamp t => Ok (set_timestamp o t)
  | OpReset => Ok (osc_reset o)
  | OpSampleRate sr => set_sample_rate o sr
  | OpDuty d => set o d
  | OpPhase p => Ok (set_phase o p)
  | OpTick => p <- tick o ;; Ok (fst p)
  end.
Fixpoint wave_history (tick : osc -> res (osc * R)) (set : osc -> R -> res osc) (o : osc) (h : list osc_op) : res osc :=
  match h with [] => Ok o | c :: t => o' <- wave_step tick set o c ;; wave_history tick set o' t end.
