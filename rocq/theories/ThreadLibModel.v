(** Model of logging and of the Fourier transforms in a process with several threads.  One step of a
    thread is one access to what threads share; everything else is private to a thread and done in
    the step before.  [race] records that the process has undefined behaviour: two threads were in
    conflicting parts of the library at the same time.  Simplifications: sequentially consistent
    memory; engines and messages are not themselves shared between threads. *)
From Verif Require Import Base CoreModel SpectralModel.
From Verif Require Import ThreadModel.

(** * The logger, core/logger.hpp *)

(** What a thread does: set the name of the default logger, or [eInfo() << ...] and the like. *)
Inductive log_op := SetName (n : list Z) | Say (m : list item).
(** Where it is: outside; assigning to the global string (logger.hpp:472-474); copying it into a new
    logger (logger.hpp:419-427, [name_(name)]); or writing the text collected in [msg_] to
    [std::cout] (logger.hpp:429-432).  The standard streams may be used by several threads, but
    their characters interleave ([iostream.objects.overview]). *)
Inductive log_pc := LIdle | Assigning | Copying (m : list item) | Writing (rest : list Z).
Record log_thread := mkLT { ltodo : list log_op; lpc : log_pc }.
Record log_process := mkLP { lthreads : list log_thread; cout : list (nat * Z); log_race : bool }.

Definition assigning (th : log_thread) : bool := match lpc th with Assigning => true | _ => false end.
Definition copying (th : log_thread) : bool := match lpc th with Copying _ => true | _ => false end.

Definition log_step (p : log_process) (t : nat) : option log_process :=
  if log_race p then None else
  match nth_error (lthreads p) t with
  | None => None
  | Some th =>
      match lpc th, ltodo th with
      | LIdle, [] => None
      | LIdle, SetName _ :: rest =>
          Some (mkLP (put (lthreads p) t (mkLT rest Assigning)) (cout p)
                     (existsb (fun u => assigning u || copying u) (lthreads p)))
      | LIdle, Say m :: rest =>
          Some (mkLP (put (lthreads p) t (mkLT rest (Copying m))) (cout p) (existsb assigning (lthreads p)))
      | Assigning, rest => Some (mkLP (put (lthreads p) t (mkLT rest LIdle)) (cout p) false)
      | Copying m, rest =>
          match insert_all m with
          | Ok s => Some (mkLP (put (lthreads p) t (mkLT rest (Writing (s ++ reset_code)))) (cout p) false)
          | _ => Some (mkLP (lthreads p) (cout p) true)
          end
      | Writing [], rest => Some (mkLP (put (lthreads p) t (mkLT rest LIdle)) (cout p) false)
      | Writing (c :: s), rest => Some (mkLP (put (lthreads p) t (mkLT rest (Writing s))) (cout p ++ [(t, c)]) false)
      end
  end.
Fixpoint log_schedule (p : log_process) (s : list nat) : log_process :=
  match s with [] => p | t :: s' => log_schedule (match log_step p t with Some q => q | None => p end) s' end.
Definition log_launch (programs : list (list log_op)) : log_process :=
  mkLP (map (fun a => mkLT a LIdle) programs) [] false.

(** * Fourier transforms over FFTW, spectral/internal/libfftw_impl.hpp *)

(** What a thread does with its engine: transform, or replace it by a new one (a call of a free
    function is a new engine, one transform, and the end of the engine). *)
Inductive fft_op := Transform (c : call) | Renew (n : Z).
(** [fftw_plan_*] and [fftw_destroy_plan] share the planner's tables and must not run at the same time
    as each other; [fftw_execute_*] may (FFTW manual, "Thread safety"). *)
Inductive fft_pc := FIdle | Planning (c : call) | Destroying (n : Z).
Record fft_thread := mkFT { ftodo : list fft_op; fpc : fft_pc; eng : engine }.
Record fft_process := mkFP { fthreads : list fft_thread; flog : list (nat * res (list Cplx.C + list R)); fft_race : bool }.

Definition in_planner (th : fft_thread) : bool := match fpc th with FIdle => false | _ => true end.
(** The engine after a transform, and its output. *)
Definition executed (e : engine) (c : call) : engine * res (list Cplx.C + list R) :=
  match run_call e c with Ok p => (fst p, Ok (snd p)) | UB => (e, UB) | NonFinite => (e, NonFinite) end.

(** libfftw_impl.hpp:63-67 (destructor), 69-122 (transforms: the planner is entered if there is no plan yet). *)
Definition fft_step (p : fft_process) (t : nat) : option fft_process :=
  if fft_race p then None else
  match nth_error (fthreads p) t with
  | None => None
  | Some th =>
      let e := eng th in
      match fpc th, ftodo th with
      | FIdle, [] => None
      | FIdle, Transform c :: rest =>
          match plan e with
          | None => Some (mkFP (put (fthreads p) t (mkFT rest (Planning c) e)) (flog p) (existsb in_planner (fthreads p)))
          | Some _ => let r := executed e c in Some (mkFP (put (fthreads p) t (mkFT rest FIdle (fst r))) (flog p ++ [(t, snd r)]) false)
          end
      | FIdle, Renew n :: rest =>
          match plan e with
          | None => Some (mkFP (put (fthreads p) t (mkFT rest FIdle (new_engine n))) (flog p) false)
          | Some _ => Some (mkFP (put (fthreads p) t (mkFT rest (Destroying n) e)) (flog p) (existsb in_planner (fthreads p)))
          end
      | Planning c, rest =>
          let r := executed e c in Some (mkFP (put (fthreads p) t (mkFT rest FIdle (fst r))) (flog p ++ [(t, snd r)]) false)
      | Destroying n, rest => Some (mkFP (put (fthreads p) t (mkFT rest FIdle (new_engine n))) (flog p) false)
      end
  end.
Fixpoint fft_schedule (p : fft_process) (s : list nat) : fft_process :=
  match s with [] => p | t :: s' => fft_schedule (match fft_step p t with Some q => q | None => p end) s' end.
Definition fft_launch (programs : list (engine * list fft_op)) : fft_process :=
  mkFP (map (fun a => mkFT (snd a) FIdle (fst a)) programs) [] false.
