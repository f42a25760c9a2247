(** Model of the ADSR envelope (experimental/envelope/adsr.hpp) in IEEE formats; see FloatModel for the
    conventions.  Simplifications: the constants of type double are rounded to the format (for float
    this changes no comparison, as only numbers of the format are compared with them), and the
    quotients and differences with them are computed in the format; the preconditions of the setters
    are those of the theorems. *)
From Coq Require Import ZArith List Bool.
From Flocq Require Import Core BinarySingleNaN.
From Verif Require Import Base FloatModel.
Import ListNotations.

Inductive fstate := FIdle | FAttack | FDecay | FSustain | FRelease.

Section Format.
Context (prec emax : Z) {Hprec : Prec_gt_0 prec} {Hmax : Prec_lt_emax prec emax}.
Notation fl := (binary_float prec emax).

(** adsr.hpp:201-209. *)
Record fadsr := mkAdsr { f_state : fstate; f_rate : fl; f_target : fl; f_value : fl; f_attack : fl; f_decay : fl;
  f_release : fl; f_rtime : fl; f_sustain : fl }.
Definition fratio (a b : Z) : fl := fdiv prec emax (of_Z prec emax a) (of_Z prec emax b).
Definition f_new : fadsr :=
  mkAdsr FIdle (of_Z prec emax 44100) (fzero prec emax) (fzero prec emax) (fratio 1 1000) (fratio 1 1000) (fratio 1 1000)
    (Bopp (of_Z prec emax 1)) (fratio 1 2).
(** adsr.hpp:100, 141: the smallest target, 0.000000001. *)
Definition f_floor (x : fl) : fl := if flt prec emax (fratio 1 1000000000) x then x else fratio 1 1000000000.

Inductive env_op :=
| KeyOn | KeyOff
| SetAttackTarget (x : fl) | SetAttackRate (x : fl) | SetDecayRate (x : fl) | SetSustain (x : fl)
| SetReleaseRate (x : fl) | SetReleaseTime (x : fl) | SetTarget (x : fl)
| SetAttackTime (x : fl) | SetDecayTime (x : fl) | SetSampleRate (x : fl)
| Play (x : fl).

(** adsr.hpp:157-192: operator(). *)
Definition f_advance (e : fadsr) : fadsr :=
  let v := f_value e in
  let set s t w := mkAdsr s (f_rate e) t w (f_attack e) (f_decay e) (f_release e) (f_rtime e) (f_sustain e) in
  match f_state e with
  | FAttack =>
      let w := fadd prec emax v (f_attack e) in
      if Bleb (f_target e) w then set FDecay (f_sustain e) (f_target e) else set FAttack (f_target e) w
  | FDecay =>
      if flt prec emax (f_sustain e) v then
        let w := fsub prec emax v (f_decay e) in
        if Bleb w (f_sustain e) then set FSustain (f_target e) (f_sustain e) else set FDecay (f_target e) w
      else
        let w := fadd prec emax v (f_decay e) in
        if Bleb (f_sustain e) w then set FSustain (f_target e) (f_sustain e) else set FDecay (f_target e) w
  | FRelease =>
      let w := fsub prec emax v (f_release e) in
      if Bleb w (fzero prec emax) then set FIdle (f_target e) (fzero prec emax) else set FRelease (f_target e) w
  | _ => e
  end.

(** adsr.hpp:48-52, 54-60, 98-101, 103-106, 108-111, 113-116, 118-122, 124-127, 129-132, 134-138, 140-147, 149-155, and the output of a sample. *)
Definition env_step (e : fadsr) (o : env_op) : fadsr * list fl :=
  let upd s t a d r rt su := mkAdsr s (f_rate e) t (f_value e) a d r rt su in
  match o with
  | KeyOn => (upd FAttack (if Bleb (f_target e) (fzero prec emax) then of_Z prec emax 1 else f_target e)
                (f_attack e) (f_decay e) (f_release e) (f_rtime e) (f_sustain e), [])
  | KeyOff => (upd FRelease (fzero prec emax) (f_attack e) (f_decay e)
                (if flt prec emax (fzero prec emax) (f_rtime e)
                 then fdiv prec emax (f_value e) (fmul prec emax (f_rtime e) (f_rate e)) else f_release e)
                (f_rtime e) (f_sustain e), [])
  | SetAttackTarget x => (upd (f_state e) (f_floor x) (f_attack e) (f_decay e) (f_release e) (f_rtime e) (f_sustain e), [])
  | SetAttackRate x => (upd (f_state e) (f_target e) x (f_decay e) (f_release e) (f_rtime e) (f_sustain e), [])
  | SetDecayRate x => (upd (f_state e) (f_target e) (f_attack e) x (f_release e) (f_rtime e) (f_sustain e), [])
  | SetSustain x => (upd (f_state e) (f_target e) (f_attack e) (f_decay e) (f_release e) (f_rtime e) x, [])
  | SetReleaseRate x => (upd (f_state e) (f_target e) (f_attack e) (f_decay e) x (Bopp (of_Z prec emax 1)) (f_sustain e), [])
  | SetReleaseTime x => (upd (f_state e) (f_target e) (f_attack e) (f_decay e)
                           (fdiv prec emax (f_sustain e) (fmul prec emax x (f_rate e))) x (f_sustain e), [])
  | SetTarget x =>
      let t := f_floor x in
      (upd (if flt prec emax (f_value e) t then FAttack else if flt prec emax t (f_value e) then FDecay else f_state e)
         t (f_attack e) (f_decay e) (f_release e) (f_rtime e) t, [])
  | SetAttackTime x => (upd (f_state e) (f_target e) (fdiv prec emax (of_Z prec emax 1) (fmul prec emax x (f_rate e)))
                          (f_decay e) (f_release e) (f_rtime e) (f_sustain e), [])
  | SetDecayTime x => (upd (f_state e) (f_target e) (f_attack e)
                         (fdiv prec emax (fsub prec emax (of_Z prec emax 1) (f_sustain e)) (fmul prec emax x (f_rate e)))
                         (f_release e) (f_rtime e) (f_sustain e), [])
  | SetSampleRate x =>
      let scale r := fdiv prec emax (fmul prec emax (f_rate e) r) x in
      (mkAdsr (f_state e) x (f_target e) (f_value e) (scale (f_attack e)) (scale (f_decay e)) (scale (f_release e))
         (f_rtime e) (f_sustain e), [])
  | Play x => let e' := f_advance e in (e', [fmul prec emax (f_value e') x])
  end.
Fixpoint env_history (e : fadsr) (h : list env_op) : fadsr * list fl :=
  match h with
  | [] => (e, [])
  | o :: t => let p := env_step e o in let q := env_history (fst p) t in (fst q, snd p ++ snd q)
  end.
End Format.
