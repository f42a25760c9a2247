(** Model of the square, sawtooth and triangular oscillators (oscillators/*.hpp) in IEEE formats; see
    FloatModel for the conventions.  T has [prec] bits and exponents up to [emax].  [std::fmod] of a T
    and the integer 1 is computed in double, or in T if T is wider: that format has [wprec] bits and
    exponents up to [wemax].  Operations of a T and a wider number are in the wider format. *)
From Coq Require Import ZArith List Bool.
From Flocq Require Import Core BinarySingleNaN.
From Verif Require Import Base FloatModel.
Import ListNotations.

(** Conversion between formats. *)
Definition fconv {p e : Z} (p' e' : Z) {Hp : Prec_gt_0 p'} {He : Prec_lt_emax p' e'} (x : binary_float p e) : binary_float p' e' :=
  match x with
  | B754_zero s => B754_zero s
  | B754_infinity s => B754_infinity s
  | B754_nan => B754_nan
  | B754_finite s m ex _ => binary_normalize p' e' Hp He mode_NE (cond_Zopp s (Zpos m)) ex s
  end.
(** [std::fmod]: the exact remainder, with the sign of the first argument. *)
Definition ffmod (p e : Z) {Hp : Prec_gt_0 p} {He : Prec_lt_emax p e} (x y : binary_float p e) : binary_float p e :=
  match x, y with
  | B754_nan, _ | _, B754_nan | B754_infinity _, _ | _, B754_zero _ => B754_nan
  | _, B754_infinity _ => x
  | B754_zero s, _ => x
  | B754_finite s m ex _, B754_finite _ n ey _ =>
      let low := Z.min ex ey in
      binary_normalize p e Hp He mode_NE (cond_Zopp s ((Zpos m * 2 ^ (ex - low)) mod (Zpos n * 2 ^ (ey - low)))) low s
  end.

Section Formats.
Context (prec emax : Z) {Hprec : Prec_gt_0 prec} {Hmax : Prec_lt_emax prec emax}.
Context (wprec wemax : Z) {Hwprec : Prec_gt_0 wprec} {Hwmax : Prec_lt_emax wprec wemax}.
Notation fl := (binary_float prec emax).
Notation wide := (binary_float wprec wemax).
Notation one := (of_Z prec emax 1).
Notation wone := (of_Z wprec wemax 1).
Notation wtwo := (of_Z wprec wemax 2).

(** sinusoidal.hpp:126-134; [w_shape] is [duty_] (square.hpp:88) or [width_] (sawtooth.hpp:80). *)
Record fwave := mkWave { w_amp : fl; w_time : fl; w_period : fl; w_freq : fl; w_inv : fl; w_shape : fl }.
(** sinusoidal.hpp:136-144, square.hpp:91-102, sawtooth.hpp:83-95, triangular.hpp:56-60. *)
Definition wave_new (amp rate freq shape : fl) : fwave :=
  mkWave amp (fzero prec emax) (fdiv prec emax one rate) freq (fdiv prec emax one freq) shape.
Definition new_square (amp rate freq duty : fl) : fwave :=
  wave_new amp rate freq (fmul prec emax duty (fdiv prec emax one freq)).
Definition new_sawtooth := wave_new.
Definition new_triangular (amp rate freq : fl) : fwave := wave_new amp rate freq (fdiv prec emax one (of_Z prec emax 2)).

(** sawtooth.hpp:100-110: the value, from [frequency_ * timestamp_]. *)
Definition saw_value (amp width phase : fl) : fl :=
  let t := ffmod wprec wemax (fconv wprec wemax phase) wone in
  let w := fconv wprec wemax width in
  let a := fconv wprec wemax amp in
  if negb (Beqb width (fzero prec emax)) && flt wprec wemax t w then
    fconv prec emax (fmul wprec wemax a (fsub wprec wemax (fdiv wprec wemax (fmul wprec wemax wtwo t) w) wone))
  else if negb (Beqb width one) && Bleb w t then
    fconv prec emax
      (fmul wprec wemax a
        (fadd wprec wemax
          (fdiv wprec wemax (fmul wprec wemax (Bopp wtwo) (fsub wprec wemax t w)) (fconv wprec wemax (fsub prec emax one width)))
          wone))
  else fzero prec emax.
(** square.hpp:109-114: the value; 1 and -1 are converted to T. *)
Definition square_value (amp duty time inv : fl) : fl :=
  fmul prec emax (if Bleb duty (ffmod prec emax time inv) then one else Bopp one) amp.

Inductive wave_op :=
| WFrequency (x : fl) | WAmplitude (x : fl) | WTime (x : fl) | WReset | WRate (x : fl) | WShape (x : fl) | WTick.
(** sinusoidal.hpp:146-200 (setters), square.hpp:97-101 and sawtooth.hpp:91-95 ([WShape]), and
    operator(); [square] says which of the two oscillators it is. *)
Definition fwave_step (square : bool) (o : fwave) (c : wave_op) : fwave * list fl :=
  let '(mkWave a t p f i s) := o in
  match c with
  | WFrequency x => (mkWave a t p x i s, [])
  | WAmplitude x => (mkWave x t p f i s, [])
  | WTime x => (mkWave a x p f i s, [])
  | WReset => (mkWave a (fzero prec emax) p f i s, [])
  | WRate x => (mkWave a t (fdiv prec emax one x) f i s, [])
  | WShape x => (mkWave a t p f i (if square then fmul prec emax x i else x), [])
  | WTick => (mkWave a (fadd prec emax t p) p f i s,
              [if square then square_value a s t i else saw_value a s (fmul prec emax f t)])
  end.
Fixpoint fwave_history (square : bool) (o : fwave) (h : list wave_op) : fwave * list fl :=
  match h with
  | [] => (o, [])
  | c :: t => let p := fwave_step square o c in let q := fwave_history square (fst p) t in (fst q, snd p ++ snd q)
  end.
End Formats.
