(** Ideal periodic waveforms of amplitude one, as functions of the position in the period. *)
From Verif Require Export RealBase.
Local Open Scope R_scope.

(** Position in the period: [x] without its whole number of periods. *)
Definition cycle (x : R) : R := x - IZR (Int_part x).
(** Active (+1) for the fraction [d] of the period, then -1. *)
Definition ideal_square (d x : R) : R := if Rlt_dec (cycle x) d then 1 else -1.
(** Rises from -1 to 1 on [0,w), falls from 1 to -1 on [w,1). *)
Definition ideal_sawtooth (w x : R) : R :=
  if Rlt_dec (cycle x) w then 2 * cycle x / w - 1 else 1 - 2 * (cycle x - w) / (1 - w).
