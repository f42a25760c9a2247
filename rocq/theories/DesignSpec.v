(** Frequency response of a section and the reference points of a design. *)
From Verif Require Import RealBase Cplx BiquadModel BiquadSpec.
Local Open Scope R_scope.

(** The transfer function of [q] at [z] is defined and equals [h]. *)
Definition response (q : biquad) (z h : C) : Prop :=
  tf_den (a1 q) (a2 q) z <> C0 /\ tf_num (b0 q) (b1 q) (b2 q) z = (h * tf_den (a1 q) (a2 q) z)%C.

(** Points of the unit circle: frequency 0, half the sample rate, and [f] of [fs]. *)
Definition at_dc : C := C1.
Definition at_nyquist : C := RtoC (-1).
Definition at_freq (f fs : R) : C := Cexp (2 * PI * f / fs).

(** A usable design point. *)
Definition valid_freq (fc fs : R) : Prop := 0 < fc /\ 2 * fc < fs.

(** Every pole of [q] lies strictly inside the unit circle. *)
Definition poles_inside (q : biquad) : Prop :=
  forall z, tf_den (a1 q) (a2 q) z = C0 -> Cmod z < 1.

(** The response of the stages in use is the product of theirs. *)
Inductive stages_response (z : C) : list biquad -> C -> Prop :=
| sr_nil : stages_response z [] C1
| sr_cons q qs h hs : response q z h -> stages_response z qs hs -> stages_response z (q :: qs) (Cmul h hs).
Definition used (c : cascade) : list biquad := firstn (num_stage c) (stages c).
Definition cas_response (c : cascade) (z h : C) : Prop := stages_response z (used c) h.
