(** Independent vocabulary for second-order sections. *)
From Verif Require Import RealBase Cplx SignalSpec BiquadModel.
Local Open Scope R_scope.

(** [ys] is the response to [xs] of
    A0 y[n] = B0 x[n] + B1 x[n-1] + B2 x[n-2] - A1 y[n-1] - A2 y[n-2], zero before the start. *)
Definition obeys (A0 A1 A2 B0 B1 B2 : R) (xs ys : list R) : Prop :=
  length ys = length xs /\
  forall n, (n < length xs)%nat ->
    A0 * past ys n 0 = B0 * past xs n 0 + B1 * past xs n 1 + B2 * past xs n 2
                       - A1 * past ys n 1 - A2 * past ys n 2.

(** [z] is a root of z^2 + c1 z + c2. *)
Definition is_root (c1 c2 : R) (z : C) : Prop :=
  (z * z + RtoC c1 * z + RtoC c2)%C = C0.

(** Numerator and denominator of the transfer function at [z], times z^2. *)
Definition tf_num (B0 B1 B2 : R) (z : C) : C := (RtoC B0 * z * z + RtoC B1 * z + RtoC B2)%C.
Definition tf_den (A1 A2 : R) (z : C) : C := (z * z + RtoC A1 * z + RtoC A2)%C.

(** The filter's delay line is empty. *)
Definition at_rest (q : biquad) : Prop := w0 q = 0 /\ w1 q = 0.

(** Same coefficients (the delay line may differ). *)
Definition same_coeffs (p q : biquad) : Prop :=
  b2 p = b2 q /\ b1 p = b1 q /\ b0 p = b0 q /\ a2 p = a2 q /\ a1 p = a1 q /\ a0 p = a0 q.

(** The whole signal through one section after the other. *)
Definition through (qs : list biquad) (xs : list R) : list R :=
  fold_left (fun sig q => snd (bq_filter q sig)) qs xs.

(** Two real numbers, or a non-real number and its conjugate. *)
Definition valid_pair (p q : C) : Prop := (Im p = 0 /\ Im q = 0) \/ (Im p <> 0 /\ q = Cconj p).

(** Filtering consecutive blocks one call after the other. *)
Fixpoint filter_blocks (q : biquad) (blocks : list (list R)) : biquad * list R :=
  match blocks with
  | [] => (q, [])
  | b :: t =>
      let p := bq_filter q b in
      let r := filter_blocks (fst p) t in
      (fst r, snd p ++ snd r)
  end.
