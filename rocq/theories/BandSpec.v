(** Specification of band filters: what the requested centre and bandwidth mean. *)
From Coq Require Import Reals.
Local Open Scope R_scope.

(** The band edges in the units of the sample rate [fs]: centre -/+ half the bandwidth, kept a relative 1e-8 / (2 pi)
    away from 0 and from fs / 2. *)
Definition low_edge (fs f0 bw : R) : R := Rmax (f0 - bw / 2) (fs * (/ 10 ^ 8) / (2 * PI)).
Definition high_edge (fs f0 bw : R) : R := Rmin (f0 + bw / 2) (fs / 2 - fs * (/ 10 ^ 8) / (2 * PI)).

(** The prewarped frequency tan(pi f / fs). *)
Definition warp (f fs : R) : R := tan (PI * (f / fs)).

(** The analogue low-pass frequency that corresponds to [f] in a band-pass filter with edges [lo] and [hi]:
    -1 at lo, 0 at the centre, 1 at hi. *)
Definition band_x (fs lo hi f : R) : R :=
  (warp f fs * warp f fs - warp lo fs * warp hi fs) / (warp f fs * (warp hi fs - warp lo fs)).

(** A request that leaves a band to build. *)
Definition valid_band (fs f0 bw : R) : Prop := 0 < fs /\ low_edge fs f0 bw < high_edge fs f0 bw.

(** Where the code measures the gain of a band-pass cascade: tan of half the reference angle is sqrt(T1 + T2). *)
Definition ref_x (fs lo hi : R) : R :=
  (warp lo fs + warp hi fs - warp lo fs * warp hi fs) / (sqrt (warp lo fs + warp hi fs) * (warp hi fs - warp lo fs)).

(** The constant that the band-stop transformer uses: cot of half the digital bandwidth. *)
Definition stop_b (fs lo hi : R) : R := (1 + warp lo fs * warp hi fs) / (warp hi fs - warp lo fs).
