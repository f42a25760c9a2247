(** Property theorems C18, C63, C64: Butterworth designs. *)
From Coq Require Import Psatz Lia List.
From Verif Require Import RealBase RealBaseProofs Cplx CplxProofs BiquadModel BiquadSpec StabilityProofs.
From Verif Require Import DesignModel DesignSpec DesignProofs DesignProofs2 LayoutModel ButterProofs ButterShelfProofs.
Local Open Scope R_scope.

(** What a designer returns: [ceil(n/2)] used sections out of the capacity, all stable, all at rest. *)
Definition sections (cap n : nat) (c : cascade) : Prop :=
  num_stage c = ((n + 1) / 2)%nat /\ length (stages c) = ((cap + 1) / 2)%nat /\
  Forall (fun q => bq_stability q = true /\ poles_inside q /\ at_rest q) (used c).

Lemma built_sections cap n c : built cap n c -> sections cap n c.
Proof.
  intros [A [B F]]. split; [exact A|split; [exact B|]]. eapply Forall_impl; [|exact F].
  intros q [S R]. split; [exact S|split; [apply stable_poles; exact S|exact R]].
Qed.

(** [checks] says whether assertions are compiled in.  Without them every order works. *)
Theorem C18_butterworth_lowpass_partial : forall checks cap n fs fc,
  (1 <= n <= cap)%nat -> valid_freq fc fs -> checks = false \/ Nat.Even n ->
  exists c, butter_lowpass checks cap n fs fc = Ok c /\ sections cap n c /\
    cas_response c at_dc C1 /\ cas_response c at_nyquist C0.
Proof.
  intros checks cap n fs fc Hn HV HC. destruct (butter_low_lemma checks cap n fs fc Hn HV) as [c [E [B [_ [D N]]]]].
  - destruct HC as [HC|[k HC]]; [left; exact HC|right]. rewrite HC, Nat.odd_mul. reflexivity.
  - exists c. split; [exact E|split; [apply built_sections, B|split; assumption]].
Qed.
Print Assumptions C18_butterworth_lowpass_partial.

(** The high-pass has unit magnitude at Nyquist, with inverted polarity for odd orders. *)
Theorem C18_butterworth_highpass_partial : forall checks cap n fs fc,
  (1 <= n <= cap)%nat -> valid_freq fc fs -> checks = false \/ Nat.Even n ->
  exists c, butter_highpass checks cap n fs fc = Ok c /\ sections cap n c /\
    cas_response c at_nyquist (RtoC (if Nat.odd n then -1 else 1)) /\ cas_response c at_dc C0.
Proof.
  intros checks cap n fs fc Hn HV HC. destruct (butter_high_lemma checks cap n fs fc Hn HV) as [c [E [B [_ [D N]]]]].
  - destruct HC as [HC|[k HC]]; [left; exact HC|right]. rewrite HC, Nat.odd_mul. reflexivity.
  - exists c. split; [exact E|split; [apply built_sections, B|split; assumption]].
Qed.
Print Assumptions C18_butterworth_highpass_partial.

(** With assertions compiled in, every odd order fails one: the zero at infinity has an infinite imaginary part. *)
Theorem C18_butterworth_odd_asserts_refuted : forall cap n fs fc,
  (1 <= n <= cap)%nat -> Nat.Odd n -> valid_freq fc fs ->
  butter_lowpass true cap n fs fc = UB /\ butter_highpass true cap n fs fc = UB.
Proof.
  intros cap n fs fc Hn HO HV. apply Nat.odd_spec in HO. destruct HV as [V1 V2].
  unfold butter_lowpass, butter_highpass. rewrite rdiv_ok by lra. cbn [bind].
  rewrite butter_analog_ub by (auto; lia). split; reflexivity.
Qed.
Print Assumptions C18_butterworth_odd_asserts_refuted.

(** The maximally flat magnitude, at every frequency, order and cutoff. *)
Theorem C63_butterworth_lowpass_magnitude : forall checks cap n fs fc,
  (1 <= n <= cap)%nat -> valid_freq fc fs -> checks = false \/ Nat.Even n ->
  exists c, butter_lowpass checks cap n fs fc = Ok c /\
    forall f, 0 <= f -> 2 * f < fs -> exists h, cas_response c (at_freq f fs) h /\
      (Cmod h)² = 1 / (1 + (tan (PI * (f / fs)) / tan (PI * (fc / fs))) ^ (2 * n)).
Proof.
  intros checks cap n fs fc Hn HV HC. destruct (butter_low_lemma checks cap n fs fc Hn HV) as [c [E [_ [F _]]]].
  - destruct HC as [HC|[k HC]]; [left; exact HC|right]. rewrite HC, Nat.odd_mul. reflexivity.
  - exists c. split; [exact E|]. intros f F1 F2. destruct (F f F1 F2) as [h [A B]]. exists h. split; [exact A|].
    unfold Rsqr. rewrite Cmod_sqr. exact B.
Qed.
Print Assumptions C63_butterworth_lowpass_magnitude.

Theorem C63_butterworth_highpass_magnitude : forall checks cap n fs fc,
  (1 <= n <= cap)%nat -> valid_freq fc fs -> checks = false \/ Nat.Even n ->
  exists c, butter_highpass checks cap n fs fc = Ok c /\
    forall f, 0 < f -> 2 * f < fs -> exists h, cas_response c (at_freq f fs) h /\
      (Cmod h)² = 1 / (1 + (tan (PI * (fc / fs)) / tan (PI * (f / fs))) ^ (2 * n)).
Proof.
  intros checks cap n fs fc Hn HV HC. destruct (butter_high_lemma checks cap n fs fc Hn HV) as [c [E [_ [F _]]]].
  - destruct HC as [HC|[k HC]]; [left; exact HC|right]. rewrite HC, Nat.odd_mul. reflexivity.
  - exists c. split; [exact E|]. intros f F1 F2. destruct (F f F1 F2) as [h [A B]]. exists h. split; [exact A|].
    unfold Rsqr. rewrite Cmod_sqr. exact B.
Qed.
Print Assumptions C63_butterworth_highpass_magnitude.

(** Half power at the cutoff, for every order. *)
Theorem C63_butterworth_half_power : forall cap n fs fc,
  (1 <= n <= cap)%nat -> valid_freq fc fs ->
  (exists c h, butter_lowpass false cap n fs fc = Ok c /\ cas_response c (at_freq fc fs) h /\ (Cmod h)² = 1 / 2) /\
  (exists c h, butter_highpass false cap n fs fc = Ok c /\ cas_response c (at_freq fc fs) h /\ (Cmod h)² = 1 / 2).
Proof.
  intros cap n fs fc Hn HV. pose proof HV as [V1 V2].
  assert (X : tan (PI * (fc / fs)) / tan (PI * (fc / fs)) = 1).
  { destruct (tan_pos_range _ (norm_range fc fs V1 V2)) as [T _]. field. lra. }
  split.
  - destruct (C63_butterworth_lowpass_magnitude false cap n fs fc Hn HV (or_introl eq_refl)) as [c [E F]].
    destruct (F fc) as [h [A B]]; try lra. exists c, h. rewrite X, pow1 in B. split; [exact E|split; [exact A|rewrite B; lra]].
  - destruct (C63_butterworth_highpass_magnitude false cap n fs fc Hn HV (or_introl eq_refl)) as [c [E F]].
    destruct (F fc) as [h [A B]]; try lra. exists c, h. rewrite X, pow1 in B. split; [exact E|split; [exact A|rewrite B; lra]].
Qed.
Print Assumptions C63_butterworth_half_power.

(** Shelves: squared gain (V + x) / (1/V + x) with V = 10^(gain/20) and x the prewarped frequency ratio to the 2n. *)
Theorem C64_butterworth_lowshelf_partial : forall checks cap n fs fc gain_db,
  (1 <= n <= cap)%nat -> valid_freq fc fs -> checks = false \/ n = 1%nat ->
  exists c, butter_lowshelf checks cap n fs fc gain_db = Ok c /\ sections cap n c /\
    (forall f, 0 <= f -> 2 * f < fs -> exists h, cas_response c (at_freq f fs) h /\
      (Cmod h)² = (Rpower 10 (gain_db / 20) + (tan (PI * (f / fs)) / tan (PI * (fc / fs))) ^ (2 * n)) /
                  (/ Rpower 10 (gain_db / 20) + (tan (PI * (f / fs)) / tan (PI * (fc / fs))) ^ (2 * n))) /\
    (exists h, cas_response c at_dc h /\ Cmod h = Rpower 10 (gain_db / 20)) /\
    cas_response c at_nyquist (RtoC (if Nat.odd n then -1 else 1)).
Proof.
  intros checks cap n fs fc gain Hn HV HC. destruct (butter_lowshelf_lemma checks cap n fs fc gain Hn HV HC) as [c [E [B [F N]]]].
  pose proof HV as [V1 V2].
  exists c. split; [exact E|]. split; [apply built_sections, B|]. split; [|split; [|exact N]].
  - intros f F1 F2. destruct (F f F1 F2) as [h [P Q]]. exists h. split; [exact P|]. unfold Rsqr. rewrite Cmod_sqr. exact Q.
  - destruct (F 0) as [h [P Q]]; try lra. exists h. split.
    + replace at_dc with (at_freq 0 fs); [exact P|]. unfold at_freq, at_dc. replace (2 * PI * 0 / fs) with 0 by (unfold Rdiv; ring). apply Cexp_0.
    + pose proof (pow10_pos (gain / 20)) as PV. unfold pow10 in PV.
      assert (Z : (tan (PI * (0 / fs)) / tan (PI * (fc / fs))) ^ (2 * n) = 0).
      { replace (PI * (0 / fs)) with 0 by (unfold Rdiv; ring). rewrite tan_0. unfold Rdiv. rewrite Rmult_0_l. apply pow_i. lia. }
      rewrite Z in Q. unfold shelf_gain2, pow10 in Q. rewrite <- Cmod_sqr in Q.
      assert (X : Cmod h * Cmod h = Rpower 10 (gain / 20) * Rpower 10 (gain / 20)) by (rewrite Q; field; lra).
      pose proof (Cmod_nonneg h). nra.
Qed.
Print Assumptions C64_butterworth_lowshelf_partial.

Theorem C64_butterworth_highshelf_partial : forall checks cap n fs fc gain_db,
  (1 <= n <= cap)%nat -> valid_freq fc fs -> checks = false \/ n = 1%nat ->
  exists c, butter_highshelf checks cap n fs fc gain_db = Ok c /\ sections cap n c /\
    (forall f, 0 < f -> 2 * f < fs -> exists h, cas_response c (at_freq f fs) h /\
      (Cmod h)² = (Rpower 10 (gain_db / 20) + (tan (PI * (fc / fs)) / tan (PI * (f / fs))) ^ (2 * n)) /
                  (/ Rpower 10 (gain_db / 20) + (tan (PI * (fc / fs)) / tan (PI * (f / fs))) ^ (2 * n))) /\
    (exists h, cas_response c at_nyquist h /\ Cmod h = Rpower 10 (gain_db / 20)) /\
    cas_response c at_dc C1.
Proof.
  intros checks cap n fs fc gain Hn HV HC. destruct (butter_highshelf_lemma checks cap n fs fc gain Hn HV HC) as [c [E [B [F N]]]].
  pose proof HV as [V1 V2].
  exists c. split; [exact E|]. split; [apply built_sections, B|]. split; [|split; [|exact N]].
  - intros f F1 F2. destruct (F f F1 ltac:(lra)) as [h [P Q]]. exists h. split; [exact P|]. unfold Rsqr. rewrite Cmod_sqr.
    pose proof (norm_range f fs F1 F2) as R1. destruct (tan_pos_range _ R1) as [TP CP].
    assert (0 < sin (PI * (f / fs))) by (apply sin_gt_0; lra).
    replace (cos (PI * (f / fs)) / sin (PI * (f / fs))) with (/ tan (PI * (f / fs))) in Q by (unfold tan; field; lra). exact Q.
  - destruct (F (fs / 2)) as [h [P Q]]; try lra. exists h. split.
    + replace at_nyquist with (at_freq (fs / 2) fs); [exact P|]. unfold at_freq, at_nyquist.
      replace (2 * PI * (fs / 2) / fs) with PI by (field; lra). apply Cexp_PI.
    + pose proof (pow10_pos (gain / 20)) as PV. unfold pow10 in PV.
      assert (Z : (tan (PI * (fc / fs)) * (cos (PI * (fs / 2 / fs)) / sin (PI * (fs / 2 / fs)))) ^ (2 * n) = 0).
      { replace (PI * (fs / 2 / fs)) with (PI / 2) by (field; lra). rewrite cos_PI2. unfold Rdiv at 2. rewrite Rmult_0_l, Rmult_0_r. apply pow_i. lia. }
      rewrite Z in Q. unfold shelf_gain2, pow10 in Q. rewrite <- Cmod_sqr in Q.
      assert (X : Cmod h * Cmod h = Rpower 10 (gain / 20) * Rpower 10 (gain / 20)) by (rewrite Q; field; lra).
      pose proof (Cmod_nonneg h). nra.
Qed.
Print Assumptions C64_butterworth_highshelf_partial.

(** With the standard's precondition of std::polar enforced, every shelf of order 2 or more fails:
    it is called with a negative magnitude. *)
Theorem C64_butterworth_shelf_polar_refuted : forall cap n fs fc gain_db, (2 <= n)%nat -> valid_freq fc fs ->
  butter_lowshelf true cap n fs fc gain_db = UB /\ butter_highshelf true cap n fs fc gain_db = UB.
Proof.
  intros cap n fs fc gain Hn [V1 V2]. unfold butter_lowshelf, butter_highshelf. rewrite rdiv_ok by lra. cbn [bind].
  rewrite butter_shelf_ub by auto. split; reflexivity.
Qed.
Print Assumptions C64_butterworth_shelf_polar_refuted.

(** Exceeding the template capacity is an assertion failure in every designer. *)
Theorem C18_butterworth_capacity : forall checks cap n fs fc gain_db, (cap < n)%nat -> valid_freq fc fs ->
  butter_lowpass checks cap n fs fc = UB /\ butter_highpass checks cap n fs fc = UB /\
  butter_lowshelf checks cap n fs fc gain_db = UB /\ butter_highshelf checks cap n fs fc gain_db = UB.
Proof.
  intros checks cap n fs fc gain Hn [V1 V2]. unfold butter_lowpass, butter_highpass, butter_lowshelf, butter_highshelf.
  rewrite rdiv_ok by lra. cbn [bind].
  assert (L : (length (pairs (lay_new cap)) <? n)%nat = true) by (apply Nat.ltb_lt; simpl; rewrite repeat_length; exact Hn).
  unfold butter_analog, butter_shelf_analog. rewrite L. repeat split; reflexivity.
Qed.
Print Assumptions C18_butterworth_capacity.

(** A fifth-order 1 kHz design at 44.1 kHz in a 10-pole template meets the hypotheses. *)
Example butterworth_instance : (1 <= 5 <= 10)%nat /\ valid_freq 1000 44100 /\ Nat.Odd 5 /\ (1 <= 4 <= 10)%nat /\ Nat.Even 4.
Proof. unfold valid_freq. repeat split; try lia; try lra; [exists 2%nat; reflexivity|exists 2%nat; reflexivity]. Qed.
