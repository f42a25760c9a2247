(** Property theorems C86, C87, C88: band-pass, band-stop and band-shelf designs. *)
From Coq Require Import Psatz Lia List.
From Verif Require Import RealBase RealBaseProofs Cplx CplxProofs BiquadModel BiquadSpec StabilityProofs.
From Verif Require Import DesignModel DesignSpec DesignProofs DesignProofs2 LayoutModel ButterProofs ButterShelfProofs ButterProps.
From Verif Require Import ChebySpec ChebyProofs ChebyModel ChebyDesign ChebyDesign2 ChebyShelf ChebyBoostN ChebyProps.
From Verif Require Import LayoutProofs BilinearProofs BandModel BandSpec BandProofs BandMaps BandDesign BandFam.
Local Open Scope R_scope.

(** What a band designer returns: [n] used second-order sections out of the capacity, all stable, all at rest. *)
Definition band_sections (cap n : nat) (c : cascade) : Prop :=
  num_stage c = n /\ length (stages c) = cap /\ Forall (fun q => bq_stability q = true /\ poles_inside q /\ at_rest q) (used c).
Lemma ok_band_sections cap n c : sections_ok c n cap -> band_sections cap n c.
Proof.
  intros [A [B F]]. split; [exact A|split; [exact B|]]. eapply Forall_impl; [|exact F].
  intros q [S R]. split; [exact S|split; [apply stable_poles; exact S|exact R]].
Qed.

(** ** Band geometry *)
Lemma warp_pos f fs : 0 < f -> 2 * f < fs -> 0 < warp f fs.
Proof. intros A B. apply (proj1 (tan_pos_range _ (norm_range f fs A B))). Qed.
Lemma warp_lt f g fs : 0 < f -> f < g -> 2 * g < fs -> warp f fs < warp g fs.
Proof.
  intros A B D. pose proof (norm_range f fs A ltac:(lra)). pose proof (norm_range g fs ltac:(lra) D). pose proof (angle_lt f g fs ltac:(lra) B).
  apply tan_increasing; lra.
Qed.
Section Geo.
Variables fs lo hi : R.
Hypothesis (H0 : 0 < lo) (H1 : lo < hi) (H2 : 2 * hi < fs).
Lemma geo_pos : 0 < warp lo fs /\ warp lo fs < warp hi fs.
Proof. split; [apply warp_pos; lra|apply warp_lt; auto]. Qed.
Lemma bx_lo : band_x fs lo hi lo = -1.
Proof. destruct geo_pos. unfold band_x. field. split; lra. Qed.
Lemma bx_hi : band_x fs lo hi hi = 1.
Proof. destruct geo_pos. unfold band_x. field. split; lra. Qed.
Lemma bx_lt f g : 0 < f -> f < g -> 2 * g < fs -> band_x fs lo hi f < band_x fs lo hi g.
Proof.
  intros A B D. destruct geo_pos as [P Q]. pose proof (warp_pos f fs A ltac:(lra)) as PF. pose proof (warp_lt f g fs A B D) as L. unfold band_x.
  set (t := warp f fs) in *. set (s := warp g fs) in *. set (a := warp lo fs) in *. set (b := warp hi fs) in *. clearbody t s a b.
  assert (0 < a * b) by (apply Rmult_lt_0_compat; lra).
  assert (E : (s * s - a * b) / (s * (b - a)) - (t * t - a * b) / (t * (b - a)) = (s - t) * (s * t + a * b) / (s * t * (b - a))) by (field; repeat split; lra).
  assert (0 < s * t) by (apply Rmult_lt_0_compat; lra).
  assert (0 < (s - t) * (s * t + a * b) / (s * t * (b - a))) by (apply div_pos; apply Rmult_lt_0_compat; lra). lra.
Qed.
Lemma bx_in f : lo <= f <= hi -> -1 <= band_x fs lo hi f <= 1.
Proof.
  intros [A B]. split.
  - destruct A as [A| <-]; [|rewrite bx_lo; lra]. rewrite <- bx_lo. apply Rlt_le, bx_lt; lra.
  - destruct B as [B| ->]; [|rewrite bx_hi; lra]. rewrite <- bx_hi. apply Rlt_le, bx_lt; lra.
Qed.
Lemma bx_above f : hi < f -> 2 * f < fs -> 1 < band_x fs lo hi f.
Proof. intros A B. rewrite <- bx_hi. apply bx_lt; lra. Qed.
Lemma bx_below f : 0 < f -> f < lo -> band_x fs lo hi f < -1.
Proof. intros A B. rewrite <- bx_lo. apply bx_lt; lra. Qed.
(** the centre: the frequency whose prewarped value is the geometric mean of the edges' *)
Lemma centre_exists : exists f, lo < f < hi /\ band_x fs lo hi f = 0.
Proof.
  destruct geo_pos as [P Q]. set (m := sqrt (warp lo fs * warp hi fs)). assert (MP : 0 < warp lo fs * warp hi fs) by (apply Rmult_lt_0_compat; lra).
  pose proof (sqrt_lt_R0 _ MP) as M. fold m in M. pose proof (sqrt_sqrt _ (Rlt_le _ _ MP)) as S. fold m in S.
  pose proof (atan_bound m) as AB. pose proof PI_RGT_0. exists (fs * (atan m / PI)).
  assert (W : warp (fs * (atan m / PI)) fs = m).
  { unfold warp. replace (PI * (fs * (atan m / PI) / fs)) with (atan m) by (field; lra). apply atan_right_inv || apply tan_atan. }
  assert (A0 : 0 < atan m) by (rewrite <- atan_0; apply atan_increasing; auto).
  assert (F0 : 0 < fs * (atan m / PI)) by (apply Rmult_lt_0_compat; [lra|apply div_pos; auto]).
  assert (F1 : 2 * (fs * (atan m / PI)) < fs).
  { assert (atan m / PI < 1 / 2) by (apply (Rmult_lt_reg_r PI); auto; unfold Rdiv; rewrite Rmult_assoc, Rinv_l by lra; lra). nra. }
  assert (ZX : band_x fs lo hi (fs * (atan m / PI)) = 0) by (unfold band_x; rewrite W, S; unfold Rdiv; ring).
  split; auto. split.
  - destruct (Rlt_dec lo (fs * (atan m / PI))) as [|N]; auto. exfalso. destruct (Rle_lt_or_eq_dec _ _ (Rnot_lt_le _ _ N)) as [L|L].
    + pose proof (bx_below _ F0 L). lra.
    + rewrite L, bx_lo in ZX. lra.
  - destruct (Rlt_dec (fs * (atan m / PI)) hi) as [|N]; auto. exfalso. destruct (Rle_lt_or_eq_dec _ _ (Rnot_lt_le _ _ N)) as [L|L].
    + pose proof (bx_above _ L F1). lra.
    + rewrite <- L, bx_hi in ZX. lra.
Qed.
End Geo.

Lemma pow_even_pos x n : 0 <= x ^ (2 * n).
Proof. rewrite pow_mult. apply pow_le, pow2_ge_0. Qed.
Lemma pow_even_pos' x n : x <> 0 -> 0 < x ^ (2 * n).
Proof. intros H. rewrite pow_mult. apply pow_lt. rewrite <- Rsqr_pow2. apply Rsqr_pos_lt, H. Qed.
Lemma pow_even_m1 n : (-1) ^ (2 * n) = 1.
Proof. rewrite pow_mult. replace ((-1) ^ 2) with 1 by ring. apply pow1. Qed.
Lemma pow_even_opp x n : (- x) ^ (2 * n) = x ^ (2 * n).
Proof. rewrite !pow_mult. f_equal. ring. Qed.
Lemma pow_even_lt x y n : (0 < n)%nat -> 0 <= x -> x < y -> x ^ (2 * n) < y ^ (2 * n).
Proof. intros Hn A B. rewrite !pow_mult. apply pow_lt_mono || idtac. 
  assert (L : x ^ 2 < y ^ 2) by nra. assert (0 <= x ^ 2) by apply pow2_ge_0. revert L H. generalize (x ^ 2) (y ^ 2). clear -Hn.
  intros a b L A. destruct n as [|m]; [lia|]. clear Hn. induction m as [|m IH]; [simpl; lra|].
  change (a * a ^ S m < b * b ^ S m). pose proof (pow_le a (S m) A). assert (0 < b ^ S m) by (apply pow_lt; lra).
  apply Rle_lt_trans with (a * b ^ S m); [apply Rmult_le_compat_l; lra|apply Rmult_lt_compat_r; lra].
Qed.

(** ** C86: band-pass *)
(** The gain at every frequency, for every order, centre and bandwidth.  The shape is the requested Butterworth one;
    the factor in front should be 1 and is not (see the refutation below). *)
Theorem C86_butterworth_bandpass_partial : forall checks cap n fs f0 bw,
  (1 <= n <= cap)%nat -> valid_band fs f0 bw -> checks = false \/ Nat.Even n ->
  let lo := low_edge fs f0 bw in let hi := high_edge fs f0 bw in
  exists c, butter_bandpass checks cap n fs f0 bw = Ok c /\ band_sections cap n c /\
    (forall f, 0 < f -> 2 * f < fs -> exists h, cas_response c (at_freq f fs) h /\
       (Cmod h)² = (1 + ref_x fs lo hi ^ (2 * n)) / (1 + band_x fs lo hi f ^ (2 * n))) /\
    cas_response c at_dc C0 /\ cas_response c at_nyquist C0.
Proof.
  intros checks cap n fs f0 bw Hn V HC lo hi. destruct (butter_bp checks cap n fs f0 bw Hn V (even_no_odd _ _ HC)) as [c [E [S [F Z]]]].
  exists c. split; [exact E|split; [apply ok_band_sections, S|split; [|exact Z]]].
  intros f F1 F2. destruct (F f F1 F2) as [h [A M]]. exists h. split; [exact A|]. unfold Rsqr. rewrite Cmod_sqr. exact M.
Qed.

(** Relative to its largest gain the filter does what was asked: the peak is at a frequency between the edges, both
    requested edges are exactly at half of its power, and the gain falls strictly on either side. *)
Theorem C86_butterworth_bandpass_shape : forall cap n fs f0 bw,
  (1 <= n <= cap)%nat -> valid_band fs f0 bw ->
  let lo := low_edge fs f0 bw in let hi := high_edge fs f0 bw in
  exists c fp p, butter_bandpass false cap n fs f0 bw = Ok c /\ lo < fp < hi /\ 0 < p /\
    (exists h, cas_response c (at_freq fp fs) h /\ (Cmod h)² = p) /\
    (forall f, f = lo \/ f = hi -> exists h, cas_response c (at_freq f fs) h /\ (Cmod h)² = p / 2) /\
    (forall f g, 0 < f -> f < g -> 2 * g < fs -> exists h k, cas_response c (at_freq f fs) h /\ cas_response c (at_freq g fs) k /\
       (g <= fp -> (Cmod h)² < (Cmod k)²) /\ (fp <= f -> (Cmod k)² < (Cmod h)²)).
Proof.
  intros cap n fs f0 bw Hn V lo hi. destruct (C86_butterworth_bandpass_partial false cap n fs f0 bw Hn V (or_introl eq_refl)) as [c [E [_ [F _]]]].
  fold lo hi in F. destruct (edges _ _ _ V) as [L0 [L1 L2]]. fold lo hi in L0, L1, L2.
  destruct (centre_exists fs lo hi L0 L1 L2) as [fp [FP X0]]. exists c, fp, (1 + ref_x fs lo hi ^ (2 * n)).
  pose proof (pow_even_pos (ref_x fs lo hi) n) as RP. split; [exact E|split; [exact FP|split; [lra|split; [|split]]]].
  - destruct (F fp ltac:(lra) ltac:(lra)) as [h [A M]]. exists h. split; [exact A|]. rewrite M, X0, pow_i by lia. field.
  - intros f [->| ->].
    + destruct (F lo ltac:(lra) ltac:(lra)) as [h [A M]]. exists h. split; [exact A|]. rewrite M, bx_lo, pow_even_m1 by auto. field.
    + destruct (F hi ltac:(lra) ltac:(lra)) as [h [A M]]. exists h. split; [exact A|]. rewrite M, bx_hi, pow1 by auto. field.
  - intros f g F1 F2 F3. destruct (F f F1 ltac:(lra)) as [h [A M]]. destruct (F g ltac:(lra) F3) as [k [A' M']].
    exists h, k. split; [exact A|split; [exact A'|]]. rewrite M, M'.
    assert (D : forall s t, 0 <= s -> s < t -> (1 + ref_x fs lo hi ^ (2 * n)) / (1 + t) < (1 + ref_x fs lo hi ^ (2 * n)) / (1 + s)).
    { intros s t S T. apply Rmult_lt_compat_l; [lra|]. apply Rinv_lt_contravar; [apply Rmult_lt_0_compat; lra|lra]. }
    pose proof (bx_lt fs lo hi L0 L1 L2 f g F1 F2 F3) as LT. split; intros G.
    + apply D; [apply pow_even_pos|]. rewrite <- (pow_even_opp (band_x fs lo hi g)), <- (pow_even_opp (band_x fs lo hi f)).
      apply pow_even_lt; [lia| |lra]. destruct G as [G| ->]; [|lra]. pose proof (bx_lt fs lo hi L0 L1 L2 g fp ltac:(lra) G ltac:(lra)). lra.
    + apply D; [apply pow_even_pos|]. apply pow_even_lt; [lia| |lra]. destruct G as [G| <-]; [|lra]. pose proof (bx_lt fs lo hi L0 L1 L2 fp f ltac:(lra) G ltac:(lra)). lra.
Qed.

(** The requested unit passband gain is missed: unless T1 + T2 = T1 T2 (T1, T2 the prewarped edges) the filter is louder
    than the Butterworth band-pass at every frequency, and amplifies at its centre. *)
Theorem C86_butterworth_bandpass_gain_refuted : forall checks cap n fs f0 bw,
  (1 <= n <= cap)%nat -> valid_band fs f0 bw -> checks = false \/ Nat.Even n ->
  let lo := low_edge fs f0 bw in let hi := high_edge fs f0 bw in
  warp lo fs + warp hi fs <> warp lo fs * warp hi fs ->
  exists c, butter_bandpass checks cap n fs f0 bw = Ok c /\
    (forall f, 0 < f -> 2 * f < fs -> exists h, cas_response c (at_freq f fs) h /\ 1 / (1 + band_x fs lo hi f ^ (2 * n)) < (Cmod h)²) /\
    (exists f h, lo < f < hi /\ cas_response c (at_freq f fs) h /\ 1 < (Cmod h)²).
Proof.
  intros checks cap n fs f0 bw Hn V HC lo hi NE. destruct (C86_butterworth_bandpass_partial checks cap n fs f0 bw Hn V HC) as [c [E [_ [F _]]]].
  fold lo hi in F. destruct (edges _ _ _ V) as [L0 [L1 L2]]. fold lo hi in L0, L1, L2. destruct (geo_pos fs lo hi L0 L1 L2) as [P Q].
  assert (RN : ref_x fs lo hi <> 0).
  { unfold ref_x. set (s := sqrt (warp lo fs + warp hi fs)). assert (0 < s) by (apply sqrt_lt_R0; lra). intros X.
    apply (Rmult_eq_compat_r (s * (warp hi fs - warp lo fs))) in X. unfold Rdiv in X.
    rewrite Rmult_assoc, Rinv_l, Rmult_0_l in X; [lra|]. apply Rgt_not_eq, Rmult_lt_0_compat; lra. }
  pose proof (pow_even_pos' _ n RN) as RP.
  assert (ALL : forall f, 0 < f -> 2 * f < fs -> exists h, cas_response c (at_freq f fs) h /\ 1 / (1 + band_x fs lo hi f ^ (2 * n)) < (Cmod h)²).
  { intros f F1 F2. destruct (F f F1 F2) as [h [A M]]. exists h. split; [exact A|]. rewrite M. pose proof (pow_even_pos (band_x fs lo hi f) n).
    apply Rmult_lt_compat_r; [apply Rinv_0_lt_compat; lra|lra]. }
  exists c. split; [exact E|split; [exact ALL|]]. destruct (centre_exists fs lo hi L0 L1 L2) as [fp [FP X0]].
  destruct (ALL fp ltac:(lra) ltac:(lra)) as [h [A M]]. exists fp, h. split; [exact FP|split; [exact A|]]. rewrite X0, pow_i in M by lia. lra.
Qed.

(** In particular around a quarter of the sample rate, for every order and every bandwidth up to a quarter of the rate. *)
Theorem C86_bandpass_quarter_rate_refuted : forall cap n fs bw, (1 <= n <= cap)%nat -> 0 < fs -> 0 < bw -> 4 * bw <= fs ->
  exists c h, butter_bandpass false cap n fs (fs / 4) bw = Ok c /\ cas_response c (at_freq (fs / 4) fs) h /\ 1 < (Cmod h)².
Proof.
  intros cap n fs bw Hn Hfs Hb Hq. pose proof PI2_3_2 as P32. assert (P3 : 3 < PI) by lra.
  assert (TN : fs * (/ 10 ^ 8) / (2 * PI) < fs / 8).
  { assert (10 < 10 ^ 8) by (simpl; lra). assert (/ 10 ^ 8 < 1) by (rewrite <- Rinv_1; apply Rinv_lt_contravar; lra).
    apply (Rmult_lt_reg_r (2 * PI)); [lra|]. unfold Rdiv. rewrite Rmult_assoc, Rinv_l, Rmult_1_r by lra. pose proof tiny_pos. nra. }
  assert (EL : low_edge fs (fs / 4) bw = fs / 4 - bw / 2) by (unfold low_edge; apply Rmax_left; lra).
  assert (EH : high_edge fs (fs / 4) bw = fs / 4 + bw / 2) by (unfold high_edge; apply Rmin_left; lra).
  assert (V : valid_band fs (fs / 4) bw) by (split; [auto|rewrite EL, EH; lra]).
  destruct (edges _ _ _ V) as [L0 [L1 L2]]. destruct (edge_angles _ _ _ V) as [A [B D]].
  assert (TT : warp (low_edge fs (fs / 4) bw) fs * warp (high_edge fs (fs / 4) bw) fs = 1).
  { unfold warp. set (t1 := PI * (low_edge fs (fs / 4) bw / fs)) in *. assert (S2 : PI * (high_edge fs (fs / 4) bw / fs) = PI / 2 - t1).
    { unfold t1. rewrite EL, EH. field. lra. }
    rewrite S2. unfold tan. rewrite sin_shift, cos_shift. assert (0 < sin t1) by (apply sin_gt_0; lra). assert (0 < cos t1) by (apply cos_gt_0; lra). field. lra. }
  destruct (geo_pos fs _ _ L0 L1 L2) as [P Q].
  assert (SUM : warp (low_edge fs (fs / 4) bw) fs + warp (high_edge fs (fs / 4) bw) fs <> 1) by (intros X; nra).
  destruct (C86_butterworth_bandpass_gain_refuted false cap n fs (fs / 4) bw Hn V (or_introl eq_refl)) as [c [E [F _]]]; [rewrite TT; auto|].
  destruct (F (fs / 4) ltac:(lra) ltac:(lra)) as [h [R M]]. exists c, h. split; [exact E|split; [exact R|]].
  assert (X0 : band_x fs (low_edge fs (fs / 4) bw) (high_edge fs (fs / 4) bw) (fs / 4) = 0).
  { unfold band_x. rewrite TT. assert (W : warp (fs / 4) fs = 1) by (unfold warp; replace (PI * (fs / 4 / fs)) with (PI / 4) by (field; lra); apply tan_PI4).
    rewrite W. unfold Rdiv. ring. }
  rewrite X0, pow_i in M by lia. lra.
Qed.

(** Chebyshev: the same equal-ripple shapes, again scaled by the gain at the wrong reference frequency. *)
Theorem C86_chebyshev1_bandpass_partial : forall checks cap n fs f0 bw ripple_db,
  (1 <= n <= cap)%nat -> valid_band fs f0 bw -> 0 < ripple_db -> checks = false \/ Nat.Even n ->
  let lo := low_edge fs f0 bw in let hi := high_edge fs f0 bw in
  let E2 := Rpower 10 (ripple_db / 10) - 1 in
  let K := (if Nat.odd n then 1 else / Rpower 10 (ripple_db / 10)) * (1 + E2 * (cheb n (ref_x fs lo hi))²) in
  exists c, cheby1_bandpass checks cap n fs f0 bw ripple_db = Ok c /\ band_sections cap n c /\
    (forall f, 0 < f -> 2 * f < fs -> exists h, cas_response c (at_freq f fs) h /\ (Cmod h)² = K / (1 + E2 * (cheb n (band_x fs lo hi f))²)) /\
    (forall f, lo <= f <= hi -> exists h, cas_response c (at_freq f fs) h /\ K / Rpower 10 (ripple_db / 10) <= (Cmod h)² <= K) /\
    (forall f, 0 < f -> 2 * f < fs -> f < lo \/ hi < f -> exists h, cas_response c (at_freq f fs) h /\ (Cmod h)² < K / Rpower 10 (ripple_db / 10)) /\
    cas_response c at_dc C0 /\ cas_response c at_nyquist C0.
Proof.
  intros checks cap n fs f0 bw r Hn V Hr HC lo hi E2 K. destruct (cheby1_bp checks cap n fs f0 bw r Hn V Hr (even_no_odd _ _ HC)) as [c [E [S [F Z]]]].
  fold lo hi in F. destruct (edges _ _ _ V) as [L0 [L1 L2]]. fold lo hi in L0, L1, L2. pose proof (pow10_gt1 (r / 10) ltac:(lra)) as P1.
  assert (EP : 0 < E2) by (unfold E2; lra).
  assert (DP : forall x, 0 < 1 + E2 * (cheb n x)²) by (intros x; pose proof (Rle_0_sqr (cheb n x)); nra).
  assert (KP : 0 < K). { unfold K. apply Rmult_lt_0_compat; auto. destruct (Nat.odd n); [lra|apply Rinv_0_lt_compat; lra]. }
  assert (LAW : forall x, gain1 n r * gain1 n r * (cheb1_mag n r x / cheb1_mag n r (ref_x fs lo hi)) = K / (1 + E2 * (cheb n x)²)).
  { intros x. assert (G : gain1 n r * gain1 n r = if Nat.odd n then 1 else / Rpower 10 (r / 10)).
    { unfold gain1. destruct (Nat.odd n); [ring|]. unfold pow10. rewrite <- Rpower_plus. replace (- r / 20 + - r / 20) with (- (r / 10)) by field. apply Rpower_Ropp. }
    unfold K. rewrite <- G. unfold cheb1_mag. change (cheb n x * cheb n x) with ((cheb n x)²).
    change (cheb n (ref_x fs lo hi) * cheb n (ref_x fs lo hi)) with ((cheb n (ref_x fs lo hi))²). fold E2.
    pose proof (DP x). pose proof (DP (ref_x fs lo hi)). field. lra. }
  assert (EK : forall a, K * / Rpower 10 (r / 10) < K * / a <-> K / Rpower 10 (r / 10) < K / a) by (intros; reflexivity).
  exists c. split; [exact E|split; [apply ok_band_sections, S|split; [|split; [|split; [|exact Z]]]]].
  - intros f F1 F2. destruct (F f F1 F2) as [h [A M]]. exists h. split; [exact A|]. unfold Rsqr at 1. rewrite Cmod_sqr, M. apply LAW.
  - intros f FB. destruct (F f ltac:(lra) ltac:(lra)) as [h [A M]]. exists h. split; [exact A|]. unfold Rsqr. rewrite Cmod_sqr, M, LAW.
    pose proof (bx_in fs lo hi L0 L1 L2 f FB) as BX. pose proof (cheb1_mag_in n r _ Hr BX) as [I1 I2]. unfold cheb1_mag in I1, I2.
    change (cheb n (band_x fs lo hi f) * cheb n (band_x fs lo hi f)) with ((cheb n (band_x fs lo hi f))²) in I1, I2. fold E2 in I1, I2.
    unfold Rdiv in *. rewrite Rmult_1_l in I1, I2. split; [apply Rmult_le_compat_l; lra|]. rewrite <- (Rmult_1_r K) at 2. apply Rmult_le_compat_l; lra.
  - intros f F1 F2 FO. destruct (F f ltac:(lra) ltac:(lra)) as [h [A M]]. exists h. split; [exact A|]. unfold Rsqr. rewrite Cmod_sqr, M, LAW.
    assert (BX : exists y, 1 < y /\ cheb1_mag n r (band_x fs lo hi f) = cheb1_mag n r y).
    { destruct FO as [FO|FO].
      - exists (- band_x fs lo hi f). pose proof (bx_below fs lo hi L0 L1 L2 f F1 FO). split; [lra|]. symmetry. apply cheb1_mag_opp.
      - exists (band_x fs lo hi f). pose proof (bx_above fs lo hi L0 L1 L2 f FO F2). split; auto. }
    destruct BX as [y [Y1 Y2]]. pose proof (cheb1_mag_lt n r 1 y ltac:(lia) Hr ltac:(lra) Y1) as LT. rewrite <- Y2, cheb1_mag_edge in LT. unfold cheb1_mag in LT.
    change (cheb n (band_x fs lo hi f) * cheb n (band_x fs lo hi f)) with ((cheb n (band_x fs lo hi f))²) in LT. fold E2 in LT.
    unfold Rdiv in *. rewrite Rmult_1_l in LT. apply Rmult_lt_compat_l; lra.
Qed.

(** Type II: [cheb2_pass] is the inverse-Chebyshev law, 1 at x = 0.  The reference must not be a transmission zero. *)
Theorem C86_chebyshev2_bandpass_partial : forall checks cap n fs f0 bw stopband_db,
  (1 <= n <= cap)%nat -> valid_band fs f0 bw -> 0 < stopband_db -> checks = false \/ Nat.Even n ->
  let lo := low_edge fs f0 bw in let hi := high_edge fs f0 bw in
  let E2 := Rpower 10 (stopband_db / 10) - 1 in
  let law x := if Req_EM_T x 0 then 1 else (cheb n (1 / x))² / ((cheb n (1 / x))² + E2) in
  law (ref_x fs lo hi) <> 0 ->
  exists c, cheby2_bandpass checks cap n fs f0 bw stopband_db = Ok c /\ band_sections cap n c /\
    (forall f, 0 < f -> 2 * f < fs -> exists h, cas_response c (at_freq f fs) h /\ (Cmod h)² = law (band_x fs lo hi f) / law (ref_x fs lo hi)) /\
    (forall z, z = at_dc \/ z = at_nyquist -> exists h, cas_response c z h /\
       (Cmod h)² = (if Nat.odd n then 0 else / Rpower 10 (stopband_db / 10)) / law (ref_x fs lo hi)).
Proof.
  intros checks cap n fs f0 bw r Hn V Hr HC lo hi E2 law HL.
  destruct (cheby2_bp checks cap n fs f0 bw r Hn V Hr (even_no_odd _ _ HC) HL) as [c [E [S [F Z]]]]. fold lo hi in F, Z.
  exists c. split; [exact E|split; [apply ok_band_sections, S|split]].
  - intros f F1 F2. destruct (F f F1 F2) as [h [A M]]. exists h. split; [exact A|]. unfold Rsqr at 1. rewrite Cmod_sqr. exact M.
  - intros z Hz. destruct (Z z Hz) as [h [A M]]. exists h. split; [exact A|]. unfold Rsqr at 1. rewrite Cmod_sqr, M.
    change (cheb2_pass n r (ref_x fs lo hi)) with (law (ref_x fs lo hi)). f_equal. unfold cheb2_mag. rewrite cheb_at_0.
    pose proof (pow10_gt1 (r / 10) ltac:(lra)). destruct (Nat.odd n); field; lra.
Qed.

(** If the reference is a transmission zero, the gain is divided by zero. *)
Theorem C86_chebyshev2_bandpass_zero_refuted : forall checks cap n fs f0 bw stopband_db,
  (1 <= n <= cap)%nat -> valid_band fs f0 bw -> 0 < stopband_db -> checks = false \/ Nat.Even n ->
  let x := ref_x fs (low_edge fs f0 bw) (high_edge fs f0 bw) in
  x <> 0 -> cheb n (1 / x) = 0 ->
  cheby2_bandpass checks cap n fs f0 bw stopband_db = NonFinite.
Proof.
  intros checks cap n fs f0 bw r Hn V Hr HC x Hx HZ. apply (cheby2_bp_zero checks cap n fs f0 bw r Hn V Hr (even_no_odd _ _ HC)).
  fold x. unfold cheb2_pass, cheb2_mag. destruct (Req_EM_T x 0); [contradiction|]. try rewrite HZ. unfold Rsqr, Rdiv. ring.
Qed.
(** Odd orders fail an assertion; a ripple or attenuation of 0 dB or less has no finite design; orders beyond the capacity fail an assertion. *)
Theorem C86_bandpass_odd_asserts_refuted : forall cap n fs f0 bw r,
  (1 <= n <= cap)%nat -> Nat.Odd n -> 0 < r -> fs <> 0 ->
  butter_bandpass true cap n fs f0 bw = UB /\ cheby1_bandpass true cap n fs f0 bw r = UB /\ cheby2_bandpass true cap n fs f0 bw r = UB.
Proof.
  intros cap n fs f0 bw r Hn HO Hr Hfs. apply Nat.odd_spec in HO. unfold butter_bandpass, cheby1_bandpass, cheby2_bandpass, bandpass_of.
  rewrite !rdiv_ok by auto. cbn [bind]. rewrite butter_analog_ub, cheby1_analog_ub, cheby2_analog_ub by (auto; lia). repeat split; reflexivity.
Qed.
Theorem C86_bandpass_rejects : forall checks cap n fs f0 bw r, fs <> 0 ->
  ((1 <= n <= cap)%nat -> r <= 0 -> cheby1_bandpass checks cap n fs f0 bw r = NonFinite /\ cheby2_bandpass checks cap n fs f0 bw r = NonFinite) /\
  ((cap < n)%nat -> butter_bandpass checks cap n fs f0 bw = UB /\ cheby1_bandpass checks cap n fs f0 bw r = UB /\ cheby2_bandpass checks cap n fs f0 bw r = UB).
Proof.
  intros checks cap n fs f0 bw r Hfs. unfold butter_bandpass, cheby1_bandpass, cheby2_bandpass, bandpass_of. rewrite !rdiv_ok by auto. cbn [bind]. split.
  - intros Hn Hr. rewrite cheby1_analog_bad, cheby2_analog_bad by (auto; lia). repeat split; reflexivity.
  - intros Hn. unfold butter_analog, cheby1_analog, cheby2_analog. rewrite !no_room by auto. repeat split; reflexivity.
Qed.

(** ** C87: band-stop *)
(** Unit gain at both ends and a null between the edges, but with a width set by [stop_b], the cotangent of half the digital
    bandwidth, instead of by the requested edges (where [stop_b] is 1 the law is the requested one). *)
Theorem C87_butterworth_bandstop_partial : forall checks cap n fs f0 bw,
  (1 <= n <= cap)%nat -> valid_band fs f0 bw -> checks = false \/ Nat.Even n ->
  let lo := low_edge fs f0 bw in let hi := high_edge fs f0 bw in
  exists c, butter_bandstop checks cap n fs f0 bw = Ok c /\ band_sections cap n c /\
    (forall f, 0 < f -> 2 * f < fs -> exists h, cas_response c (at_freq f fs) h /\
       (Cmod h)² = band_x fs lo hi f ^ (2 * n) / (band_x fs lo hi f ^ (2 * n) + stop_b fs lo hi ^ (4 * n))) /\
    (exists h, cas_response c at_dc h /\ Cmod h = 1) /\ (exists h, cas_response c at_nyquist h /\ Cmod h = 1) /\
    (exists f, lo < f < hi /\ cas_response c (at_freq f fs) C0).
Proof.
  intros checks cap n fs f0 bw Hn V HC lo hi. destruct (butter_bs checks cap n fs f0 bw Hn V (even_no_odd _ _ HC)) as [c [E [S [F [D N]]]]].
  assert (U : forall h, Cnorm2 h = 1 -> Cmod h = 1) by (intros h M; rewrite <- Cmod_sqr in M; pose proof (Cmod_nonneg h); nra).
  exists c. split; [exact E|split; [apply ok_band_sections, S|split; [|split; [|split]]]].
  - intros f F1 F2. destruct (F f F1 F2) as [h [A M]]. exists h. split; [exact A|]. unfold Rsqr. rewrite Cmod_sqr. exact M.
  - destruct D as [h [A M]]. exists h. auto.
  - destruct N as [h [A M]]. exists h. auto.
  - destruct (edges _ _ _ V) as [L0 [L1 L2]]. fold lo hi in L0, L1, L2. destruct (centre_exists fs lo hi L0 L1 L2) as [fp [FP X0]]. exists fp. split; [exact FP|].
    destruct (F fp ltac:(lra) ltac:(lra)) as [h [A M]]. fold lo hi in M. rewrite X0, pow_i in M by lia. unfold Rdiv in M. rewrite Rmult_0_l in M.
    replace C0 with h; [exact A|]. apply Cnorm2_0, M.
Qed.

(** The requested edges are at half power only for one bandwidth: for every other they are not. *)
Theorem C87_butterworth_bandstop_edges_refuted : forall checks cap n fs f0 bw,
  (1 <= n <= cap)%nat -> valid_band fs f0 bw -> checks = false \/ Nat.Even n ->
  let lo := low_edge fs f0 bw in let hi := high_edge fs f0 bw in
  exists c, butter_bandstop checks cap n fs f0 bw = Ok c /\
    forall f, f = lo \/ f = hi -> exists h, cas_response c (at_freq f fs) h /\
      (hi - lo < fs / 4 -> (Cmod h)² < 1 / 2) /\ (hi - lo = fs / 4 -> (Cmod h)² = 1 / 2) /\ (fs / 4 < hi - lo -> 1 / 2 < (Cmod h)²).
Proof.
  intros checks cap n fs f0 bw Hn V HC lo hi. destruct (C87_butterworth_bandstop_partial checks cap n fs f0 bw Hn V HC) as [c [E [_ [F _]]]].
  fold lo hi in F. destruct (edges _ _ _ V) as [L0 [L1 L2]]. fold lo hi in L0, L1, L2.
  destruct (edge_angles _ _ _ V) as [A1 [A2 A3]]. fold lo hi in A1, A2, A3.
  destruct (band_consts _ _ A1 A2 A3) as [_ [SBP [_ [_ [_ [_ BE]]]]]].
  assert (BT : stop_b fs lo hi = / tan (PI * ((hi - lo) / fs))).
  { unfold stop_b, warp. rewrite <- BE. unfold bb. unfold Rdiv at 1. rewrite Rmult_1_l. do 2 f_equal. field. destruct V; lra. }
  pose proof (stop_b_pos _ _ _ V) as SB. fold lo hi in SB. set (b := stop_b fs lo hi) in *.
  pose proof (norm_range (hi - lo) fs ltac:(lra) ltac:(lra)) as DR. destruct (tan_pos_range _ DR) as [TP _].
  assert (Q : forall x y, 0 < y -> y = 1 * y -> x ^ (2 * n) = 1 -> x ^ (2 * n) / (x ^ (2 * n) + y) = 1 / (1 + y)) by (intros x y _ _ ->; reflexivity).
  assert (EV : forall f, f = lo \/ f = hi -> exists h, cas_response c (at_freq f fs) h /\ (Cmod h)² = 1 / (1 + b ^ (4 * n))).
  { intros f [->| ->].
    - destruct (F lo ltac:(lra) ltac:(lra)) as [h [A M]]. exists h. split; [exact A|]. rewrite M, bx_lo, pow_even_m1 by auto. reflexivity.
    - destruct (F hi ltac:(lra) ltac:(lra)) as [h [A M]]. exists h. split; [exact A|]. rewrite M, bx_hi, pow1 by auto. reflexivity. }
  exists c. split; [exact E|]. intros f Hf. destruct (EV f Hf) as [h [A M]]. exists h. split; [exact A|]. rewrite M.
  assert (B4 : b ^ (4 * n) = (b ^ 2) ^ (2 * n)) by (rewrite <- pow_mult; f_equal; lia).
  assert (BP : 0 < b ^ (4 * n)) by (apply pow_lt; auto). pose proof PI_RGT_0 as PP.
  assert (FS : 0 < fs) by (destruct V; auto).
  assert (AN : forall d, PI * (d / fs) = PI / 4 + PI / fs * (d - fs / 4)) by (intros; field; lra). assert (PF : 0 < PI / fs) by (apply div_pos; auto).
  split; [|split]; intros G.
  - assert (T : tan (PI * ((hi - lo) / fs)) < 1).
    { rewrite <- tan_PI4. apply tan_increasing; try lra. rewrite AN. nra. }
    assert (B1 : 1 < b) by (rewrite BT, <- Rinv_1; apply Rinv_lt_contravar; lra).
    assert (B2 : 1 < b ^ (4 * n)) by (apply Rlt_pow_R1; [auto|lia]).
    apply Rmult_lt_compat_l; [lra|]. apply Rinv_lt_contravar; [apply Rmult_lt_0_compat; lra|lra].
  - assert (T : tan (PI * ((hi - lo) / fs)) = 1) by (rewrite <- tan_PI4; f_equal; rewrite AN, G; ring).
    rewrite BT, T, Rinv_1, pow1. field.
  - assert (T : 1 < tan (PI * ((hi - lo) / fs))).
    { rewrite <- tan_PI4. apply tan_increasing; try lra. rewrite AN. nra. }
    assert (B1 : b < 1) by (rewrite BT, <- Rinv_1; apply Rinv_lt_contravar; lra).
    assert (B2 : b ^ (4 * n) < 1).
    { rewrite B4, <- (pow1 (2 * n)). apply pow_even_lt; [lia|apply pow2_ge_0|]. simpl. nra. }
    apply Rmult_lt_compat_l; [lra|]. apply Rinv_lt_contravar; [apply Rmult_lt_0_compat; lra|lra].
Qed.

Theorem C87_chebyshev1_bandstop_partial : forall checks cap n fs f0 bw ripple_db,
  (1 <= n <= cap)%nat -> valid_band fs f0 bw -> 0 < ripple_db -> checks = false \/ Nat.Even n ->
  let lo := low_edge fs f0 bw in let hi := high_edge fs f0 bw in
  let E2 := Rpower 10 (ripple_db / 10) - 1 in
  exists c, cheby1_bandstop checks cap n fs f0 bw ripple_db = Ok c /\ band_sections cap n c /\
    (forall f, 0 < f -> 2 * f < fs -> exists h, cas_response c (at_freq f fs) h /\
       (band_x fs lo hi f = 0 -> h = C0) /\
       (band_x fs lo hi f <> 0 -> (Cmod h)² = 1 / (1 + E2 * (cheb n ((stop_b fs lo hi)² / band_x fs lo hi f))²))) /\
    (forall z, z = at_dc \/ z = at_nyquist -> exists h, cas_response c z h /\ (Cmod h)² = if Nat.odd n then 1 else / Rpower 10 (ripple_db / 10)).
Proof.
  intros checks cap n fs f0 bw r Hn V Hr HC lo hi E2. destruct (cheby1_bs checks cap n fs f0 bw r Hn V Hr (even_no_odd _ _ HC)) as [c [E [S [F [D N]]]]].
  fold lo hi in F. exists c. split; [exact E|split; [apply ok_band_sections, S|split]].
  - intros f F1 F2. destruct (F f F1 F2) as [h [A [M0 M]]]. exists h. split; [exact A|split].
    + intros X. apply Cnorm2_0, M0, X.
    + intros X. unfold Rsqr at 1. rewrite Cmod_sqr, M by auto. reflexivity.
  - assert (G : gain1 n r * gain1 n r = if Nat.odd n then 1 else / Rpower 10 (r / 10)).
    { unfold gain1. destruct (Nat.odd n); [ring|]. unfold pow10. rewrite <- Rpower_plus. replace (- r / 20 + - r / 20) with (- (r / 10)) by field. apply Rpower_Ropp. }
    intros z [->| ->]; [destruct D as [h [A M]]|destruct N as [h [A M]]]; exists h; (split; [exact A|]); unfold Rsqr; rewrite Cmod_sqr, M; exact G.
Qed.

Theorem C87_chebyshev2_bandstop_partial : forall checks cap n fs f0 bw stopband_db,
  (1 <= n <= cap)%nat -> valid_band fs f0 bw -> 0 < stopband_db -> checks = false \/ Nat.Even n ->
  let lo := low_edge fs f0 bw in let hi := high_edge fs f0 bw in
  let E2 := Rpower 10 (stopband_db / 10) - 1 in
  exists c, cheby2_bandstop checks cap n fs f0 bw stopband_db = Ok c /\ band_sections cap n c /\
    (forall f, 0 < f -> 2 * f < fs -> exists h, cas_response c (at_freq f fs) h /\
       let t := (cheb n (band_x fs lo hi f / (stop_b fs lo hi)²))² in (Cmod h)² = t / (t + E2)) /\
    (forall z, z = at_dc \/ z = at_nyquist -> exists h, cas_response c z h /\ (Cmod h)² = 1).
Proof.
  intros checks cap n fs f0 bw r Hn V Hr HC lo hi E2. destruct (cheby2_bs checks cap n fs f0 bw r Hn V Hr (even_no_odd _ _ HC)) as [c [E [S [F [D N]]]]].
  fold lo hi in F. exists c. split; [exact E|split; [apply ok_band_sections, S|split]].
  - intros f F1 F2. destruct (F f F1 F2) as [h [A M]]. exists h. split; [exact A|]. cbv zeta. change ((Cmod h)²) with (Cmod h * Cmod h). rewrite Cmod_sqr. exact M.
  - intros z [->| ->]; [destruct D as [h [A M]]|destruct N as [h [A M]]]; exists h; (split; [exact A|]); unfold Rsqr; rewrite Cmod_sqr; exact M.
Qed.
Theorem C87_bandstop_odd_asserts_refuted : forall cap n fs f0 bw r,
  (1 <= n <= cap)%nat -> Nat.Odd n -> 0 < r -> fs <> 0 ->
  butter_bandstop true cap n fs f0 bw = UB /\ cheby1_bandstop true cap n fs f0 bw r = UB /\ cheby2_bandstop true cap n fs f0 bw r = UB.
Proof.
  intros cap n fs f0 bw r Hn HO Hr Hfs. apply Nat.odd_spec in HO. unfold butter_bandstop, cheby1_bandstop, cheby2_bandstop, bandstop_of.
  rewrite !rdiv_ok by auto. cbn [bind]. rewrite butter_analog_ub, cheby1_analog_ub, cheby2_analog_ub by (auto; lia). repeat split; reflexivity.
Qed.
Theorem C87_bandstop_rejects : forall checks cap n fs f0 bw r, fs <> 0 ->
  ((1 <= n <= cap)%nat -> r <= 0 -> cheby1_bandstop checks cap n fs f0 bw r = NonFinite /\ cheby2_bandstop checks cap n fs f0 bw r = NonFinite) /\
  ((cap < n)%nat -> butter_bandstop checks cap n fs f0 bw = UB /\ cheby1_bandstop checks cap n fs f0 bw r = UB /\ cheby2_bandstop checks cap n fs f0 bw r = UB).
Proof.
  intros checks cap n fs f0 bw r Hfs. unfold butter_bandstop, cheby1_bandstop, cheby2_bandstop, bandstop_of. rewrite !rdiv_ok by auto. cbn [bind]. split.
  - intros Hn Hr. rewrite cheby1_analog_bad, cheby2_analog_bad by (auto; lia). repeat split; reflexivity.
  - intros Hn. unfold butter_analog, cheby1_analog, cheby2_analog. rewrite !no_room by auto. repeat split; reflexivity.
Qed.

(** ** C88: band-shelf *)
Theorem C88_butterworth_bandshelf_partial : forall cap n fs f0 bw gain_db,
  (1 <= n <= cap)%nat -> valid_band fs f0 bw ->
  let lo := low_edge fs f0 bw in let hi := high_edge fs f0 bw in let V := Rpower 10 (gain_db / 20) in
  exists c, butter_bandshelf false cap n fs f0 bw gain_db = Ok c /\ band_sections cap n c /\
    (forall f, 0 < f -> 2 * f < fs -> exists h, cas_response c (at_freq f fs) h /\
       (Cmod h)² = (V + band_x fs lo hi f ^ (2 * n)) / (/ V + band_x fs lo hi f ^ (2 * n))) /\
    (forall f, f = lo \/ f = hi -> exists h, cas_response c (at_freq f fs) h /\ (Cmod h)² = V) /\
    (exists f h, lo < f < hi /\ cas_response c (at_freq f fs) h /\ Cmod h = V) /\
    (exists h, cas_response c at_dc h /\ Cmod h = 1) /\ (exists h, cas_response c at_nyquist h /\ Cmod h = 1).
Proof.
  intros cap n fs f0 bw gn Hn HV lo hi V.
  destruct (butter_bsh cap n fs f0 bw gn Hn HV) as [c [E [S [F [D N]]]]].
  fold lo hi in F. change (pow10 (gn / 20)) with V in F. assert (VP : 0 < V) by apply exp_pos. pose proof (Rinv_0_lt_compat _ VP) as IP.
  assert (U : forall h u, 0 < u -> Cnorm2 h = u * u -> Cmod h = u) by (intros h u Hu M; rewrite <- Cmod_sqr in M; pose proof (Cmod_nonneg h); nra).
  destruct (edges _ _ _ HV) as [L0 [L1 L2]]. fold lo hi in L0, L1, L2.
  exists c. split; [exact E|split; [apply ok_band_sections, S|split; [|split; [|split; [|split]]]]].
  - intros f F1 F2. destruct (F f F1 F2) as [h [A M]]. exists h. split; [exact A|]. unfold Rsqr. rewrite Cmod_sqr. exact M.
  - intros f [->| ->].
    + destruct (F lo ltac:(lra) ltac:(lra)) as [h [A M]]. exists h. split; [exact A|]. unfold Rsqr. rewrite Cmod_sqr, M, bx_lo, pow_even_m1 by auto. field. lra.
    + destruct (F hi ltac:(lra) ltac:(lra)) as [h [A M]]. exists h. split; [exact A|]. unfold Rsqr. rewrite Cmod_sqr, M, bx_hi, pow1 by auto. field. lra.
  - destruct (centre_exists fs lo hi L0 L1 L2) as [fp [FP X0]]. destruct (F fp ltac:(lra) ltac:(lra)) as [h [A M]]. exists fp, h.
    split; [exact FP|split; [exact A|]]. apply U; auto. rewrite M, X0, pow_i by lia. field. lra.
  - destruct D as [h [A M]]. exists h. split; [exact A|]. apply U; lra.
  - destruct N as [h [A M]]. exists h. split; [exact A|]. apply U; lra.
Qed.

(** Chebyshev band-shelf: the gain is reached to within the ripple inside the band, the edge value at both edges, both ends left alone. *)
Theorem C88_chebyshev_bandshelf_partial : forall checks cap n fs f0 bw gain_db ripple_db,
  (1 <= n <= cap)%nat -> valid_band fs f0 bw -> 0 < ripple_db < Rabs gain_db -> checks = false \/ Nat.Even n ->
  let lo := low_edge fs f0 bw in let hi := high_edge fs f0 bw in
  exists c, cheby_bandshelf checks cap n fs f0 bw gain_db ripple_db = Ok c /\ band_sections cap n c /\
    (forall f, 0 < f -> 2 * f < fs -> exists h, cas_response c (at_freq f fs) h /\
       let F := Rpower 10 (- gain_db / 10) in let E := / edge_gain2 gain_db ripple_db in let e := (F - E) / (E - 1) in
       (Cmod h)² = (1 + e * (cheb n (band_x fs lo hi f))²) / (F + e * (cheb n (band_x fs lo hi f))²)) /\
    (forall f, lo <= f <= hi -> exists h, cas_response c (at_freq f fs) h /\ between (edge_gain2 gain_db ripple_db) (Rpower 10 (gain_db / 10)) (Cmod h)²) /\
    (forall f, f = lo \/ f = hi -> exists h, cas_response c (at_freq f fs) h /\ (Cmod h)² = edge_gain2 gain_db ripple_db) /\
    (exists h, cas_response c at_dc h /\ Cmod h = 1) /\ (exists h, cas_response c at_nyquist h /\ Cmod h = 1).
Proof.
  intros checks cap n fs f0 bw gn r Hn HV Hr HC lo hi. destruct (cheby_bsh checks cap n fs f0 bw gn r Hn HV Hr (even_no_odd _ _ HC)) as [c [E [S [F [D N]]]]].
  fold lo hi in F. assert (U : forall h, Cnorm2 h = 1 -> Cmod h = 1) by (intros h M; rewrite <- Cmod_sqr in M; pose proof (Cmod_nonneg h); nra).
  destruct (edges _ _ _ HV) as [L0 [L1 L2]]. fold lo hi in L0, L1, L2.
  exists c. split; [exact E|split; [apply ok_band_sections, S|split; [|split; [|split; [|split]]]]].
  - intros f F1 F2. destruct (F f F1 F2) as [h [A M]]. exists h. split; [exact A|]. cbv zeta. unfold Rsqr at 1. rewrite Cmod_sqr, M.
    unfold cheb_shelf_mag, shelf_eps2. rewrite edge_gain2_inv, Rinv_inv. reflexivity.
  - intros f FB. destruct (F f ltac:(lra) ltac:(lra)) as [h [A M]]. exists h. split; [exact A|]. unfold Rsqr. rewrite Cmod_sqr, M. apply shelf_band; [exact Hr|]. apply bx_in; auto.
  - intros f [->| ->].
    + destruct (F lo ltac:(lra) ltac:(lra)) as [h [A M]]. exists h. split; [exact A|]. unfold Rsqr. rewrite Cmod_sqr, M, bx_lo by auto. apply shelf_at_edge; auto.
      replace (-1) with (Ropp 1) by lra. rewrite cheb_opp_sq, cheb_at_1. ring.
    + destruct (F hi ltac:(lra) ltac:(lra)) as [h [A M]]. exists h. split; [exact A|]. unfold Rsqr. rewrite Cmod_sqr, M, bx_hi by auto. apply shelf_at_edge; auto.
      rewrite cheb_at_1. ring.
  - destruct D as [h [A M]]. exists h. auto.
  - destruct N as [h [A M]]. exists h. auto.
Qed.
(** A cut that the ripple swallows: the law of the clamped design, with e = 10^(-gain/20) - 1 as for the low shelf of C85. *)
Theorem C88_chebyshev_bandshelf_clamped_actual : forall checks cap n fs f0 bw gain_db ripple_db,
  (1 <= n <= cap)%nat -> valid_band fs f0 bw -> gain_db < 0 -> - gain_db <= ripple_db -> checks = false \/ Nat.Even n ->
  let lo := low_edge fs f0 bw in let hi := high_edge fs f0 bw in
  let e := Rpower 10 (- gain_db / 20) - 1 in let b := (1 + e + sqrt (1 + e * e)) / e in let k := (b - / b) / 2 in
  exists c, cheby_bandshelf checks cap n fs f0 bw gain_db ripple_db = Ok c /\ band_sections cap n c /\
    (forall f, 0 < f -> 2 * f < fs -> exists h, cas_response c (at_freq f fs) h /\
       (Cmod h)² = ((cheb n (band_x fs lo hi f))² + (/ e)²) / ((cheb n (band_x fs lo hi f))² + k²)) /\
    (exists h, cas_response c at_dc h /\ Cmod h = 1) /\ (exists h, cas_response c at_nyquist h /\ Cmod h = 1).
Proof.
  intros checks cap n fs f0 bw gn r Hn HV Hg Hr HC lo hi e b k.
  destruct (cheby_cut_analog checks cap n gn r Hn Hg Hr) as [UP [VP [UE [VE EA]]]].
  assert (HG : 1 < pow10 (- gn / 20)) by (apply pow10_gt1; lra).
  assert (EK : sinh (ln (clamp_b (pow10 (- gn / 20)))) = k).
  { rewrite (clamp_cut_sinh _ HG). unfold k, b, e, pow10. replace (1 + (Rpower 10 (- gn / 20) - 1)) with (Rpower 10 (- gn / 20)) by ring. reflexivity. }
  set (u := ln (clamp_b (pow10 (- gn / 20))) / INR n) in *. set (v := shelf_v n (pow10 (- gn / 20) - 1)) in *.
  destruct (bandshelf_general checks cap n (cs_pairs n u v) (cs_odd n u v) PI 1 fs f0 bw (ok_cs n _ _ UP VP) (cs_fin n _ _ VP) (mk_count _ _ _ _ n) Hn
    (odd_none_mk _ _ _ _ (even_no_odd _ _ HC)) HV) as [c [E [S [F [D N]]]]]. fold lo hi in F.
  assert (U : forall h, Cnorm2 h = 1 -> Cmod h = 1) by (intros h M; rewrite <- Cmod_sqr in M; pose proof (Cmod_nonneg h); nra).
  exists c. split; [unfold cheby_bandshelf; rewrite EA; exact E|]. split; [apply ok_band_sections, S|]. split; [|split].
  - intros f F1 F2. destruct (F f F1 F2) as [h [Hh Hm]]. exists h. split; [exact Hh|]. unfold Rsqr at 1. rewrite Cmod_sqr, Hm, cs_product by (auto; lia). rewrite UE, VE, EK. reflexivity.
  - destruct D as [h [A M]]. exists h. auto.
  - destruct N as [h [A M]]. exists h. auto.
Qed.
(** With assertions compiled in, every Butterworth band-shelf of order 2 or more fails; degenerate Chebyshev requests have no finite design. *)
Theorem C88_bandshelf_rejects : forall checks cap n fs f0 bw gain_db ripple_db, fs <> 0 ->
  ((2 <= n)%nat -> butter_bandshelf true cap n fs f0 bw gain_db = UB) /\
  ((1 <= n <= cap)%nat -> gain_db = 0 \/ ripple_db <= 0 -> cheby_bandshelf checks cap n fs f0 bw gain_db ripple_db = NonFinite) /\
  ((cap < n)%nat -> butter_bandshelf checks cap n fs f0 bw gain_db = UB /\ cheby_bandshelf checks cap n fs f0 bw gain_db ripple_db = UB).
Proof.
  intros checks cap n fs f0 bw gn r Hfs. unfold butter_bandshelf, cheby_bandshelf, bandshelf_of. rewrite !rdiv_ok by auto. cbn [bind]. split; [|split].
  - intros Hn. rewrite butter_shelf_ub by auto. reflexivity.
  - intros Hn Hr. rewrite cheby_shelf_bad by (auto; lia). reflexivity.
  - intros Hn. unfold butter_shelf_analog, cheby_shelf_analog. rewrite !no_room by auto. split; reflexivity.
Qed.

(** The first-order Butterworth band-shelf is the only one that a checked build accepts.  It gives the same filter there, except for two
    bandwidths (one at 0 dB) at which the assertion on matched pairs fails. *)
Lemma matched_pair p q : realpair p q -> (is_matched_pair p q = true <-> p <> C0 /\ q <> C0).
Proof.
  intros RP. unfold is_matched_pair, Ceqb. destruct (Req_EM_T (Im p) 0) as [E|E].
  - assert (E2 : Im q = 0) by (destruct RP as [[_ X]| ->]; [exact X|simpl; change (snd p) with (Im p); rewrite E; ring]).
    destruct (Req_EM_T (Im q) 0); [|contradiction]. cbn [andb].
    destruct (Req_EM_T (Re q) 0) as [Q|Q]; [split; [discriminate|intros [_ Y]; exfalso; apply Y, C_eq; auto]|].
    destruct (Req_EM_T (Re p) 0) as [P|P]; cbn [andb]; [split; [discriminate|intros [Y _]; exfalso; apply Y, C_eq; auto]|].
    split; [|reflexivity]. intros _. split; intros X; [apply P|apply Q]; rewrite X; reflexivity.
  - destruct RP as [[X _]|X]; [contradiction|]. rewrite X. cbn [Re Im Cconj fst snd]. destruct (Req_EM_T _ _); [|contradiction]. destruct (Req_EM_T _ _); [|contradiction].
    split; [|reflexivity]. intros _. split; intros Y; apply E.
    + rewrite Y. reflexivity.
    + apply (f_equal Im) in Y. simpl in Y. change (snd p) with (Im p) in Y. lra.
Qed.
Theorem C88_bandshelf_first_order_checked : forall cap fs f0 bw gain_db, (1 <= cap)%nat -> valid_band fs f0 bw ->
  let k := tan (PI * ((high_edge fs f0 bw - low_edge fs f0 bw) / fs)) in let g := Rpower 10 (gain_db / 40) in
  (k <> g -> k * g <> 1 -> butter_bandshelf true cap 1 fs f0 bw gain_db = butter_bandshelf false cap 1 fs f0 bw gain_db) /\
  (k = g \/ k * g = 1 -> butter_bandshelf true cap 1 fs f0 bw gain_db = UB).
Proof.
  intros cap fs f0 bw gn Hc V k g. destruct (edge_angles _ _ _ V) as [A [B D]]. pose proof (proj1 V) as Hfs.
  set (lo := low_edge fs f0 bw) in *. set (hi := high_edge fs f0 bw) in *. set (t1 := PI * (lo / fs)) in *. set (t2 := PI * (hi / fs)) in *.
  destruct (band_consts t1 t2 A B D) as [Ha [Hb _]]. destruct (tan_pos_range (t2 - t1) ltac:(lra)) as [TP _].
  assert (EK : k = tan (t2 - t1)) by (unfold k, t1, t2; f_equal; field; lra). assert (EB : bb t1 t2 = 1 / k) by (rewrite EK; reflexivity).
  assert (EG : sh_g 1 gn = g).
  { unfold sh_g, g, pow10. rewrite Rpower_mult. f_equal. simpl. field. }
  assert (GP : 0 < g) by apply exp_pos. assert (KP : 0 < k) by (rewrite EK; exact TP).
  pose proof (bp_map (ba t1 t2) (bb t1 t2) (2 * t2) (2 * t1) Ha Hb) as BM. set (q := mkBand (2 * t2) (2 * t1) (ba t1 t2) (bb t1 t2)) in *.
  assert (ROOT : forall x, x < 0 -> exists u v, bp_transform q (Fin (RtoC x)) = Ok (u, v) /\ realpair u v /\ (u = C0 \/ v = C0 <-> x = - (1 / k))).
  { intros x Hx. assert (L : lhp (Fin (RtoC x))) by (simpl; lra). destruct (rts_ok _ _ _ _ BM _ L) as [E [P R]].
    exists (fst (rts (bp_transform q) (Fin (RtoC x)))), (snd (rts (bp_transform q) (Fin (RtoC x)))). split; [rewrite E; f_equal; apply surjective_pairing|].
    split; [apply R; reflexivity|]. assert (Y : poly (bpN (ba t1 t2) (bb t1 t2)) qM (Fin (RtoC x)) C0 = RtoC (bb t1 t2 + x)).
    { unfold poly, bpN, qQ, qM. apply C_eq; simpl; ring. }
    specialize (P C0). rewrite Y, EB in P. split.
    - intros Z. assert (X : RtoC (1 / k + x) = C0) by (rewrite <- P; destruct Z as [-> | ->]; ring). apply (f_equal Re) in X. simpl in X. lra.
    - intros Z. replace (1 / k + x) with 0 in P by lra. change (RtoC 0) with C0 in P. apply Cmul_eq0 in P. destruct P as [P|P].
      + exfalso. rewrite <- EB in P. exact (lead_nz _ _ _ _ BM _ L P).
      + apply Cmul_eq0 in P. destruct P as [P|P]; [left|right].
        * transitivity (C0 - (C0 - fst (rts (bp_transform q) (Fin (RtoC x)))))%C; [ring|rewrite P; ring].
        * transitivity (C0 - (C0 - snd (rts (bp_transform q) (Fin (RtoC x)))))%C; [ring|rewrite P; ring]. }
  destruct (ROOT (- / g) ltac:(pose proof (Rinv_0_lt_compat _ GP); lra)) as [u [v [E1 [R1 Z1]]]].
  destruct (ROOT (- g) ltac:(lra)) as [u' [v' [E2 [R2 Z2]]]].
  assert (K1 : - / g = - (1 / k) <-> k = g).
  { split; intros X; [|rewrite X; field; lra]. assert (Y : / g = / k) by lra. rewrite <- (Rinv_inv k), <- Y. apply Rinv_inv. }
  assert (K2 : - g = - (1 / k) <-> k * g = 1).
  { split; intros X; [replace g with (1 / k) by lra; field; lra|]. replace (1 / k) with (k * g / k) by (rewrite X; reflexivity). field; lra. }
  unfold butter_bandshelf, bandshelf_of. rewrite !rdiv_ok by lra. cbn [bind]. rewrite !butter_shelf_first by auto. rewrite (init_ok _ _ _ V). cbn [bind]. fold lo hi t1 t2 q.
  assert (LAY : forall checks, band_layout checks (bp_transform q) (fun z => z) (analog cap (sh_pairs (sh_g 1 gn) 1) (sh_odd (sh_g 1 gn) 1) PI 1) (lay_new (2 * cap)) =
    bind (lay_insert_pair checks (lay_reset (lay_new (2 * cap))) (u, v) (u', v')) (fun d => Ok (lay_set_gain d 1))).
  { intros checks. rewrite EG. destruct cap as [|cap']; [lia|]. unfold band_layout, analog, sh_odd, sh_pairs. cbn -[bp_transform lay_insert_pair lay_new lay_reset RtoC].
    rewrite E1. cbn [bind]. rewrite E2. cbn [bind]. reflexivity. }
  rewrite !LAY. unfold lay_insert_pair. cbn [fst snd]. change (Nat.even (num_poles (lay_reset (lay_new (2 * cap))))) with true. cbv iota.
  pose proof (matched_pair _ _ R1) as M1. pose proof (matched_pair _ _ R2) as M2. split.
  - intros NE1 NE2. replace (is_matched_pair u v) with true; [replace (is_matched_pair u' v') with true; [reflexivity|]|]; symmetry.
    + apply M2. split; intros X; apply NE2, K2, Z2; auto.
    + apply M1. split; intros X; apply NE1, K1, Z1; auto.
  - intros EQ. replace (is_matched_pair u v && is_matched_pair u' v')%bool with false; [reflexivity|]. symmetry. apply andb_false_iff.
    destruct EQ as [EQ|EQ]; [left|right].
    + destruct (is_matched_pair u v); auto. destruct (proj1 M1 eq_refl). destruct (proj2 Z1 (proj2 K1 EQ)); contradiction.
    + destruct (is_matched_pair u' v'); auto. destruct (proj1 M2 eq_refl). destruct (proj2 Z2 (proj2 K2 EQ)); contradiction.
Qed.

(** A 4th-order, 4.8 kHz wide band around 12 kHz at 48 kHz meets the hypotheses. *)
Example band_instance : (1 <= 4 <= 10)%nat /\ valid_band 48000 12000 4800 /\ Nat.Even 4 /\ 0 < 1 < Rabs 6 /\
  high_edge 48000 12000 4800 - low_edge 48000 12000 4800 < 48000 / 4.
Proof.
  assert (P3 : 3 < PI) by (pose proof PI2_3_2; lra). assert (T : 48000 * (/ 10 ^ 8) / (2 * PI) < 1000).
  { assert (1000 < 10 ^ 8) by (simpl; lra). assert (/ 10 ^ 8 < / 1000) by (apply Rinv_lt_contravar; [apply Rmult_lt_0_compat; lra|auto]).
    apply (Rmult_lt_reg_r (2 * PI)); [lra|]. unfold Rdiv. rewrite Rmult_assoc, Rinv_l, Rmult_1_r by lra. pose proof tiny_pos. nra. }
  assert (EL : low_edge 48000 12000 4800 = 9600) by (unfold low_edge; rewrite Rmax_left; lra).
  assert (EH : high_edge 48000 12000 4800 = 14400) by (unfold high_edge; rewrite Rmin_left; lra).
  split; [lia|]. split; [split; [lra|rewrite EL, EH; lra]|]. split; [exists 2%nat; reflexivity|]. split; [unfold Rabs; destruct (Rcase_abs 6); lra|]. rewrite EL, EH. lra.
Qed.
(** A band of order 2 whose reference is a transmission zero: edges with tangents 17/40 and 51/50. *)
Lemma tan_far w : 0 < w < PI / 2 -> 1 / 10 < tan w -> 1 / 100 < w.
Proof.
  intros B T. destruct (Rlt_dec (1 / 100) w) as [|NL]; auto. exfalso. assert (P3 : 3 < PI) by (pose proof PI2_3_2; lra).
  pose proof (sin_lt_x w ltac:(lra)) as S. assert (C : 1 / 2 < cos w) by (rewrite <- cos_PI3; apply cos_decreasing_1; lra).
  unfold tan in T. assert (sin w / cos w < 1 / 10); [|lra]. apply (Rmult_lt_reg_r (cos w)); [lra|]. unfold Rdiv. rewrite Rmult_assoc, Rinv_l by lra. lra.
Qed.
Example zero_instance : exists f0 bw, valid_band PI f0 bw /\
  let x := ref_x PI (low_edge PI f0 bw) (high_edge PI f0 bw) in x <> 0 /\ cheb 2 (1 / x) = 0.
Proof.
  assert (PP : 0 < PI) by apply PI_RGT_0.
  set (u := atan (17 / 40)). set (v := atan (51 / 50)). pose proof (atan_bound (17 / 40)) as BU. pose proof (atan_bound (51 / 50)) as BV. fold u in BU. fold v in BV.
  assert (TU : tan u = 17 / 40) by apply tan_atan. assert (TV : tan v = 51 / 50) by apply tan_atan.
  assert (UV : u < v) by (apply atan_increasing; lra). assert (UP : 0 < u) by (rewrite <- atan_0; apply atan_increasing; lra).
  assert (U0 : 1 / 100 < u) by (apply tan_far; lra).
  assert (V0 : 1 / 100 < PI / 2 - v).
  { apply tan_far; [lra|]. assert (SV : 0 < sin v) by (apply sin_gt_0; lra). assert (CV : 0 < cos v) by (apply cos_gt_0; lra).
    unfold tan. rewrite sin_shift, cos_shift. unfold tan in TV. assert (Y : sin v = 51 / 50 * cos v) by (rewrite <- TV; field; lra). rewrite Y.
    replace (cos v / (51 / 50 * cos v)) with (50 / 51) by (field; lra). lra. }
  assert (TINY : PI * (/ 10 ^ 8) / (2 * PI) < 1 / 100).
  { replace (PI * / 10 ^ 8 / (2 * PI)) with (/ (2 * 10 ^ 8)) by (field; lra). apply (Rmult_lt_reg_l (2 * 10 ^ 8)); [lra|]. rewrite Rinv_r by lra. lra. }
  exists ((u + v) / 2), (v - u).
  assert (EL : low_edge PI ((u + v) / 2) (v - u) = u) by (unfold low_edge; rewrite Rmax_left; lra).
  assert (EH : high_edge PI ((u + v) / 2) (v - u) = v) by (unfold high_edge; rewrite Rmin_left; lra).
  split; [split; [auto|rewrite EL, EH; auto]|]. rewrite EL, EH. cbv zeta.
  assert (EX : ref_x PI u v * ref_x PI u v = 2).
  { unfold ref_x, warp. replace (PI * (u / PI)) with u by (field; lra). replace (PI * (v / PI)) with v by (field; lra). rewrite TU, TV.
    set (r := sqrt (17 / 40 + 51 / 50)). assert (RP : 0 < r) by (apply sqrt_lt_R0; lra). assert (RR : r * r = 289 / 200) by (unfold r; rewrite sqrt_sqrt; lra).
    replace ((17 / 40 + 51 / 50 - 17 / 40 * (51 / 50)) / (r * (51 / 50 - 17 / 40))) with (17 / 10 / r) by (field; lra).
    replace (17 / 10 / r * (17 / 10 / r)) with (289 / 100 / (r * r)) by (field; lra). rewrite RR. field. }
  assert (NZ : ref_x PI u v <> 0) by (intros Z; rewrite Z in EX; lra). split; [exact NZ|].
  set (x := ref_x PI u v) in *. assert (I : 1 / x * (1 / x) = 1 / 2) by (replace (1 / 2) with (1 / (x * x)) by (rewrite EX; reflexivity); field; exact NZ).
  unfold cheb. simpl. lra.
Qed.
Print Assumptions C86_butterworth_bandpass_partial.
Print Assumptions C86_butterworth_bandpass_shape.
Print Assumptions C86_butterworth_bandpass_gain_refuted.
Print Assumptions C86_bandpass_quarter_rate_refuted.
Print Assumptions C86_chebyshev1_bandpass_partial.
Print Assumptions C86_chebyshev2_bandpass_partial.
Print Assumptions C86_chebyshev2_bandpass_zero_refuted.
Print Assumptions C86_bandpass_odd_asserts_refuted.
Print Assumptions C86_bandpass_rejects.
Print Assumptions C87_butterworth_bandstop_partial.
Print Assumptions C87_butterworth_bandstop_edges_refuted.
Print Assumptions C87_chebyshev1_bandstop_partial.
Print Assumptions C87_chebyshev2_bandstop_partial.
Print Assumptions C87_bandstop_odd_asserts_refuted.
Print Assumptions C87_bandstop_rejects.
Print Assumptions C88_butterworth_bandshelf_partial.
Print Assumptions C88_chebyshev_bandshelf_partial.
Print Assumptions C88_chebyshev_bandshelf_clamped_actual.
Print Assumptions C88_bandshelf_rejects.
Print Assumptions C88_bandshelf_first_order_checked.
