(** Property theorems C83, C84, C85: Chebyshev designs. *)
From Coq Require Import Psatz Lia List.
From Verif Require Import RealBase RealBaseProofs Cplx CplxProofs BiquadModel BiquadSpec StabilityProofs.
From Verif Require Import DesignModel DesignSpec DesignProofs DesignProofs2 LayoutModel ButterProofs ButterProps.
From Verif Require Import ChebySpec ChebyProofs ChebyModel ChebyDesign ChebyDesign2 ChebyShelf ChebyBoost ChebyBoostN.
Local Open Scope R_scope.

(** ** Prewarped frequency ratios *)
Lemma warp_angle f fs : 0 <= f -> 2 * f < fs -> 0 <= PI * (f / fs) < PI / 2.
Proof.
  intros F1 F2. destruct F1 as [F1|<-]; [pose proof (norm_range f fs F1 F2); lra|]. pose proof PI_RGT_0.
  replace (PI * (0 / fs)) with 0 by (unfold Rdiv; ring). lra.
Qed.
Lemma warp_angle_ny f fs : 0 < f -> 2 * f <= fs -> 0 < PI * (f / fs) <= PI / 2.
Proof.
  intros F1 F2. destruct F2 as [F2|F2]; [pose proof (norm_range f fs F1 F2); lra|]. pose proof PI_RGT_0. rewrite <- F2.
  replace (PI * (f / (2 * f))) with (PI / 2) by (field; lra). lra.
Qed.
Lemma angle_lt f g fs : 0 < fs -> f < g -> PI * (f / fs) < PI * (g / fs).
Proof.
  intros Hfs H. pose proof PI_RGT_0. apply Rmult_lt_compat_l; auto. unfold Rdiv. apply Rmult_lt_compat_r; auto. apply Rinv_0_lt_compat; auto.
Qed.
Definition ratio_up (f fc fs : R) : R := tan (PI * (f / fs)) / tan (PI * (fc / fs)).
Definition ratio_down (f fc fs : R) : R := tan (PI * (fc / fs)) * (cos (PI * (f / fs)) / sin (PI * (f / fs))).
Lemma cut_tan fc fs : valid_freq fc fs -> 0 < tan (PI * (fc / fs)).
Proof. intros [A B]. apply (proj1 (tan_pos_range _ (norm_range fc fs A B))). Qed.
Lemma up_lt f g fc fs : valid_freq fc fs -> 0 <= f -> f < g -> 2 * g < fs -> ratio_up f fc fs < ratio_up g fc fs.
Proof.
  intros HV F1 F2 F3. pose proof (cut_tan fc fs HV). unfold ratio_up. apply Rmult_lt_compat_r; [apply Rinv_0_lt_compat; auto|].
  pose proof (warp_angle f fs F1 ltac:(lra)). pose proof (warp_angle g fs ltac:(lra) F3). pose proof (angle_lt f g fs ltac:(lra) F2).
  apply tan_increasing; lra.
Qed.
Lemma up_0 fc fs : ratio_up 0 fc fs = 0.
Proof. unfold ratio_up. replace (PI * (0 / fs)) with 0 by (unfold Rdiv; ring). rewrite tan_0. unfold Rdiv. ring. Qed.
Lemma up_1 fc fs : valid_freq fc fs -> ratio_up fc fc fs = 1.
Proof. intros HV. pose proof (cut_tan fc fs HV). unfold ratio_up. field. lra. Qed.
Lemma up_in f fc fs : valid_freq fc fs -> 0 <= f -> f <= fc -> 0 <= ratio_up f fc fs <= 1.
Proof.
  intros HV F1 F2. split.
  - destruct F1 as [F1|<-]; [|rewrite up_0; lra]. rewrite <- (up_0 fc fs). apply Rlt_le, up_lt; auto; destruct HV; lra.
  - destruct F2 as [F2| ->]; [|rewrite up_1 by auto; lra]. rewrite <- (up_1 fc fs HV). apply Rlt_le, up_lt; auto; destruct HV; lra.
Qed.
Lemma up_ge1 f fc fs : valid_freq fc fs -> fc <= f -> 2 * f < fs -> 1 <= ratio_up f fc fs.
Proof.
  intros HV F1 F2. destruct F1 as [F1|<-]; [|rewrite up_1 by auto; lra]. rewrite <- (up_1 fc fs HV). apply Rlt_le, up_lt; auto; destruct HV; lra.
Qed.
Lemma down_lt f g fc fs : valid_freq fc fs -> 0 < f -> f < g -> 2 * g <= fs -> ratio_down g fc fs < ratio_down f fc fs.
Proof.
  intros HV F1 F2 F3. pose proof (cut_tan fc fs HV). unfold ratio_down. apply Rmult_lt_compat_l; auto.
  pose proof (warp_angle_ny f fs F1 ltac:(lra)) as A. pose proof (warp_angle_ny g fs ltac:(lra) F3) as B. pose proof (angle_lt f g fs ltac:(lra) F2) as L.
  set (s := PI * (f / fs)) in *. set (t := PI * (g / fs)) in *. pose proof PI_RGT_0.
  assert (0 < sin s) by (apply sin_gt_0; lra). assert (0 < sin t) by (apply sin_gt_0; lra).
  assert (D : 0 < sin (t - s)) by (apply sin_gt_0; lra). rewrite sin_minus in D.
  apply (Rmult_lt_reg_r (sin t * sin s)); [apply Rmult_lt_0_compat; auto|].
  replace (cos t / sin t * (sin t * sin s)) with (cos t * sin s) by (field; lra).
  replace (cos s / sin s * (sin t * sin s)) with (sin t * cos s) by (field; lra). lra.
Qed.
Lemma down_1 fc fs : valid_freq fc fs -> ratio_down fc fc fs = 1.
Proof.
  intros [A B]. pose proof (norm_range fc fs A B) as R. pose proof PI_RGT_0. assert (0 < sin (PI * (fc / fs))) by (apply sin_gt_0; lra).
  assert (0 < cos (PI * (fc / fs))) by (apply cos_gt_0; lra). unfold ratio_down, tan. field. lra.
Qed.
Lemma down_ny fc fs : 0 < fs -> ratio_down (fs / 2) fc fs = 0.
Proof. intros. unfold ratio_down. replace (PI * (fs / 2 / fs)) with (PI / 2) by (field; lra). rewrite cos_PI2. unfold Rdiv. ring. Qed.
Lemma down_in f fc fs : valid_freq fc fs -> fc <= f -> 2 * f <= fs -> 0 <= ratio_down f fc fs <= 1.
Proof.
  intros HV F1 F2. pose proof HV as [V1 V2]. split.
  - destruct (Req_dec f (fs / 2)) as [->|N]; [rewrite down_ny; lra|]. rewrite <- (down_ny fc fs ltac:(lra)). apply Rlt_le, down_lt; auto; lra.
  - destruct F1 as [F1|<-]; [|rewrite down_1 by auto; lra]. rewrite <- (down_1 fc fs HV). apply Rlt_le, down_lt; auto.
Qed.
Lemma down_ge1 f fc fs : valid_freq fc fs -> 0 < f -> f <= fc -> 1 <= ratio_down f fc fs.
Proof.
  intros HV F1 F2. pose proof HV as [V1 V2]. destruct F2 as [F2| ->]; [|rewrite down_1 by auto; lra]. rewrite <- (down_1 fc fs HV). apply Rlt_le, down_lt; auto; lra.
Qed.
Lemma down_tan f fc fs : 0 < f -> 2 * f < fs -> ratio_down f fc fs = tan (PI * (fc / fs)) / tan (PI * (f / fs)).
Proof.
  intros A B. pose proof (norm_range f fs A B) as R. pose proof PI_RGT_0. assert (0 < sin (PI * (f / fs))) by (apply sin_gt_0; lra).
  assert (0 < cos (PI * (f / fs))) by (apply cos_gt_0; lra). unfold ratio_down. set (T := tan (PI * (fc / fs))). unfold tan. field. lra.
Qed.
Lemma sq_lt a b : 1 <= a -> a < b -> a * a < b * b.
Proof. intros. nra. Qed.
Lemma even_no_odd checks n : checks = false \/ Nat.Even n -> checks = false \/ Nat.odd n = false.
Proof. intros [H|[k H]]; [left; exact H|right]. rewrite H, Nat.odd_mul. reflexivity. Qed.
Lemma no_room cap n : (cap < n)%nat -> (length (pairs (lay_new cap)) <? n)%nat = true.
Proof. intros. apply Nat.ltb_lt; simpl; rewrite repeat_length; auto. Qed.
Lemma at_freq_dc fs : at_freq 0 fs = at_dc.
Proof. unfold at_freq, at_dc. replace (2 * PI * 0 / fs) with 0 by (unfold Rdiv; ring). apply Cexp_0. Qed.
Lemma at_freq_ny fs : 0 < fs -> at_freq (fs / 2) fs = at_nyquist.
Proof. intros. unfold at_freq, at_nyquist. replace (2 * PI * (fs / 2) / fs) with PI by (field; lra). apply Cexp_PI. Qed.

(** ** C83: type I *)
Lemma cheb1_mag_in n r x : 0 < r -> -1 <= x <= 1 -> / Rpower 10 (r / 10) <= cheb1_mag n r x <= 1.
Proof.
  intros Hr Hx. pose proof (cheb_in n x Hx) as T. pose proof (Rle_0_sqr (cheb n x)) as T0. unfold Rsqr in T0.
  pose proof (pow10_gt1 (r / 10) ltac:(lra)) as P. unfold cheb1_mag. set (K := Rpower 10 (r / 10)) in *. set (t := cheb n x * cheb n x) in *. clearbody K t.
  assert (D : 1 <= 1 + (K - 1) * t <= K) by (split; nra). unfold Rdiv. rewrite Rmult_1_l. split.
  - apply Rinv_le_contravar; lra.
  - apply Rle_trans with (/ 1); [apply Rinv_le_contravar; lra|rewrite Rinv_1; lra].
Qed.
Lemma cheb1_mag_edge n r : cheb1_mag n r 1 = / Rpower 10 (r / 10).
Proof. unfold cheb1_mag. rewrite cheb_at_1. unfold Rdiv. rewrite Rmult_1_l. f_equal. ring. Qed.
Lemma cheb1_mag_lt n r x y : (0 < n)%nat -> 0 < r -> 1 <= x -> x < y -> cheb1_mag n r y < cheb1_mag n r x.
Proof.
  intros Hn Hr Hx Hy. destruct (cheb_ge_1 n x x Hx ltac:(lra)) as [[A _] _]. pose proof (cheb_strict n x y Hn Hx Hy) as S.
  pose proof (sq_lt _ _ A S) as Q. pose proof (pow10_gt1 (r / 10) ltac:(lra)) as P. unfold cheb1_mag.
  set (K := Rpower 10 (r / 10)) in *. set (s := cheb n x * cheb n x) in *. set (t := cheb n y * cheb n y) in *.
  assert (0 <= s) by apply Rle_0_sqr. clearbody K s t. unfold Rdiv. rewrite !Rmult_1_l.
  assert (0 < 1 + (K - 1) * s) by nra. assert (0 < 1 + (K - 1) * t) by nra.
  apply Rinv_lt_contravar; [apply Rmult_lt_0_compat; auto|nra].
Qed.

(** The equiripple magnitude at every frequency, order, cutoff and ripple. *)
Theorem C83_chebyshev1_lowpass_partial : forall checks cap n fs fc ripple_db,
  (1 <= n <= cap)%nat -> valid_freq fc fs -> 0 < ripple_db -> checks = false \/ Nat.Even n ->
  exists c, cheby1_lowpass checks cap n fs fc ripple_db = Ok c /\ sections cap n c /\
    (forall f, 0 <= f -> 2 * f < fs -> exists h, cas_response c (at_freq f fs) h /\
      (Cmod h)² = 1 / (1 + (Rpower 10 (ripple_db / 10) - 1) * (cheb n (tan (PI * (f / fs)) / tan (PI * (fc / fs))))²)) /\
    cas_response c at_dc (RtoC (if Nat.odd n then 1 else Rpower 10 (- ripple_db / 20))) /\
    cas_response c at_nyquist C0.
Proof.
  intros checks cap n fs fc r Hn HV Hr HC. destruct (cheby1_low_lemma checks cap n fs fc r Hn HV Hr (even_no_odd _ _ HC)) as [c [E [B [F [D N]]]]].
  exists c. split; [exact E|split; [apply built_sections, B|split; [|split; [exact D|exact N]]]].
  intros f F1 F2. destruct (F f F1 F2) as [h [A M]]. exists h. split; [exact A|]. unfold Rsqr. rewrite Cmod_sqr. exact M.
Qed.

Theorem C83_chebyshev1_highpass_partial : forall checks cap n fs fc ripple_db,
  (1 <= n <= cap)%nat -> valid_freq fc fs -> 0 < ripple_db -> checks = false \/ Nat.Even n ->
  exists c, cheby1_highpass checks cap n fs fc ripple_db = Ok c /\ sections cap n c /\
    (forall f, 0 < f -> 2 * f < fs -> exists h, cas_response c (at_freq f fs) h /\
      (Cmod h)² = 1 / (1 + (Rpower 10 (ripple_db / 10) - 1) * (cheb n (tan (PI * (fc / fs)) / tan (PI * (f / fs))))²)) /\
    cas_response c at_nyquist (RtoC (if Nat.odd n then -1 else Rpower 10 (- ripple_db / 20))) /\
    cas_response c at_dc C0.
Proof.
  intros checks cap n fs fc r Hn HV Hr HC. destruct (cheby1_high_lemma checks cap n fs fc r Hn HV Hr (even_no_odd _ _ HC)) as [c [E [B [F [D N]]]]].
  exists c. split; [exact E|split; [apply built_sections, B|split; [|split; [exact D|exact N]]]].
  intros f F1 F2. destruct (F f F1 ltac:(lra)) as [h [A M]]. exists h. split; [exact A|]. rewrite <- down_tan by auto. unfold Rsqr. rewrite Cmod_sqr. exact M.
Qed.

(** Passband within the ripple, exactly the ripple at the cutoff, strictly falling beyond it. *)
Theorem C83_chebyshev1_lowpass_ripple : forall cap n fs fc ripple_db,
  (1 <= n <= cap)%nat -> valid_freq fc fs -> 0 < ripple_db ->
  exists c, cheby1_lowpass false cap n fs fc ripple_db = Ok c /\
    (forall f, 0 <= f <= fc -> exists h, cas_response c (at_freq f fs) h /\ Rpower 10 (- ripple_db / 10) <= (Cmod h)² <= 1) /\
    (exists h, cas_response c (at_freq fc fs) h /\ (Cmod h)² = Rpower 10 (- ripple_db / 10)) /\
    (forall f g, fc <= f -> f < g -> 2 * g < fs -> exists h k,
       cas_response c (at_freq f fs) h /\ cas_response c (at_freq g fs) k /\ (Cmod k)² < (Cmod h)²).
Proof.
  intros cap n fs fc r Hn HV Hr. destruct (cheby1_low_lemma false cap n fs fc r Hn HV Hr (or_introl eq_refl)) as [c [E [B [F [D N]]]]].
  pose proof HV as [V1 V2].
  assert (PE : Rpower 10 (- r / 10) = / Rpower 10 (r / 10)) by (rewrite <- Rpower_Ropp; f_equal; field).
  exists c. split; [exact E|]. split; [|split].
  - intros f [F1 F2]. destruct (F f F1 ltac:(lra)) as [h [A M]]. exists h. split; [exact A|]. unfold Rsqr. rewrite Cmod_sqr, M, PE.
    apply cheb1_mag_in; auto. pose proof (up_in f fc fs HV F1 F2) as U. unfold ratio_up in U. lra.
  - destruct (F fc ltac:(lra) ltac:(lra)) as [h [A M]]. exists h. split; [exact A|]. unfold Rsqr. rewrite Cmod_sqr, M, PE.
    fold (ratio_up fc fc fs). rewrite up_1 by auto. apply cheb1_mag_edge.
  - intros f g F1 F2 F3. destruct (F f ltac:(lra) ltac:(lra)) as [h [A M]]. destruct (F g ltac:(lra) ltac:(lra)) as [k [A' M']].
    exists h, k. split; [exact A|split; [exact A'|]]. unfold Rsqr. rewrite !Cmod_sqr, M, M'.
    apply cheb1_mag_lt; [lia|auto|apply up_ge1; auto; lra|apply up_lt; auto; lra].
Qed.

Theorem C83_chebyshev1_highpass_ripple : forall cap n fs fc ripple_db,
  (1 <= n <= cap)%nat -> valid_freq fc fs -> 0 < ripple_db ->
  exists c, cheby1_highpass false cap n fs fc ripple_db = Ok c /\
    (forall f, fc <= f -> 2 * f <= fs -> exists h, cas_response c (at_freq f fs) h /\ Rpower 10 (- ripple_db / 10) <= (Cmod h)² <= 1) /\
    (exists h, cas_response c (at_freq fc fs) h /\ (Cmod h)² = Rpower 10 (- ripple_db / 10)) /\
    (forall f g, 0 < f -> f < g -> g <= fc -> exists h k,
       cas_response c (at_freq f fs) h /\ cas_response c (at_freq g fs) k /\ (Cmod h)² < (Cmod k)²).
Proof.
  intros cap n fs fc r Hn HV Hr. destruct (cheby1_high_lemma false cap n fs fc r Hn HV Hr (or_introl eq_refl)) as [c [E [B [F [D N]]]]].
  pose proof HV as [V1 V2].
  assert (PE : Rpower 10 (- r / 10) = / Rpower 10 (r / 10)) by (rewrite <- Rpower_Ropp; f_equal; field).
  exists c. split; [exact E|]. split; [|split].
  - intros f F1 F2. destruct (F f ltac:(lra) F2) as [h [A M]]. exists h. split; [exact A|]. unfold Rsqr. rewrite Cmod_sqr, M, PE.
    apply cheb1_mag_in; auto. pose proof (down_in f fc fs HV F1 F2) as U. unfold ratio_down in U. lra.
  - destruct (F fc ltac:(lra) ltac:(lra)) as [h [A M]]. exists h. split; [exact A|]. unfold Rsqr. rewrite Cmod_sqr, M, PE.
    fold (ratio_down fc fc fs). rewrite down_1 by auto. apply cheb1_mag_edge.
  - intros f g F1 F2 F3. destruct (F f ltac:(lra) ltac:(lra)) as [h [A M]]. destruct (F g ltac:(lra) ltac:(lra)) as [k [A' M']].
    exists h, k. split; [exact A|split; [exact A'|]]. unfold Rsqr. rewrite !Cmod_sqr, M, M'.
    apply cheb1_mag_lt; [lia|auto|apply down_ge1; auto; lra|apply down_lt; auto; lra].
Qed.

(** With assertions compiled in, every odd order fails one. *)
Theorem C83_chebyshev1_odd_asserts_refuted : forall cap n fs fc ripple_db,
  (1 <= n <= cap)%nat -> Nat.Odd n -> valid_freq fc fs -> 0 < ripple_db ->
  cheby1_lowpass true cap n fs fc ripple_db = UB /\ cheby1_highpass true cap n fs fc ripple_db = UB.
Proof.
  intros cap n fs fc r Hn HO [V1 V2] Hr. apply Nat.odd_spec in HO. unfold cheby1_lowpass, cheby1_highpass. rewrite rdiv_ok by lra. cbn [bind].
  rewrite cheby1_analog_ub by (auto; lia). split; reflexivity.
Qed.

(** A ripple of 0 dB or less yields no finite coefficients; an order above the capacity fails an assertion. *)
Theorem C83_chebyshev1_rejects : forall checks cap n fs fc ripple_db, valid_freq fc fs ->
  ((1 <= n <= cap)%nat -> ripple_db <= 0 ->
     cheby1_lowpass checks cap n fs fc ripple_db = NonFinite /\ cheby1_highpass checks cap n fs fc ripple_db = NonFinite) /\
  ((cap < n)%nat -> cheby1_lowpass checks cap n fs fc ripple_db = UB /\ cheby1_highpass checks cap n fs fc ripple_db = UB).
Proof.
  intros checks cap n fs fc r [V1 V2]. unfold cheby1_lowpass, cheby1_highpass. rewrite rdiv_ok by lra. cbn [bind]. split.
  - intros Hn Hr. rewrite cheby1_analog_bad by (auto; lia). split; reflexivity.
  - intros Hn. unfold cheby1_analog. rewrite no_room by auto. split; reflexivity.
Qed.

(** ** C84: type II *)
Lemma cheb2_mag_in n r x : 0 < r -> -1 <= x <= 1 -> 0 <= cheb2_mag n r x <= / Rpower 10 (r / 10).
Proof.
  intros Hr Hx. pose proof (cheb_in n x Hx) as T. pose proof (Rle_0_sqr (cheb n x)) as T0. unfold Rsqr in T0.
  pose proof (pow10_gt1 (r / 10) ltac:(lra)) as P. unfold cheb2_mag. set (K := Rpower 10 (r / 10)) in *. set (t := cheb n x * cheb n x) in *. clearbody K t.
  assert (D : 0 < t + (K - 1)) by lra. assert (I : 0 < / (t + (K - 1))) by (apply Rinv_0_lt_compat; auto). split.
  - apply Rmult_le_pos; lra.
  - apply (Rmult_le_reg_r ((t + (K - 1)) * K)); [apply Rmult_lt_0_compat; lra|].
    replace (t / (t + (K - 1)) * ((t + (K - 1)) * K)) with (t * K) by (field; lra).
    replace (/ K * ((t + (K - 1)) * K)) with (t + (K - 1)) by (field; lra). nra.
Qed.
Lemma cheb2_mag_edge n r : cheb2_mag n r 1 = / Rpower 10 (r / 10).
Proof. unfold cheb2_mag. rewrite cheb_at_1. unfold Rdiv. rewrite !Rmult_1_l. f_equal. ring. Qed.
Lemma cheb2_mag_lt n r x y : (0 < n)%nat -> 0 < r -> 1 <= x -> x < y -> cheb2_mag n r x < cheb2_mag n r y.
Proof.
  intros Hn Hr Hx Hy. destruct (cheb_ge_1 n x x Hx ltac:(lra)) as [[A _] _]. pose proof (cheb_strict n x y Hn Hx Hy) as S.
  pose proof (sq_lt _ _ A S) as Q. pose proof (pow10_gt1 (r / 10) ltac:(lra)) as P. unfold cheb2_mag.
  set (K := Rpower 10 (r / 10)) in *. set (s := cheb n x * cheb n x) in *. set (t := cheb n y * cheb n y) in *.
  assert (0 <= s) by apply Rle_0_sqr. clearbody K s t.
  apply (Rmult_lt_reg_r ((s + (K - 1)) * (t + (K - 1)))); [apply Rmult_lt_0_compat; lra|].
  replace (s / (s + (K - 1)) * ((s + (K - 1)) * (t + (K - 1)))) with (s * (t + (K - 1))) by (field; lra).
  replace (t / (t + (K - 1)) * ((s + (K - 1)) * (t + (K - 1)))) with (t * (s + (K - 1))) by (field; lra). nra.
Qed.

Theorem C84_chebyshev2_lowpass_partial : forall checks cap n fs fc stopband_db,
  (1 <= n <= cap)%nat -> valid_freq fc fs -> 0 < stopband_db -> checks = false \/ Nat.Even n ->
  exists c, cheby2_lowpass checks cap n fs fc stopband_db = Ok c /\ sections cap n c /\
    (forall f, 0 < f -> 2 * f < fs -> exists h, cas_response c (at_freq f fs) h /\
      (Cmod h)² = (cheb n (tan (PI * (fc / fs)) / tan (PI * (f / fs))))² /
                  ((cheb n (tan (PI * (fc / fs)) / tan (PI * (f / fs))))² + (Rpower 10 (stopband_db / 10) - 1))) /\
    cas_response c at_dc C1 /\
    (exists h, cas_response c at_nyquist h /\ (Cmod h)² = if Nat.odd n then 0 else Rpower 10 (- stopband_db / 10)).
Proof.
  intros checks cap n fs fc r Hn HV Hr HC. destruct (cheby2_low_lemma checks cap n fs fc r Hn HV Hr (even_no_odd _ _ HC)) as [c [E [B [F D]]]].
  pose proof HV as [V1 V2].
  exists c. split; [exact E|split; [apply built_sections, B|split; [|split; [exact D|]]]].
  - intros f F1 F2. destruct (F f F1 ltac:(lra)) as [h [A M]]. exists h. split; [exact A|]. rewrite <- down_tan by auto. unfold Rsqr. rewrite Cmod_sqr. exact M.
  - destruct (F (fs / 2) ltac:(lra) ltac:(lra)) as [h [A M]]. rewrite at_freq_ny in A by lra. exists h. split; [exact A|]. unfold Rsqr. rewrite Cmod_sqr, M.
    fold (ratio_down (fs / 2) fc fs). rewrite down_ny by lra. unfold cheb2_mag. rewrite cheb_at_0. pose proof (pow10_gt1 (r / 10) ltac:(lra)).
    destruct (Nat.odd n); [field; lra|]. replace (- r / 10) with (- (r / 10)) by field. rewrite Rpower_Ropp. field. lra.
Qed.

Theorem C84_chebyshev2_highpass_partial : forall checks cap n fs fc stopband_db,
  (1 <= n <= cap)%nat -> valid_freq fc fs -> 0 < stopband_db -> checks = false \/ Nat.Even n ->
  exists c, cheby2_highpass checks cap n fs fc stopband_db = Ok c /\ sections cap n c /\
    (forall f, 0 <= f -> 2 * f < fs -> exists h, cas_response c (at_freq f fs) h /\
      (Cmod h)² = (cheb n (tan (PI * (f / fs)) / tan (PI * (fc / fs))))² /
                  ((cheb n (tan (PI * (f / fs)) / tan (PI * (fc / fs))))² + (Rpower 10 (stopband_db / 10) - 1))) /\
    cas_response c at_nyquist (RtoC (if Nat.odd n then -1 else 1)) /\
    (exists h, cas_response c at_dc h /\ (Cmod h)² = if Nat.odd n then 0 else Rpower 10 (- stopband_db / 10)).
Proof.
  intros checks cap n fs fc r Hn HV Hr HC. destruct (cheby2_high_lemma checks cap n fs fc r Hn HV Hr (even_no_odd _ _ HC)) as [c [E [B [F D]]]].
  pose proof HV as [V1 V2].
  exists c. split; [exact E|split; [apply built_sections, B|split; [|split; [exact D|]]]].
  - intros f F1 F2. destruct (F f F1 F2) as [h [A M]]. exists h. split; [exact A|]. unfold Rsqr. rewrite Cmod_sqr. exact M.
  - destruct (F 0 ltac:(lra) ltac:(lra)) as [h [A M]]. rewrite at_freq_dc in A. exists h. split; [exact A|]. unfold Rsqr. rewrite Cmod_sqr, M.
    fold (ratio_up 0 fc fs). rewrite up_0. unfold cheb2_mag. rewrite cheb_at_0. pose proof (pow10_gt1 (r / 10) ltac:(lra)).
    destruct (Nat.odd n); [field; lra|]. replace (- r / 10) with (- (r / 10)) by field. rewrite Rpower_Ropp. field. lra.
Qed.

(** The stopband never rises above its attenuation, reaches it at the cutoff; the passband is strictly monotone. *)
Theorem C84_chebyshev2_lowpass_stopband : forall cap n fs fc stopband_db,
  (1 <= n <= cap)%nat -> valid_freq fc fs -> 0 < stopband_db ->
  exists c, cheby2_lowpass false cap n fs fc stopband_db = Ok c /\
    (forall f, fc <= f -> 2 * f <= fs -> exists h, cas_response c (at_freq f fs) h /\ (Cmod h)² <= Rpower 10 (- stopband_db / 10)) /\
    (exists h, cas_response c (at_freq fc fs) h /\ (Cmod h)² = Rpower 10 (- stopband_db / 10)) /\
    (forall f g, 0 < f -> f < g -> g <= fc -> exists h k,
       cas_response c (at_freq f fs) h /\ cas_response c (at_freq g fs) k /\ (Cmod k)² < (Cmod h)² < 1).
Proof.
  intros cap n fs fc r Hn HV Hr. destruct (cheby2_low_lemma false cap n fs fc r Hn HV Hr (or_introl eq_refl)) as [c [E [B [F D]]]].
  pose proof HV as [V1 V2].
  assert (PE : Rpower 10 (- r / 10) = / Rpower 10 (r / 10)) by (rewrite <- Rpower_Ropp; f_equal; field).
  exists c. split; [exact E|]. split; [|split].
  - intros f F1 F2. destruct (F f ltac:(lra) F2) as [h [A M]]. exists h. split; [exact A|]. unfold Rsqr. rewrite Cmod_sqr, M, PE.
    apply cheb2_mag_in; auto. pose proof (down_in f fc fs HV F1 F2) as U. unfold ratio_down in U. lra.
  - destruct (F fc ltac:(lra) ltac:(lra)) as [h [A M]]. exists h. split; [exact A|]. unfold Rsqr. rewrite Cmod_sqr, M, PE.
    fold (ratio_down fc fc fs). rewrite down_1 by auto. apply cheb2_mag_edge.
  - intros f g F1 F2 F3. destruct (F f ltac:(lra) ltac:(lra)) as [h [A M]]. destruct (F g ltac:(lra) ltac:(lra)) as [k [A' M']].
    exists h, k. split; [exact A|split; [exact A'|]]. unfold Rsqr. rewrite !Cmod_sqr, M, M'. split.
    + apply cheb2_mag_lt; [lia|auto|apply down_ge1; auto; lra|apply down_lt; auto; lra].
    + unfold cheb2_mag. pose proof (pow10_gt1 (r / 10) ltac:(lra)). set (t := cheb n _). assert (0 <= t * t) by apply Rle_0_sqr.
      apply (Rmult_lt_reg_r (t * t + (Rpower 10 (r / 10) - 1))); [lra|]. unfold Rdiv. rewrite Rmult_assoc, Rinv_l by lra. lra.
Qed.

Theorem C84_chebyshev2_highpass_stopband : forall cap n fs fc stopband_db,
  (1 <= n <= cap)%nat -> valid_freq fc fs -> 0 < stopband_db ->
  exists c, cheby2_highpass false cap n fs fc stopband_db = Ok c /\
    (forall f, 0 <= f <= fc -> exists h, cas_response c (at_freq f fs) h /\ (Cmod h)² <= Rpower 10 (- stopband_db / 10)) /\
    (exists h, cas_response c (at_freq fc fs) h /\ (Cmod h)² = Rpower 10 (- stopband_db / 10)) /\
    (forall f g, fc <= f -> f < g -> 2 * g < fs -> exists h k,
       cas_response c (at_freq f fs) h /\ cas_response c (at_freq g fs) k /\ (Cmod h)² < (Cmod k)² < 1).
Proof.
  intros cap n fs fc r Hn HV Hr. destruct (cheby2_high_lemma false cap n fs fc r Hn HV Hr (or_introl eq_refl)) as [c [E [B [F D]]]].
  pose proof HV as [V1 V2].
  assert (PE : Rpower 10 (- r / 10) = / Rpower 10 (r / 10)) by (rewrite <- Rpower_Ropp; f_equal; field).
  exists c. split; [exact E|]. split; [|split].
  - intros f [F1 F2]. destruct (F f ltac:(lra) ltac:(lra)) as [h [A M]]. exists h. split; [exact A|]. unfold Rsqr. rewrite Cmod_sqr, M, PE.
    apply cheb2_mag_in; auto. pose proof (up_in f fc fs HV F1 F2) as U. unfold ratio_up in U. lra.
  - destruct (F fc ltac:(lra) ltac:(lra)) as [h [A M]]. exists h. split; [exact A|]. unfold Rsqr. rewrite Cmod_sqr, M, PE.
    fold (ratio_up fc fc fs). rewrite up_1 by auto. apply cheb2_mag_edge.
  - intros f g F1 F2 F3. destruct (F f ltac:(lra) ltac:(lra)) as [h [A M]]. destruct (F g ltac:(lra) ltac:(lra)) as [k [A' M']].
    exists h, k. split; [exact A|split; [exact A'|]]. unfold Rsqr. rewrite !Cmod_sqr, M, M'. split.
    + apply cheb2_mag_lt; [lia|auto|apply up_ge1; auto; lra|apply up_lt; auto; lra].
    + unfold cheb2_mag. pose proof (pow10_gt1 (r / 10) ltac:(lra)). set (t := cheb n _). assert (0 <= t * t) by apply Rle_0_sqr.
      apply (Rmult_lt_reg_r (t * t + (Rpower 10 (r / 10) - 1))); [lra|]. unfold Rdiv. rewrite Rmult_assoc, Rinv_l by lra. lra.
Qed.

Theorem C84_chebyshev2_odd_asserts_refuted : forall cap n fs fc stopband_db,
  (1 <= n <= cap)%nat -> Nat.Odd n -> valid_freq fc fs -> 0 < stopband_db ->
  cheby2_lowpass true cap n fs fc stopband_db = UB /\ cheby2_highpass true cap n fs fc stopband_db = UB.
Proof.
  intros cap n fs fc r Hn HO [V1 V2] Hr. apply Nat.odd_spec in HO. unfold cheby2_lowpass, cheby2_highpass. rewrite rdiv_ok by lra. cbn [bind].
  rewrite cheby2_analog_ub by (auto; lia). split; reflexivity.
Qed.

Theorem C84_chebyshev2_rejects : forall checks cap n fs fc stopband_db, valid_freq fc fs ->
  ((1 <= n <= cap)%nat -> stopband_db <= 0 ->
     cheby2_lowpass checks cap n fs fc stopband_db = NonFinite /\ cheby2_highpass checks cap n fs fc stopband_db = NonFinite) /\
  ((cap < n)%nat -> cheby2_lowpass checks cap n fs fc stopband_db = UB /\ cheby2_highpass checks cap n fs fc stopband_db = UB).
Proof.
  intros checks cap n fs fc r [V1 V2]. unfold cheby2_lowpass, cheby2_highpass. rewrite rdiv_ok by lra. cbn [bind]. split.
  - intros Hn Hr. rewrite cheby2_analog_bad by (auto; lia). split; reflexivity.
  - intros Hn. unfold cheby2_analog. rewrite no_room by auto. split; reflexivity.
Qed.

(** ** C85: shelves *)
(** The squared gain at the shelf's edge: the gain, brought [ripple_db] closer to 0 dB. *)
Definition edge_gain2 (gain_db ripple_db : R) : R := Rpower 10 ((if Rlt_dec 0 gain_db then gain_db - ripple_db else gain_db + ripple_db) / 10).
Lemma edge_gain2_inv g r : edge_gain2 g r = / edge2 g r.
Proof. unfold edge_gain2, edge2, sgn_ripple. rewrite <- Rpower_Ropp. f_equal. destruct (Rlt_dec 0 g); field. Qed.
Lemma full2_inv g : Rpower 10 (g / 10) = / full2 g.
Proof. unfold full2. rewrite <- Rpower_Ropp. f_equal. field. Qed.

Definition between (a b x : R) : Prop := a <= x <= b \/ b <= x <= a.
Lemma full2_pos g : 0 < full2 g. Proof. apply exp_pos. Qed.
Lemma edge2_pos g r : 0 < edge2 g r. Proof. apply exp_pos. Qed.
(** the magnitude as a function of the squared polynomial *)
Definition msf (F e t : R) : R := (1 + e * t) / (F + e * t).
Lemma msf_diff F e s t : 0 < F -> 0 < e -> 0 <= s -> 0 <= t -> msf F e t - msf F e s = e * (t - s) * (F - 1) / ((F + e * t) * (F + e * s)).
Proof.
  intros HF He Hs Ht. unfold msf. assert (0 <= e * t) by (apply Rmult_le_pos; lra). assert (0 <= e * s) by (apply Rmult_le_pos; lra). field. lra.
Qed.
Lemma msf_denom F e s t : 0 < F -> 0 < e -> 0 <= s -> 0 <= t -> 0 < (F + e * t) * (F + e * s).
Proof.
  intros HF He Hs Ht. assert (0 <= e * t) by (apply Rmult_le_pos; lra). assert (0 <= e * s) by (apply Rmult_le_pos; lra). apply Rmult_lt_0_compat; lra.
Qed.
Lemma msf_lt F e s t : 1 < F -> 0 < e -> 0 <= s -> s < t -> msf F e s < msf F e t.
Proof.
  intros HF He Hs Ht. pose proof (msf_diff F e s t ltac:(lra) He Hs ltac:(lra)) as D. pose proof (msf_denom F e s t ltac:(lra) He Hs ltac:(lra)) as P.
  assert (0 < e * (t - s) * (F - 1) / ((F + e * t) * (F + e * s))) by (apply div_pos; [repeat apply Rmult_lt_0_compat; lra|auto]). lra.
Qed.
Lemma msf_gt F e s t : 0 < F < 1 -> 0 < e -> 0 <= s -> s < t -> msf F e t < msf F e s.
Proof.
  intros HF He Hs Ht. pose proof (msf_diff F e t s ltac:(lra) He ltac:(lra) Hs) as D. pose proof (msf_denom F e t s ltac:(lra) He ltac:(lra) Hs) as P.
  replace (e * (s - t) * (F - 1)) with (e * (t - s) * (1 - F)) in D by ring.
  assert (0 < e * (t - s) * (1 - F) / ((F + e * s) * (F + e * t))) by (apply div_pos; [repeat apply Rmult_lt_0_compat; lra|auto]). lra.
Qed.
Lemma shelf_at_edge n g r x : 0 < r < Rabs g -> cheb n x * cheb n x = 1 -> cheb_shelf_mag n g r x = edge_gain2 g r.
Proof.
  intros Hr Hx. rewrite edge_gain2_inv. unfold cheb_shelf_mag. rewrite Hx. pose proof (shelf_order g r Hr) as O. unfold shelf_eps2.
  pose proof (full2_pos g). pose proof (edge2_pos g r). set (F := full2 g) in *. set (B := edge2 g r) in *. clearbody F B.
  replace (F + (F - B) / (B - 1) * 1) with (B * (F - 1) / (B - 1)) by (field; lra).
  replace (1 + (F - B) / (B - 1) * 1) with ((F - 1) / (B - 1)) by (field; lra). field. repeat split; lra.
Qed.
Lemma shelf_at_zero n g r x : cheb n x = 0 -> cheb_shelf_mag n g r x = Rpower 10 (g / 10).
Proof. intros Hx. rewrite full2_inv. unfold cheb_shelf_mag. rewrite Hx. pose proof (full2_pos g). field. lra. Qed.
Lemma shelf_sign g r : 0 < r < Rabs g -> (0 < g /\ 0 < full2 g < 1) \/ (g < 0 /\ 1 < full2 g).
Proof.
  intros Hr. pose proof (Rpower_O 10 ltac:(lra)) as P0. pose proof (full2_pos g). unfold full2 in *. unfold Rabs in Hr. destruct (Rcase_abs g).
  - right. split; auto. rewrite <- P0. apply pow10_mono. lra.
  - left. split; [lra|]. split; auto. rewrite <- P0. apply pow10_mono. lra.
Qed.
Lemma shelf_band n g r x : 0 < r < Rabs g -> -1 <= x <= 1 -> between (edge_gain2 g r) (Rpower 10 (g / 10)) (cheb_shelf_mag n g r x).
Proof.
  intros Hr Hx. pose proof (cheb_in n x Hx) as T. assert (T0 : 0 <= cheb n x * cheb n x) by apply Rle_0_sqr.
  pose proof (shelf_eps2_pos g r Hr) as EP.
  rewrite <- (shelf_at_edge n g r 1 Hr) by (rewrite cheb_at_1; ring). 
  replace (Rpower 10 (g / 10)) with (msf (full2 g) (shelf_eps2 g r) 0) by (rewrite full2_inv; unfold msf; pose proof (full2_pos g); field; lra).
  unfold cheb_shelf_mag. rewrite cheb_at_1, Rmult_1_r. fold (msf (full2 g) (shelf_eps2 g r) 1) (msf (full2 g) (shelf_eps2 g r) (cheb n x * cheb n x)).
  set (t := cheb n x * cheb n x) in *. clearbody t. unfold between.
  destruct (shelf_sign g r Hr) as [[_ S]|[_ S]]; [left|right].
  - split; [destruct T as [T| ->]; [apply Rlt_le, msf_gt; auto|lra]|destruct T0 as [T0|<-]; [apply Rlt_le, msf_gt; auto; lra|lra]].
  - split; [destruct T0 as [T0|<-]; [apply Rlt_le, msf_lt; auto; lra|lra]|destruct T as [T| ->]; [apply Rlt_le, msf_lt; auto|lra]].
Qed.
Lemma shelf_away n g r x y : (0 < n)%nat -> 0 < r < Rabs g -> 1 <= x -> x < y ->
  (0 < g -> 1 < cheb_shelf_mag n g r y < cheb_shelf_mag n g r x) /\ (g < 0 -> cheb_shelf_mag n g r x < cheb_shelf_mag n g r y < 1).
Proof.
  intros Hn Hr Hx Hy. destruct (cheb_ge_1 n x x Hx ltac:(lra)) as [[A _] _]. pose proof (cheb_strict n x y Hn Hx Hy) as S.
  pose proof (sq_lt _ _ A S) as Q. assert (S0 : 0 <= cheb n x * cheb n x) by apply Rle_0_sqr. pose proof (shelf_eps2_pos g r Hr) as EP.
  unfold cheb_shelf_mag. fold (msf (full2 g) (shelf_eps2 g r) (cheb n x * cheb n x)) (msf (full2 g) (shelf_eps2 g r) (cheb n y * cheb n y)).
  set (t := cheb n y * cheb n y) in *. set (s := cheb n x * cheb n x) in *. clearbody s t. set (e := shelf_eps2 g r) in *. clearbody e.
  assert (ET : 0 < e * t) by (apply Rmult_lt_0_compat; lra).
  destruct (shelf_sign g r Hr) as [[G F]|[G F]]; (split; intros G'; [|]); try lra; (split; [|]).
  - unfold msf. apply (Rmult_lt_reg_r (full2 g + e * t)); [lra|]. unfold Rdiv. rewrite Rmult_assoc, Rinv_l by lra. lra.
  - apply msf_gt; auto.
  - apply msf_lt; auto.
  - unfold msf. apply (Rmult_lt_reg_r (full2 g + e * t)); [lra|]. unfold Rdiv. rewrite Rmult_assoc, Rinv_l by lra. lra.
Qed.

(** Low shelf: the gain is reached to within the ripple below the cutoff, the edge value at it, the other end left alone;
    between the cutoff and Nyquist the gain moves strictly towards 0 dB.  Both Chebyshev types give this same filter. *)
Theorem C85_chebyshev_lowshelf_partial : forall checks cap n fs fc gain_db ripple_db,
  (1 <= n <= cap)%nat -> valid_freq fc fs -> 0 < ripple_db < Rabs gain_db ->
  exists c, cheby_lowshelf checks cap n fs fc gain_db ripple_db = Ok c /\ sections cap n c /\
    (exists h, cas_response c at_dc h /\ (Cmod h)² = if Nat.odd n then Rpower 10 (gain_db / 10) else edge_gain2 gain_db ripple_db) /\
    (forall f, 0 <= f <= fc -> exists h, cas_response c (at_freq f fs) h /\
       between (edge_gain2 gain_db ripple_db) (Rpower 10 (gain_db / 10)) (Cmod h)²) /\
    (exists h, cas_response c (at_freq fc fs) h /\ (Cmod h)² = edge_gain2 gain_db ripple_db) /\
    (forall f g, fc <= f -> f < g -> 2 * g < fs -> exists h k,
       cas_response c (at_freq f fs) h /\ cas_response c (at_freq g fs) k /\
       (0 < gain_db -> 1 < (Cmod k)² < (Cmod h)²) /\ (gain_db < 0 -> (Cmod h)² < (Cmod k)² < 1)) /\
    cas_response c at_nyquist (RtoC (if Nat.odd n then -1 else 1)).
Proof.
  intros checks cap n fs fc gn r Hn HV Hr. destruct (cheby_lowshelf_lemma checks cap n fs fc gn r Hn HV Hr) as [c [E [B [F N]]]].
  pose proof HV as [V1 V2]. exists c. split; [exact E|split; [apply built_sections, B|split; [|split; [|split; [|split; [|exact N]]]]]].
  - destruct (F 0 ltac:(lra) ltac:(lra)) as [h [A M]]. rewrite at_freq_dc in A. exists h. split; [exact A|]. unfold Rsqr. rewrite Cmod_sqr, M.
    fold (ratio_up 0 fc fs). rewrite up_0. pose proof (cheb_at_0 n) as Z. destruct (Nat.odd n).
    + apply shelf_at_zero. destruct (Rmult_integral _ _ Z); auto.
    + apply shelf_at_edge; auto.
  - intros f [F1 F2]. destruct (F f F1 ltac:(lra)) as [h [A M]]. exists h. split; [exact A|]. unfold Rsqr. rewrite Cmod_sqr, M.
    apply shelf_band; auto. pose proof (up_in f fc fs HV F1 F2) as U. unfold ratio_up in U. lra.
  - destruct (F fc ltac:(lra) ltac:(lra)) as [h [A M]]. exists h. split; [exact A|]. unfold Rsqr. rewrite Cmod_sqr, M.
    fold (ratio_up fc fc fs). rewrite up_1 by auto. apply shelf_at_edge; auto. rewrite cheb_at_1. ring.
  - intros f g F1 F2 F3. destruct (F f ltac:(lra) ltac:(lra)) as [h [A M]]. destruct (F g ltac:(lra) ltac:(lra)) as [k [A' M']].
    exists h, k. split; [exact A|split; [exact A'|]]. unfold Rsqr. rewrite !Cmod_sqr, M, M'.
    apply shelf_away; [lia|auto|apply up_ge1; auto; lra|apply up_lt; auto; lra].
Qed.

Theorem C85_chebyshev_highshelf_partial : forall checks cap n fs fc gain_db ripple_db,
  (1 <= n <= cap)%nat -> valid_freq fc fs -> 0 < ripple_db < Rabs gain_db ->
  exists c, cheby_highshelf checks cap n fs fc gain_db ripple_db = Ok c /\ sections cap n c /\
    (exists h, cas_response c at_nyquist h /\ (Cmod h)² = if Nat.odd n then Rpower 10 (gain_db / 10) else edge_gain2 gain_db ripple_db) /\
    (forall f, fc <= f -> 2 * f <= fs -> exists h, cas_response c (at_freq f fs) h /\
       between (edge_gain2 gain_db ripple_db) (Rpower 10 (gain_db / 10)) (Cmod h)²) /\
    (exists h, cas_response c (at_freq fc fs) h /\ (Cmod h)² = edge_gain2 gain_db ripple_db) /\
    (forall f g, 0 < f -> f < g -> g <= fc -> exists h k,
       cas_response c (at_freq f fs) h /\ cas_response c (at_freq g fs) k /\
       (0 < gain_db -> 1 < (Cmod h)² < (Cmod k)²) /\ (gain_db < 0 -> (Cmod k)² < (Cmod h)² < 1)) /\
    cas_response c at_dc C1.
Proof.
  intros checks cap n fs fc gn r Hn HV Hr. destruct (cheby_highshelf_lemma checks cap n fs fc gn r Hn HV Hr) as [c [E [B [F N]]]].
  pose proof HV as [V1 V2]. exists c. split; [exact E|split; [apply built_sections, B|split; [|split; [|split; [|split; [|exact N]]]]]].
  - destruct (F (fs / 2) ltac:(lra) ltac:(lra)) as [h [A M]]. rewrite at_freq_ny in A by lra. exists h. split; [exact A|]. unfold Rsqr. rewrite Cmod_sqr, M.
    fold (ratio_down (fs / 2) fc fs). rewrite down_ny by lra. pose proof (cheb_at_0 n) as Z. destruct (Nat.odd n).
    + apply shelf_at_zero. destruct (Rmult_integral _ _ Z); auto.
    + apply shelf_at_edge; auto.
  - intros f F1 F2. destruct (F f ltac:(lra) ltac:(lra)) as [h [A M]]. exists h. split; [exact A|]. unfold Rsqr. rewrite Cmod_sqr, M.
    apply shelf_band; auto. pose proof (down_in f fc fs HV F1 F2) as U. unfold ratio_down in U. lra.
  - destruct (F fc ltac:(lra) ltac:(lra)) as [h [A M]]. exists h. split; [exact A|]. unfold Rsqr. rewrite Cmod_sqr, M.
    fold (ratio_down fc fc fs). rewrite down_1 by auto. apply shelf_at_edge; auto. rewrite cheb_at_1. ring.
  - intros f g F1 F2 F3. destruct (F f ltac:(lra) ltac:(lra)) as [h [A M]]. destruct (F g ltac:(lra) ltac:(lra)) as [k [A' M']].
    exists h, k. split; [exact A|split; [exact A'|]]. unfold Rsqr. rewrite !Cmod_sqr, M, M'.
    apply shelf_away; [lia|auto|apply down_ge1; auto; lra|apply down_lt; auto; lra].
Qed.

(** The magnitude law itself, in terms of the Chebyshev polynomial. *)
Theorem C85_chebyshev_lowshelf_magnitude : forall checks cap n fs fc gain_db ripple_db,
  (1 <= n <= cap)%nat -> valid_freq fc fs -> 0 < ripple_db < Rabs gain_db ->
  let F := Rpower 10 (- gain_db / 10) in let E := / edge_gain2 gain_db ripple_db in let e := (F - E) / (E - 1) in
  exists c, cheby_lowshelf checks cap n fs fc gain_db ripple_db = Ok c /\
    forall f, 0 <= f -> 2 * f < fs -> exists h, cas_response c (at_freq f fs) h /\
      (Cmod h)² = (1 + e * (cheb n (tan (PI * (f / fs)) / tan (PI * (fc / fs))))²) / (F + e * (cheb n (tan (PI * (f / fs)) / tan (PI * (fc / fs))))²).
Proof.
  intros checks cap n fs fc gn r Hn HV Hr F0 E0 e0. destruct (cheby_lowshelf_lemma checks cap n fs fc gn r Hn HV Hr) as [c [E [B [F N]]]].
  exists c. split; [exact E|]. intros f F1 F2. destruct (F f F1 F2) as [h [A M]]. exists h. split; [exact A|]. unfold Rsqr at 1. rewrite Cmod_sqr, M.
  unfold cheb_shelf_mag, shelf_eps2, e0, E0. rewrite edge_gain2_inv. rewrite Rinv_inv. reflexivity.
Qed.

(** No finite design for a gain of 0 dB or a ripple of 0 dB or less, although 0 dB should be the identity. *)
Theorem C85_chebyshev_shelf_rejects : forall checks cap n fs fc gain_db ripple_db, valid_freq fc fs ->
  ((1 <= n <= cap)%nat -> gain_db = 0 \/ ripple_db <= 0 ->
     cheby_lowshelf checks cap n fs fc gain_db ripple_db = NonFinite /\ cheby_highshelf checks cap n fs fc gain_db ripple_db = NonFinite) /\
  ((cap < n)%nat -> cheby_lowshelf checks cap n fs fc gain_db ripple_db = UB /\ cheby_highshelf checks cap n fs fc gain_db ripple_db = UB).
Proof.
  intros checks cap n fs fc gn r [V1 V2]. unfold cheby_lowshelf, cheby_highshelf. rewrite rdiv_ok by lra. cbn [bind]. split.
  - intros Hn Hr. rewrite cheby_shelf_bad by (auto; lia). split; reflexivity.
  - intros Hn. unfold cheby_shelf_analog. rewrite no_room by auto. split; reflexivity.
Qed.

(** A cut whose ripple is at least the cut is clamped, and then misses the requested gain: at DC every odd order
    attenuates strictly less than asked for. *)
Theorem C85_chebyshev_clamped_gain_refuted : forall checks cap n fs fc gain_db ripple_db,
  (1 <= n <= cap)%nat -> Nat.Odd n -> valid_freq fc fs -> gain_db < 0 -> - gain_db <= ripple_db ->
  exists c h, cheby_lowshelf checks cap n fs fc gain_db ripple_db = Ok c /\ cas_response c at_dc h /\ Rpower 10 (gain_db / 10) < (Cmod h)².
Proof.
  intros checks cap n fs fc gn r Hn HO HV Hg Hr. apply Nat.odd_spec in HO.
  destruct (cheby_lowshelf_clamped checks cap n fs fc gn r Hn HO HV Hg Hr) as [c [h [A [B D]]]].
  exists c, h. split; [exact A|split; [exact B|]]. unfold Rsqr. rewrite Cmod_sqr. exact D.
Qed.

(** The law of the clamped cut, with e = 10^(-gain/20) - 1. *)
Theorem C85_chebyshev_clamped_cut_actual : forall checks cap n fs fc gain_db ripple_db,
  (1 <= n <= cap)%nat -> valid_freq fc fs -> gain_db < 0 -> - gain_db <= ripple_db ->
  let e := Rpower 10 (- gain_db / 20) - 1 in let b := (1 + e + sqrt (1 + e * e)) / e in let k := (b - / b) / 2 in
  (exists c, cheby_lowshelf checks cap n fs fc gain_db ripple_db = Ok c /\ sections cap n c /\
    forall f, 0 <= f -> 2 * f < fs -> exists h, cas_response c (at_freq f fs) h /\
      (Cmod h)² = ((cheb n (tan (PI * (f / fs)) / tan (PI * (fc / fs))))² + (/ e)²) / ((cheb n (tan (PI * (f / fs)) / tan (PI * (fc / fs))))² + k²)) /\
  (exists c, cheby_highshelf checks cap n fs fc gain_db ripple_db = Ok c /\ sections cap n c /\
    forall f, 0 < f -> 2 * f < fs -> exists h, cas_response c (at_freq f fs) h /\
      (Cmod h)² = ((cheb n (tan (PI * (fc / fs)) / tan (PI * (f / fs))))² + (/ e)²) / ((cheb n (tan (PI * (fc / fs)) / tan (PI * (f / fs))))² + k²)).
Proof.
  intros checks cap n fs fc gn r Hn HV Hg Hr e b k.
  destruct (cheby_cut_ok checks cap n fs fc gn r Hn HV Hg Hr) as [[c [E [B F]]] [c' [E' [B' F']]]].
  assert (HG : 1 < pow10 (- gn / 20)) by (apply pow10_gt1; lra).
  assert (EK : sinh (ln (clamp_b (pow10 (- gn / 20)))) = k).
  { rewrite (clamp_cut_sinh _ HG). unfold k, b, e, pow10. replace (1 + (Rpower 10 (- gn / 20) - 1)) with (Rpower 10 (- gn / 20)) by ring. reflexivity. }
  split.
  - exists c. split; [exact E|split; [apply built_sections, B|]]. intros f F1 F2. destruct (F f F1 F2) as [h [A M]]. exists h. split; [exact A|].
    unfold Rsqr at 1. rewrite Cmod_sqr, M, EK. reflexivity.
  - exists c'. split; [exact E'|split; [apply built_sections, B'|]]. intros f F1 F2. destruct (F' f F1 ltac:(lra)) as [h [A M]]. exists h. split; [exact A|].
    unfold Rsqr at 1. rewrite Cmod_sqr, M, EK. pose proof (norm_range f fs F1 F2) as R2. destruct (tan_pos_range _ R2) as [TP2 CP2].
    assert (SP : 0 < sin (PI * (f / fs))) by (apply sin_gt_0; lra).
    replace (tan (PI * (fc / fs)) / tan (PI * (f / fs))) with (tan (PI * (fc / fs)) * (cos (PI * (f / fs)) / sin (PI * (f / fs)))); [reflexivity|].
    unfold Rdiv. f_equal. unfold tan. field. lra.
Qed.

(** A boost that the ripple swallows is clamped the same way. With d = 1 - 10^(-gain/20), the design is a stable filter
    with the law below, at every cutoff for even orders and at every cutoff but one for odd orders: at that cutoff the
    real zero lies on the singular point of the bilinear transform. *)
Definition odd_hole (n : nat) (d w : R) : Prop := Nat.Odd n /\ w * sinh (arcsinh (/ d) / INR n) = 1.
Theorem C85_chebyshev_boost_actual : forall checks cap n fs fc gain_db ripple_db,
  (1 <= n <= cap)%nat -> valid_freq fc fs -> 0 < gain_db -> gain_db <= ripple_db ->
  let d := 1 - Rpower 10 (- gain_db / 20) in let b := 1 + (sqrt (1 + d * d) - 1) / d in let k := (b - / b) / 2 in
  ~ odd_hole n d (tan (PI * (fc / fs))) ->
  exists c, cheby_lowshelf checks cap n fs fc gain_db ripple_db = Ok c /\ sections cap n c /\
    forall f, 0 <= f -> 2 * f < fs -> exists h, cas_response c (at_freq f fs) h /\
      (Cmod h)² = ((cheb n (tan (PI * (f / fs)) / tan (PI * (fc / fs))))² + (/ d)²) / ((cheb n (tan (PI * (f / fs)) / tan (PI * (fc / fs))))² + k²).
Proof.
  intros checks cap n fs fc gn r Hn HV Hg Hr d b k HO.
  destruct (cheby_boost_ok checks cap n fs fc gn r Hn HV Hg Hr) as [c [E [B F]]].
  { intros O X. apply HO. split; [apply Nat.odd_spec, O|exact X]. }
  assert (HG : 0 < pow10 (- gn / 20) < 1).
  { split; [apply exp_pos|]. unfold pow10. rewrite <- (Rpower_O 10) by lra. apply pow10_mono. lra. }
  destruct (clamp_b_sinh _ HG) as [_ EK].
  exists c. split; [exact E|split; [apply built_sections, B|]]. intros f F1 F2. destruct (F f F1 F2) as [h [A M]]. exists h. split; [exact A|].
  unfold Rsqr at 1. rewrite Cmod_sqr, M, EK. reflexivity.
Qed.
(** So it goes far beyond the request: a boost of at most 1 dB amplifies DC by more than 19 dB, and by more than 40 dB when
    the order is odd. *)
Theorem C85_chebyshev_boost_gain_refuted : forall checks cap n fs fc gain_db ripple_db,
  (1 <= n <= cap)%nat -> valid_freq fc fs -> 0 < gain_db <= 1 -> gain_db <= ripple_db ->
  ~ odd_hole n (1 - Rpower 10 (- gain_db / 20)) (tan (PI * (fc / fs))) ->
  exists c h, cheby_lowshelf checks cap n fs fc gain_db ripple_db = Ok c /\ cas_response c at_dc h /\ (if Nat.odd n then 100 else 9) < Cmod h.
Proof.
  intros checks cap n fs fc gn r Hn HV Hg Hr HO. destruct (cheby_boost_dc checks cap n fs fc gn r Hn HV Hg Hr) as [c [h [E [A M]]]].
  { intros O X. apply HO. split; [apply Nat.odd_spec, O|exact X]. }
  exists c, h. split; [exact E|split; [exact A|]]. rewrite <- Cmod_sqr in M. pose proof (sqrt_pos (Cnorm2 h)) as P. fold (Cmod h) in P. destruct (Nat.odd n); nra.
Qed.
(** The high shelf is the mirror image, and boosts the half sample rate as much. *)
Theorem C85_chebyshev_high_boost_actual : forall checks cap n fs fc gain_db ripple_db,
  (1 <= n <= cap)%nat -> valid_freq fc fs -> 0 < gain_db -> gain_db <= ripple_db ->
  let d := 1 - Rpower 10 (- gain_db / 20) in let b := 1 + (sqrt (1 + d * d) - 1) / d in let k := (b - / b) / 2 in
  ~ odd_hole n d (/ tan (PI * (fc / fs))) ->
  exists c, cheby_highshelf checks cap n fs fc gain_db ripple_db = Ok c /\ sections cap n c /\
    forall f, 0 < f -> 2 * f < fs -> exists h, cas_response c (at_freq f fs) h /\
      (Cmod h)² = ((cheb n (tan (PI * (fc / fs)) / tan (PI * (f / fs))))² + (/ d)²) / ((cheb n (tan (PI * (fc / fs)) / tan (PI * (f / fs))))² + k²).
Proof.
  intros checks cap n fs fc gn r Hn HV Hg Hr d b k HO. pose proof (norm_range fc fs (proj1 HV) (proj2 HV)) as R1. destruct (tan_pos_range _ R1) as [TP CP].
  destruct (cheby_boost_high checks cap n fs fc gn r Hn HV Hg Hr) as [c [E [B F]]].
  { intros O X. apply HO. split; [apply Nat.odd_spec, O|]. change (sinh (arcsinh (/ d) / INR n) = tan (PI * (fc / fs))) in X. rewrite X. field. lra. }
  assert (HG : 0 < pow10 (- gn / 20) < 1).
  { split; [apply exp_pos|]. unfold pow10. rewrite <- (Rpower_O 10) by lra. apply pow10_mono. lra. }
  destruct (clamp_b_sinh _ HG) as [_ EK].
  exists c. split; [exact E|split; [apply built_sections, B|]]. intros f F1 F2. destruct (F f F1 ltac:(lra)) as [h [A M]]. exists h. split; [exact A|].
  unfold Rsqr at 1. rewrite Cmod_sqr, M, EK. pose proof (norm_range f fs F1 F2) as R2. destruct (tan_pos_range _ R2) as [TP2 CP2].
  assert (SP : 0 < sin (PI * (f / fs))) by (apply sin_gt_0; lra).
  replace (tan (PI * (fc / fs)) / tan (PI * (f / fs))) with (tan (PI * (fc / fs)) * (cos (PI * (f / fs)) / sin (PI * (f / fs)))); [reflexivity|].
  unfold Rdiv. f_equal. unfold tan. field. lra.
Qed.
Theorem C85_chebyshev_high_boost_gain_refuted : forall checks cap n fs fc gain_db ripple_db,
  (1 <= n <= cap)%nat -> valid_freq fc fs -> 0 < gain_db <= 1 -> gain_db <= ripple_db ->
  ~ odd_hole n (1 - Rpower 10 (- gain_db / 20)) (/ tan (PI * (fc / fs))) ->
  exists c h, cheby_highshelf checks cap n fs fc gain_db ripple_db = Ok c /\ cas_response c at_nyquist h /\ (if Nat.odd n then 100 else 9) < Cmod h.
Proof.
  intros checks cap n fs fc gn r Hn HV Hg Hr HO. pose proof (norm_range fc fs (proj1 HV) (proj2 HV)) as R1. destruct (tan_pos_range _ R1) as [TP CP].
  destruct (cheby_boost_nyquist checks cap n fs fc gn r Hn HV Hg Hr) as [c [h [E [A M]]]].
  { intros O X. apply HO. split; [apply Nat.odd_spec, O|]. change (sinh (arcsinh (/ (1 - Rpower 10 (- gn / 20))) / INR n) = tan (PI * (fc / fs))) in X. rewrite X. field. lra. }
  exists c, h. split; [exact E|split; [exact A|]]. rewrite <- Cmod_sqr in M. pose proof (Cmod_nonneg h). destruct (Nat.odd n); nra.
Qed.
(** For the first order there is always a cutoff of the low shelf, which every sample rate and every boost up to the ripple has, where there is no finite filter. *)
Theorem C85_chebyshev_boost_hole_refuted : forall checks cap fs gain_db ripple_db,
  (1 <= cap)%nat -> 0 < fs -> 0 < gain_db -> gain_db <= ripple_db ->
  exists fc, valid_freq fc fs /\ cheby_lowshelf checks cap 1 fs fc gain_db ripple_db = NonFinite.
Proof. exact cheby_boost_hole. Qed.
(** A fourth-order boost has no such cutoff, and a first-order 1 dB boost at a quarter of the sample rate avoids it. *)
Example chebyshev_boost_instance : valid_freq 11025 44100 /\ 0 < 1 <= 1 /\ (forall d w, ~ odd_hole 4 d w) /\
  ~ odd_hole 1 (1 - Rpower 10 (- 1 / 20)) (tan (PI * (11025 / 44100))).
Proof.
  unfold valid_freq. split; [lra|]. split; [lra|]. split; [intros d w [[m X] _]; lia|].
  replace (PI * (11025 / 44100)) with (PI / 4) by field. rewrite tan_PI4.
  intros [_ X]. replace (arcsinh (/ (1 - Rpower 10 (- 1 / 20))) / INR 1) with (arcsinh (/ (1 - Rpower 10 (- 1 / 20)))) in X by (simpl; field; lra).
  rewrite sinh_arcsinh in X.
  assert (P : 0 < Rpower 10 (- 1 / 20) < 1). { split; [apply exp_pos|]. rewrite <- (Rpower_O 10) by lra. apply Rpower_lt; lra. }
  set (G := Rpower 10 (- 1 / 20)) in *. assert (Y : / (1 - G) = 1) by lra. apply (f_equal Rinv) in Y. rewrite Rinv_inv, Rinv_1 in Y. lra.
Qed.

(** A fifth-order 1 kHz design at 44.1 kHz, 1 dB ripple, 40 dB stopband, 6 dB shelf, and the degenerate shelves. *)
Example chebyshev_instance : (1 <= 5 <= 10)%nat /\ valid_freq 1000 44100 /\ Nat.Odd 5 /\ Nat.Even 4 /\ 0 < 1 < Rabs (-6) /\ 0 < 1 < Rabs 6 /\ - (-6) <= 12.
Proof.
  unfold valid_freq. unfold Rabs. destruct (Rcase_abs (-6)), (Rcase_abs 6); repeat split; try lia; try lra; [exists 2%nat; reflexivity|exists 2%nat; reflexivity].
Qed.
(** The third-order polynomial is 4x^3 - 3x. *)
Example cheb_3 : forall x, cheb 3 x = 4 * x ^ 3 - 3 * x.
Proof. intros x. unfold cheb. simpl. ring. Qed.
Print Assumptions C83_chebyshev1_lowpass_partial.
Print Assumptions C83_chebyshev1_highpass_partial.
Print Assumptions C83_chebyshev1_lowpass_ripple.
Print Assumptions C83_chebyshev1_highpass_ripple.
Print Assumptions C83_chebyshev1_odd_asserts_refuted.
Print Assumptions C83_chebyshev1_rejects.
Print Assumptions C84_chebyshev2_lowpass_partial.
Print Assumptions C84_chebyshev2_highpass_partial.
Print Assumptions C84_chebyshev2_lowpass_stopband.
Print Assumptions C84_chebyshev2_highpass_stopband.
Print Assumptions C84_chebyshev2_odd_asserts_refuted.
Print Assumptions C84_chebyshev2_rejects.
Print Assumptions C85_chebyshev_lowshelf_partial.
Print Assumptions C85_chebyshev_highshelf_partial.
Print Assumptions C85_chebyshev_lowshelf_magnitude.
Print Assumptions C85_chebyshev_shelf_rejects.
Print Assumptions C85_chebyshev_clamped_gain_refuted.
Print Assumptions C85_chebyshev_clamped_cut_actual.
Print Assumptions C85_chebyshev_boost_actual.
Print Assumptions C85_chebyshev_boost_gain_refuted.
Print Assumptions C85_chebyshev_high_boost_actual.
Print Assumptions C85_chebyshev_high_boost_gain_refuted.
Print Assumptions C85_chebyshev_boost_hole_refuted.
