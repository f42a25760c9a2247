(** C142: decibel conversions in floating point. *)
From Coq Require Import ZArith Reals List Bool Lia Lra Psatz.
From Flocq Require Import Core BinarySingleNaN Relative.
From Verif Require Import Base FloatModel FloatSpec FloatProofs FloatProps FloatOrderProps FloatEnergyProps FloatClockProps FloatWaveModel FloatWaveProps FloatFeatProps FloatCentroidProps FloatCosineModel FloatCosineProps FloatDesignProps FloatDecibelModel.
Import ListNotations.
Local Open Scope R_scope.

(** The decimal logarithm and the powers of ten. *)
Definition lg (x : R) : R := ln x / ln 10.
Definition ten (y : R) : R := Rpower 10 y.
(** A library logarithm of relative error [e], and a library power of relative error [e] wherever the power
    of ten is in the normal range. *)
Definition log_within {prec emax} (e : R) (g : binary_float prec emax -> binary_float prec emax) : Prop :=
  forall x, finite x -> 0 < B2R x -> finite (g x) /\ Rabs (B2R (g x) - lg (B2R x)) <= e * Rabs (lg (B2R x)).
Definition pow_within {prec emax} (e : R) (g : binary_float prec emax -> binary_float prec emax -> binary_float prec emax) : Prop :=
  forall b y, finite b -> B2R b = 10 -> finite y -> bpow radix2 (2 - emax) <= ten (B2R y) <= bpow radix2 (emax - 1) ->
    finite (g b y) /\ Rabs (B2R (g b y) - ten (B2R y)) <= e * ten (B2R y).

Lemma ln10_pos : 0 < ln 10. Proof. rewrite <- ln_1. apply ln_increasing; lra. Qed.
Lemma ten_pos y : 0 < ten y. Proof. apply exp_pos. Qed.
Lemma ten_lg x : 0 < x -> ten (lg x) = x.
Proof. intros H. unfold ten, Rpower, lg. replace (ln x / ln 10 * ln 10) with (ln x) by (field; pose proof ln10_pos; lra). apply exp_ln. exact H. Qed.
Lemma exp_le a b : a <= b -> exp a <= exp b.
Proof. intros [H| ->]; [left; apply exp_increasing; exact H|lra]. Qed.
Lemma ten_near y y' d : Rabs (y' - y) <= d -> Rabs (ten y' - ten y) <= (exp (ln 10 * d) - 1) * ten y.
Proof.
  intros H. pose proof ln10_pos as L. pose proof (ten_pos y) as P. apply Rabs_le_inv in H.
  assert (E : ten y' = ten y * exp (ln 10 * (y' - y))). { unfold ten, Rpower. rewrite <- exp_plus. f_equal. ring. }
  assert (H1 : exp (ln 10 * (y' - y)) <= exp (ln 10 * d)) by (apply exp_le, Rmult_le_compat_l; lra).
  assert (H2 : exp (- (ln 10 * d)) <= exp (ln 10 * (y' - y))). { apply exp_le. replace (- (ln 10 * d)) with (ln 10 * - d) by ring. apply Rmult_le_compat_l; lra. }
  rewrite exp_Ropp in H2. set (t := exp (ln 10 * d)) in *. assert (T : 0 < t) by apply exp_pos.
  assert (H3 : 2 - t <= / t). { assert (Q : (2 - t) * t <= / t * t) by (rewrite Rinv_l by lra; pose proof (Rle_0_sqr (t - 1)) as SQ; unfold Rsqr in SQ; lra). apply Rmult_le_reg_r in Q; auto. }
  rewrite E. set (s := exp (ln 10 * (y' - y))) in *. replace (ten y * s - ten y) with ((s - 1) * ten y) by ring. rewrite Rabs_mult, (Rabs_right (ten y)) by lra.
  apply Rmult_le_compat_r; [lra|]. apply Rabs_le. lra.
Qed.
Lemma rel_trans r p' p e t : 0 <= e -> 0 < p -> Rabs (r - p') <= e * p' -> Rabs (p' - p) <= (t - 1) * p -> Rabs (r - p) <= (t * (1 + e) - 1) * p.
Proof.
  intros E P A B. replace (r - p) with ((r - p') + (p' - p)) by ring. eapply Rle_trans; [apply Rabs_triang|].
  assert (C : p' <= t * p). { apply Rabs_le_inv in B. lra. } assert (e * p' <= e * (t * p)) by (apply Rmult_le_compat_l; lra). lra.
Qed.
Lemma ln_bpow k : ln (bpow radix2 k) = IZR k * ln 2.
Proof. rewrite bpow_powerRZ. change (IZR radix2) with 2. rewrite powerRZ_Rpower by lra. unfold Rpower. rewrite ln_exp. reflexivity. Qed.
Lemma ln2_bounds : 0 < ln 2 < 1.
Proof.
  split; [rewrite <- ln_1; apply ln_increasing; lra|]. rewrite <- (ln_exp 1). apply ln_increasing; [lra|]. pose proof (exp_ineq1 1 ltac:(lra)). lra.
Qed.
Lemma ln10_bounds : 3 * ln 2 < ln 10 < 4 * ln 2.
Proof.
  assert (H : forall n, ln (2 ^ n) = INR n * ln 2) by (intros; apply ln_pow; lra). split.
  - replace (3 * ln 2) with (ln (2 ^ 3)) by (rewrite H; cbn; lra). apply ln_increasing; cbn; lra.
  - replace (4 * ln 2) with (ln (2 ^ 4)) by (rewrite H; cbn; lra). apply ln_increasing; cbn; lra.
Qed.
Lemma ln_range x a b : bpow radix2 a <= x <= bpow radix2 b -> IZR a * ln 2 <= ln x <= IZR b * ln 2.
Proof.
  intros [H1 H2]. pose proof (bpow_gt_0 radix2 a). rewrite <- !ln_bpow. split; apply Rnot_lt_le; intros C; apply ln_lt_inv in C; lra || apply bpow_gt_0.
Qed.

Section Format.
Context (prec emax : Z) {Hprec : Prec_gt_0 prec} {Hmax : Prec_lt_emax prec emax}.
Notation fl := (binary_float prec emax).
Notation rnd := (round radix2 (FLT_exp (3 - emax - prec) prec) ZnearestE).
Notation fmt := (generic_format radix2 (FLT_exp (3 - emax - prec) prec)).
Notation val := (@B2R prec emax).
Notation u := (roundoff prec).
Notation eta := (smallest prec emax).
Notation ofz := (of_Z prec emax).
Notation mul := (fmul prec emax).
Notation div := (fdiv prec emax).
Hypothesis Sizes : (11 <= prec <= 53)%Z /\ (16 <= emax <= 1024)%Z /\ (32 * emax <= 2 ^ prec)%Z.

Context (flog10 : fl -> fl) (e : R).
Hypothesis Hlog : log_within e flog10.
Hypothesis He : 0 <= e <= 4 * u.

Lemma db_u : 0 < u <= / 2048. Proof. destruct Sizes as [S1 S2]. apply (cos_u prec emax). lia. Qed.
Lemma db_eta : 0 < eta <= u / 250. Proof. destruct Sizes as [S1 S2]. apply (cos_eta prec emax). lia. Qed.
Lemma u_emax : u * IZR emax <= / 32.
Proof.
  destruct Sizes as [_ [_ S]]. unfold roundoff. assert (P : 0 < IZR (2 ^ prec)) by (apply IZR_lt; lia). apply Rmult_le_reg_l with (IZR (2 ^ prec)); auto.
  rewrite <- Rmult_assoc, Rinv_r, Rmult_1_l by lra. apply IZR_le in S. rewrite mult_IZR in S. lra.
Qed.
Lemma const_ok n : (Z.abs n <= 2 ^ 11)%Z -> finite (ofz n) /\ val (ofz n) = IZR n.
Proof. intros N. apply (of_Z_exact prec emax). eapply Z.le_trans; [exact N|]. apply Z.pow_le_mono_r; lia. Qed.
Lemma flt_pos x : flt prec emax (fzero prec emax) x = true <-> is_nan x = false /\ 0 < level prec emax x.
Proof. unfold flt. rewrite (ltb_true prec emax). change (level prec emax (fzero prec emax)) with 0. cbn [is_nan fzero]. tauto. Qed.

(** The magnitude of the logarithm of any positive number of the format. *)
Lemma lg_bound x : finite x -> 0 < val x -> Rabs (lg (val x)) <= 360.
Proof.
  intros F P. pose proof ln2_bounds as L2. pose proof ln10_bounds as L10. destruct Sizes as [S1 [S2 _]].
  assert (B : bpow radix2 (3 - emax - prec) <= val x <= bpow radix2 emax).
  { pose proof (val_bound prec emax x) as V. rewrite Rabs_pos_eq in V by lra. split; [|lra].
    pose proof (abs_B2R_ge_emin prec emax x) as G. destruct x as [s|s| |s m ex H]; try discriminate F; [cbn in P; lra|].
    specialize (G eq_refl). rewrite Rabs_pos_eq in G by lra. exact G. }
  destruct (ln_range _ _ _ B) as [B1 B2].
  assert (B3 : Rabs (ln (val x)) <= 1080 * ln 2).
  { assert (- 1080 <= IZR (3 - emax - prec)) by (apply IZR_le; lia). assert (IZR emax <= 1080) by (apply IZR_le; lia). apply Rabs_le. nra. }
  unfold lg, Rdiv. rewrite Rabs_mult, (Rabs_pos_eq (/ ln 10)) by (left; apply Rinv_0_lt_compat; lra).
  apply Rmult_le_reg_r with (ln 10); [lra|]. rewrite Rmult_assoc, Rinv_l, Rmult_1_r by lra. lra.
Qed.
Lemma scaled_log n x : (0 < n <= 20)%Z -> finite x -> 0 < val x ->
  finite (mul (ofz n) (flog10 x)) /\ Rabs (val (mul (ofz n) (flog10 x)) - IZR n * lg (val x)) <= ((1 + e) * (1 + u) - 1) * Rabs (IZR n * lg (val x)).
Proof.
  intros N F P. destruct (const_ok n ltac:(lia)) as [Fn Vn]. destruct (Hlog x F P) as [Fg Eg]. pose proof (lg_bound x F P) as B. pose proof db_u as U.
  assert (N0 : 0 < IZR n <= 20) by (split; [apply IZR_lt|apply IZR_le]; lia). destruct Sizes as [S1 [S2 _]].
  assert (R1 : Rabs (rnd (IZR n * val (flog10 x)) - IZR n * val (flog10 x)) <= u * Rabs (IZR n * val (flog10 x))).
  { pose proof (rnd_multiple prec emax (Z.to_nat n) (val (flog10 x)) (fmt_val prec emax _)) as R. rewrite INR_IZR_INZ, Z2Nat.id in R by lia. exact R. }
  assert (R2 : Rabs (IZR n * val (flog10 x) - IZR n * lg (val x)) <= e * Rabs (IZR n * lg (val x))).
  { rewrite <- Rmult_minus_distr_l, !Rabs_mult, (Rabs_pos_eq (IZR n)) by lra. replace (e * (IZR n * Rabs (lg (val x)))) with (IZR n * (e * Rabs (lg (val x)))) by ring. apply Rmult_le_compat_l; lra. }
  assert (NB : Rabs (IZR n * lg (val x)) <= 7200) by (rewrite Rabs_mult, (Rabs_pos_eq (IZR n)) by lra; pose proof (Rabs_pos (lg (val x))); nra).
  set (L := IZR n * lg (val x)) in *. set (w := IZR n * val (flog10 x)) in *. pose proof (Rabs_pos L) as LP.
  assert (W : Rabs w <= (1 + e) * Rabs L). { replace w with ((w - L) + L) by ring. eapply Rle_trans; [apply Rabs_triang|]. lra. }
  assert (R3 : Rabs (rnd w - L) <= ((1 + e) * (1 + u) - 1) * Rabs L).
  { replace (rnd w - L) with ((rnd w - w) + (w - L)) by ring. eapply Rle_trans; [apply Rabs_triang|]. assert (u * Rabs w <= u * ((1 + e) * Rabs L)) by (apply Rmult_le_compat_l; lra). lra. }
  assert (TOP : 65536 <= bpow radix2 emax) by (change 65536 with (bpow radix2 16); apply bpow_le; lia).
  assert (K : (1 + e) * (1 + u) - 1 <= 1) by nra.
  assert (R4 : Rabs (rnd w) <= 14400). { replace (rnd w) with ((rnd w - L) + L) by ring. eapply Rle_trans; [apply Rabs_triang|]. nra. }
  destruct (mul_cases prec emax _ _ Fn Fg) as [[_ [V FF]]|[O _]]; [rewrite Vn in V; fold w in V|rewrite Vn in O; fold w in O; exfalso; lra].
  split; [exact FF|]. rewrite V. exact R3.
Qed.
(** The level in decibels of every positive number, down to the subnormal ones, has the relative error of the
    library logarithm and of one product; zero, negative numbers and NaN are refused. *)
Theorem C142_mag2db x : finite x ->
  (0 < val x -> exists r, f_mag2db prec emax flog10 x = Ok r /\ finite r /\ Rabs (val r - 20 * lg (val x)) <= ((1 + e) * (1 + u) - 1) * Rabs (20 * lg (val x))) /\
  (val x <= 0 -> f_mag2db prec emax flog10 x = UB).
Proof.
  intros F. unfold f_mag2db. split; intros P.
  - replace (flt prec emax (fzero prec emax) x) with true by (symmetry; apply flt_pos; split; [apply fin_not_nan; exact F|rewrite level_fin by exact F; exact P]).
    eexists. split; [reflexivity|]. apply (scaled_log 20); auto. lia.
  - destruct (flt prec emax (fzero prec emax) x) eqn:E; [|reflexivity]. apply flt_pos in E. destruct E as [_ E]. rewrite level_fin in E by exact F. lra.
Qed.
Theorem C142_pow2db x : finite x ->
  (0 < val x -> exists r, f_pow2db prec emax flog10 x = Ok r /\ finite r /\ Rabs (val r - 10 * lg (val x)) <= ((1 + e) * (1 + u) - 1) * Rabs (10 * lg (val x))) /\
  (val x <= 0 -> f_pow2db prec emax flog10 x = UB).
Proof.
  intros F. unfold f_pow2db. split; intros P.
  - replace (flt prec emax (fzero prec emax) x) with true by (symmetry; apply flt_pos; split; [apply fin_not_nan; exact F|rewrite level_fin by exact F; exact P]).
    eexists. split; [reflexivity|]. apply (scaled_log 10); auto. lia.
  - destruct (flt prec emax (fzero prec emax) x) eqn:E; [|reflexivity]. apply flt_pos in E. destruct E as [_ E]. rewrite level_fin in E by exact F. lra.
Qed.
Theorem C142_nan : f_mag2db prec emax flog10 B754_nan = UB /\ f_pow2db prec emax flog10 B754_nan = UB.
Proof. split; reflexivity. Qed.
(** One is 0 dB exactly. *)
Theorem C142_unity x : finite x -> val x = 1 -> exists m p, f_mag2db prec emax flog10 x = Ok m /\ f_pow2db prec emax flog10 x = Ok p /\ val m = 0 /\ val p = 0.
Proof.
  intros F V. assert (L : lg 1 = 0) by (unfold lg; rewrite ln_1; field; pose proof ln10_pos; lra).
  destruct (proj1 (C142_mag2db x F) ltac:(lra)) as [m [M1 [_ M2]]]. destruct (proj1 (C142_pow2db x F) ltac:(lra)) as [p [P1 [_ P2]]]. exists m, p. split; [exact M1|]. split; [exact P1|].
  rewrite V, L, Rmult_0_r, Rabs_R0, Rmult_0_r, Rminus_0_r in M2, P2. pose proof (Rabs_pos (val m)). pose proof (Rabs_pos (val p)).
  split; [destruct (Req_dec (val m) 0) as [Z|Z]; auto; apply Rabs_pos_lt in Z; lra|destruct (Req_dec (val p) 0) as [Z|Z]; auto; apply Rabs_pos_lt in Z; lra].
Qed.

Context (fpow : fl -> fl -> fl) (dpow : double -> double -> double) (e2 : R).
Hypothesis Hpow : pow_within e2 fpow.
Hypothesis Hdpow : pow_within e2 dpow.
Hypothesis He2 : 0 <= e2 <= 4 * u.

Lemma divided n x : (1 <= n <= 20)%Z -> finite x -> finite (div x (ofz n)) /\ Rabs (val (div x (ofz n)) - val x / IZR n) <= u * Rabs (val x / IZR n) + eta / 2.
Proof.
  intros N F. destruct (const_ok n ltac:(lia)) as [Fn Vn]. assert (N0 : 1 <= IZR n) by (apply IZR_le; lia).
  assert (Q : Rabs (rnd (val x / IZR n)) <= Rabs (val x)).
  { assert (P : Rabs (val x / IZR n) <= Rabs (val x)).
    { unfold Rdiv. rewrite Rabs_mult, (Rabs_pos_eq (/ IZR n)) by (left; apply Rinv_0_lt_compat; lra). rewrite <- (Rmult_1_r (Rabs (val x))) at 2. apply Rmult_le_compat_l; [apply Rabs_pos|]. rewrite <- Rinv_1. apply Rinv_le_contravar; lra. }
    apply Rabs_le_inv in P. apply Rabs_le. split.
    - rewrite <- (rnd_id prec emax (- Rabs (val x))); [apply (rnd_le prec emax); lra|]. apply generic_format_opp, generic_format_abs, (fmt_val prec emax).
    - rewrite <- (rnd_id prec emax (Rabs (val x))); [apply (rnd_le prec emax); lra|]. apply generic_format_abs, (fmt_val prec emax). }
  pose proof (val_bound prec emax x) as B.
  destruct (div_cases prec emax x (ofz n) F ltac:(rewrite Vn; lra)) as [[_ [V [G _]]]|[O _]]; rewrite Vn in *; [|exfalso; lra].
  split; [exact G|]. rewrite V. pose proof (rnd_err prec emax (val x / IZR n)) as D. rewrite <- (roundoff_u prec), <- (smallest_tiny prec emax) in D. exact D.
Qed.
(** A perturbation of a moderate exponent keeps the power within a factor of two. *)
Lemma factor_two a b : 0 <= a <= 8 * u -> Rabs b * ln 10 <= IZR emax * ln 2 -> ln 10 * (a * Rabs b + eta / 2) <= ln 2 /\ exp (ln 10 * (a * Rabs b + eta / 2)) <= 2.
Proof.
  intros A B. pose proof db_u as U. pose proof db_eta as H. pose proof u_emax as M. pose proof ln2_bounds as L2. pose proof ln10_bounds as L10.
  assert (P1 : a * (Rabs b * ln 10) <= 8 * u * (IZR emax * ln 2)) by (apply Rmult_le_compat; try lra; apply Rmult_le_pos; [apply Rabs_pos|lra]).
  assert (P2 : 8 * u * (IZR emax * ln 2) <= 8 * / 32 * ln 2) by (replace (8 * u * (IZR emax * ln 2)) with (8 * (u * IZR emax) * ln 2) by ring; apply Rmult_le_compat_r; lra).
  assert (P3 : ln 10 * (eta / 2) <= 4 * ln 2 * (/ 2048 / 250 / 2)) by (apply Rmult_le_compat; lra).
  assert (G : ln 10 * (a * Rabs b + eta / 2) <= ln 2) by lra. split; [exact G|]. eapply Rle_trans; [apply exp_le; exact G|]. rewrite exp_ln; lra.
Qed.
Lemma exponent_bound y : bpow radix2 (3 - emax) <= ten y <= bpow radix2 (emax - 2) -> Rabs y * ln 10 <= IZR emax * ln 2.
Proof.
  intros B. pose proof (ln_range _ _ _ B) as [B1 B2]. unfold ten, Rpower in B1, B2. rewrite ln_exp in B1, B2. pose proof ln10_pos as L. pose proof ln2_bounds as L2.
  rewrite minus_IZR in B1, B2. rewrite <- (Rabs_pos_eq (ln 10)) at 1 by lra. rewrite <- Rabs_mult. apply Rabs_le. destruct Sizes as [_ [S _]]. lra.
Qed.
Lemma near_range a b y y' d : bpow radix2 (a + 1) <= ten y <= bpow radix2 b -> Rabs (y' - y) <= d -> exp (ln 10 * d) <= 2 ->
  bpow radix2 a <= ten y' <= bpow radix2 (b + 1).
Proof.
  intros B D T. pose proof (ten_pos y) as P. pose proof ln10_pos as L. apply Rabs_le_inv in D.
  assert (E : ten y' = ten y * exp (ln 10 * (y' - y))). { unfold ten, Rpower. rewrite <- exp_plus. f_equal. ring. }
  assert (H1 : exp (ln 10 * (y' - y)) <= exp (ln 10 * d)) by (apply exp_le, Rmult_le_compat_l; lra).
  assert (H2 : exp (- (ln 10 * d)) <= exp (ln 10 * (y' - y))). { apply exp_le. replace (- (ln 10 * d)) with (ln 10 * - d) by ring. apply Rmult_le_compat_l; lra. }
  rewrite exp_Ropp in H2. assert (H3 : / 2 <= / exp (ln 10 * d)) by (apply Rinv_le_contravar; [apply exp_pos|exact T]).
  set (s := exp (ln 10 * (y' - y))) in *. rewrite E. clear E.
  rewrite !bpow_plus in *. change (bpow radix2 1) with 2 in *.
  pose proof (bpow_gt_0 radix2 a). pose proof (bpow_gt_0 radix2 b). split; nra.
Qed.
(** Decibels to magnitude: the error of the library power, and the rounding of the exponent amplified by the
    magnitude of the level. *)
Lemma power_near g y y' d : pow_within e2 g -> finite y' -> bpow radix2 (3 - emax) <= ten y <= bpow radix2 (emax - 2) -> Rabs (val y' - y) <= d -> exp (ln 10 * d) <= 2 ->
  finite (g (ofz 10) y') /\ Rabs (val (g (ofz 10) y') - ten y) <= (exp (ln 10 * d) * (1 + e2) - 1) * ten y.
Proof.
  intros G F B D T. destruct (const_ok 10 ltac:(lia)) as [F10 V10]. assert (NR : bpow radix2 (2 - emax) <= ten (val y') <= bpow radix2 (emax - 1)).
  { replace (emax - 1)%Z with (emax - 2 + 1)%Z by lia. apply (near_range _ _ y (val y') d); auto. replace (2 - emax + 1)%Z with (3 - emax)%Z by lia. exact B. }
  destruct (G (ofz 10) y' F10 V10 F NR) as [F2 E2].
  split; [exact F2|]. apply (rel_trans _ (ten (val y'))); [lra|apply ten_pos|exact E2|apply ten_near; exact D].
Qed.
Theorem C142_db2mag x : finite x -> bpow radix2 (3 - emax) <= ten (val x / 20) <= bpow radix2 (emax - 2) ->
  finite (f_db2mag prec emax fpow x) /\
  Rabs (val (f_db2mag prec emax fpow x) - ten (val x / 20)) <= (exp (ln 10 * (u * Rabs (val x / 20) + eta / 2)) * (1 + e2) - 1) * ten (val x / 20).
Proof.
  intros F B. destruct (divided 20 x ltac:(lia) F) as [Fd D]. unfold f_db2mag. pose proof db_u as U.
  apply power_near; auto. apply factor_two; [lra|]. apply exponent_bound. exact B.
Qed.
(** Converting to decibels and back. *)
Theorem C142_roundtrip x : finite x -> bpow radix2 (3 - emax) <= val x <= bpow radix2 (emax - 2) ->
  exists m, f_mag2db prec emax flog10 x = Ok m /\ finite (f_db2mag prec emax fpow m) /\
  Rabs (val (f_db2mag prec emax fpow m) - val x) <= (exp (ln 10 * (((1 + e) * (1 + u) * (1 + u) - 1) * Rabs (lg (val x)) + eta / 2)) * (1 + e2) - 1) * val x.
Proof.
  intros F B. pose proof (bpow_gt_0 radix2 (3 - emax)) as BP. destruct (proj1 (C142_mag2db x F) ltac:(lra)) as [m [M [Fm Em]]]. exists m. split; [exact M|].
  destruct (divided 20 m ltac:(lia) Fm) as [Fd D]. pose proof db_u as U. unfold f_db2mag. pose proof (ten_lg (val x) ltac:(lra)) as TL. set (y := lg (val x)) in *.
  rewrite <- TL. rewrite <- TL in B.
  assert (DD : Rabs (val (div m (ofz 20)) - y) <= ((1 + e) * (1 + u) * (1 + u) - 1) * Rabs y + eta / 2).
  { assert (E1 : Rabs (val m / 20 - y) <= ((1 + e) * (1 + u) - 1) * Rabs y).
    { replace (val m / 20 - y) with ((val m - 20 * y) / 20) by field. unfold Rdiv. rewrite Rabs_mult, (Rabs_pos_eq (/ 20)) by lra. rewrite Rabs_mult, (Rabs_pos_eq 20) in Em by lra. lra. }
    assert (E2 : Rabs (val m / 20) <= (1 + e) * (1 + u) * Rabs y). { replace (val m / 20) with ((val m / 20 - y) + y) by ring. eapply Rle_trans; [apply Rabs_triang|]. lra. }
    replace (val (div m (ofz 20)) - y) with ((val (div m (ofz 20)) - val m / 20) + (val m / 20 - y)) by ring. eapply Rle_trans; [apply Rabs_triang|].
    assert (u * Rabs (val m / 20) <= u * ((1 + e) * (1 + u) * Rabs y)) by (apply Rmult_le_compat_l; lra). lra. }
  apply power_near; auto. apply factor_two; [split; nra|]. apply exponent_bound. exact B.
Qed.
(** The power of a level is computed in double and converted: one more rounding. *)
Lemma dpower_near y y' d : finite y' -> bpow radix2 (4 - emax) <= ten y <= bpow radix2 (emax - 3) -> Rabs (val y' - y) <= d -> exp (ln 10 * d) <= 2 ->
  finite (fconv prec emax (dpow (of_Z 53 1024 10) (fconv 53 1024 y'))) /\
  Rabs (val (fconv prec emax (dpow (of_Z 53 1024 10) (fconv 53 1024 y'))) - ten y) <= (exp (ln 10 * d) * (1 + e2) * (1 + u) - 1) * ten y.
Proof.
  intros F B D T. pose proof db_u as U. destruct Sizes as [S1 [S2 _]].
  destruct (widen_value prec emax 53 1024 ltac:(lia) y' F) as [Fw Vw].
  assert (V10 : finite (of_Z 53 1024 10) /\ B2R (of_Z 53 1024 10) = 10) by (apply (of_Z_exact 53 1024); cbn; lia). destruct V10 as [F10 V10].
  assert (NR : bpow radix2 (3 - emax) <= ten (val y') <= bpow radix2 (emax - 2)).
  { replace (emax - 2)%Z with (emax - 3 + 1)%Z by lia. apply (near_range _ _ y (val y') d); auto. replace (3 - emax + 1)%Z with (4 - emax)%Z by lia. exact B. }
  assert (NW : bpow radix2 (2 - 1024) <= ten (B2R (fconv 53 1024 y')) <= bpow radix2 (1024 - 1)).
  { rewrite Vw. split; [eapply Rle_trans; [|apply NR]; apply bpow_le; lia|eapply Rle_trans; [apply NR|]; apply bpow_le; lia]. }
  destruct (Hdpow _ _ F10 V10 Fw NW) as [Fr Er]. rewrite Vw in Er. set (r := dpow (of_Z 53 1024 10) (fconv 53 1024 y')) in *.
  assert (ER : Rabs (B2R r - ten y) <= (exp (ln 10 * d) * (1 + e2) - 1) * ten y) by (apply (rel_trans _ (ten (val y'))); [lra|apply ten_pos|exact Er|apply ten_near; exact D]).
  pose proof (ten_pos (val y')) as P. pose proof (ten_pos y) as PY. apply Rabs_le_inv in Er.
  assert (RB : bpow radix2 (2 - emax) <= B2R r <= bpow radix2 (emax - 1)).
  { replace (3 - emax)%Z with (2 - emax + 1)%Z in NR by lia. replace (emax - 1)%Z with (emax - 2 + 1)%Z by lia. rewrite bpow_plus in NR. rewrite bpow_plus. change (bpow radix2 1) with 2 in *.
    pose proof (bpow_gt_0 radix2 (2 - emax)). pose proof (bpow_gt_0 radix2 (emax - 2)). split; nra. }
  pose proof (bpow_gt_0 radix2 (2 - emax)) as BP.
  assert (RP : Rabs (B2R r) = B2R r) by (apply Rabs_pos_eq; lra).
  assert (TB : rnd (B2R r) <= bpow radix2 (emax - 1)).
  { rewrite <- (rnd_id prec emax (bpow radix2 (emax - 1))); [apply (rnd_le prec emax); lra|]. apply (fmt_bpow prec emax). lia. }
  assert (TN : 0 <= rnd (B2R r)) by (rewrite <- (rnd_0 prec emax); apply (rnd_le prec emax); lra).
  destruct (conv_value prec emax r Fr) as [Fc Vc]. { rewrite Rabs_pos_eq by exact TN. eapply Rle_lt_trans; [exact TB|]. apply bpow_lt. lia. }
  split; [exact Fc|]. rewrite Vc. pose proof (rnd_normal prec emax (B2R r)) as RN. rewrite RP in RN. specialize (RN ltac:(lra)).
  apply (rel_trans _ (B2R r)) with (e := u) (t := exp (ln 10 * d) * (1 + e2)); [lra|exact PY|exact RN|exact ER].
Qed.
Theorem C142_db2pow x : finite x -> bpow radix2 (4 - emax) <= ten (val x / 10) <= bpow radix2 (emax - 3) ->
  finite (f_db2pow prec emax dpow x) /\
  Rabs (val (f_db2pow prec emax dpow x) - ten (val x / 10)) <= (exp (ln 10 * (u * Rabs (val x / 10) + eta / 2)) * (1 + e2) * (1 + u) - 1) * ten (val x / 10).
Proof.
  intros F B. destruct (divided 10 x ltac:(lia) F) as [Fd D]. unfold f_db2pow. pose proof db_u as U.
  apply dpower_near; auto. apply factor_two; [lra|]. apply exponent_bound. split; [eapply Rle_trans; [|apply B]; apply bpow_le; lia|eapply Rle_trans; [apply B|]; apply bpow_le; lia].
Qed.
Theorem C142_power_roundtrip x : finite x -> bpow radix2 (4 - emax) <= val x <= bpow radix2 (emax - 3) ->
  exists m, f_pow2db prec emax flog10 x = Ok m /\ finite (f_db2pow prec emax dpow m) /\
  Rabs (val (f_db2pow prec emax dpow m) - val x) <= (exp (ln 10 * (((1 + e) * (1 + u) * (1 + u) - 1) * Rabs (lg (val x)) + eta / 2)) * (1 + e2) * (1 + u) - 1) * val x.
Proof.
  intros F B. pose proof (bpow_gt_0 radix2 (4 - emax)) as BP. destruct (proj1 (C142_pow2db x F) ltac:(lra)) as [m [M [Fm Em]]]. exists m. split; [exact M|].
  destruct (divided 10 m ltac:(lia) Fm) as [Fd D]. pose proof db_u as U. unfold f_db2pow. pose proof (ten_lg (val x) ltac:(lra)) as TL. set (y := lg (val x)) in *.
  rewrite <- TL. rewrite <- TL in B.
  assert (DD : Rabs (val (div m (ofz 10)) - y) <= ((1 + e) * (1 + u) * (1 + u) - 1) * Rabs y + eta / 2).
  { assert (E1 : Rabs (val m / 10 - y) <= ((1 + e) * (1 + u) - 1) * Rabs y).
    { replace (val m / 10 - y) with ((val m - 10 * y) / 10) by field. unfold Rdiv. rewrite Rabs_mult, (Rabs_pos_eq (/ 10)) by lra. rewrite Rabs_mult, (Rabs_pos_eq 10) in Em by lra. lra. }
    assert (E2 : Rabs (val m / 10) <= (1 + e) * (1 + u) * Rabs y). { replace (val m / 10) with ((val m / 10 - y) + y) by ring. eapply Rle_trans; [apply Rabs_triang|]. lra. }
    replace (val (div m (ofz 10)) - y) with ((val (div m (ofz 10)) - val m / 10) + (val m / 10 - y)) by ring. eapply Rle_trans; [apply Rabs_triang|].
    assert (u * Rabs (val m / 10) <= u * ((1 + e) * (1 + u) * Rabs y)) by (apply Rmult_le_compat_l; lra). lra. }
  apply dpower_near; auto. apply factor_two; [split; nra|]. apply exponent_bound. split; [eapply Rle_trans; [|apply B]; apply bpow_le; lia|eapply Rle_trans; [apply B|]; apply bpow_le; lia].
Qed.
(** For amplitudes between 2^-16 and 2^16 (about 96 dB either way) and library functions within two units,
    the round trip loses at most eighty units. *)
Lemma exp_small t : 0 <= t <= / 30 -> exp t <= 1 + 30 / 29 * t.
Proof.
  intros T. assert (H : 1 - t <= exp (- t)). { destruct (Req_dec t 0) as [->|N]; [rewrite Ropp_0, exp_0; lra|]. pose proof (exp_ineq1 (- t) ltac:(lra)). lra. }
  rewrite exp_Ropp in H. pose proof (exp_pos t) as P. set (w := exp t) in *. assert (I : / w * w = 1) by (apply Rinv_l; lra).
  assert (Q : (1 - t) * w <= / w * w) by (apply Rmult_le_compat_r; lra).
  assert (Z : 0 <= (1 - t) * (1 + 30 / 29 * t - w)) by nra. apply Rnot_lt_le. intros C. assert (0 < (1 - t) * (w - (1 + 30 / 29 * t))) by (apply Rmult_lt_0_compat; lra). lra.
Qed.
Lemma near_unity x k : 0 <= k <= 2 * u -> bpow radix2 (-16) <= x <= bpow radix2 16 ->
  exp (ln 10 * (((1 + k) * (1 + u) * (1 + u) - 1) * Rabs (lg x) + eta / 2)) - 1 <= 70 * u /\ 0 <= exp (ln 10 * (((1 + k) * (1 + u) * (1 + u) - 1) * Rabs (lg x) + eta / 2)) - 1.
Proof.
  intros K B. pose proof db_u as U. pose proof db_eta as H. pose proof ln2_bounds as L2. pose proof ln10_bounds as L10. pose proof (ln_range _ _ _ B) as [B1 B2].
  assert (A : Rabs (lg x) * ln 10 <= 16). { unfold lg, Rdiv. rewrite Rabs_mult, (Rabs_pos_eq (/ ln 10)) by (left; apply Rinv_0_lt_compat; lra). rewrite Rmult_assoc, Rinv_l, Rmult_1_r by lra. apply Rabs_le. lra. }
  set (d := (1 + k) * (1 + u) * (1 + u) - 1). assert (SQ : 0 <= u * u <= u * / 2048) by (split; [apply Rmult_le_pos; lra|apply Rmult_le_compat_l; lra]).
  assert (D : 0 <= d <= 4.01 * u).
  { assert (W : (1 + u) * (1 + u) = 1 + 2 * u + u * u) by ring. unfold d. rewrite Rmult_assoc, W. set (q := u * u) in *. assert (0 <= k * (2 * u + q)) by (apply Rmult_le_pos; lra).
    assert (k * (2 * u + q) <= 2 * u * (2 * / 2048 + / 2048)) by (apply Rmult_le_compat; lra). split; lra. }
  assert (P0 : 0 <= Rabs (lg x) * ln 10) by (apply Rmult_le_pos; [apply Rabs_pos|lra]).
  assert (P1 : d * (Rabs (lg x) * ln 10) <= 4.01 * u * 16) by (apply Rmult_le_compat; lra).
  assert (P2 : ln 10 * (eta / 2) <= 4 * (u / 250 / 2)) by (apply Rmult_le_compat; lra).
  assert (P3 : 0 <= ln 10 * (eta / 2)) by (apply Rmult_le_pos; lra).
  assert (P4 : 0 <= d * (Rabs (lg x) * ln 10)) by (apply Rmult_le_pos; lra).
  set (t := ln 10 * (d * Rabs (lg x) + eta / 2)). assert (T : 0 <= t <= 64.2 * u) by (unfold t; lra).
  pose proof (exp_small t ltac:(lra)) as X. assert (Y : exp 0 <= exp t) by (apply exp_le; lra). rewrite exp_0 in Y. split; lra.
Qed.
Theorem C142_audio_roundtrip x : e <= 2 * u -> e2 <= 2 * u -> (20 <= emax)%Z -> finite x -> bpow radix2 (-16) <= val x <= bpow radix2 16 ->
  (exists m, f_mag2db prec emax flog10 x = Ok m /\ Rabs (val (f_db2mag prec emax fpow m) - val x) <= 80 * u * val x) /\
  (exists m, f_pow2db prec emax flog10 x = Ok m /\ Rabs (val (f_db2pow prec emax dpow m) - val x) <= 80 * u * val x).
Proof.
  intros E1 E2 M F B. pose proof db_u as U. pose proof (bpow_gt_0 radix2 (-16)) as BP. destruct (near_unity (val x) e ltac:(lra) B) as [N N0].
  split.
  - destruct (C142_roundtrip x F) as [m [H1 [_ H2]]]. { split; [eapply Rle_trans; [|apply B]; apply bpow_le; lia|eapply Rle_trans; [apply B|]; apply bpow_le; lia]. }
    exists m. split; [exact H1|]. eapply Rle_trans; [exact H2|]. apply Rmult_le_compat_r; [lra|]. nra.
  - destruct (C142_power_roundtrip x F) as [m [H1 [_ H2]]]. { split; [eapply Rle_trans; [|apply B]; apply bpow_le; lia|eapply Rle_trans; [apply B|]; apply bpow_le; lia]. }
    exists m. split; [exact H1|]. eapply Rle_trans; [exact H2|]. apply Rmult_le_compat_r; [lra|].
    set (t := exp (ln 10 * (((1 + e) * (1 + u) * (1 + u) - 1) * Rabs (lg (val x)) + eta / 2))) in *.
    assert (Q : (1 + e2) * (1 + u) <= 1 + 3.01 * u) by nra. rewrite Rmult_assoc. assert (t * ((1 + e2) * (1 + u)) <= (1 + 70 * u) * (1 + 3.01 * u)) by (apply Rmult_le_compat; nra). nra.
Qed.
(** ** The equivalent level *)
Lemma squares_nonneg (l : list fl) : 0 <= squares prec emax l.
Proof. unfold squares. induction l as [|x l IH]; cbn [map fold_right]; [lra|]. pose proof (Rle_0_sqr (B2R x)) as Q. unfold Rsqr in Q. nra. Qed.
Lemma shrunk x n : finite x -> finite n -> 1 <= val n -> finite (div x n) /\ val (div x n) = rnd (val x / val n).
Proof.
  intros F Fn N0.
  assert (Q : Rabs (rnd (val x / val n)) <= Rabs (val x)).
  { assert (P : Rabs (val x / val n) <= Rabs (val x)).
    { unfold Rdiv. rewrite Rabs_mult, (Rabs_pos_eq (/ val n)) by (left; apply Rinv_0_lt_compat; lra). rewrite <- (Rmult_1_r (Rabs (val x))) at 2. apply Rmult_le_compat_l; [apply Rabs_pos|]. rewrite <- Rinv_1. apply Rinv_le_contravar; lra. }
    apply Rabs_le_inv in P. apply Rabs_le. split.
    - rewrite <- (rnd_id prec emax (- Rabs (val x))); [apply (rnd_le prec emax); lra|]. apply generic_format_opp, generic_format_abs, (fmt_val prec emax).
    - rewrite <- (rnd_id prec emax (Rabs (val x))); [apply (rnd_le prec emax); lra|]. apply generic_format_abs, (fmt_val prec emax). }
  pose proof (val_bound prec emax x) as B.
  destruct (div_cases prec emax x n F ltac:(lra)) as [[_ [V [G _]]]|[O _]]; [|exfalso; lra]. split; assumption.
Qed.
Lemma ln_near p P d : 0 < P -> 0 <= d <= / 2 -> Rabs (p - P) <= d * P -> Rabs (ln p - ln P) <= 2 * d.
Proof.
  intros HP HD H. apply Rabs_le_inv in H. assert (p0 : 0 < p) by nra.
  assert (up : forall a b, 0 < a -> 0 < b -> ln a - ln b <= a / b - 1).
  { intros a b Ha Hb. replace (ln a - ln b) with (ln (a / b)) by (unfold Rdiv; rewrite ln_mult, ln_Rinv by (auto using Rinv_0_lt_compat); ring).
    assert (Q : 0 < a / b) by (apply Rdiv_lt_0_compat; lra). pose proof (exp_ln (a / b) Q) as E. destruct (Req_dec (ln (a / b)) 0) as [Z|Z]; [rewrite Z, exp_0 in E; lra|]. pose proof (exp_ineq1 _ Z). lra. }
  pose proof (up p P p0 HP) as U1. pose proof (up P p HP p0) as U2.
  assert (A1 : p / P - 1 <= d). { apply Rmult_le_reg_r with P; [lra|]. replace ((p / P - 1) * P) with (p - P) by (field; lra). lra. }
  assert (A2 : P / p - 1 <= 2 * d). { apply Rmult_le_reg_r with p; [lra|]. replace ((P / p - 1) * p) with (P - p) by (field; lra). nra. }
  apply Rabs_le. lra.
Qed.
(** The level of a frame is that of its exact mean square, up to the error of the logarithm and the rounding of
    the sum; the frame must not overflow and its mean square must not be subnormal. *)
Theorem C142_leq l : let N := length l in let P := squares prec emax l / INR N in
  l <> [] -> (Z.of_nat N <= 2 ^ prec)%Z -> finite (f_energy prec emax l) -> bpow radix2 (3 - emax) <= P -> (1 + u) ^ (N + 3) - 1 <= / 2 ->
  exists r, f_leq prec emax flog10 l = Ok r /\ finite r /\
  Rabs (val r - 10 * lg P) <= ((1 + e) * (1 + u) - 1) * Rabs (10 * lg P) + (1 + e) * (1 + u) * (20 / ln 10) * ((1 + u) ^ (N + 3) - 1).
Proof.
  intros N P HN HL HF HP HD. pose proof db_u as U. pose proof ln10_pos as L10. pose proof (bpow_gt_0 radix2 (3 - emax)) as BP.
  assert (N1 : 1 <= INR N) by (change 1 with (INR 1); apply le_INR; unfold N; destruct l; [contradiction|cbn; lia]).
  destruct (C119_energy_error prec emax l HF) as [_ EE]. fold N in EE. set (S := squares prec emax l) in *.
  assert (SP : S = INR N * P) by (unfold P; field; lra).
  assert (P0 : 0 < P) by lra. assert (S0 : 0 < S) by (rewrite SP; apply Rmult_lt_0_compat; lra).
  assert (EU : smallest prec emax / 2 <= u * P / 2).
  { assert (SM : smallest prec emax = u * bpow radix2 (3 - emax)).
    { rewrite (smallest_tiny prec emax), (roundoff_u prec). unfold tiny, unit_roundoff. rewrite <- bpow_plus. f_equal. lia. }
    rewrite SM. assert (u * bpow radix2 (3 - emax) <= u * P) by (apply Rmult_le_compat_l; lra). lra. }
  assert (G : 1 <= (1 + u) ^ N) by (apply pow_R1_Rle; lra). set (g := (1 + u) ^ N) in *.
  assert (D1 : Rabs (val (f_energy prec emax l) - S) <= (g * (1 + u) * (1 + u) - 1) * S).
  { eapply Rle_trans; [exact EE|]. change ((1 + u) ^ Datatypes.S N) with ((1 + u) * g).
    assert (INR N * g * (smallest prec emax / 2) <= INR N * g * (u * P / 2)) by (apply Rmult_le_compat_l; [apply Rmult_le_pos; lra|exact EU]).
    replace (INR N * g * (u * P / 2)) with (g * u / 2 * S) in H by (rewrite SP; field). assert (0 <= g * u * S) by (apply Rmult_le_pos; [apply Rmult_le_pos|]; lra). assert (0 <= g * u * u * S) by (apply Rmult_le_pos; [apply Rmult_le_pos; [apply Rmult_le_pos|]|]; lra). lra. }
  assert (GD : (1 + u) ^ (N + 3) = g * (1 + u) * (1 + u) * (1 + u)) by (rewrite pow_add; fold g; ring). rewrite GD in *.
  destruct (of_nat_exact prec emax N HL) as [Fn Vn].
  destruct (shrunk (f_energy prec emax l) (of_nat prec emax N) HF Fn ltac:(rewrite Vn; lra)) as [Fp Vp]. rewrite Vn in Vp.
  change (div (f_energy prec emax l) (of_nat prec emax N)) with (f_power prec emax l) in *.
  set (E := val (f_energy prec emax l)) in *. set (p := val (f_power prec emax l)) in *.
  assert (D2 : Rabs (E / INR N - P) <= (g * (1 + u) * (1 + u) - 1) * P).
  { replace (E / INR N - P) with ((E - S) / INR N) by (rewrite SP; field; lra). unfold Rdiv. rewrite Rabs_mult, (Rabs_pos_eq (/ INR N)) by (left; apply Rinv_0_lt_compat; lra).
    replace ((g * (1 + u) * (1 + u) - 1) * P) with ((g * (1 + u) * (1 + u) - 1) * S * / INR N) by (rewrite SP; field; lra). apply Rmult_le_compat_r; [left; apply Rinv_0_lt_compat; lra|exact D1]. }
  assert (GB : g * (1 + u) * (1 + u) <= g * (1 + u) * (1 + u) * (1 + u)). { rewrite <- (Rmult_1_r (g * (1 + u) * (1 + u))) at 1. apply Rmult_le_compat_l; [|lra]. apply Rmult_le_pos; [apply Rmult_le_pos|]; lra. }
  assert (Q0 : bpow radix2 (2 - emax) <= E / INR N).
  { replace (3 - emax)%Z with (2 - emax + 1)%Z in HP by lia. rewrite bpow_plus in HP. change (bpow radix2 1) with 2 in HP. apply Rabs_le_inv in D2.
    assert ((g * (1 + u) * (1 + u) - 1) * P <= / 2 * P) by (apply Rmult_le_compat_r; lra). lra. }
  pose proof (bpow_gt_0 radix2 (2 - emax)) as BQ. pose proof (rnd_normal prec emax (E / INR N)) as RN. rewrite Rabs_pos_eq with (x := E / INR N) in RN by lra. specialize (RN Q0).
  assert (D3 : Rabs (p - P) <= (g * (1 + u) * (1 + u) * (1 + u) - 1) * P).
  { rewrite Vp. apply (rel_trans _ (E / INR N)) with (e := u) (t := g * (1 + u) * (1 + u)); auto; lra. }
  set (d := g * (1 + u) * (1 + u) * (1 + u) - 1) in *.
  assert (Dp : 0 <= d). { unfold d. assert (1 * 1 <= g * (1 + u)) by (apply Rmult_le_compat; lra). assert (1 * 1 * 1 <= g * (1 + u) * (1 + u)) by (apply Rmult_le_compat; lra). lra. }
  assert (pp : 0 < p). { apply Rabs_le_inv in D3. assert (d * P <= / 2 * P) by (apply Rmult_le_compat_r; lra). lra. }
  unfold f_leq. destruct (proj1 (C142_pow2db (f_power prec emax l) Fp) pp) as [r [R1 [R2 R3]]]. exists r. split; [exact R1|]. split; [exact R2|].
  pose proof (ln_near p P d P0 ltac:(lra) D3) as LN. fold p in R3.
  assert (LD : Rabs (10 * lg p - 10 * lg P) <= 20 / ln 10 * d).
  { unfold lg. replace (10 * (ln p / ln 10) - 10 * (ln P / ln 10)) with ((ln p - ln P) * (10 / ln 10)) by (field; lra). rewrite Rabs_mult, (Rabs_pos_eq (10 / ln 10)) by (left; apply Rdiv_lt_0_compat; lra).
    replace (20 / ln 10 * d) with (2 * d * (10 / ln 10)) by (field; lra). apply Rmult_le_compat_r; [left; apply Rdiv_lt_0_compat; lra|exact LN]. }
  set (k := (1 + e) * (1 + u)) in *. assert (K : 1 <= k) by (unfold k; nra).
  assert (LP : Rabs (10 * lg p) <= Rabs (10 * lg P) + 20 / ln 10 * d). { replace (10 * lg p) with ((10 * lg p - 10 * lg P) + 10 * lg P) by ring. eapply Rle_trans; [apply Rabs_triang|]. lra. }
  replace (val r - 10 * lg P) with ((val r - 10 * lg p) + (10 * lg p - 10 * lg P)) by ring. eapply Rle_trans; [apply Rabs_triang|].
  assert ((k - 1) * Rabs (10 * lg p) <= (k - 1) * (Rabs (10 * lg P) + 20 / ln 10 * d)) by (apply Rmult_le_compat_l; lra). lra.
Qed.
End Format.

(** ** Failures and a concrete case *)
(** A quiet but not silent frame: its mean square underflows and the contract of the conversion fails. *)
Definition quiet : double := binary_normalize 53 1024 eq_refl eq_refl mode_NE 1 (-600) false.
Theorem C142_leq_refuted : ~ (forall (flog10 : double -> double) (l : list double), all_finite l -> (exists x, In x l /\ B2R x <> 0) -> f_leq 53 1024 flog10 l <> UB).
Proof.
  intros H. apply (H (fun x => x) [quiet]); [constructor; [reflexivity|constructor]| |].
  - exists quiet. split; [left; reflexivity|]. intros Z. assert (P : Beqb quiet (dbl 0) = false) by (vm_compute; reflexivity).
    rewrite Beqb_correct in P by reflexivity. change (B2R (dbl 0)) with 0 in P. rewrite Z in P. rewrite Req_bool_true in P by reflexivity. discriminate.
  - unfold f_leq, f_pow2db. replace (flt 53 1024 (fzero 53 1024) (f_power 53 1024 [quiet])) with false by (vm_compute; reflexivity). reflexivity.
Qed.
(** Correctly rounded library functions of single precision meet the hypotheses. *)
Definition rlog (x : float) : float := FloatDesignProps.rounded lg x.
Definition rpow (b y : float) : float := FloatDesignProps.rounded ten y.
Lemma rounded_at h (x : float) : Rabs (h (B2R x)) <= bpow radix2 127 ->
  finite (rounded h x) /\ B2R (rounded h x) = round radix2 (FLT_exp (3 - 128 - 24) 24) ZnearestE (h (B2R x)).
Proof.
  intros B. unfold rounded. set (y := h (B2R x)) in *.
  pose proof (binary_normalize_correct 24 128 eq_refl eq_refl mode_NE (ZnearestE (scaled_mantissa radix2 (FLT_exp (3 - 128 - 24) 24) y)) (cexp radix2 (FLT_exp (3 - 128 - 24) 24) y) false) as C. cbv zeta in C.
  assert (I24 : Prec_gt_0 24) by reflexivity. assert (VF : Valid_exp (FLT_exp (3 - 128 - 24) 24)) by (apply FLT_exp_valid; exact I24).
  change (F2R (Float radix2 (ZnearestE (scaled_mantissa radix2 (FLT_exp (3 - 128 - 24) 24) y)) (cexp radix2 (FLT_exp (3 - 128 - 24) 24) y))) with (round radix2 (FLT_exp (3 - 128 - 24) 24) ZnearestE y) in C.
  change (round radix2 (SpecFloat.fexp 24 128) (round_mode mode_NE) (round radix2 (FLT_exp (3 - 128 - 24) 24) ZnearestE y)) with (round radix2 (FLT_exp (3 - 128 - 24) 24) ZnearestE (round radix2 (FLT_exp (3 - 128 - 24) 24) ZnearestE y)) in C.
  rewrite round_generic in C; [|auto with typeclass_instances|apply generic_format_round; auto with typeclass_instances].
  rewrite Rlt_bool_true in C; [destruct C as [C1 [C2 _]]; split; assumption|].
  apply Rle_lt_trans with (bpow radix2 127); [|apply bpow_lt; reflexivity]. apply abs_round_le_generic; auto with typeclass_instances. apply generic_format_bpow. unfold FLT_exp. cbn. lia.
Qed.
Lemma rpow_within : pow_within (roundoff 24) rpow.
Proof.
  intros b y _ _ F B. unfold rpow. pose proof (ten_pos (B2R y)) as P. destruct (rounded_at ten y) as [G V]; [rewrite Rabs_pos_eq by lra; exact (proj2 B)|].
  split; [exact G|]. rewrite V. pose proof (rnd_normal 24 128 (ten (B2R y))) as R. rewrite Rabs_pos_eq with (x := ten (B2R y)) in R by lra. apply R. exact (proj1 B).
Qed.
Lemma half_grid x : generic_format radix2 (FLT_exp (3 - 128 - 24) 24) x -> / 2 <= x -> x <> 1 -> bpow radix2 (-24) <= Rabs (x - 1).
Proof.
  intros F H N. destruct (FloatClockProps.multiple 24 128 x (-24) F) as [z Z]. { right. rewrite Rabs_pos_eq by lra. change (24 + -24 - 1)%Z with (-1)%Z. change (bpow radix2 (-1)) with (/ 2). exact H. }
  assert (O : 1 = IZR (2 ^ 24) * bpow radix2 (-24)) by (change (bpow radix2 (-24)) with (/ IZR (2 ^ 24)); rewrite Rinv_r; [reflexivity|apply IZR_neq; lia]).
  assert (E : x - 1 = IZR (z - 2 ^ 24) * bpow radix2 (-24)) by (rewrite minus_IZR, Rmult_minus_distr_r, <- O, <- Z; reflexivity).
  rewrite E, Rabs_mult, (Rabs_pos_eq (bpow radix2 (-24))) by apply bpow_ge_0. rewrite <- (Rmult_1_l (bpow radix2 (-24))) at 1. apply Rmult_le_compat_r; [apply bpow_ge_0|].
  rewrite <- abs_IZR. apply IZR_le. assert (z - 2 ^ 24 <> 0)%Z; [|lia]. intros C. apply N. rewrite C, Rmult_0_l in E. lra.
Qed.
Lemma lg_normal (x : float) : finite x -> 0 < B2R x -> B2R x <> 1 -> bpow radix2 (-126) <= Rabs (lg (B2R x)).
Proof.
  intros F P N. pose proof ln10_bounds as L10. pose proof ln2_bounds as L2. set (v := B2R x) in *.
  assert (K : bpow radix2 (-30) <= Rabs (ln v)).
  { assert (up : forall a, 0 < a -> ln a <= a - 1).
    { intros a Q. pose proof (exp_ln a Q) as E. destruct (Req_dec (ln a) 0) as [Z|Z]; [rewrite Z, exp_0 in E; lra|]. pose proof (exp_ineq1 _ Z). lra. }
    assert (S30 : bpow radix2 (-24) = 64 * bpow radix2 (-30)) by (replace (-24)%Z with (6 + -30)%Z by lia; rewrite bpow_plus; reflexivity). pose proof (bpow_gt_0 radix2 (-30)) as B30.
    assert (B30' : bpow radix2 (-30) <= / 2) by (change (/ 2) with (bpow radix2 (-1)); apply bpow_le; lia).
    pose proof (up v P) as U1. pose proof (up (/ v) (Rinv_0_lt_compat _ P)) as U2. rewrite ln_Rinv in U2 by exact P.
    destruct (Rlt_le_dec v (/ 2)) as [H|H]; [rewrite Rabs_left; lra|]. pose proof (half_grid v (FloatProofs.fmt_val 24 128 x) H N) as G.
    destruct (Rlt_le_dec v 1) as [H1|H1]; [rewrite Rabs_left in G by lra; rewrite Rabs_left by lra; lra|]. rewrite Rabs_pos_eq in G by lra. rewrite Rabs_pos_eq by (assert (/ v <= 1) by (rewrite <- Rinv_1; apply Rinv_le_contravar; lra); lra).
    destruct (Rlt_le_dec v 2) as [H2|H2].
    - assert (I : / v * v = 1) by (apply Rinv_l; lra). assert (J : / 2 <= / v) by (apply Rinv_le_contravar; lra). assert (K2 : / 2 * (v - 1) <= / v * (v - 1)) by (apply Rmult_le_compat_r; lra). lra.
    - assert (/ v <= / 2) by (apply Rinv_le_contravar; lra). lra. }
  unfold lg, Rdiv. rewrite Rabs_mult, (Rabs_pos_eq (/ ln 10)) by (left; apply Rinv_0_lt_compat; lra). apply Rmult_le_reg_r with (ln 10); [lra|]. rewrite Rmult_assoc, Rinv_l, Rmult_1_r by lra.
  eapply Rle_trans; [|exact K]. replace (-30)%Z with (-126 + 96)%Z by lia. rewrite bpow_plus. apply Rmult_le_compat_l; [apply bpow_ge_0|]. apply Rle_trans with 4; [lra|]. change 4 with (bpow radix2 2). apply bpow_le. lia.
Qed.
Lemma rlog_within : log_within (roundoff 24) rlog.
Proof.
  intros x F P. unfold rlog. destruct (rounded_at lg x) as [G V].
  { apply Rle_trans with 360; [apply (lg_bound 24 128); auto; cbn; lia|]. apply Rle_trans with (bpow radix2 9); [cbn; lra|apply bpow_le; lia]. }
  split; [exact G|]. rewrite V. destruct (Req_dec (B2R x) 1) as [E|E].
  - rewrite E. assert (L : lg 1 = 0) by (unfold lg; rewrite ln_1; field; pose proof ln10_pos; lra). rewrite L, (rnd_0 24 128), Rminus_0_r, Rabs_R0. lra.
  - apply (rnd_normal 24 128). apply lg_normal; assumption.
Qed.
(** The amplitude one half of a single precision signal survives a trip through decibels. *)
Example C142_ex (x : float) : finite x -> B2R x = / 2 -> exists m, f_mag2db 24 128 rlog x = Ok m /\ Rabs (B2R (f_db2mag 24 128 rpow m) - / 2) <= 40 * roundoff 24.
Proof.
  intros F V. assert (U : 0 < roundoff 24) by (unfold roundoff; apply Rinv_0_lt_compat, IZR_lt; reflexivity).
  destruct (C142_roundtrip 24 128 ltac:(cbn; lia) rlog (roundoff 24) rlog_within ltac:(lra) rpow (roundoff 24) rpow_within ltac:(lra) x F) as [m [M1 [_ M2]]].
  { rewrite V. change (/ 2) with (bpow radix2 (-1)). split; apply bpow_le; lia. }
  exists m. split; [exact M1|]. rewrite <- V. eapply Rle_trans; [exact M2|].
  destruct (near_unity 24 128 ltac:(cbn; lia) (B2R x) (roundoff 24) ltac:(lra)) as [N N0]. { rewrite V. change (/ 2) with (bpow radix2 (-1)). split; apply bpow_le; lia. }
  rewrite V in *. pose proof (db_u 24 128 ltac:(cbn; lia)) as U2. nra.
Qed.
Print Assumptions C142_mag2db.
Print Assumptions C142_pow2db.
Print Assumptions C142_nan.
Print Assumptions C142_unity.
Print Assumptions C142_db2mag.
Print Assumptions C142_roundtrip.
Print Assumptions C142_db2pow.
Print Assumptions C142_power_roundtrip.
Print Assumptions C142_audio_roundtrip.
Print Assumptions C142_leq.
Print Assumptions C142_leq_refuted.
