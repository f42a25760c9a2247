(** C145: the skewness and [logspace] in floating point. *)
From Coq Require Import ZArith Reals List Bool Lia Lra Psatz.
From Flocq Require Import Core BinarySingleNaN Relative.
From Verif Require Import Base FloatModel FloatSpec FloatProofs FloatProps FloatOrderProps FloatEnergyProps FloatWaveModel FloatWaveProps FloatNumModel FloatFeatModel FloatFeatProps FloatCentroidProps FloatCosineModel FloatCosineProps FloatDesignProps FloatDecibelProps FloatDiffModel FloatDiffProps FloatScaleModel FloatScaleProps FloatShapeModel FloatShapeProps FloatSpaceProps FloatErbProps FloatSkewModel.
Import ListNotations.
Local Open Scope R_scope.

Section Format.
Context (prec emax : Z) {Hprec : Prec_gt_0 prec} {Hmax : Prec_lt_emax prec emax}.
Notation fl := (binary_float prec emax).
Notation rnd := (round radix2 (FLT_exp (3 - emax - prec) prec) ZnearestE).
Notation val := (@B2R prec emax).
Notation add := (fadd prec emax).
Notation sub := (fsub prec emax).
Notation mul := (fmul prec emax).
Notation div := (fdiv prec emax).
Notation zero := (fzero prec emax).
Notation u := (roundoff prec).
Notation eta := (smallest prec emax).
Hypothesis Sizes : (24 <= prec <= 53)%Z /\ (128 <= emax <= 1024)%Z.

(** The mean of the [j]-th powers of the distances to [m]; [quads] is that of the signed deviations. *)
Definition distances (j : nat) (m : R) (l : list fl) : R := sum_of (fun x => Rabs (x - m) ^ j) l / INR (length l).

Lemma rel_chain e1 e2 z y x : 0 <= e1 -> 0 <= e2 -> Rabs (z - y) <= e1 * Rabs y -> Rabs (y - x) <= e2 * Rabs x -> Rabs (z - x) <= ((1 + e1) * (1 + e2) - 1) * Rabs x.
Proof.
  intros H1 H2 A B. assert (Y : Rabs y <= (1 + e2) * Rabs x) by (replace y with ((y - x) + x) by ring; eapply Rle_trans; [apply Rabs_triang|]; lra).
  replace (z - x) with ((z - y) + (y - x)) by ring. eapply Rle_trans; [apply Rabs_triang|]. assert (e1 * Rabs y <= e1 * ((1 + e2) * Rabs x)) by (apply Rmult_le_compat_l; lra). lra.
Qed.
Lemma pow_le_1 x j : 0 <= x <= 1 -> x ^ j <= 1.
Proof. intros H. induction j as [|j IH]; [cbn; lra|]. cbn [pow]. rewrite <- (Rmult_1_l 1). apply Rmult_le_compat; try lra. apply pow_le. lra. Qed.
Lemma eta_half : eta / 2 = bpow radix2 (2 - emax - prec).
Proof.
  destruct Sizes as [S1 S2]. unfold smallest. rewrite (IZR_Zpower radix2) by lia. rewrite <- bpow_opp. replace (- (emax + prec - 3))%Z with (1 + (2 - emax - prec))%Z by ring. rewrite bpow_plus. change (bpow radix2 1) with 2. field.
Qed.
Lemma u_bpow : u = bpow radix2 (- prec).
Proof. destruct Sizes as [S1 S2]. unfold roundoff. rewrite (IZR_Zpower radix2) by lia. rewrite <- bpow_opp. reflexivity. Qed.

Section Cubes.
Context (a : Z) (l : list fl) (m : fl).
Hypothesis A0 : (0 <= a)%Z.
Hypothesis A1 : (7 * a + 2 * prec + 12 <= emax)%Z.
Hypothesis N : l <> [].
Hypothesis L : (Z.of_nat (length l) <= 2 ^ (prec - 1))%Z.
Hypothesis Fm : finite m.
Hypothesis Dev : forall x, In x l -> finite x /\ finite (sub x m) /\ (val (sub x m) = 0 \/ bpow radix2 (- a) <= Rabs (val (sub x m)) <= bpow radix2 a).
Hypothesis Some_dev : exists x, In x l /\ val (sub x m) <> 0.
Lemma cube_term x : In x l -> let c := (val x - val m) ^ 3 in let g := f_nth_power prec emax 3 (sub x m) in
  finite g /\ Rabs (val g - c) <= ((1 + u) ^ 5 - 1) * Rabs c /\ Rabs (val g) <= 2 * bpow radix2 (3 * a).
Proof.
  intros I c g. destruct Sizes as [S1 S2]. pose proof (u_tiny prec emax Sizes) as U. destruct (Dev x I) as [Fx [Fd Rd]]. destruct (sub_fin prec emax _ _ Fd) as [_ [_ V]].
  assert (FO : generic_format radix2 (FLT_exp (3 - emax - prec) prec) (- val m)) by (apply generic_format_opp, (fmt_val prec emax)). pose proof (add_err prec emax (val x) (- val m) (fmt_val prec emax x) FO) as ED. rewrite <- (roundoff_u prec) in ED. change (val x + - val m) with (val x - val m) in ED. rewrite <- V in ED. set (d := sub x m) in *. set (t := val x - val m) in *.
  destruct (pow_rel prec emax Sizes a d 2 A0 ltac:(lia) Fd Rd ltac:(lia)) as [Fg [_ Bg]]. change (fpow_loop prec emax d 2 d) with g in Fg, Bg.
  assert (BA : forall k z, bpow radix2 z ^ k = bpow radix2 (Z.of_nat k * z)). { intros k z. induction k as [|k IHk]; [reflexivity|]. cbn [pow]. rewrite IHk, <- bpow_plus. f_equal. lia. }
  split; [exact Fg|]. split.
  - destruct (pow_rel prec emax Sizes a d 1 A0 ltac:(lia) Fd Rd ltac:(lia)) as [F2 _]. change (fpow_loop prec emax d 1 d) with (mul d d) in F2. change g with (mul (mul d d) d) in *.
    destruct (mul_fin prec emax _ _ Fg) as [_ [_ V3]]. destruct (mul_fin prec emax _ _ F2) as [_ [_ V2]].
    destruct Rd as [Z|Rd].
    + assert (T : t = 0). { rewrite Z in ED. destruct (Req_dec t 0) as [T|T]; [exact T|]. pose proof (Rabs_pos_lt _ T) as TP. unfold Rminus in ED. rewrite Rplus_0_l, Rabs_Ropp in ED. assert (u * Rabs t <= / 16777216 * Rabs t) by (apply Rmult_le_compat_r; lra). lra. }
      rewrite V3, Z, Rmult_0_r, (rnd_0 prec emax). unfold c. rewrite T. replace (0 - 0 ^ 3) with 0 by ring. rewrite Rabs_R0. replace (0 ^ 3) with 0 by ring. rewrite Rabs_R0. lra.
    + pose proof (bpow_gt_0 radix2 (- a)) as PA. set (r := Rabs (val d)) in *. assert (Q2 : bpow radix2 (- a) ^ 2 <= r ^ 2) by (apply pow_incr; lra). rewrite BA in Q2.
      assert (E2 : Rabs (val (mul d d) - val d * val d) <= u * Rabs (val d * val d)). { rewrite V2. apply (rnd_normal prec emax). rewrite Rabs_mult. fold r. replace (r * r) with (r ^ 2) by ring. eapply Rle_trans; [|exact Q2]. apply bpow_le. lia. }
      assert (A2 : (1 - u) * r ^ 2 <= Rabs (val (mul d d))). { apply abs_rel in E2; [|lra]. rewrite Rabs_mult in E2. fold r in E2. replace (r ^ 2) with (r * r) by ring. apply E2. }
      assert (E3 : Rabs (val (mul (mul d d) d) - val (mul d d) * val d) <= u * Rabs (val (mul d d) * val d)). { rewrite V3. apply (rnd_normal prec emax). rewrite Rabs_mult. fold r. apply Rle_trans with (bpow radix2 (-1 + Z.of_nat 2 * - a + - a)); [apply bpow_le; lia|]. rewrite !bpow_plus. change (bpow radix2 (-1)) with (/ 2). pose proof (bpow_gt_0 radix2 (Z.of_nat 2 * - a)). apply Rmult_le_compat; [apply Rmult_le_pos; lra|lra| |lra]. eapply Rle_trans; [|exact A2]. apply Rmult_le_compat; lra. }
      assert (E23 : Rabs (val (mul d d) * val d - val d * val d * val d) <= u * Rabs (val d * val d * val d)). { rewrite <- Rmult_minus_distr_r, (Rabs_mult _ (val d)), (Rabs_mult (val d * val d)), <- Rmult_assoc. apply Rmult_le_compat_r; [apply Rabs_pos|exact E2]. }
      pose proof (rel_chain u u _ _ _ ltac:(lra) ltac:(lra) E3 E23) as E4.
      assert (D1 : Rabs (val d * val d - t * t) <= ((1 + u) * (1 + u) - 1) * Rabs (t * t)). { apply (rel_chain u u _ (val d * t)); try lra. - rewrite <- Rmult_minus_distr_l, !Rabs_mult. replace (u * (Rabs (val d) * Rabs t)) with (Rabs (val d) * (u * Rabs t)) by ring. apply Rmult_le_compat_l; [apply Rabs_pos|exact ED]. - rewrite <- Rmult_minus_distr_r, !Rabs_mult, <- Rmult_assoc. apply Rmult_le_compat_r; [apply Rabs_pos|exact ED]. }
      assert (UU : 0 <= (1 + u) * (1 + u) - 1) by nra. assert (D2 : Rabs (val d * val d * val d - c) <= ((1 + u) * (1 + ((1 + u) * (1 + u) - 1)) - 1) * Rabs c). { apply (rel_chain u _ _ (val d * val d * t)); try lra. - rewrite <- Rmult_minus_distr_l, !Rabs_mult. replace (u * (Rabs (val d) * Rabs (val d) * Rabs t)) with (Rabs (val d) * Rabs (val d) * (u * Rabs t)) by ring. apply Rmult_le_compat_l; [apply Rmult_le_pos; apply Rabs_pos|exact ED]. - unfold c. replace (t ^ 3) with (t * t * t) by ring. rewrite <- Rmult_minus_distr_r, (Rabs_mult _ t), (Rabs_mult (t * t)), <- Rmult_assoc. apply Rmult_le_compat_r; [apply Rabs_pos|exact D1]. }
      assert (UV : 0 <= (1 + u) * (1 + ((1 + u) * (1 + u) - 1)) - 1) by nra. pose proof (rel_chain _ _ _ _ _ UU UV E4 D2) as E5. replace ((1 + u) ^ 5 - 1) with ((1 + ((1 + u) * (1 + u) - 1)) * (1 + ((1 + u) * (1 + ((1 + u) * (1 + u) - 1)) - 1)) - 1) by ring. exact E5.
  - eapply Rle_trans; [exact Bg|]. apply Rmult_le_compat; [apply pow_le; lra|apply pow_le, Rabs_pos| |]; [cbn [pow]; nra|]. replace (3 * a)%Z with (Z.of_nat 3 * a)%Z by lia. rewrite <- BA. apply pow_incr. split; [apply Rabs_pos|]. destruct Rd as [Z|[_ R]]; [rewrite Z, Rabs_R0; apply bpow_ge_0|exact R].
Qed.
Lemma third_moment : let n := length l in let A3 := distances 3 (val m) l in let m3 := f_nth_moment prec emax 3 l m in
  bpow radix2 (- (3 * a) - prec - 2) <= A3 /\ Rabs (quads prec emax 3 (val m) l) <= A3 /\ finite m3 /\ Rabs (val m3 - quads prec emax 3 (val m) l) <= ((1 + u) ^ (n + 6) - 1) * A3 /\ Rabs (val m3) <= bpow radix2 (3 * a + 3).
Proof.
  intros n A3 m3. destruct Sizes as [S1 S2]. pose proof (u_tiny prec emax Sizes) as U. pose proof (n_pos prec emax l N) as P. fold n in P. assert (L' : (Z.of_nat n <= 2 ^ prec)%Z) by (eapply Z.le_trans; [exact L|]; apply Z.pow_le_mono_r; lia).
  set (f := fun z : R => (z - val m) ^ 3). set (g := fun x => f_nth_power prec emax 3 (sub x m)). assert (NB : INR n <= bpow radix2 (prec - 1)) by (rewrite INR_IZR_INZ, <- IZR_Zpower by lia; apply IZR_le; exact L).
  assert (K5 : 0 <= (1 + u) ^ 5 - 1 <= 1) by (split; cbn [pow]; nra).
  destruct (terms_near prec emax g f ((1 + u) ^ 5 - 1) 0 l ltac:(lra) ltac:(lra)) as [T1 T2]. { intros x I. rewrite Rplus_0_r. apply (cube_term x I). }
  rewrite Rmult_0_r, Rplus_0_r in T1, T2. fold n in T1, T2. pose proof (sum_of_abs prec emax f l) as SA. set (S := sum_of f l) in *. set (SA' := sum_of (fun x => Rabs (f x)) l) in *.
  assert (EA : A3 = SA' / INR n). { unfold A3, distances, SA'. fold n. f_equal. unfold sum_of. f_equal. apply map_ext. intros x. unfold f. apply RPow_abs. }
  assert (I : 0 < / INR n) by (apply Rinv_0_lt_compat; lra).
  assert (AL : bpow radix2 (- (3 * a) - prec - 2) <= A3).
  { destruct Some_dev as [x [Ix X]]. assert (D : bpow radix2 (- (3 * a) - 3) <= Rabs (f (val x))).
    { destruct (Dev x Ix) as [Fx [Fd Rd]]. destruct Rd as [Z|[Rd _]]; [contradiction|]. destruct (sub_fin prec emax _ _ Fd) as [_ [_ V]].
      assert (FO : generic_format radix2 (FLT_exp (3 - emax - prec) prec) (- val m)) by (apply generic_format_opp, (fmt_val prec emax)). pose proof (add_err prec emax (val x) (- val m) (fmt_val prec emax x) FO) as ED. rewrite <- (roundoff_u prec) in ED. change (val x + - val m) with (val x - val m) in ED. rewrite <- V in ED. apply abs_rel in ED; [|lra]. unfold f. rewrite <- RPow_abs. set (r := Rabs (val x - val m)) in *. pose proof (Rabs_pos (val x - val m)) as R0. fold r in R0.
      assert (RL : bpow radix2 (- a - 1) <= r). { replace (- a - 1)%Z with (-1 + - a)%Z by ring. rewrite bpow_plus. change (bpow radix2 (-1)) with (/ 2). assert (u * r <= / 16777216 * r) by (apply Rmult_le_compat_r; lra). lra. }
      apply Rle_trans with (bpow radix2 (- a - 1) ^ 3); [|apply pow_incr; split; [apply bpow_ge_0|exact RL]]. cbn [pow]. rewrite Rmult_1_r, <- !bpow_plus. apply bpow_le. lia. }
    assert (SX : Rabs (f (val x)) <= SA'). { clear -Ix. unfold SA', sum_of. induction l as [|y t IH]; [destruct Ix|]. cbn [map fold_right]. pose proof (sum_of_abs prec emax f t) as Q. unfold sum_of in Q. destruct Ix as [->|Ix]; [lra|]. specialize (IH Ix). pose proof (Rabs_pos (f (val y))). lra. }
    rewrite EA. unfold Rdiv. replace (- (3 * a) - prec - 2)%Z with ((- (3 * a) - 3) + - (prec - 1))%Z by ring. rewrite bpow_plus. apply Rmult_le_compat; try apply bpow_ge_0; [lra|]. rewrite bpow_opp. apply Rinv_le_contravar; lra. }
  split; [exact AL|]. assert (QA : Rabs (quads prec emax 3 (val m) l) <= A3). { rewrite EA. unfold quads. fold n. change (sum_of (fun x => (x - val m) ^ 3) l) with S. unfold Rdiv. rewrite Rabs_mult, (Rabs_pos_eq (/ INR n)) by lra. apply Rmult_le_compat_r; lra. } split; [exact QA|].
  assert (AF : all_finite (map g l)) by (apply Forall_forall; intros t Q; apply in_map_iff in Q; destruct Q as [x [<- Q]]; apply (cube_term x Q)).
  assert (AT : abs_total (map g l) <= 2 * bpow radix2 (3 * a) * INR n). { assert (G : forall x, In x l -> Rabs (val (g x)) <= 2 * bpow radix2 (3 * a)) by (intros x Q; apply (cube_term x Q)). clear -G. unfold abs_total, n. induction l as [|x t IH]; [cbn; lra|]. cbn [map fold_right]. change (length (x :: t)) with (Datatypes.S (length t)). rewrite S_INR. specialize (IH ltac:(intros; apply G; right; auto)). pose proof (G x (or_introl eq_refl)). lra. }
  assert (AT0 : 0 <= abs_total (map g l)) by (clear; unfold abs_total; induction (map g l) as [|x t IH]; cbn; [lra|]; pose proof (Rabs_pos (val x)); lra).
  assert (PE : IZR (2 ^ emax) = bpow radix2 emax) by (apply (IZR_Zpower radix2); lia). pose proof (pow_le_3 prec emax Sizes n L') as K3. pose proof (pow_ge_1 prec n) as K1. pose proof (bpow_gt_0 radix2 (3 * a)) as PB.
  assert (Fs : finite (f_sum prec emax (map g l))).
  { apply C115_sum_finite; [exact AF|]. rewrite map_length, PE. fold n. apply Rle_lt_trans with (4 * (2 * bpow radix2 (3 * a) * bpow radix2 (prec - 1))). { apply Rmult_le_compat; try lra. eapply Rle_trans; [exact AT|]. apply Rmult_le_compat_l; lra. }
    replace (4 * (2 * bpow radix2 (3 * a) * bpow radix2 (prec - 1))) with (bpow radix2 3 * bpow radix2 (3 * a) * bpow radix2 (prec - 1)) by (change (bpow radix2 3) with 8; ring). rewrite <- !bpow_plus. apply bpow_lt. lia. }
  destruct (sum_error prec emax (map g l) Fs) as [_ SE]. rewrite map_length in SE. fold n in SE. set (s := f_sum prec emax (map g l)) in *.
  assert (MM : m3 = div s (of_nat prec emax n)). { unfold m3, f_nth_moment, s, f_sum. rewrite (fold_map prec emax g). reflexivity. }
  assert (N1 : (1 <= n)%nat) by (unfold n; destruct l; [contradiction|cbn; lia]). pose proof (pow_ge_1 prec (n - 1)) as KN.
  assert (E1 : Rabs (val s - S) <= ((1 + u) ^ (n + 4) - 1) * SA'). { replace (val s - S) with ((val s - total (map g l)) + (total (map g l) - S)) by ring. eapply Rle_trans; [apply Rabs_triang|]. replace (n + 4)%nat with ((n - 1) + 5)%nat by lia. rewrite (pow_add _ (n - 1)). assert (X : ((1 + u) ^ (n - 1) - 1) * abs_total (map g l) <= ((1 + u) ^ (n - 1) - 1) * ((1 + ((1 + u) ^ 5 - 1)) * SA')) by (apply Rmult_le_compat_l; lra). lra. }
  destruct (of_nat_exact prec emax n L') as [Fn Vn]. set (q := val s / INR n).
  assert (SU : Rabs (val s) <= 6 * bpow radix2 (3 * a) * INR n). { assert (X : Rabs (total (map g l)) <= abs_total (map g l)). { clear. unfold abs_total, total. induction (map g l) as [|x t IH]; cbn [map fold_right]; [rewrite Rabs_R0; lra|]. eapply Rle_trans; [apply Rabs_triang|]. lra. } assert (Y : (1 + u) ^ (n - 1) * abs_total (map g l) <= 3 * (2 * bpow radix2 (3 * a) * INR n)). { apply Rmult_le_compat; try lra. apply Rle_trans with ((1 + u) ^ n); [apply Rle_pow; [lra|lia]|exact K3]. } replace (val s) with ((val s - total (map g l)) + total (map g l)) by ring. eapply Rle_trans; [apply Rabs_triang|]. lra. }
  assert (QU : Rabs q <= 6 * bpow radix2 (3 * a)). { unfold q, Rdiv. rewrite Rabs_mult, (Rabs_pos_eq (/ INR n)) by lra. apply Rmult_le_reg_r with (INR n); [exact P|]. rewrite Rmult_assoc, Rinv_l, Rmult_1_r by lra. exact SU. }
  assert (VE : Valid_exp (FLT_exp (3 - emax - prec) prec)) by (apply FLT_exp_valid; exact Hprec).
  assert (QB : Rabs (rnd q) <= bpow radix2 (3 * a + 3)). { apply abs_round_le_generic; auto with typeclass_instances; [apply (fmt_bpow prec emax); lia|]. rewrite bpow_plus. change (bpow radix2 3) with 8. lra. }
  assert (BB : bpow radix2 (3 * a + 3) < bpow radix2 emax) by (apply bpow_lt; lia).
  assert (N0 : val (of_nat prec emax n) <> 0) by (rewrite Vn; lra). destruct (div_cases prec emax s (of_nat prec emax n) Fs N0) as [[_ [V [F _]]]|[O _]]; [rewrite Vn in V; fold q in V|exfalso; rewrite Vn in O; fold q in O; lra].
  rewrite MM. split; [exact F|]. rewrite V. split; [|exact QB].
  pose proof (rnd_err prec emax q) as D. rewrite <- (roundoff_u prec), <- (smallest_tiny prec emax) in D.
  assert (E2 : Rabs (q - quads prec emax 3 (val m) l) <= ((1 + u) ^ (n + 4) - 1) * A3). { rewrite EA. unfold q, quads. fold n. change (sum_of (fun x => (x - val m) ^ 3) l) with S. unfold Rdiv. rewrite <- Rmult_minus_distr_r, Rabs_mult, (Rabs_pos_eq (/ INR n)), <- Rmult_assoc by lra. apply Rmult_le_compat_r; lra. }
  assert (QA2 : Rabs q <= (1 + u) ^ (n + 4) * A3) by (replace q with ((q - quads prec emax 3 (val m) l) + quads prec emax 3 (val m) l) by ring; eapply Rle_trans; [apply Rabs_triang|]; lra).
  assert (EH : eta / 2 <= u * A3). { rewrite eta_half, u_bpow. apply Rle_trans with (bpow radix2 (- prec) * bpow radix2 (- (3 * a) - prec - 2)); [rewrite <- bpow_plus; apply bpow_le; lia|]. apply Rmult_le_compat_l; [apply bpow_ge_0|exact AL]. }
  assert (UQ : u * Rabs q <= u * ((1 + u) ^ (n + 4) * A3)) by (apply Rmult_le_compat_l; lra). replace (rnd q - quads prec emax 3 (val m) l) with ((rnd q - q) + (q - quads prec emax 3 (val m) l)) by ring. eapply Rle_trans; [apply Rabs_triang|].
  replace (n + 6)%nat with (Datatypes.S (Datatypes.S (n + 4))) by lia. cbn [pow]. set (p := (1 + u) ^ (n + 4)) in *. assert (P1 : 1 <= p) by (apply (pow_ge_1 prec)). assert (A30 : 0 <= A3) by (pose proof (bpow_ge_0 radix2 (- (3 * a) - prec - 2)); lra).
  assert (PU : u * A3 <= u * ((1 + u) * p) * A3) by (apply Rmult_le_compat_r; [exact A30|]; nra). lra.
Qed.
Lemma skew_core : m = f_mean prec emax l -> let n := length l in let M2 := quads prec emax 2 (val m) l in let c := M2 * sqrt M2 in let v := f_skewness prec emax l in
  0 < c /\ finite v /\ Rabs (val v - quads prec emax 3 (val m) l / c) <= ((1 + u) ^ (n + 8) / (1 - u) ^ (2 * n + 10) - 1) * (distances 3 (val m) l / c).
Proof.
  intros Em n M2 c v. destruct Sizes as [S1 S2]. pose proof (u_tiny prec emax Sizes) as U. destruct third_moment as [AL [QA [F3 [E3 B3]]]]. fold n in E3. set (A3 := distances 3 (val m) l) in *. set (M3 := quads prec emax 3 (val m) l) in *. set (m3 := f_nth_moment prec emax 3 l m) in *.
  assert (A4 : (4 * a + 2 * prec + 8 <= emax)%Z) by lia. destruct (even_moment_rel prec emax Sizes a l m A0 A4 N L Dev Some_dev 1 (or_introl eq_refl)) as [F2 [M20 [B2 R2]]]. fold n in B2. change (quads prec emax (Datatypes.S 1) (val m) l) with M2 in B2, M20. change (f_nth_moment prec emax (Datatypes.S 1) l m) with (f_nth_moment prec emax 2 l m) in *. set (m2 := f_nth_moment prec emax 2 l m) in *. replace (n + 2 * 1 + 2)%nat with (n + 4)%nat in B2 by lia. change (Z.of_nat 2) with 2%Z in R2.
  assert (c0 : 0 < c) by (apply Rmult_lt_0_compat; [exact M20|apply sqrt_lt_R0; exact M20]). split; [exact c0|].
  pose proof (bpow_gt_0 radix2 (- (2 * a) - prec - 2)) as PB. assert (m20 : 0 < val m2) by lra. assert (NN : nn prec emax m2) by (apply (nn_fin prec emax); [exact F2|lra]). destruct (proj2 (sqrt_nn prec emax m2 NN) F2) as [Fr Vr]. set (r := fsqrt prec emax m2) in *.
  assert (SL : bpow radix2 (- (2 * a) - prec - 2) <= sqrt (val m2)). { destruct (Rle_lt_dec 1 (val m2)) as [G|G]. - apply Rle_trans with 1; [change 1 with (bpow radix2 0); apply bpow_le; lia|]. rewrite <- sqrt_1. apply sqrt_le_1; lra. - eapply Rle_trans; [apply R2|]. rewrite <- (sqrt_square (val m2)) at 1 by lra. apply sqrt_le_1; [nra|lra|nra]. }
  assert (SU : sqrt (val m2) <= bpow radix2 (2 * a + 3)). { destruct (Rle_lt_dec 1 (val m2)) as [G|G]. - eapply Rle_trans; [|apply R2]. rewrite <- (sqrt_square (val m2)) at 2 by lra. apply sqrt_le_1; [lra|nra|nra]. - apply Rle_trans with 1; [rewrite <- sqrt_1; apply sqrt_le_1; lra|change 1 with (bpow radix2 0); apply bpow_le; lia]. }
  pose proof (sqrt_pos (val m2)) as SP. assert (ER : Rabs (val r - sqrt (val m2)) <= u * Rabs (sqrt (val m2))). { rewrite Vr. apply (rnd_normal prec emax). rewrite Rabs_pos_eq by exact SP. eapply Rle_trans; [|exact SL]. apply bpow_le. lia. } rewrite (Rabs_pos_eq _ SP) in ER. apply Rabs_le_inv in ER.
  assert (USP : u * sqrt (val m2) <= / 16777216 * sqrt (val m2)) by (apply Rmult_le_compat_r; lra). pose proof (bpow_gt_0 radix2 (2 * a + 3)) as PC.
  assert (PR : bpow radix2 (2 * (- (2 * a) - prec - 2) - 1) <= val m2 * val r <= bpow radix2 (2 * (2 * a + 3) + 1)).
  { split.
    - replace (2 * (- (2 * a) - prec - 2) - 1)%Z with ((- (2 * a) - prec - 2) + (-1 + (- (2 * a) - prec - 2)))%Z by ring. rewrite bpow_plus, (bpow_plus radix2 (-1)). change (bpow radix2 (-1)) with (/ 2). apply Rmult_le_compat; lra.
    - replace (2 * (2 * a + 3) + 1)%Z with ((2 * a + 3) + (1 + (2 * a + 3)))%Z by ring. rewrite bpow_plus, (bpow_plus radix2 1). change (bpow radix2 1) with 2. apply Rmult_le_compat; lra. }
  pose proof (bpow_gt_0 radix2 (2 * (- (2 * a) - prec - 2) - 1)) as PD. assert (PA : Rabs (val m2 * val r) = val m2 * val r) by (apply Rabs_pos_eq; lra).
  assert (RG : val m2 * val r = 0 \/ bpow radix2 (2 - emax) <= Rabs (val m2 * val r) <= bpow radix2 (emax - 1)). { right. rewrite PA. split; [eapply Rle_trans; [|apply PR]; apply bpow_le; lia|eapply Rle_trans; [apply PR|]; apply bpow_le; lia]. }
  destruct (mul_rel prec emax Sizes m2 r F2 Fr RG) as [FD ED]. rewrite PA in ED. apply Rabs_le_inv in ED. set (D := mul m2 r) in *.
  assert (K1 : 0 < (1 - u) ^ (n + 4)) by (apply pow_lt; lra). assert (K2 : (1 - u) ^ (n + 4) <= 1) by (apply pow_le_1; lra). pose proof (pow_ge_1 prec (n + 4)) as K3. set (k1 := (1 - u) ^ (n + 4)) in *. set (k2 := (1 + u) ^ (n + 4)) in *. pose proof (sqrt_lt_R0 _ M20) as SM.
  assert (Q1 : 0 <= k1 * k1 <= k1) by (split; [apply Rmult_le_pos; lra|rewrite <- (Rmult_1_r k1) at 3; apply Rmult_le_compat_l; lra]). assert (Q2 : k2 <= k2 * k2) by (rewrite <- (Rmult_1_r k2) at 1; apply Rmult_le_compat_l; lra). assert (Q20 : 0 <= k2 * k2) by lra.
  assert (SB : k1 * sqrt M2 <= sqrt (val m2) <= k2 * sqrt M2).
  { split.
    - replace (k1 * sqrt M2) with (sqrt (k1 * k1) * sqrt M2) by (rewrite sqrt_square by lra; reflexivity). rewrite <- sqrt_mult by lra. apply sqrt_le_1; [apply Rmult_le_pos; lra|lra|]. eapply Rle_trans; [|apply B2]. apply Rmult_le_compat_r; lra.
    - replace (k2 * sqrt M2) with (sqrt (k2 * k2) * sqrt M2) by (rewrite sqrt_square by lra; reflexivity). rewrite <- sqrt_mult by lra. apply sqrt_le_1; [lra|apply Rmult_le_pos; lra|]. eapply Rle_trans; [apply B2|]. apply Rmult_le_compat_r; lra. }
  assert (RB : (1 - u) * k1 * sqrt M2 <= val r <= (1 + u) * k2 * sqrt M2). { rewrite !Rmult_assoc. split; [apply Rle_trans with ((1 - u) * sqrt (val m2)); [apply Rmult_le_compat_l; lra|lra]|apply Rle_trans with ((1 + u) * sqrt (val m2)); [lra|apply Rmult_le_compat_l; lra]]. }
  assert (r0 : 0 < val r) by lra.
  assert (DB : (1 - u) ^ (2 * n + 10) * c <= val D <= (1 + u) ^ (2 * n + 10) * c).
  { replace (2 * n + 10)%nat with (2 + ((n + 4) + (n + 4)))%nat by lia. rewrite !(pow_add _ 2), !(pow_add _ (n + 4)). fold k1 k2. unfold c.
    assert (X1 : k1 * M2 * ((1 - u) * k1 * sqrt M2) <= val m2 * val r). { apply Rmult_le_compat; [apply Rmult_le_pos; lra| |lra|lra]. apply Rmult_le_pos; [apply Rmult_le_pos; lra|lra]. }
    assert (X2 : val m2 * val r <= k2 * M2 * ((1 + u) * k2 * sqrt M2)) by (apply Rmult_le_compat; lra). split.
    - replace ((1 - u) ^ 2 * (k1 * k1) * (M2 * sqrt M2)) with ((1 - u) * (k1 * M2 * ((1 - u) * k1 * sqrt M2))) by ring. apply Rle_trans with ((1 - u) * (val m2 * val r)); [apply Rmult_le_compat_l; lra|lra].
    - replace ((1 + u) ^ 2 * (k2 * k2) * (M2 * sqrt M2)) with ((1 + u) * (k2 * M2 * ((1 + u) * k2 * sqrt M2))) by ring. apply Rle_trans with ((1 + u) * (val m2 * val r)); [lra|apply Rmult_le_compat_l; lra]. }
  set (k := (2 * n + 10)%nat) in *. assert (KK : 0 < (1 - u) ^ k) by (apply pow_lt; lra). assert (KP : (1 + u) ^ k * (1 - u) ^ k <= 1). { rewrite <- Rpow_mult_distr. apply pow_le_1. nra. } assert (KG : 1 <= (1 + u) ^ k) by (apply (pow_ge_1 prec)).
  set (j1 := (1 - u) ^ k) in *. set (j2 := (1 + u) ^ k) in *. assert (D0 : 0 < val D). { apply Rlt_le_trans with (j1 * c); [apply Rmult_lt_0_compat; lra|apply DB]. }
  set (T := / j1). assert (T1 : 1 <= T). { unfold T. rewrite <- Rinv_1. apply Rinv_le_contravar; [exact KK|]. apply pow_le_1. lra. }
  assert (ID : / val D <= T * / c). { unfold T. rewrite <- Rinv_mult. apply Rinv_le_contravar; [apply Rmult_lt_0_compat; lra|apply DB]. } assert (I0 : 0 < / val D) by (apply Rinv_0_lt_compat; exact D0). assert (C0 : 0 < / c) by (apply Rinv_0_lt_compat; exact c0).
  assert (IE : Rabs (/ val D - / c) <= (T - 1) * / c).
  { apply Rabs_le. split; [|lra]. assert (J : / (j2 * c) <= / val D) by (apply Rinv_le_contravar; [exact D0|apply DB]). rewrite Rinv_mult in J. assert (G : j1 <= / j2). { apply Rmult_le_reg_r with j2; [lra|]. rewrite Rinv_l by lra. lra. } assert (G2 : j1 * / c <= / j2 * / c) by (apply Rmult_le_compat_r; lra).
    assert (G3 : 2 <= T + j1). { unfold T. assert (Q : (2 - j1) * j1 <= / j1 * j1) by (rewrite Rinv_l by lra; pose proof (pow2_ge_0 (j1 - 1)); nra). apply Rmult_le_reg_r in Q; lra. } assert (2 * / c <= (T + j1) * / c) by (apply Rmult_le_compat_r; lra). lra. }
  set (h := (1 + u) ^ (n + 6)) in *. assert (H1 : 1 <= h) by (apply (pow_ge_1 prec)). assert (A30 : 0 < A3) by (pose proof (bpow_gt_0 radix2 (- (3 * a) - prec - 2)); lra).
  set (q := val m3 / val D). assert (EQ : Rabs (q - M3 / c) <= (h * T - 1) * (A3 / c)).
  { replace (q - M3 / c) with ((val m3 - M3) * / val D + M3 * (/ val D - / c)) by (unfold q; field; split; lra). eapply Rle_trans; [apply Rabs_triang|]. rewrite !Rabs_mult, (Rabs_pos_eq (/ val D)) by lra.
    assert (Y1 : Rabs (val m3 - M3) * / val D <= (h - 1) * A3 * (T * / c)) by (apply Rmult_le_compat; [apply Rabs_pos|lra|exact E3|exact ID]). assert (Y2 : Rabs M3 * Rabs (/ val D - / c) <= A3 * ((T - 1) * / c)) by (apply Rmult_le_compat; [apply Rabs_pos|apply Rabs_pos|exact QA|exact IE]). unfold Rdiv. lra. }
  assert (AC : 0 < A3 / c) by (apply Rdiv_lt_0_compat; lra). assert (M3C : Rabs (M3 / c) <= A3 / c). { unfold Rdiv. rewrite Rabs_mult, (Rabs_pos_eq (/ c)) by lra. apply Rmult_le_compat_r; lra. }
  assert (QQ : Rabs q <= h * T * (A3 / c)) by (replace q with ((q - M3 / c) + M3 / c) by ring; eapply Rle_trans; [apply Rabs_triang|]; lra).
  assert (DL : bpow radix2 (2 * (- (2 * a) - prec - 2) - 2) <= val D). { replace (2 * (- (2 * a) - prec - 2) - 2)%Z with (-1 + (2 * (- (2 * a) - prec - 2) - 1))%Z by ring. rewrite bpow_plus. change (bpow radix2 (-1)) with (/ 2). assert (u * (val m2 * val r) <= / 16777216 * (val m2 * val r)) by (apply Rmult_le_compat_r; lra). lra. }
  assert (QB : Rabs q <= bpow radix2 (emax - 1)). { unfold q, Rdiv. rewrite Rabs_mult, (Rabs_pos_eq (/ val D)) by lra. apply Rle_trans with (bpow radix2 (3 * a + 3) * bpow radix2 (- (2 * (- (2 * a) - prec - 2) - 2))); [|rewrite <- bpow_plus; apply bpow_le; lia]. apply Rmult_le_compat; [apply Rabs_pos|lra|exact B3|]. rewrite bpow_opp. apply Rinv_le_contravar; [apply bpow_gt_0|exact DL]. }
  assert (VE : Valid_exp (FLT_exp (3 - emax - prec) prec)) by (apply FLT_exp_valid; exact Hprec).
  assert (QR : Rabs (rnd q) < bpow radix2 emax). { apply Rle_lt_trans with (bpow radix2 (emax - 1)); [|apply bpow_lt; lia]. apply abs_round_le_generic; auto with typeclass_instances. apply (fmt_bpow prec emax); lia. }
  assert (D0' : val D <> 0) by lra. unfold v, f_skewness. rewrite <- Em. fold m3 m2. fold r. fold D. destruct (div_cases prec emax m3 D F3 D0') as [[_ [V [F _]]]|[O _]]; [fold q in V|exfalso; fold q in O; lra].
  split; [exact F|]. rewrite V. pose proof (rnd_err prec emax q) as E. rewrite <- (roundoff_u prec), <- (smallest_tiny prec emax) in E.
  assert (CU : c <= bpow radix2 (3 * a + 8)).
  { assert (K4 : / 4 <= k1). { unfold k1. rewrite (pow_add _ n). pose proof (half_pow prec emax Sizes n L) as HP. assert (/ 2 <= (1 - u) ^ 4) by (cbn [pow]; nra). assert (/ 2 * / 2 <= (1 - u) ^ n * (1 - u) ^ 4) by (apply Rmult_le_compat; lra). lra. }
    assert (MU : M2 <= bpow radix2 (2 * a + 5)). { replace (2 * a + 5)%Z with (2 + (2 * a + 3))%Z by ring. rewrite bpow_plus. change (bpow radix2 2) with 4. assert (/ 4 * M2 <= k1 * M2) by (apply Rmult_le_compat_r; lra). lra. }
    assert (SU2 : sqrt M2 <= bpow radix2 (a + 3)). { rewrite <- (sqrt_square (bpow radix2 (a + 3))) by apply bpow_ge_0. apply sqrt_le_1; [lra|apply Rmult_le_pos; apply bpow_ge_0|]. eapply Rle_trans; [exact MU|]. rewrite <- bpow_plus. apply bpow_le. lia. }
    unfold c. replace (3 * a + 8)%Z with ((2 * a + 5) + (a + 3))%Z by ring. rewrite bpow_plus. apply Rmult_le_compat; lra. }
  assert (EH : eta / 2 <= u * (A3 / c)). { rewrite eta_half, u_bpow. apply Rle_trans with (bpow radix2 (- prec) * (bpow radix2 (- (3 * a) - prec - 2) * bpow radix2 (- (3 * a + 8)))); [rewrite <- !bpow_plus; apply bpow_le; lia|]. apply Rmult_le_compat_l; [apply bpow_ge_0|]. unfold Rdiv. apply Rmult_le_compat; try apply bpow_ge_0; [exact AL|]. rewrite bpow_opp. apply Rinv_le_contravar; [exact c0|exact CU]. }
  assert (UQ : u * Rabs q <= u * (h * T * (A3 / c))) by (apply Rmult_le_compat_l; lra). replace (rnd q - M3 / c) with ((rnd q - q) + (q - M3 / c)) by ring. eapply Rle_trans; [apply Rabs_triang|].
  replace (n + 8)%nat with (Datatypes.S (Datatypes.S (n + 6))) by lia. cbn [pow]. fold h. assert (HT : 1 <= h * T) by (apply Rle_trans with (1 * T); [lra|apply Rmult_le_compat_r; lra]). assert (HU : 1 <= (1 + u) * (h * T)) by (apply Rle_trans with (1 * (h * T)); [lra|apply Rmult_le_compat_r; lra]). assert (PV : u * 1 <= u * ((1 + u) * (h * T))) by (apply Rmult_le_compat_l; lra). assert (PU : u * (A3 / c) <= u * ((1 + u) * (h * T)) * (A3 / c)) by (apply Rmult_le_compat_r; lra). change ((1 + u) * ((1 + u) * h) / j1) with ((1 + u) * ((1 + u) * h) * T). lra.
Qed.
End Cubes.
(** The skewness of samples that are not all equal, within range of their computed mean, is within a stated
    factor of the exact quotient, relative to the mean cubed distance. *)
Theorem C145_skewness a l : (0 <= a)%Z -> (7 * a + 2 * prec + 12 <= emax)%Z -> l <> [] -> (Z.of_nat (length l) <= 2 ^ (prec - 1))%Z ->
  let m := f_mean prec emax l in
  (forall x, In x l -> finite x /\ finite (sub x m) /\ (val (sub x m) = 0 \/ bpow radix2 (- a) <= Rabs (val (sub x m)) <= bpow radix2 a)) -> (exists x, In x l /\ val (sub x m) <> 0) ->
  let n := length l in let M2 := quads prec emax 2 (val m) l in let c := M2 * sqrt M2 in let v := f_skewness prec emax l in
  0 < c /\ finite v /\ Rabs (val v - quads prec emax 3 (val m) l / c) <= ((1 + u) ^ (n + 8) / (1 - u) ^ (2 * n + 10) - 1) * (distances 3 (val m) l / c).
Proof. intros A0 A1 N L m Dev Sd. exact (skew_core a l m A0 A1 N L Dev Sd eq_refl). Qed.

(** ** Logarithmic spacing *)
Lemma logspace_map fpow n : forall x inc, flogspace_loop prec emax fpow x inc n = map (fpow (of_Z prec emax 10)) (fspace_loop prec emax x inc n).
Proof. induction n as [|n IH]; intros x inc; [reflexivity|]. cbn [flogspace_loop fspace_loop map]. rewrite IH. reflexivity. Qed.
Lemma space_length n : forall x inc, length (fspace_loop prec emax x inc n) = n.
Proof. induction n as [|n IH]; intros x inc; [reflexivity|]. cbn. rewrite IH. reflexivity. Qed.
(** Point [k] is ten to the power of the exact [k]-th exponent, up to the error [e] of the library and the
    error of [k] accumulated additions in the exponent. *)
Theorem C145_logspace fpow e x1 x2 n : 0 <= e -> pow_within e fpow -> finite x1 -> (1 < n)%nat -> (Z.of_nat n <= 2 ^ prec)%Z ->
  let out := f_logspace prec emax fpow x1 x2 n in length out = n /\ nth 0 out zero = fpow (of_Z prec emax 10) x1 /\
  forall k, (k < n)%nat -> finite (nth k (f_linspace prec emax x1 x2 n) zero) ->
    let step := (val x2 - val x1) / INR (n - 1) in let y := val x1 + INR k * step in
    let d := ((1 + u) ^ (k + 2) - 1) * (Rabs (val x1) + INR k * Rabs step) + (1 + u) ^ k * INR k * (eta / 2) in
    d <= 1 -> bpow radix2 (6 - emax) <= ten y <= bpow radix2 (emax - 5) ->
    finite (nth k out zero) /\ Rabs (val (nth k out zero) - ten y) <= (exp (ln 10 * d) * (1 + e) - 1) * ten y.
Proof.
  intros E Hp F1 N B out. destruct Sizes as [S1 S2]. pose proof (u_tiny prec emax Sizes) as U. destruct (C121_linspace prec emax x1 x2 n N B) as [LL [L0 LK]].
  assert (OM : out = map (fpow (of_Z prec emax 10)) (f_linspace prec emax x1 x2 n)) by apply logspace_map.
  assert (ON : forall k, (k < n)%nat -> nth k out zero = fpow (of_Z prec emax 10) (nth k (f_linspace prec emax x1 x2 n) zero)). { intros k K. rewrite OM. rewrite (nth_indep _ zero (fpow (of_Z prec emax 10) zero)) by (rewrite map_length, LL; exact K). apply map_nth. }
  split; [rewrite OM, map_length; exact LL|]. split; [rewrite ON by lia; rewrite L0; reflexivity|]. intros k K Fk step y d D R. rewrite ON by exact K. set (z := nth k (f_linspace prec emax x1 x2 n) zero) in *.
  assert (H0 : 0 < eta) by (unfold smallest; apply Rinv_0_lt_compat, IZR_lt, Z.pow_pos_nonneg; lia). pose proof (pos_INR k) as K0. pose proof (Rabs_pos step) as P0. pose proof (Rabs_pos (val x1)) as X0.
  assert (EZ : Rabs (val z - y) <= d).
  { destruct k as [|k'].
    - assert (Z : z = x1) by exact L0. rewrite Z. unfold y, d. replace (val x1 - (val x1 + INR 0 * step)) with 0 by (cbn; ring). rewrite Rabs_R0. change (INR 0) with 0. assert (1 <= (1 + u) ^ (0 + 2)) by (apply (pow_ge_1 prec)). assert (0 <= ((1 + u) ^ (0 + 2) - 1) * Rabs (val x1)) by (apply Rmult_le_pos; lra). lra.
    - destruct (LK (S k') ltac:(lia) Fk) as [inc [Fi [E1 E2]]]. fold z in E2. fold step in E1. set (k := S k') in *. pose proof (pow_ge_1 prec k) as PK. set (p := (1 + u) ^ k) in *.
      assert (IA : Rabs (val inc) <= (1 + u) ^ 2 * Rabs step + eta / 2) by (replace (val inc) with ((val inc - step) + step) by ring; eapply Rle_trans; [apply Rabs_triang|]; lra).
      replace (val z - y) with ((val z - (val x1 + INR k * val inc)) + INR k * (val inc - step)) by (unfold y; ring). eapply Rle_trans; [apply Rabs_triang|]. rewrite Rabs_mult, (Rabs_pos_eq (INR k)) by exact K0.
      assert (Y1 : INR k * Rabs (val inc) <= INR k * ((1 + u) ^ 2 * Rabs step + eta / 2)) by (apply Rmult_le_compat_l; lra). assert (Y2 : INR k * Rabs (val inc - step) <= INR k * (((1 + u) ^ 2 - 1) * Rabs step + eta / 2)) by (apply Rmult_le_compat_l; lra).
      assert (Y3 : (p - 1) * (Rabs (val x1) + INR k * Rabs (val inc)) <= (p - 1) * (Rabs (val x1) + INR k * ((1 + u) ^ 2 * Rabs step + eta / 2))) by (apply Rmult_le_compat_l; lra).
      assert (Y4 : (p - 1) * Rabs (val x1) <= (p * (1 + u) ^ 2 - 1) * Rabs (val x1)). { apply Rmult_le_compat_r; [exact X0|]. assert (1 <= (1 + u) ^ 2) by (apply (pow_ge_1 prec)). assert (p * 1 <= p * (1 + u) ^ 2) by (apply Rmult_le_compat_l; lra). lra. }
      unfold d. rewrite pow_add. fold p. set (q := (1 + u) ^ 2) in *. lra. }
  assert (D0 : 0 <= d) by (eapply Rle_trans; [apply Rabs_pos|exact EZ]). pose proof (ten_pos y) as TP. pose proof (ten_near _ _ _ EZ) as TN. destruct (of_Z_exact prec emax 10) as [F10 V10]. { apply Z.le_trans with (2 ^ 4)%Z; [cbn; lia|apply Z.pow_le_mono_r; lia]. }
  destruct (Hp (of_Z prec emax 10) z F10 V10 Fk) as [Fo Eo].
  { pose proof ln10_pos as LP. apply Rabs_le_inv in EZ. assert (TB : forall t, Rabs t <= 1 -> / 10 <= ten t <= 10). { intros t T. apply Rabs_le_inv in T. unfold ten, Rpower. assert (X10 : exp (ln 10) = 10) by (apply exp_ln; lra). split; [rewrite <- X10, <- exp_Ropp at 1; apply exp_le|rewrite <- X10 at 2; apply exp_le]; nra. }
    assert (TD : ten (val z) = ten y * ten (val z - y)) by (unfold ten, Rpower; rewrite <- exp_plus; f_equal; ring). destruct (TB (val z - y) ltac:(apply Rabs_le; lra)) as [T1 T2]. rewrite TD.
    assert (B1 : bpow radix2 (6 - emax) = 16 * bpow radix2 (2 - emax)) by (replace (6 - emax)%Z with (4 + (2 - emax))%Z by ring; rewrite bpow_plus; reflexivity). assert (B2 : bpow radix2 (emax - 1) = 16 * bpow radix2 (emax - 5)) by (replace (emax - 1)%Z with (4 + (emax - 5))%Z by ring; rewrite bpow_plus; reflexivity). pose proof (bpow_gt_0 radix2 (2 - emax)).
    assert (ten y * / 10 <= ten y * ten (val z - y)) by (apply Rmult_le_compat_l; lra). assert (ten y * ten (val z - y) <= ten y * 10) by (apply Rmult_le_compat_l; lra). lra. }
  split; [exact Fo|]. apply (rel_trans _ (ten (val z))); auto.
Qed.
End Format.

(** A quiet frame that is not constant has skewness NaN. *)
Theorem C145_skewness_refuted : ~ (forall l : list double, all_finite l -> (exists x y, In x l /\ In y l /\ B2R x <> B2R y) -> ~ nan (f_skewness 53 1024 l)).
Proof.
  intros H. destruct (dbl_val 0 ltac:(lia)) as [F0 V0]. apply (H [dbl 0; quiet]).
  - repeat constructor; exact F0.
  - exists (dbl 0), quiet. split; [left; reflexivity|]. split; [right; left; reflexivity|]. rewrite V0. assert (Q : 0 < B2R quiet) by (apply (F2R_gt_0 radix2 (Float radix2 (Zpos 4503599627370496) (-452))); reflexivity). lra.
  - assert (E : is_nan (f_skewness 53 1024 [dbl 0; quiet]) = true) by (vm_compute; reflexivity). destruct (f_skewness 53 1024 [dbl 0; quiet]); try discriminate E. reflexivity.
Qed.

(** ** Satisfied hypotheses *)
Example C145_skewness_ex : let l := [dbl 0; dbl 0; dbl 3] in finite (f_skewness 53 1024 l).
Proof.
  intros l. destruct (dbl_val 0 ltac:(lia)) as [F0 V0]. destruct (dbl_val 3 ltac:(lia)) as [F3 V3]. set (m := f_mean 53 1024 l).
  assert (Fm : finite m) by (vm_compute; reflexivity). assert (D0 : B2SF (fsub 53 1024 (dbl 0) m) = B2SF (dbl (-1))) by (vm_compute; reflexivity). assert (D3 : B2SF (fsub 53 1024 (dbl 3) m) = B2SF (dbl 2)) by (vm_compute; reflexivity). apply B2SF_inj in D0. apply B2SF_inj in D3.
  destruct (dbl_val (-1) ltac:(lia)) as [G0 W0]. destruct (dbl_val 2 ltac:(lia)) as [G3 W3].
  assert (P0 : (0 <= 1)%Z) by lia. assert (P1 : (7 * 1 + 2 * 53 + 12 <= 1024)%Z) by lia. assert (P2 : l <> []) by (unfold l; discriminate). assert (P3 : (Z.of_nat (length l) <= 2 ^ (53 - 1))%Z) by (change (length l) with 3%nat; lia).
  destruct (C145_skewness 53 1024 lib_size 1 l P0 P1 P2 P3) as [_ [F _]]; [| |exact F].
  - intros x I. assert (X : x = dbl 0 \/ x = dbl 3) by (destruct I as [E|[E|[E|[]]]]; [left|left|right]; exact (eq_sym E)). fold m. change (bpow radix2 (- (1))) with (/ 2). change (bpow radix2 1) with 2. destruct X as [->| ->]; [rewrite D0, W0|rewrite D3, W3]; (split; [assumption|split; [assumption|right]]); unfold Rabs; destruct (Rcase_abs _); lra.
  - exists (dbl 3). split; [right; right; left; reflexivity|]. fold m. rewrite D3, W3. lra.
Qed.
(** The middle one of three floats from 1 to 100. *)
Example C145_logspace_ex : Rabs (B2R (nth 1 (f_logspace 24 128 rpow (sgl 0) (sgl 2) 3) (fzero 24 128)) - 10) <= 250 * roundoff 24.
Proof.
  assert (S24 : (24 <= 24 <= 53)%Z /\ (128 <= 128 <= 1024)%Z) by lia. assert (V0 : finite (sgl 0) /\ B2R (sgl 0) = 0) by (apply (of_Z_exact 24 128); lia). assert (V2 : finite (sgl 2) /\ B2R (sgl 2) = 2) by (apply (of_Z_exact 24 128); lia). destruct V0 as [F0 V0]. destruct V2 as [F2 V2].
  set (u := roundoff 24). assert (U : 0 < u <= / 16777216) by (unfold u, roundoff; change (2 ^ 24)%Z with 16777216%Z; lra). assert (T : 0 < smallest 24 128 <= u) by (unfold smallest; split; [apply Rinv_0_lt_compat, IZR_lt; reflexivity|unfold u, roundoff; apply Rinv_le_contravar; [apply IZR_lt; reflexivity|apply IZR_le; vm_compute; discriminate]]).
  assert (N1 : (1 < 3)%nat) by lia. assert (N2 : (Z.of_nat 3 <= 2 ^ 24)%Z) by (cbn; lia). assert (U0 : 0 <= u) by lra. destruct (C145_logspace 24 128 S24 rpow u (sgl 0) (sgl 2) 3 U0 rpow_within F0 N1 N2) as [_ [_ H]].
  assert (Fk : finite (nth 1 (f_linspace 24 128 (sgl 0) (sgl 2) 3) (fzero 24 128))) by (vm_compute; reflexivity). specialize (H 1%nat ltac:(lia) Fk). cbv zeta in H. rewrite V0, V2 in H. replace ((2 - 0) / INR (3 - 1)) with 1 in H by (cbn; field). replace (0 + INR 1 * 1) with 1 in H by (cbn; ring). rewrite Rabs_R0, (Rabs_pos_eq 1) in H by lra. change (INR 1) with 1 in H.
  assert (T1 : ten 1 = 10) by (unfold ten; apply Rpower_1; lra). rewrite T1 in H. fold u in H. set (d := ((1 + u) ^ (1 + 2) - 1) * (0 + 1 * 1) + (1 + u) ^ 1 * 1 * (smallest 24 128 / 2)) in *.
  assert (D : 0 <= d <= 5 * u). { unfold d. assert (UU : 0 <= u * u <= u * / 16777216) by (split; [apply Rmult_le_pos|apply Rmult_le_compat_l]; lra). assert (U3 : 0 <= u * u * u <= u * u * 1) by (split; [apply Rmult_le_pos|apply Rmult_le_compat_l]; lra). assert (UT : 0 <= u * smallest 24 128 <= u * 1) by (split; [apply Rmult_le_pos|apply Rmult_le_compat_l]; lra). cbn [Nat.add pow]. lra. }
  destruct H as [_ E]; [lra|split; [apply Rle_trans with (bpow radix2 0); [apply bpow_le; lia|cbn; lra]|apply Rle_trans with (bpow radix2 4); [cbn; lra|apply bpow_le; lia]]|].
  pose proof ln10_2 as LT. assert (LD : 0 <= ln 10 * d <= 20 * u) by (split; [apply Rmult_le_pos; lra|apply Rle_trans with (4 * (5 * u)); [apply Rmult_le_compat; lra|lra]]). assert (LS : 0 <= ln 10 * d <= / 100) by lra. pose proof (exp_small _ LS) as XS. assert (XU : exp (ln 10 * d) * u <= 2 * u) by (apply Rmult_le_compat_r; lra). 
  lra.
Qed.
Print Assumptions C145_skewness.
Print Assumptions C145_logspace.
Print Assumptions C145_skewness_refuted.
