(** C143: accuracy of the ERB and cent conversions in floating point. *)
From Coq Require Import ZArith Reals List Bool Lia Lra Psatz.
From Flocq Require Import Core BinarySingleNaN Relative.
From Verif Require Import Base FloatModel FloatSpec FloatProofs FloatProps FloatOrderProps FloatEnergyProps FloatWaveModel FloatWaveProps FloatNumModel FloatFeatProps FloatCosineModel FloatCosineProps FloatDecibelProps FloatScaleModel FloatScaleProps FloatShapeProps.
Import ListNotations.
Local Open Scope R_scope.

(** The ERB scale of the documentation and its inverse. *)
Definition erb (f : R) : R := 214 / 10 * lg (1 + 437 / 100 * f / 1000).
Definition erb_inverse (e : R) : R := (ten (e / (214 / 10)) - 1) * 1000 / (437 / 100).
Notation rnd53 := (round radix2 (FLT_exp (3 - 1024 - 53) 53) ZnearestE).
Notation w := (roundoff 53).
Notation near53 := (near 53).

Lemma ln_near k z y : near53 k z y -> 0 <= k <= 10 -> 1 <= y -> Rabs (ln z - ln y) <= 102 / 100 * k * w.
Proof.
  intros N K Y. pose proof w_small as W. pose proof (near_pos 53 1024 lib_size k z y N ltac:(lra) ltac:(lra)) as B. unfold near in N. rewrite (Rabs_pos_eq y) in N by lra. apply Rabs_le_inv in N.
  assert (up : forall b c, 0 < b -> 0 < c -> ln b - ln c <= (b - c) / c).
  { intros b c P Q. replace (ln b - ln c) with (ln (b / c)) by (unfold Rdiv; rewrite ln_mult, ln_Rinv by (auto using Rinv_0_lt_compat); ring). assert (R0 : 0 < b / c) by (apply Rdiv_lt_0_compat; lra). replace ((b - c) / c) with (b / c - 1) by (field; lra). pose proof (exp_ineq1_le (ln (b / c))) as E. rewrite exp_ln in E by exact R0. lra. }
  assert (K0 : 0 <= k * w) by (apply Rmult_le_pos; lra).
  pose proof (up z y ltac:(lra) ltac:(lra)) as U1. pose proof (up y z ltac:(lra) ltac:(lra)) as U2.
  assert (V1 : (z - y) / y <= k * w). { apply Rmult_le_reg_r with y; [lra|]. unfold Rdiv. rewrite Rmult_assoc, Rinv_l, Rmult_1_r by lra. lra. }
  assert (V2 : (y - z) / z <= 102 / 100 * k * w). { apply Rmult_le_reg_r with z; [lra|]. unfold Rdiv. rewrite Rmult_assoc, Rinv_l, Rmult_1_r by lra. assert (102 * / 100 * (k * w) * (999 / 1000 * y) <= 102 * / 100 * (k * w) * z) by (apply Rmult_le_compat_l; lra). assert (0 <= k * w * y) by (apply Rmult_le_pos; lra). lra. }
  apply Rabs_le. lra.
Qed.
Lemma ln10_2 : 2 <= ln 10 <= 4.
Proof. pose proof ln10_bounds. pose proof ln2_bounds. pose proof ln2_half. split; [|lra]. apply Rnot_lt_le. intros C. apply exp_increasing in C. rewrite exp_ln in C by lra. assert (Q : exp 2 = exp 1 * exp 1) by (rewrite <- exp_plus; f_equal; ring). pose proof exp_le_3. pose proof (exp_pos 1). assert (exp 1 * exp 1 <= 3 * 3) by (apply Rmult_le_compat; lra). lra. Qed.

Section Format.
Context (prec emax : Z) {Hprec : Prec_gt_0 prec} {Hmax : Prec_lt_emax prec emax}.
Notation fl := (binary_float prec emax).
Notation rnd := (round radix2 (FLT_exp (3 - emax - prec) prec) ZnearestE).
Notation val := (@B2R prec emax).
Notation u := (roundoff prec).
Hypothesis Sizes : (24 <= prec <= 53)%Z /\ (128 <= emax <= 1024)%Z.

(** The conversion to the result type of a double of moderate size. *)
Lemma narrow_small (z : double) : finite z -> Rabs (B2R z) <= bpow radix2 (emax - 1) -> finite (fconv prec emax z) /\ Rabs (val (fconv prec emax z) - B2R z) <= u * Rabs (B2R z) + w.
Proof.
  intros F B. destruct Sizes as [S1 S2]. assert (VE : Valid_exp (FLT_exp (3 - emax - prec) prec)) by (apply FLT_exp_valid; exact Hprec).
  assert (Q : Rabs (rnd (B2R z)) < bpow radix2 emax). { apply Rle_lt_trans with (bpow radix2 (emax - 1)); [|apply bpow_lt; lia]. apply abs_round_le_generic; auto with typeclass_instances. apply (fmt_bpow prec emax). lia. }
  destruct (conv_value prec emax z F Q) as [G V]. split; [exact G|]. rewrite V. pose proof (rnd_err prec emax (B2R z)) as E. rewrite <- (roundoff_u prec), <- (smallest_tiny prec emax) in E. eapply Rle_trans; [exact E|]. apply Rplus_le_compat_l.
  unfold smallest, roundoff. assert (P : 0 < IZR (2 ^ 53)) by (apply IZR_lt; reflexivity). assert (M : IZR (2 ^ 53) <= IZR (2 ^ (emax + prec - 3))) by (apply IZR_le, Z.pow_le_mono_r; lia). assert (/ IZR (2 ^ (emax + prec - 3)) <= / IZR (2 ^ 53)) by (apply Rinv_le_contravar; lra). assert (0 < / IZR (2 ^ (emax + prec - 3))) by (apply Rinv_0_lt_compat; lra). lra.
Qed.

Context (dlog10 : double -> double) (dpow : double -> double -> double) (k : R).
Hypothesis Hk : 0 <= k <= 4.
Hypothesis Hlog : log_within (k * w) dlog10.
Hypothesis Hpow : pow_within (k * w) dpow.

Theorem C143_erb f : finite f -> val f = 0 \/ bpow radix2 (16 - emax) <= val f <= bpow radix2 (emax - 16) ->
  let v := f_hertz2erb prec emax dlog10 f in finite v /\ Rabs (val v - erb (val f)) <= (u + (k + 4) * w) * erb (val f) + 80 * w.
Proof.
  intros F R v. destruct Sizes as [S1 S2]. pose proof w_small as W. pose proof ln10_2 as LT. pose proof (u_small prec emax Sizes) as U. pose proof (bpow_gt_0 radix2 (16 - emax)) as T0.
  destruct (widen_val prec emax Sizes f F) as [Fw Vw]. set (x := val f) in *. assert (X0 : 0 <= x) by (destruct R; lra).
  assert (XB : x = 0 \/ bpow radix2 (-1008) <= x <= bpow radix2 1008). { destruct R as [Z|R]; [left; exact Z|right]. split; [eapply Rle_trans; [|apply R]; apply bpow_le; lia|eapply Rle_trans; [apply R|]; apply bpow_le; lia]. }
  destruct (dlit_near 53 1024 lib_size 437 100 ltac:(lia) ltac:(lia)) as [Fc [Nc Bc]]. destruct (dlit_near 53 1024 lib_size 214 10 ltac:(lia) ltac:(lia)) as [Fd [Nd Bd]]. set (c := dlit 437 100) in *. set (d := dlit 214 10) in *.
  destruct (int_val 1000 ltac:(lia)) as [FK VK]. destruct (int_val 1 ltac:(lia)) as [F1 V1].
  assert (P16 : bpow radix2 (-1008) = 16384 * bpow radix2 (-1022)) by (replace (-1008)%Z with (14 + -1022)%Z by lia; rewrite bpow_plus; reflexivity). assert (P12 : bpow radix2 1020 = 4096 * bpow radix2 1008) by (replace 1020%Z with (12 + 1008)%Z by lia; rewrite bpow_plus; reflexivity). pose proof (bpow_gt_0 radix2 (-1022)) as PA. pose proof (bpow_gt_0 radix2 1008) as PB.
  destruct (mul_near 53 1024 lib_size c (fconv 53 1024 f) Fc Fw) as [Fm Nm].
  { rewrite Vw. fold x. destruct XB as [->|XB]; [left; ring|right]. assert (4 * x <= B2R c * x) by (apply Rmult_le_compat_r; lra). assert (B2R c * x <= 5 * x) by (apply Rmult_le_compat_r; lra). rewrite Rabs_pos_eq by lra. lra. }
  rewrite Vw in Nm. fold x in Nm. set (m := fmul 53 1024 c (fconv 53 1024 f)) in *.
  assert (Nm2 : near53 (2 + / 1000) (B2R m) (437 / 100 * x)). { replace (2 + / 1000) with (1 + 1 + / 1000) by ring. eapply (near_trans 53 1024 lib_size); [exact Nm| |lra|lra]. unfold near in *. rewrite <- Rmult_minus_distr_r, !Rabs_mult, <- Rmult_assoc. apply Rmult_le_compat_r; [apply Rabs_pos|exact Nc]. }
  assert (MB : 436 / 100 * x <= B2R m <= 438 / 100 * x). { pose proof (near_pos 53 1024 lib_size _ _ _ Nm2 ltac:(lra) ltac:(lra)) as Q. unfold near in Nm2. rewrite (Rabs_pos_eq (437 / 100 * x)) in Nm2 by lra. apply Rabs_le_inv in Nm2. assert ((2 + / 1000) * w * (437 / 100 * x) <= / 1000 * x); [|lra]. replace ((2 + / 1000) * w * (437 / 100 * x)) with (((2 + / 1000) * w * (437 / 100)) * x) by ring. apply Rmult_le_compat_r; lra. }
  destruct (div_near 53 1024 lib_size m (of_Z 53 1024 1000) Fm ltac:(rewrite VK; lra)) as [Fq Nq].
  { rewrite VK. destruct XB as [Z|XB]; [left; rewrite Z in MB; assert (B2R m = 0) by lra; replace (B2R m) with 0; field|right]. rewrite Rabs_pos_eq by lra. lra. }
  rewrite VK in Nq. set (q := fdiv 53 1024 m (of_Z 53 1024 1000)) in *. set (a := 437 / 100 * x / 1000) in *. assert (A0 : 0 <= a) by (unfold a; lra).
  assert (Nq2 : near53 (3 + 2 / 1000) (B2R q) a). { replace (3 + 2 / 1000) with (1 + (2 + / 1000) + / 1000) by field. eapply (near_trans 53 1024 lib_size); [exact Nq| |lra|lra]. unfold near in *. unfold a. replace (B2R m / 1000 - 437 / 100 * x / 1000) with ((B2R m - 437 / 100 * x) * / 1000) by field. replace (437 / 100 * x / 1000) with ((437 / 100 * x) * / 1000) by field. rewrite !(Rabs_mult _ (/ 1000)), <- Rmult_assoc. apply Rmult_le_compat_r; [apply Rabs_pos|exact Nm2]. }
  pose proof (near_pos 53 1024 lib_size _ _ _ Nq2 A0 ltac:(lra)) as QB.
  assert (AB : a <= bpow radix2 1008) by (unfold a; destruct XB as [Z|XB]; lra). assert (B1 : 1 <= bpow radix2 1008) by (change 1 with (bpow radix2 0); apply bpow_le; lia).
  assert (OM : moderate (1 + B2R q)). { right. rewrite Rabs_pos_eq by lra. split; [|lra]. apply Rle_trans with (bpow radix2 0); [apply bpow_le; lia|cbn; lra]. }
  destruct (round_near 53 1024 lib_size _ OM) as [OB ON]. destruct (add_cases 53 1024 (of_Z 53 1024 1) q F1 Fq) as [[_ [V2 F2]]|[O _]]; [|exfalso; rewrite V1 in O; lra]. rewrite V1 in V2. set (y := fadd 53 1024 (of_Z 53 1024 1) q) in *.
  assert (Y1 : 1 <= B2R y). { rewrite V2. assert (E1 : rnd53 1 = 1) by (apply (rnd_id 53 1024); apply (fmt_1 53 1024); lia). rewrite <- E1. apply (rnd_le 53 1024). lra. }
  assert (Ny : near53 (4 + 5 / 1000) (B2R y) (1 + a)). { rewrite V2. replace (4 + 5 / 1000) with (1 + (3 + 4 / 1000) + / 1000) by field. eapply (near_trans 53 1024 lib_size); [exact ON| |lra|lra]. unfold near in *. replace (1 + B2R q - (1 + a)) with (B2R q - a) by ring. rewrite (Rabs_pos_eq a) in Nq2 by lra. rewrite (Rabs_pos_eq (1 + a)) by lra. eapply Rle_trans; [exact Nq2|]. apply Rmult_le_compat; try lra. }
  pose proof (ln_near _ _ _ Ny ltac:(lra) ltac:(lra)) as EL. destruct (Hlog y F2 ltac:(lra)) as [Fg Eg]. set (g := dlog10 y) in *.
  assert (L0 : 0 <= ln (1 + a)) by (pose proof (ln_1p_bounds a A0) as [Q _]; eapply Rle_trans; [|exact Q]; apply Rmult_le_pos; [lra|left; apply Rinv_0_lt_compat; lra]). assert (IT : / 4 <= / ln 10 <= / 2) by (split; apply Rinv_le_contravar; lra).
  assert (LY : 0 <= lg (B2R y)) by (unfold lg, Rdiv; apply Rmult_le_pos; [|lra]; rewrite <- ln_1; destruct Y1 as [Y1|<-]; [left; apply ln_increasing; lra|lra]).
  assert (L1 : 0 <= lg (1 + a)) by (unfold lg, Rdiv; apply Rmult_le_pos; lra).
  assert (E2 : Rabs (lg (B2R y) - lg (1 + a)) <= 21 / 10 * w). { unfold lg, Rdiv. rewrite <- Rmult_minus_distr_r, Rabs_mult, (Rabs_pos_eq (/ ln 10)) by lra. eapply Rle_trans; [apply Rmult_le_compat; [apply Rabs_pos|lra|exact EL|apply IT]|]. lra. }
  rewrite (Rabs_pos_eq (lg (B2R y))) in Eg by exact LY. set (L := lg (1 + a)) in *. set (L' := lg (B2R y)) in *.
  assert (LB : L <= 1024). { unfold L, lg, Rdiv. apply Rle_trans with (ln (1 + a) * / 2); [apply Rmult_le_compat_l; lra|]. assert (Q : ln (1 + a) <= 1024 * ln 2). { change (1024 * ln 2) with (IZR 1024 * ln 2). rewrite <- ln_bpow. assert (S : 1 + a < bpow radix2 1024) by (replace 1024%Z with (16 + 1008)%Z by lia; rewrite bpow_plus; change (bpow radix2 16) with 65536; lra). left. apply ln_increasing; lra. } pose proof ln2_bounds. lra. }
  assert (EG : Rabs (B2R g - L) <= k * w * L + 22 / 10 * w). { apply Rabs_le_inv in Eg, E2. assert (0 <= k * w) by (apply Rmult_le_pos; lra). assert (k * w * L' <= k * w * (L + 21 / 10 * w)) by (apply Rmult_le_compat_l; lra). assert (k * w * (21 / 10 * w) <= / 100 * w) by (replace (k * w * (21 / 10 * w)) with ((k * w * (21 / 10)) * w) by ring; apply Rmult_le_compat_r; [lra|]; assert (k * w <= 4 * / 9007199254740992) by (apply Rmult_le_compat; lra); lra). apply Rabs_le. lra. }
  assert (KW : 0 <= k * w <= 4 * / 9007199254740992) by (split; [apply Rmult_le_pos; lra|apply Rmult_le_compat; lra]). assert (KL : 0 <= k * w * L <= / 1000) by (split; [apply Rmult_le_pos; lra|apply Rle_trans with (4 * / 9007199254740992 * 1024); [apply Rmult_le_compat; lra|lra]]).
  assert (WL : 0 <= w * L <= / 1000) by (split; [apply Rmult_le_pos; lra|apply Rle_trans with (/ 9007199254740992 * 1024); [apply Rmult_le_compat; lra|lra]]).
  assert (E3 : Rabs (B2R d * B2R g - 214 / 10 * L) <= 214 / 10 * (k * w * L) + 22 * (w * L) + 50 * w).
  { apply Rabs_le_inv in EG. unfold near in Nd. rewrite (Rabs_pos_eq (214 / 10)) in Nd by lra. replace (B2R d * B2R g - 214 / 10 * L) with ((B2R d - 214 / 10) * B2R g + 214 / 10 * (B2R g - L)) by ring. eapply Rle_trans; [apply Rabs_triang|]. rewrite !Rabs_mult, (Rabs_pos_eq (214 / 10)) by lra.
    assert (GA : Rabs (B2R g) <= L + / 100) by (apply Rabs_le; lra). assert (Rabs (B2R d - 214 / 10) * Rabs (B2R g) <= (1 * w * (214 / 10)) * (L + / 100)) by (apply Rmult_le_compat; try apply Rabs_pos; lra). assert (214 / 10 * Rabs (B2R g - L) <= 214 / 10 * (k * w * L + 22 / 10 * w)) by (apply Rmult_le_compat_l; [lra|apply Rabs_le; lra]). lra. }
  pose proof (Rabs_le_inv _ _ E3) as E3'. assert (PBd : Rabs (B2R d * B2R g) <= 23000) by (apply Rabs_le; lra). assert (PBs : Rabs (B2R d * B2R g) <= 215 / 10 * L + 1) by (apply Rabs_le; lra).
  assert (B23 : 23000 <= bpow radix2 1020) by (apply Rle_trans with (bpow radix2 15); [cbn; lra|apply bpow_le; lia]).
  destruct (op_abs (B2R d * B2R g) ltac:(lra)) as [OB2 OE2]. pose proof h_small as HS. assert (HW : smallest 53 1024 / 2 <= w) by (eapply Rle_trans; [apply HS|]; change w with (bpow radix2 (-53)); apply bpow_le; lia).
  destruct (mul_cases 53 1024 d g Fd Fg) as [[_ [V3 F3]]|[O _]]; [|exfalso; lra]. unfold v, f_hertz2erb. fold c d. change (fmul 53 1024 c (fconv 53 1024 f)) with m. change (fdiv 53 1024 m (of_Z 53 1024 1000)) with q. change (fadd 53 1024 (of_Z 53 1024 1) q) with y. change (dlog10 y) with g. set (p := fmul 53 1024 d g) in *.
  assert (WP : w * Rabs (B2R d * B2R g) <= w * (215 / 10 * L + 1)) by (apply Rmult_le_compat_l; lra).
  assert (E4 : Rabs (B2R p - 214 / 10 * L) <= 214 / 10 * (k * w * L) + 435 / 10 * (w * L) + 52 * w). { replace (B2R p - 214 / 10 * L) with ((B2R p - B2R d * B2R g) + (B2R d * B2R g - 214 / 10 * L)) by ring. eapply Rle_trans; [apply Rabs_triang|]. rewrite V3. lra. }
  pose proof (Rabs_le_inv _ _ E4) as E4'. assert (PC : Rabs (B2R p) <= 23000) by (apply Rabs_le; lra). assert (BE : 23000 <= bpow radix2 (emax - 1)) by (apply Rle_trans with (bpow radix2 15); [cbn; lra|apply bpow_le; lia]).
  destruct (narrow_small p F3 ltac:(lra)) as [Fr Er]. split; [exact Fr|]. change (erb x) with (214 / 10 * L). assert (PD : Rabs (B2R p) <= 214 / 10 * L + (214 / 10 * (k * w * L) + 435 / 10 * (w * L) + 52 * w)) by (apply Rabs_le; lra).
  assert (UP : u * Rabs (B2R p) <= u * (214 / 10 * L) + / 16777216 * (214 / 10 * (k * w * L) + 435 / 10 * (w * L) + 52 * w)). { eapply Rle_trans; [apply Rmult_le_compat_l; [lra|exact PD]|]. rewrite Rmult_plus_distr_l. apply Rplus_le_compat_l. apply Rmult_le_compat_r; lra. }
  replace (val (fconv prec emax p) - 214 / 10 * L) with ((val (fconv prec emax p) - B2R p) + (B2R p - 214 / 10 * L)) by ring. eapply Rle_trans; [apply Rabs_triang|].
  assert (U2 : u * (214 / 10 * L) <= / 16777216 * (214 / 10 * L)) by (apply Rmult_le_compat_r; lra).
  replace ((u + (k + 4) * w) * (214 / 10 * L)) with (u * (214 / 10 * L) + 214 / 10 * (k * w * L) + 856 / 10 * (w * L)) by field. assert (k * w * L <= 4 * (w * L)) by (replace (k * w * L) with (k * (w * L)) by ring; apply Rmult_le_compat_r; lra). lra.
Qed.

(** Double operations with their error in units of double. *)
Lemma abs53 z : Rabs z <= bpow radix2 1020 -> Rabs (rnd53 z) < bpow radix2 1024 /\ Rabs (rnd53 z - z) <= w * Rabs z + / 1000 * w.
Proof.
  intros H. destruct (op_abs z H) as [A E]. split; [exact A|]. pose proof h_small as HS. assert (HW : smallest 53 1024 / 2 <= / 1000 * w). { eapply Rle_trans; [apply HS|]. change w with (bpow radix2 (-53)). apply Rle_trans with (bpow radix2 (-10 + -53)); [apply bpow_le; lia|]. rewrite bpow_plus. apply Rmult_le_compat_r; [apply bpow_ge_0|]. change (bpow radix2 (-10)) with (/ 1024). lra. } lra.
Qed.
Lemma exp_small t : 0 <= t <= / 100 -> exp t - 1 <= 102 / 100 * t.
Proof. intros H. apply (exp_up t H). Qed.
Theorem C143_erb_inverse e : finite e -> -1 <= val e <= 200 ->
  let v := f_erb2hertz prec emax dpow e in let h := erb_inverse (val e) in finite v /\ Rabs (val v - h) <= u * Rabs h + (k + 92) * w * (Rabs h + 230).
Proof.
  intros F R v h. destruct Sizes as [S1 S2]. pose proof w_small as W. pose proof ln10_2 as LT. pose proof (u_small prec emax Sizes) as U. destruct (widen_val prec emax Sizes e F) as [Fw Vw]. set (x := val e) in *.
  destruct (dlit_near 53 1024 lib_size 437 100 ltac:(lia) ltac:(lia)) as [Fc [Nc Bc]]. destruct (dlit_near 53 1024 lib_size 214 10 ltac:(lia) ltac:(lia)) as [Fd [Nd Bd]]. set (c := dlit 437 100) in *. set (d := dlit 214 10) in *.
  destruct (int_val 1000 ltac:(lia)) as [FK VK]. destruct (int_val 1 ltac:(lia)) as [F1 V1]. destruct (int_val 10 ltac:(lia)) as [F10 V10].
  assert (BIG : 10000000000000000 <= bpow radix2 1020) by (apply Rle_trans with (bpow radix2 60); [cbn; lra|apply bpow_le; lia]).
  unfold near in Nc, Nd. rewrite (Rabs_pos_eq (437 / 100)) in Nc by lra. rewrite (Rabs_pos_eq (214 / 10)) in Nd by lra.
  (* the exponent *)
  set (y0 := x / (214 / 10)). assert (Y0 : - (5 / 100) <= y0 <= 935 / 100) by (unfold y0; lra).
  assert (YD : Rabs (x / B2R d - y0) <= 95 / 10 * w). { replace (x / B2R d - y0) with (y0 * ((214 / 10 - B2R d) * / B2R d)) by (unfold y0; field; lra). rewrite !Rabs_mult. assert (ID : 0 < / B2R d <= / 213 * 10) by (split; [apply Rinv_0_lt_compat; lra|]; replace (/ 213 * 10) with (/ (213 / 10)) by field; apply Rinv_le_contravar; lra). rewrite (Rabs_pos_eq (/ B2R d)) by lra. rewrite (Rabs_minus_sym (214 / 10)).
    assert (A1 : Rabs y0 <= 935 / 100) by (apply Rabs_le; lra). assert (A2 : Rabs (B2R d - 214 / 10) * / B2R d <= (1 * w * (214 / 10)) * (/ 213 * 10)) by (apply Rmult_le_compat; try apply Rabs_pos; lra). apply Rle_trans with (935 / 100 * ((1 * w * (214 / 10)) * (/ 213 * 10))); [|lra]. apply Rmult_le_compat; try apply Rabs_pos; try lra. apply Rmult_le_pos; [apply Rabs_pos|lra]. }
  pose proof (Rabs_le_inv _ _ YD) as YD'. assert (YB : Rabs (x / B2R d) <= 10) by (apply Rabs_le; lra).
  destruct (abs53 (x / B2R d) ltac:(lra)) as [O1 E1]. destruct (div_cases 53 1024 (fconv 53 1024 e) d Fw ltac:(lra)) as [[_ [V2 [F2 _]]]|[O _]]; rewrite Vw in *; [|exfalso; lra]. set (y := fdiv 53 1024 (fconv 53 1024 e) d) in *. rewrite <- V2 in E1.
  assert (EY : Rabs (B2R y - y0) <= 20 * w). { replace (B2R y - y0) with ((B2R y - x / B2R d) + (x / B2R d - y0)) by ring. eapply Rle_trans; [apply Rabs_triang|]. assert (w * Rabs (x / B2R d) <= w * 10) by (apply Rmult_le_compat_l; lra). lra. }
  set (T := ten y0). pose proof (ten_pos y0) as TP. fold T in TP. pose proof (ten_near _ _ _ EY) as ET. fold T in ET.
  assert (EX : exp (ln 10 * (20 * w)) - 1 <= 82 * w). { assert (Q : 0 <= ln 10 * (20 * w) <= 80 * w) by (split; [apply Rmult_le_pos; lra|apply Rle_trans with (4 * (20 * w)); [apply Rmult_le_compat_r; lra|lra]]). pose proof (exp_small (ln 10 * (20 * w)) ltac:(lra)). lra. }
  assert (ET2 : Rabs (ten (B2R y) - T) <= 82 * w * T). { eapply Rle_trans; [exact ET|]. apply Rmult_le_compat_r; lra. } pose proof (Rabs_le_inv _ _ ET2) as ET3.
  assert (TL : 8 / 10 <= T). { unfold T, ten, Rpower. pose proof (exp_ineq1_le (y0 * ln 10)) as Q. assert (- (5 / 100) * 4 <= y0 * ln 10). { destruct (Rle_lt_dec 0 y0) as [P|P]; [assert (0 <= y0 * ln 10) by (apply Rmult_le_pos; lra); lra|]. assert (y0 * 4 <= y0 * ln 10) by (apply Rmult_le_compat_neg_l; lra). lra. } lra. }
  assert (TU : T <= 10000000000). { apply Rle_trans with (ten 10); [unfold T, ten; apply Rle_Rpower; lra|]. unfold ten. change 10 with (INR 10) at 2 || replace 10 with (INR 10) at 2 by (cbn; lra). rewrite Rpower_pow by lra. cbn [pow]. lra. }
  assert (WT : 0 <= w * T <= / 900000) by (split; [apply Rmult_le_pos; lra|apply Rle_trans with (/ 9007199254740992 * 10000000000); [apply Rmult_le_compat; lra|lra]]).
  destruct (Hpow (of_Z 53 1024 10) y F10 V10 F2) as [Fr Er]. { split; [apply Rle_trans with (bpow radix2 (-1)); [apply bpow_le; lia|change (bpow radix2 (-1)) with (/ 2); lra]|apply Rle_trans with (bpow radix2 60); [apply Rle_trans with 10000000001; [lra|cbn; lra]|apply bpow_le; lia]]. }
  set (r := dpow (of_Z 53 1024 10) y) in *. assert (KW : 0 <= k * w <= 4 * w) by (split; [apply Rmult_le_pos; lra|apply Rmult_le_compat_r; lra]). assert (KT : 0 <= k * (w * T) <= 4 * (w * T)) by (split; [apply Rmult_le_pos; lra|apply Rmult_le_compat_r; lra]).
  assert (ER : Rabs (B2R r - T) <= k * (w * T) + 83 * (w * T)). { assert (Q : k * w * ten (B2R y) <= k * w * (T + 82 * w * T)) by (apply Rmult_le_compat_l; lra). assert (Q2 : k * w * (82 * w * T) <= / 1000 * (w * T)) by (replace (k * w * (82 * w * T)) with ((k * w * 82) * (w * T)) by ring; apply Rmult_le_compat_r; lra). apply Rabs_le_inv in Er. apply Rabs_le. lra. } pose proof (Rabs_le_inv _ _ ER) as ER'.
  (* minus one *)
  assert (SB : Rabs (B2R r - 1) <= 101 / 100 * T + 1) by (apply Rabs_le; lra). destruct (abs53 (B2R r - 1) ltac:(lra)) as [O2 E2]. destruct (sub_cases 53 1024 r (of_Z 53 1024 1) Fr F1) as [[_ [V3 F3]]|[O _]]; rewrite V1 in *; [|exfalso; lra]. set (s := fsub 53 1024 r (of_Z 53 1024 1)) in *. rewrite <- V3 in E2.
  assert (ST : Rabs (B2R r - 1) <= 126 / 100 * T) by (apply Rabs_le; lra). assert (WS : w * Rabs (B2R r - 1) <= 126 / 100 * (w * T)) by (replace (126 / 100 * (w * T)) with (w * (126 / 100 * T)) by ring; apply Rmult_le_compat_l; lra). assert (W1 : w <= 125 / 100 * (w * T)) by (assert (w * (8 / 10) <= w * T) by (apply Rmult_le_compat_l; lra); lra).
  assert (ES : Rabs (B2R s - (T - 1)) <= k * (w * T) + 85 * (w * T)). { replace (B2R s - (T - 1)) with ((B2R s - (B2R r - 1)) + (B2R r - T)) by ring. eapply Rle_trans; [apply Rabs_triang|]. lra. } pose proof (Rabs_le_inv _ _ ES) as ES'.
  assert (SB2 : Rabs (B2R s) <= 127 / 100 * T) by (apply Rabs_le; lra). assert (SB3 : Rabs (B2R s * 1000) <= 1270 * T) by (rewrite Rabs_mult, (Rabs_pos_eq 1000) by lra; lra).
  destruct (abs53 (B2R s * 1000) ltac:(lra)) as [O3 E3]. destruct (mul_cases 53 1024 s (of_Z 53 1024 1000) F3 FK) as [[_ [V4 F4]]|[O _]]; rewrite VK in *; [|exfalso; lra]. set (m := fmul 53 1024 s (of_Z 53 1024 1000)) in *. rewrite <- V4 in E3.
  assert (WM : w * Rabs (B2R s * 1000) <= 1270 * (w * T)) by (replace (1270 * (w * T)) with (w * (1270 * T)) by ring; apply Rmult_le_compat_l; lra).
  assert (EM : Rabs (B2R m - 1000 * (T - 1)) <= 1000 * (k * (w * T) + 87 * (w * T))). { replace (B2R m - 1000 * (T - 1)) with ((B2R m - B2R s * 1000) + 1000 * (B2R s - (T - 1))) by ring. eapply Rle_trans; [apply Rabs_triang|]. rewrite (Rabs_mult 1000), (Rabs_pos_eq 1000) by lra. lra. } pose proof (Rabs_le_inv _ _ EM) as EM'.
  (* the quotient *)
  assert (IC : 0 < / B2R c <= / 436 * 100) by (split; [apply Rinv_0_lt_compat; lra|]; replace (/ 436 * 100) with (/ (436 / 100)) by field; apply Rinv_le_contravar; lra).
  assert (HH : h = 1000 * (T - 1) / (437 / 100)) by (unfold h, erb_inverse, T, y0; field). assert (MB : Rabs (B2R m) <= 1300 * T) by (apply Rabs_le; lra).
  assert (EQ : Rabs (B2R m / B2R c - h) <= 2295 / 10 * (k * (w * T)) + 20270 * (w * T)).
  { rewrite HH. replace (B2R m / B2R c - 1000 * (T - 1) / (437 / 100)) with (B2R m * / B2R c * ((437 / 100 - B2R c) * / (437 / 100)) + (B2R m - 1000 * (T - 1)) * / (437 / 100)) by (field; lra). eapply Rle_trans; [apply Rabs_triang|]. rewrite !Rabs_mult, (Rabs_pos_eq (/ B2R c)), (Rabs_pos_eq (/ (437 / 100))), (Rabs_minus_sym (437 / 100)) by lra.
    assert (A1 : Rabs (B2R m) * / B2R c <= 1300 * T * (/ 436 * 100)) by (apply Rmult_le_compat; try apply Rabs_pos; lra). assert (A2 : Rabs (B2R c - 437 / 100) * / (437 / 100) <= w) by lra.
    assert (A3 : Rabs (B2R m) * / B2R c * (Rabs (B2R c - 437 / 100) * / (437 / 100)) <= 1300 * T * (/ 436 * 100) * w). { apply Rmult_le_compat; try lra; [apply Rmult_le_pos; [apply Rabs_pos|lra]|apply Rmult_le_pos; [apply Rabs_pos|lra]]. } lra. }
  pose proof (Rabs_le_inv _ _ EQ) as EQ'. assert (HB : Rabs h <= 230 * T) by (rewrite HH; apply Rabs_le; lra). pose proof (Rabs_le_inv _ _ HB) as HB'. assert (QB : Rabs (B2R m / B2R c) <= 231 * T) by (apply Rabs_le; lra).
  destruct (abs53 (B2R m / B2R c) ltac:(lra)) as [O4 E4]. destruct (div_cases 53 1024 m c F4 ltac:(lra)) as [[_ [V5 [F5 _]]]|[O _]]; [|exfalso; lra]. set (q := fdiv 53 1024 m c) in *. rewrite <- V5 in E4.
  assert (WQ : w * Rabs (B2R m / B2R c) <= 231 * (w * T)) by (replace (231 * (w * T)) with (w * (231 * T)) by ring; apply Rmult_le_compat_l; lra).
  assert (EF : Rabs (B2R q - h) <= 2295 / 10 * (k * (w * T)) + 20510 * (w * T)). { replace (B2R q - h) with ((B2R q - B2R m / B2R c) + (B2R m / B2R c - h)) by ring. eapply Rle_trans; [apply Rabs_triang|]. lra. } pose proof (Rabs_le_inv _ _ EF) as EF'.
  assert (PQ : Rabs (B2R q) <= Rabs h + (2295 / 10 * (k * (w * T)) + 20510 * (w * T))). { replace (B2R q) with ((B2R q - h) + h) at 1 by ring. eapply Rle_trans; [apply Rabs_triang|]. lra. }
  destruct (narrow_small q F5) as [Fv Ev]. { apply Rle_trans with 10000000000000; [lra|]. apply Rle_trans with (bpow radix2 60); [cbn; lra|apply bpow_le; lia]. }
  change v with (fconv prec emax q). split; [exact Fv|]. replace (val (fconv prec emax q) - h) with ((val (fconv prec emax q) - B2R q) + (B2R q - h)) by ring. eapply Rle_trans; [apply Rabs_triang|].
  assert (UQ : u * Rabs (B2R q) <= u * Rabs h + / 16777216 * (2295 / 10 * (k * (w * T)) + 20510 * (w * T))). { eapply Rle_trans; [apply Rmult_le_compat_l; [lra|exact PQ]|]. rewrite Rmult_plus_distr_l. apply Rplus_le_compat_l. apply Rmult_le_compat_r; lra. }
  assert (TH : T <= 1 + 437 / 100000 * Rabs h). { pose proof (Rle_abs h) as Q. rewrite HH in Q at 1. lra. }
  assert (X1 : w * T <= w * (1 + 437 / 100000 * Rabs h)) by (apply Rmult_le_compat_l; lra). assert (X2 : k * (w * T) <= k * (w * (1 + 437 / 100000 * Rabs h))) by (apply Rmult_le_compat_l; lra).
  pose proof (Rabs_pos h) as HP. assert (Z1 : 0 <= w * Rabs h) by (apply Rmult_le_pos; lra). assert (Z2 : 0 <= k * (w * Rabs h)) by (apply Rmult_le_pos; lra). assert (Z3 : k * w <= 4 * w) by lra. assert (Z4 : k * (w * Rabs h) <= 4 * (w * Rabs h)) by (apply Rmult_le_compat_r; lra).
  replace ((k + 92) * w * (Rabs h + 230)) with (k * (w * Rabs h) + 230 * (k * w) + 92 * (w * Rabs h) + 21160 * w) by ring. replace (k * (w * (1 + 437 / 100000 * Rabs h))) with (k * w + 437 / 100000 * (k * (w * Rabs h))) in X2 by field. replace (w * (1 + 437 / 100000 * Rabs h)) with (w + 437 / 100000 * (w * Rabs h)) in X1 by field. lra.
Qed.
(** Frequencies up to 20 kHz survive the trip to the ERB scale and back. *)
Theorem C143_erb_roundtrip f : finite f -> val f = 0 \/ bpow radix2 (16 - emax) <= val f <= 20000 ->
  let g := f_erb2hertz prec emax dpow (f_hertz2erb prec emax dlog10 f) in finite g /\ Rabs (val g - val f) <= 200 * u * (val f + 230).
Proof.
  intros F R g. destruct Sizes as [S1 S2]. pose proof w_small as W. pose proof ln10_2 as LT. pose proof (u_small prec emax Sizes) as U. pose proof (bpow_gt_0 radix2 (16 - emax)) as T0. set (x := val f) in *. assert (X : 0 <= x <= 20000) by (destruct R; lra).
  destruct (C143_erb f F) as [Fz Ez]. { destruct R as [Z|R]; [left; exact Z|right]. split; [apply R|]. apply Rle_trans with (bpow radix2 20); [apply Rle_trans with 20000; [apply R|cbn; lra]|apply bpow_le; lia]. }
  fold x in Ez. set (z := f_hertz2erb prec emax dlog10 f) in *. set (a := 437 / 100 * x / 1000). assert (A : 0 <= a <= 88) by (unfold a; lra).
  assert (EB : 0 <= erb x <= 428 / 10).
  { unfold erb. fold a. assert (L0 : 0 <= lg (1 + a)). { unfold lg, Rdiv. apply Rmult_le_pos; [|left; apply Rinv_0_lt_compat; lra]. rewrite <- ln_1. destruct (Req_dec a 0) as [->|N]; [rewrite Rplus_0_r; lra|left; apply ln_increasing; lra]. }
    assert (L1 : lg (1 + a) <= 2); [|lra]. unfold lg. apply Rmult_le_reg_r with (ln 10); [lra|]. unfold Rdiv. rewrite Rmult_assoc, Rinv_l, Rmult_1_r by lra. replace (2 * ln 10) with (ln (10 * 10)) by (rewrite ln_mult by lra; ring). left. apply ln_increasing; lra. }
  set (D := (u + (k + 4) * w) * erb x + 80 * w) in *. assert (DB : 0 <= D <= 466 * u). { assert (K : 0 <= u + (k + 4) * w <= 9 * u) by (split; [assert (0 <= (k + 4) * w) by (apply Rmult_le_pos; lra); lra|assert ((k + 4) * w <= 8 * u) by (apply Rmult_le_compat; lra); lra]). assert (0 <= (u + (k + 4) * w) * erb x) by (apply Rmult_le_pos; lra). assert ((u + (k + 4) * w) * erb x <= 9 * u * (428 / 10)) by (apply Rmult_le_compat; lra). unfold D. lra. }
  pose proof (Rabs_le_inv _ _ Ez) as Ez'. destruct (C143_erb_inverse z Fz ltac:(lra)) as [Fg Eg]. cbv zeta in Eg. split; [exact Fg|]. change (f_erb2hertz prec emax dpow z) with g in Eg.
  assert (EY : Rabs (val z / (214 / 10) - erb x / (214 / 10)) <= D / (214 / 10)). { replace (val z / (214 / 10) - erb x / (214 / 10)) with ((val z - erb x) * / (214 / 10)) by field. rewrite Rabs_mult, (Rabs_pos_eq (/ (214 / 10))) by lra. unfold Rdiv. apply Rmult_le_compat_r; [lra|exact Ez]. }
  pose proof (ten_near _ _ _ EY) as ET. assert (T1 : ten (erb x / (214 / 10)) = 1 + a). { unfold erb. fold a. replace (214 / 10 * lg (1 + a) / (214 / 10)) with (lg (1 + a)) by field. apply ten_lg. lra. } rewrite T1 in ET.
  assert (EX : exp (ln 10 * (D / (214 / 10))) - 1 <= 94 * u). { assert (Q : 0 <= ln 10 * (D / (214 / 10)) <= 4 * (D / (214 / 10))) by (split; [apply Rmult_le_pos; lra|apply Rmult_le_compat_r; lra]). pose proof (exp_small (ln 10 * (D / (214 / 10))) ltac:(lra)). lra. }
  assert (ET2 : Rabs (ten (val z / (214 / 10)) - (1 + a)) <= 94 * u * (1 + a)) by (eapply Rle_trans; [exact ET|]; apply Rmult_le_compat_r; lra).
  assert (HF : Rabs (erb_inverse (val z) - x) <= 94 * u * (2289 / 10 + x)).
  { replace (erb_inverse (val z) - x) with ((ten (val z / (214 / 10)) - (1 + a)) * (1000 / (437 / 100))) by (unfold erb_inverse, a; field). rewrite Rabs_mult, (Rabs_pos_eq (1000 / (437 / 100))) by lra. apply Rle_trans with (94 * u * (1 + a) * (1000 / (437 / 100))); [apply Rmult_le_compat_r; lra|]. rewrite Rmult_assoc. apply Rmult_le_compat_l; [lra|]. unfold a. lra. }
  pose proof (Rabs_le_inv _ _ HF) as HF'. set (h := erb_inverse (val z)) in *. assert (UX : 0 <= u * x) by (apply Rmult_le_pos; lra).
  assert (HA : Rabs h <= 1001 / 1000 * x + 1) by (replace (94 * u * (2289 / 10 + x)) with (215166 / 10 * u + 94 * (u * x)) in HF' by field; assert (u * x <= / 16777216 * x) by (apply Rmult_le_compat_r; lra); apply Rabs_le; lra).
  replace (val g - x) with ((val g - h) + (h - x)) by ring. eapply Rle_trans; [apply Rabs_triang|]. assert (A1 : u * Rabs h <= u * (1001 / 1000 * x + 1)) by (apply Rmult_le_compat_l; lra).
  assert (A2 : (k + 92) * w * (Rabs h + 230) <= 96 * u * (1001 / 1000 * x + 231)). { pose proof (Rabs_pos h). apply Rmult_le_compat; try lra; [apply Rmult_le_pos; lra|]. apply Rmult_le_compat; lra. }
  lra.
Qed.

(** ** Cents *)
Notation eta := (smallest prec emax).
Definition sgn (z : R) : R := if Rlt_dec z 0 then -1 else 1.
Lemma sign_val (z : fl) : finite z -> val z <> 0 -> exists s, (s = 1 \/ s = -1)%Z /\ f_sign prec emax z = of_Z prec emax s /\ IZR s = sgn (val z).
Proof.
  intros F N. unfold f_sign, flt, sgn. rewrite !Bltb_correct by (try exact F; reflexivity). change (val (fzero prec emax)) with 0.
  destruct (Rlt_bool_spec (val z) 0), (Rlt_dec (val z) 0); try (exfalso; lra); [exists (-1)%Z|exists 1%Z]; auto.
Qed.
Lemma fabs_val (z : fl) : finite z -> finite (fabs prec emax z) /\ val (fabs prec emax z) = Rabs (val z).
Proof. intros F. unfold fabs. split; [exact (eq_trans (is_finite_Babs _ _ z) F)|apply B2R_Babs]. Qed.
Theorem C143_cent flog e p q z : finite z -> val z <> 0 -> 0 <= e -> ln_within e flog -> let v := f_hertz2cent prec emax flog p q z in finite v ->
  let l := val p * ln (Rabs (val z)) in Rabs (val v - sgn (val z) * (l + val q)) <= u * Rabs (l + val q) + (1 + u) * (((1 + u) * (1 + e) - 1) * Rabs l + eta / 2).
Proof.
  intros F N E Hl v Fv l. destruct Sizes as [S1 S2]. pose proof w_small as W. pose proof (u_small prec emax Sizes) as U. destruct (sign_val z F N) as [s [S [ES VS]]]. destruct (fabs_val z F) as [Fa Va]. unfold v, f_hertz2cent in *. rewrite ES in *. set (t := fadd prec emax (fmul prec emax p (flog (fabs prec emax z))) q) in *.
  destruct (mul_fin prec emax _ _ Fv) as [_ [Ft _]]. destruct (unit_mul prec emax s t S ltac:(lia) Ft) as [_ V]. rewrite V, VS. destruct (add_fin prec emax _ _ Ft) as [Fm [Fq Vt]]. fold t in Vt. destruct (mul_fin prec emax _ _ Fm) as [Fp [Fl Vm]]. set (m := fmul prec emax p (flog (fabs prec emax z))) in *.
  assert (AP : 0 < val (fabs prec emax z)) by (rewrite Va; apply Rabs_pos_lt; exact N). destruct (Hl _ Fa AP) as [_ El]. rewrite Va in El. set (L := ln (Rabs (val z))) in *. set (x := flog (fabs prec emax z)) in *.
  pose proof (rnd_err prec emax (val p * val x)) as E1. rewrite <- (roundoff_u prec), <- (smallest_tiny prec emax) in E1. rewrite <- Vm in E1.
  assert (PX : Rabs (val p * val x - l) <= e * Rabs l). { unfold l. rewrite <- Rmult_minus_distr_l, !Rabs_mult. replace (e * (Rabs (val p) * Rabs L)) with (Rabs (val p) * (e * Rabs L)) by ring. apply Rmult_le_compat_l; [apply Rabs_pos|exact El]. }
  assert (PA : Rabs (val p * val x) <= (1 + e) * Rabs l) by (replace (val p * val x) with ((val p * val x - l) + l) by ring; eapply Rle_trans; [apply Rabs_triang|]; lra).
  assert (EM : Rabs (val m - l) <= ((1 + u) * (1 + e) - 1) * Rabs l + eta / 2). { replace (val m - l) with ((val m - val p * val x) + (val p * val x - l)) by ring. eapply Rle_trans; [apply Rabs_triang|]. assert (u * Rabs (val p * val x) <= u * ((1 + e) * Rabs l)) by (apply Rmult_le_compat_l; lra). lra. }
  pose proof (add_err prec emax (val m) (val q) (fmt_val prec emax m) (fmt_val prec emax q)) as E2. rewrite <- (roundoff_u prec), <- Vt in E2. set (c := l + val q) in *. set (M := ((1 + u) * (1 + e) - 1) * Rabs l + eta / 2) in *.
  assert (MQ : Rabs (val m + val q) <= Rabs c + M). { replace (val m + val q) with ((val m - l) + c) by (unfold c; ring). eapply Rle_trans; [apply Rabs_triang|]. lra. }
  assert (EC : Rabs (val t - c) <= u * Rabs c + (1 + u) * M). { replace (val t - c) with ((val t - (val m + val q)) + (val m - l)) by (unfold c; ring). eapply Rle_trans; [apply Rabs_triang|]. assert (u * Rabs (val m + val q) <= u * (Rabs c + M)) by (apply Rmult_le_compat_l; lra). lra. }
  rewrite <- Rmult_minus_distr_l, Rabs_mult. replace (Rabs (sgn (val z))) with 1; [lra|]. unfold sgn, Rabs. destruct (Rlt_dec (val z) 0), (Rcase_abs _); lra.
Qed.
Theorem C143_cent_inverse fexp e p q c : finite c -> finite p -> val c <> 0 -> 0 <= e -> exp_within e fexp -> finite (fdiv prec emax (fsub prec emax (fabs prec emax c) q) p) ->
  let x := (Rabs (val c) - val q) / val p in let d := ((1 + u) ^ 2 - 1) * Rabs x + eta / 2 in d <= 1 -> bpow radix2 (4 - emax) <= exp x <= bpow radix2 (emax - 3) ->
  let v := f_cent2hertz prec emax fexp p q c in finite v /\ Rabs (val v - sgn (val c) * exp x) <= (exp d * (1 + e) - 1) * exp x.
Proof.
  intros F Fp N E He Fy x d D XR v. destruct Sizes as [S1 S2]. pose proof w_small as W. pose proof (u_small prec emax Sizes) as U. destruct (sign_val c F N) as [s [S [ES VS]]]. destruct (fabs_val c F) as [Fa Va].
  destruct (div_fin prec emax _ _ Fp Fy) as [Fs [P Vy]]. destruct (sub_fin prec emax _ _ Fs) as [_ [Fq Vs]]. set (y := fdiv prec emax (fsub prec emax (fabs prec emax c) q) p) in *. set (t := fsub prec emax (fabs prec emax c) q) in *.
  pose proof (add_err prec emax (val (fabs prec emax c)) (- val q) (fmt_val prec emax _) (generic_format_opp _ _ _ (fmt_val prec emax q))) as E1. rewrite <- (roundoff_u prec) in E1. change (val (fabs prec emax c) + - val q) with (val (fabs prec emax c) - val q) in E1. rewrite <- Vs, Va in E1. set (k0 := Rabs (val c) - val q) in *.
  pose proof (rnd_err prec emax (val t / val p)) as E2. rewrite <- (roundoff_u prec), <- (smallest_tiny prec emax), <- Vy in E2.
  assert (E3 : Rabs (val t / val p - x) <= u * Rabs x). { unfold x, Rdiv. rewrite <- Rmult_minus_distr_r, !Rabs_mult, <- Rmult_assoc. apply Rmult_le_compat_r; [apply Rabs_pos|exact E1]. }
  assert (TA : Rabs (val t / val p) <= (1 + u) * Rabs x) by (replace (val t / val p) with ((val t / val p - x) + x) by ring; eapply Rle_trans; [apply Rabs_triang|]; lra).
  assert (EY : Rabs (val y - x) <= d). { replace (val y - x) with ((val y - val t / val p) + (val t / val p - x)) by ring. eapply Rle_trans; [apply Rabs_triang|]. assert (u * Rabs (val t / val p) <= u * ((1 + u) * Rabs x)) by (apply Rmult_le_compat_l; lra). unfold d. cbn [pow]. lra. }
  assert (D0 : 0 <= d) by (eapply Rle_trans; [apply Rabs_pos|exact EY]). apply Rabs_le_inv in EY. pose proof (exp_pos x) as XP.
  assert (EE : exp (val y) = exp x * exp (val y - x)) by (rewrite <- exp_plus; f_equal; ring). assert (G1 : exp (val y - x) <= exp d) by (apply exp_le; lra). assert (G2 : exp (- d) <= exp (val y - x)) by (apply exp_le; lra). assert (ED : exp d <= 3) by (apply Rle_trans with (exp 1); [apply exp_le; exact D|apply exp_le_3]). pose proof (exp_pos d) as DP. pose proof (exp_ineq1_le d) as D1. rewrite exp_Ropp in G2. assert (I3 : / 3 <= / exp d) by (apply Rinv_le_contravar; lra).
  assert (I2 : 2 - exp d <= / exp d). { assert (Q : (2 - exp d) * exp d <= / exp d * exp d) by (rewrite Rinv_l by lra; pose proof (Rle_0_sqr (exp d - 1)) as SQ; unfold Rsqr in SQ; lra). apply Rmult_le_reg_r in Q; auto. }
  assert (YE : Rabs (exp (val y) - exp x) <= (exp d - 1) * exp x). { rewrite EE. replace (exp x * exp (val y - x) - exp x) with ((exp (val y - x) - 1) * exp x) by ring. rewrite Rabs_mult, (Rabs_pos_eq (exp x)) by lra. apply Rmult_le_compat_r; [lra|]. apply Rabs_le. lra. }
  destruct (He y Fy) as [Fg Eg].
  { assert (B1 : bpow radix2 (4 - emax) = 4 * bpow radix2 (2 - emax)) by (replace (4 - emax)%Z with (2 + (2 - emax))%Z by ring; rewrite bpow_plus; reflexivity). assert (B2 : bpow radix2 (emax - 1) = 4 * bpow radix2 (emax - 3)) by (replace (emax - 1)%Z with (2 + (emax - 3))%Z by ring; rewrite bpow_plus; reflexivity). pose proof (bpow_gt_0 radix2 (2 - emax)). rewrite EE. assert (exp x * / 3 <= exp x * exp (val y - x)) by (apply Rmult_le_compat_l; lra). assert (exp x * exp (val y - x) <= exp x * 3) by (apply Rmult_le_compat_l; lra). lra. }
  unfold v, f_cent2hertz. fold t. fold y. rewrite ES. destruct (unit_mul prec emax s (fexp y) S ltac:(lia) Fg) as [Fv V]. split; [exact Fv|]. rewrite V, VS, <- Rmult_minus_distr_l, Rabs_mult. replace (Rabs (sgn (val c))) with 1 by (unfold sgn, Rabs; destruct (Rlt_dec (val c) 0), (Rcase_abs _); lra). rewrite Rmult_1_l.
  apply (rel_trans _ (exp (val y))); auto.
Qed.
End Format.

(** ** Satisfied hypotheses *)
Definition nlog10 (v : double) : double := nearest (lg (B2R v)).
Definition npow (b y : double) : double := nearest (ten (B2R y)).
Lemma nlog10_within : log_within (1 * w) nlog10.
Proof.
  intros v F P. rewrite Rmult_1_l. unfold nlog10. pose proof ln10_2 as LT. assert (IT : / 4 <= / ln 10 <= / 2) by (split; apply Rinv_le_contravar; lra). destruct (ln_apart v F P) as [Z|[L1 L3]].
  - unfold lg. rewrite Z. unfold Rdiv. rewrite Rmult_0_l. destruct nearest_0 as [G V]. split; [exact G|]. rewrite V, Rminus_0_r, Rabs_R0. lra.
  - assert (E : Rabs (lg (B2R v)) = Rabs (ln (B2R v)) * / ln 10) by (unfold lg, Rdiv; rewrite Rabs_mult, (Rabs_pos_eq (/ ln 10)) by lra; reflexivity). pose proof (bpow_gt_0 radix2 (-54)) as PB.
    apply nearest_within. rewrite E. split; [apply Rle_trans with (bpow radix2 (-54) * / 4); [change (/ 4) with (bpow radix2 (-2)); rewrite <- bpow_plus; apply bpow_le; lia|apply Rmult_le_compat; lra]|]. apply Rle_trans with (1074 * / 2); [apply Rmult_le_compat; lra|]. apply Rle_trans with (bpow radix2 12); [cbn; lra|apply bpow_le; lia].
Qed.
Lemma npow_within : pow_within (1 * w) npow.
Proof.
  intros b y _ _ F B. rewrite Rmult_1_l. unfold npow. pose proof (ten_pos (B2R y)) as P. destruct (nearest_within (ten (B2R y))) as [G E]; [rewrite Rabs_pos_eq by lra; exact B|]. rewrite (Rabs_pos_eq (ten (B2R y))) in E by lra. split; assumption.
Qed.
(** 440 Hz survives the trip to the ERB scale and back, in single and in double precision. *)
Example C143_erb_ex : Rabs (B2R (f_erb2hertz 53 1024 npow (f_hertz2erb 53 1024 nlog10 (dbl 440))) - 440) <= 134000 * w /\
  Rabs (B2R (f_erb2hertz 24 128 npow (f_hertz2erb 24 128 nlog10 (sgl 440))) - 440) <= 134000 * roundoff 24.
Proof.
  assert (H440 : forall k, (k <= 0)%Z -> bpow radix2 k <= 440 <= 20000) by (intros k K; split; [apply Rle_trans with (bpow radix2 0); [apply bpow_le; lia|cbn; lra]|lra]). split.
  - destruct (dbl_val 440 ltac:(lia)) as [F V]. destruct (C143_erb_roundtrip 53 1024 lib_size nlog10 npow 1 ltac:(lra) nlog10_within npow_within (dbl 440) F) as [_ E]; [right; rewrite V; apply H440; lia|]. rewrite V in E. cbv zeta in E. lra.
  - assert (V : finite (sgl 440) /\ B2R (sgl 440) = 440) by (apply (of_Z_exact 24 128); lia). destruct V as [F V]. assert (S24 : (24 <= 24 <= 53)%Z /\ (128 <= 128 <= 1024)%Z) by lia. destruct (C143_erb_roundtrip 24 128 S24 nlog10 npow 1 ltac:(lra) nlog10_within npow_within (sgl 440) F) as [_ E]; [right; rewrite V; apply H440; lia|]. rewrite V in E. cbv zeta in E. lra.
Qed.
(** With the constants 1 and 0 the cent scale is the logarithm: the cents of -1 are 0, up to the smallest positive number. *)
Example C143_cent_ex : finite (f_hertz2cent 53 1024 nlog (dbl 1) (dbl 0) (dbl (-1))) /\ Rabs (B2R (f_hertz2cent 53 1024 nlog (dbl 1) (dbl 0) (dbl (-1)))) <= smallest 53 1024.
Proof.
  destruct (dbl_val (-1) ltac:(lia)) as [F V]. destruct (dbl_val 1 ltac:(lia)) as [F1 V1]. destruct (dbl_val 0 ltac:(lia)) as [F0 V0].
  assert (A : Rabs (-1) = 1) by (unfold Rabs; destruct (Rcase_abs _); lra).
  assert (Fv : finite (f_hertz2cent 53 1024 nlog (dbl 1) (dbl 0) (dbl (-1)))).
  { unfold f_hertz2cent. destruct (fabs_val 53 1024 (dbl (-1)) F) as [Fa Va]. rewrite V, A in Va. destruct (nlog_within (fabs 53 1024 (dbl (-1))) Fa) as [Fl El]; [rewrite Va; lra|]. rewrite Va, ln_1, Rabs_R0, Rmult_0_r, Rminus_0_r in El. set (x := nlog (fabs 53 1024 (dbl (-1)))) in *. assert (X : B2R x = 0) by (pose proof (Rabs_pos (B2R x)) as N; destruct (Req_dec (B2R x) 0) as [Z|Z]; [exact Z|pose proof (Rabs_pos_lt _ Z); lra]).
    pose proof (bpow_gt_0 radix2 1024) as B. destruct (mul_cases 53 1024 (dbl 1) x F1 Fl) as [[_ [Vm Fm]]|[H _]]; [|exfalso; rewrite X, Rmult_0_r, (rnd_0 53 1024), Rabs_R0 in H; lra]. rewrite X, Rmult_0_r, (rnd_0 53 1024) in Vm.
    set (m := fmul 53 1024 (dbl 1) x) in *. destruct (add_cases 53 1024 m (dbl 0) Fm F0) as [[_ [Vt Ft]]|[H _]]; [|exfalso; rewrite Vm, V0, Rplus_0_r, (rnd_0 53 1024), Rabs_R0 in H; lra].
    assert (Nz : B2R (dbl (-1)) <> 0) by (rewrite V; lra). destruct (sign_val 53 1024 (dbl (-1)) F Nz) as [s [Hs [ES _]]]. rewrite ES. apply (unit_mul 53 1024 s _ Hs ltac:(lia) Ft). }
  split; [exact Fv|]. assert (Nz : B2R (dbl (-1)) <> 0) by (rewrite V; lra). assert (W0 : 0 <= w) by (pose proof w_small; lra). pose proof (C143_cent 53 1024 lib_size nlog w (dbl 1) (dbl 0) (dbl (-1)) F Nz W0 nlog_within Fv) as E. cbv zeta in E. rewrite V, V1, V0 in E. pose proof w_small as W. pose proof eta53 as T.
  rewrite A, ln_1, Rmult_0_r, Rplus_0_r, Rmult_0_r, Rabs_R0, Rminus_0_r in E. nra.
Qed.
(** And its inverse is the exponential: the frequency of -1 cents is -e, to a relative error of 5 units. *)
Example C143_cent_inverse_ex : finite (f_cent2hertz 53 1024 nexp (dbl 1) (dbl 0) (dbl (-1))) /\ Rabs (B2R (f_cent2hertz 53 1024 nexp (dbl 1) (dbl 0) (dbl (-1))) + exp 1) <= 5 * w * exp 1.
Proof.
  destruct (dbl_val (-1) ltac:(lia)) as [F V]. destruct (dbl_val 1 ltac:(lia)) as [F1 V1]. destruct (dbl_val 0 ltac:(lia)) as [F0 V0]. pose proof w_small as W. pose proof eta53 as T. pose proof exp_le_3 as X3. pose proof (exp_ineq1_le 1) as X2.
  assert (A : Rabs (-1) = 1) by (unfold Rabs; destruct (Rcase_abs _); lra). assert (A1 : Rabs 1 = 1) by (apply Rabs_pos_eq; lra).
  assert (Nz : B2R (dbl (-1)) <> 0) by (rewrite V; lra). assert (W0 : 0 <= w) by lra. assert (Fy : finite (fdiv 53 1024 (fsub 53 1024 (fabs 53 1024 (dbl (-1))) (dbl 0)) (dbl 1))) by (vm_compute; reflexivity).
  destruct (C143_cent_inverse 53 1024 lib_size nexp w (dbl 1) (dbl 0) (dbl (-1)) F F1 Nz W0 nexp_within Fy) as [Fv E].
  - rewrite V, V0, V1, A. replace ((1 - 0) / 1) with 1 by field. rewrite A1. nra.
  - rewrite V, V0, V1, A. replace ((1 - 0) / 1) with 1 by field. split; [apply Rle_trans with (bpow radix2 0); [apply bpow_le; lia|cbn; lra]|apply Rle_trans with (bpow radix2 2); [cbn; lra|apply bpow_le; lia]].
  - split; [exact Fv|]. rewrite V, V0, V1, A in E. replace ((1 - 0) / 1) with 1 in E by field. rewrite A1 in E. set (d := ((1 + w) ^ 2 - 1) * 1 + smallest 53 1024 / 2) in *. replace (sgn (-1)) with (-1) in E by (unfold sgn; destruct (Rlt_dec (-1) 0); lra). replace (B2R (f_cent2hertz 53 1024 nexp (dbl 1) (dbl 0) (dbl (-1))) + exp 1) with (B2R (f_cent2hertz 53 1024 nexp (dbl 1) (dbl 0) (dbl (-1))) - -1 * exp 1) by ring. eapply Rle_trans; [exact E|]. apply Rmult_le_compat_r; [lra|].
    assert (WW : 0 <= w * w <= w * / 9007199254740992) by (split; [apply Rmult_le_pos|apply Rmult_le_compat_l]; lra). assert (E53 : smallest 53 1024 <= w / 2) by (unfold roundoff; change (2 ^ 53)%Z with 9007199254740992%Z; replace (/ 9007199254740992 / 2) with (/ 18014398509481984) by field; unfold smallest; apply Rinv_le_contravar; [lra|apply IZR_le; vm_compute; discriminate]).
    assert (DB : 0 <= d <= 3 * w) by (unfold d; cbn [pow]; lra). assert (DS : 0 <= d <= / 100) by lra. pose proof (exp_small d DS) as XS. assert (exp d * w <= (1 + 4 * w) * w) by (apply Rmult_le_compat_r; lra). lra.
Qed.
Print Assumptions C143_erb.
Print Assumptions C143_erb_inverse.
Print Assumptions C143_erb_roundtrip.
Print Assumptions C143_cent.
Print Assumptions C143_cent_inverse.
