(** C133: rounding functions, scalar helpers and angle conversions in floating point. *)
From Coq Require Import ZArith Reals List Bool Lia Lra Psatz.
From Flocq Require Import Core BinarySingleNaN.
From Verif Require Import Base ConstModel ConstSpec ConstFloatModel ConstFloatProps FloatModel FloatSpec FloatProofs FloatProps FloatOrderProps FloatClockProps FloatWaveModel FloatWaveProps FloatWindowProps FloatNumModel.
Import ListNotations.
Local Open Scope R_scope.

Section Format.
Context (prec emax : Z) {Hprec : Prec_gt_0 prec} {Hmax : Prec_lt_emax prec emax}.
Notation fl := (binary_float prec emax).
Notation rnd := (round radix2 (FLT_exp (3 - emax - prec) prec) ZnearestE).
Notation fmt := (generic_format radix2 (FLT_exp (3 - emax - prec) prec)).
Notation val := (@B2R prec emax).
Notation u := (roundoff prec).
Notation eta := (smallest prec emax).
Notation zero := (fzero prec emax).
Notation ofz := (of_Z prec emax).

Lemma nearby (md : mode) (x : fl) : finite x -> finite (Bnearbyint md x) /\ val (Bnearbyint md x) = IZR (round_mode md (val x)) /\ Bsign (Bnearbyint md x) = Bsign x.
Proof.
  intros F. destruct (Bnearbyint_correct prec emax Hmax md x) as [V [G S0]]. rewrite round_FIX_IZR in V. unfold finite in *. rewrite F in G. split; [exact G|]. split; [exact V|].
  apply S0. apply fin_not_nan. exact G.
Qed.
Lemma nearby_other (md : mode) (x : fl) : is_finite x = false -> Bnearbyint md x = x.
Proof. destruct x; try discriminate; reflexivity. Qed.
(** The results are the documented whole numbers, exactly; signs survive (ceil(-0.5) is -0); infinities
    and NaN are left alone. *)
Theorem C133_rounding x :
  (finite x -> exists a b c d : Z,
    (finite (f_floor prec emax x) /\ val (f_floor prec emax x) = IZR a /\ IZR a <= val x < IZR a + 1) /\
    (finite (f_ceil prec emax x) /\ val (f_ceil prec emax x) = IZR b /\ IZR b - 1 < val x <= IZR b) /\
    (finite (f_fix prec emax x) /\ val (f_fix prec emax x) = IZR c /\ Rabs (IZR c) <= Rabs (val x) < Rabs (IZR c) + 1 /\ 0 <= IZR c * val x) /\
    (finite (f_round prec emax x) /\ val (f_round prec emax x) = IZR d /\ Rabs (val x - IZR d) <= / 2 /\ (Rabs (val x - IZR d) = / 2 -> Rabs (val x) < Rabs (IZR d))) /\
    Bsign (f_floor prec emax x) = Bsign x /\ Bsign (f_ceil prec emax x) = Bsign x /\ Bsign (f_fix prec emax x) = Bsign x /\ Bsign (f_round prec emax x) = Bsign x) /\
  (is_finite x = false -> f_floor prec emax x = x /\ f_ceil prec emax x = x /\ f_fix prec emax x = x /\ f_round prec emax x = x).
Proof.
  split; [|intros F; repeat split; apply nearby_other; exact F].
  intros F. destruct (nearby mode_DN x F) as [F1 [V1 S1]]. destruct (nearby mode_UP x F) as [F2 [V2 S2]]. destruct (nearby mode_ZR x F) as [F3 [V3 S3]]. destruct (nearby mode_NA x F) as [F4 [V4 S4]].
  cbn [round_mode] in V1, V2, V3, V4. exists (Zfloor (val x)), (Zceil (val x)), (Ztrunc (val x)), (ZnearestA (val x)).
  split; [split; [exact F1|split; [exact V1|]]; split; [apply Zfloor_lb|apply Zfloor_ub]|].
  split; [split; [exact F2|split; [exact V2|]]; split; [|apply Zceil_ub]|].
  { unfold Zceil. rewrite opp_IZR. pose proof (Zfloor_ub (- val x)). lra. }
  split.
  { split; [exact F3|]. split; [exact V3|]. unfold Ztrunc. destruct (Rlt_bool_spec (val x) 0) as [L|L].
    - assert (C1 : (Zceil (val x) <= 0)%Z) by (apply Zceil_glb; lra). apply IZR_le in C1. pose proof (Zceil_ub (val x)). pose proof (Zfloor_ub (- val x)) as C2.
      assert (C3 : IZR (Zceil (val x)) = - IZR (Zfloor (- val x))) by (unfold Zceil; apply opp_IZR).
      rewrite !Rabs_left1 by lra. split; [lra|]. nra.
    - assert (C1 : (0 <= Zfloor (val x))%Z) by (apply Zfloor_lub; lra). apply IZR_le in C1. pose proof (Zfloor_lb (val x)). pose proof (Zfloor_ub (val x)).
      rewrite !Rabs_right by lra. split; [lra|]. nra. }
  split; [|repeat split; assumption].
  split; [exact F4|]. split; [exact V4|]. split; [apply Znearest_half|]. intros T. set (v := val x) in *.
  unfold Znearest in *. pose proof (Zfloor_lb v) as B1. pose proof (Zfloor_ub v) as B2. destruct (Rcompare_spec (v - IZR (Zfloor v)) (/ 2)) as [C|C|C].
  - rewrite Rabs_right in T by lra. lra.
  - assert (Ce : Zceil v = (Zfloor v + 1)%Z) by (apply Zceil_floor_neq; lra).
    destruct (Zle_bool 0 (Zfloor v)) eqn:Z0.
    + apply Zle_bool_imp_le, IZR_le in Z0. rewrite Ce, plus_IZR, !Rabs_right by lra. lra.
    + apply Z.leb_gt in Z0. assert (Z1 : (Zfloor v <= -1)%Z) by lia. apply IZR_le in Z1. rewrite !Rabs_left1 by lra. lra.
  - assert (Ce : Zceil v = (Zfloor v + 1)%Z) by (apply Zceil_floor_neq; lra). rewrite Ce, plus_IZR, Rabs_left1 in T by lra. lra.
Qed.
(** Rounding a rounded signal changes nothing. *)
Theorem C133_idempotent x : f_floor prec emax (f_floor prec emax x) = f_floor prec emax x /\ f_ceil prec emax (f_ceil prec emax x) = f_ceil prec emax x /\
  f_fix prec emax (f_fix prec emax x) = f_fix prec emax x /\ f_round prec emax (f_round prec emax x) = f_round prec emax x /\ f_rectify prec emax (f_rectify prec emax x) = f_rectify prec emax x.
Proof.
  assert (K : forall md (x : fl), Bnearbyint md (Bnearbyint md x) = Bnearbyint md x).
  { intros md y. destruct (is_finite y) eqn:F; [|rewrite !nearby_other by (rewrite ?nearby_other; exact F); reflexivity].
    destruct (nearby md y F) as [F1 [V1 S1]]. destruct (nearby md _ F1) as [F2 [V2 S2]]. apply B2R_Bsign_inj; [exact F2|exact F1| |exact S2].
    rewrite V2, V1. f_equal. apply Zrnd_IZR. auto with typeclass_instances. }
  repeat split; try apply K. unfold f_rectify, fabs. destruct x; reflexivity.
Qed.
Lemma nonneg_le (x : fl) : finite x -> le zero x <-> 0 <= val x.
Proof. intros F. unfold le. rewrite (leb_true prec emax), !(level_fin prec emax) by (exact F || reflexivity). rewrite (fin_not_nan prec emax x F). cbn [is_nan fzero]. change (val zero) with 0. tauto. Qed.
(** Rectification, sign and squares. *)
Theorem C133_rectify x : (finite x -> finite (f_rectify prec emax x)) /\ val (f_rectify prec emax x) = Rabs (val x) /\ (nan x <-> nan (f_rectify prec emax x)) /\
  (~ nan x -> le zero (f_rectify prec emax x)).
Proof.
  unfold f_rectify, fabs. split; [intros F; unfold finite in *; rewrite is_finite_Babs; exact F|]. split; [apply B2R_Babs|]. split; [destruct x; cbn; split; intros H; exact H|].
  intros N. destruct x as [s|s| |s m e B]; try reflexivity. exfalso. apply N. reflexivity.
Qed.
Theorem C133_sign x : (lt x zero -> f_sign prec emax x = ofz (-1)) /\ (~ lt x zero -> f_sign prec emax x = ofz 1).
Proof. unfold f_sign, lt, flt. destruct (Bltb x zero); split; intros H; try reflexivity; [exfalso; apply H; reflexivity|discriminate H]. Qed.
Theorem C133_square x : (nan x <-> nan (f_square prec emax x)) /\ (~ nan x -> le zero (f_square prec emax x)).
Proof.
  unfold f_square. destruct (is_finite x) eqn:F.
  - pose proof (fin_not_nan prec emax x F) as Nx.
    assert (R0 : 0 <= val x * val x) by nra. assert (Ls : xorb (Bsign x) (Bsign x) = false) by apply xorb_nilpotent.
    destruct (mul_cases prec emax x x F F) as [[_ [V G]]|[_ E]].
    + assert (Nm : is_nan (fmul prec emax x x) = false) by (apply fin_not_nan; exact G). split; [unfold nan; split; intros H; congruence|]. intros _.
      apply (proj2 (nonneg_le _ G)). rewrite V. apply (rnd_pos prec emax). exact R0.
    + rewrite E, Ls. split; [split; intros H; [unfold nan in *; congruence|discriminate H]|reflexivity].
  - destruct x as [s|s| |s m e B]; try discriminate F; cbn; split; try (destruct s; split; intros H; try discriminate H; reflexivity); try reflexivity; try (intros H; exfalso; apply H; reflexivity); try (split; intros; reflexivity).
Qed.
(** ** The fractional part *)
Theorem C133_fract x : finite x -> exists z : Z, IZR z <= val x < IZR z + 1 /\
  finite (f_fract prec emax x) /\ 0 <= val (f_fract prec emax x) <= 1 /\ Rabs (val (f_fract prec emax x) - (val x - IZR z)) <= u /\
  (0 <= val x -> val (f_fract prec emax x) = val x - IZR z).
Proof.
  intros F. destruct (nearby mode_DN x F) as [F1 [V1 _]]. cbn [round_mode] in V1. exists (Zfloor (val x)). set (z := Zfloor (val x)) in *.
  assert (B : IZR z <= val x < IZR z + 1) by (split; [apply Zfloor_lb|apply Zfloor_ub]). split; [exact B|].
  destruct (unit_facts prec emax) as [U _]. unfold f_fract, f_floor.
  destruct (sub_small prec emax x (Bnearbyint mode_DN x) F F1) as [Fs Vs]; rewrite V1 in *.
  { apply Rle_trans with 1; [|lra]. apply (rnd_unit_abs prec emax). rewrite Rabs_right; lra. }
  split; [exact Fs|]. rewrite Vs. split; [apply (rnd_unit prec emax); lra|]. split.
  - pose proof (sum_err prec emax (val x) (- IZR z) (fmt_val prec emax x) ltac:(rewrite <- V1; apply generic_format_opp, (fmt_val prec emax))) as E.
    change (val x + - IZR z) with (val x - IZR z) in E. rewrite (Rabs_right (val x - IZR z)) in E by lra. eapply Rle_trans; [exact E|]. nra.
  - intros P. apply (rnd_id prec emax). apply (rem_fmt prec emax); [apply (fmt_val prec emax)|lra|]. apply Zfloor_lub. exact P.
Qed.
(** ** The inverse *)
Theorem C133_inv x : finite x -> val x <> 0 -> (IZR (2 ^ (emax - 1)) * Rabs (val x) >= 1) ->
  finite (f_inv prec emax x) /\ Rabs (val (f_inv prec emax x) - / val x) <= u * Rabs (/ val x) + eta / 2.
Proof.
  intros F N B. destruct (int_value prec emax 1 (small_int prec 1 ltac:(lia))) as [F1 V1]. unfold f_inv.
  pose proof Hprec as P. pose proof Hmax as M. unfold Prec_gt_0, Prec_lt_emax in P, M.
  assert (A : Rabs (/ val x) <= bpow radix2 (emax - 1)).
  { rewrite Rabs_inv by exact N. assert (0 < Rabs (val x)) by (apply Rabs_pos_lt; exact N). apply Rmult_le_reg_r with (Rabs (val x)); [assumption|]. rewrite Rinv_l by lra. rewrite <- (IZR_Zpower radix2) by lia. change (radix_val radix2) with 2%Z. lra. }
  assert (G : fmt (bpow radix2 (emax - 1))) by (apply (fmt_bpow prec emax); lia).
  assert (R1 : Rabs (rnd (/ val x)) <= bpow radix2 (emax - 1)) by (apply abs_round_le_generic; auto with typeclass_instances).
  assert (L : bpow radix2 (emax - 1) < bpow radix2 emax) by (apply bpow_lt; lia).
  destruct (div_cases prec emax (ofz 1) x F1 N) as [[_ [V [Fd _]]]|[O _]]; rewrite V1 in *; unfold Rdiv in *; rewrite Rmult_1_l in *; [|lra].
  split; [exact Fd|]. rewrite V. apply (round_err prec emax).
Qed.
Theorem C133_square_value x : finite (f_square prec emax x) -> finite x /\ Rabs (val (f_square prec emax x) - val x * val x) <= u * (val x * val x) + eta / 2.
Proof.
  unfold f_square. intros F. assert (Fx : finite x).
  { unfold finite in *. destruct x as [s|s| |s m e B]; try reflexivity; try discriminate F. }
  split; [exact Fx|]. destruct (mul_cases prec emax x x Fx Fx) as [[_ [V _]]|[_ E]]; [|rewrite E in F; discriminate F].
  rewrite V. rewrite <- (Rabs_right (val x * val x)) at 3 by nra. apply (round_err prec emax).
Qed.
End Format.

(** ** Halves *)
Section Half.
Context (prec emax : Z) {Hprec : Prec_gt_0 prec} {Hmax : Prec_lt_emax prec emax}.
Context (wprec wemax : Z) {Hwprec : Prec_gt_0 wprec} {Hwmax : Prec_lt_emax wprec wemax}.
Hypothesis Wider : (prec <= wprec)%Z /\ (emax <= wemax)%Z.
Hypothesis Two : (2 <= wprec)%Z.
Notation fl := (binary_float prec emax).
Notation rnd := (round radix2 (FLT_exp (3 - emax - prec) prec) ZnearestE).
Notation wrnd := (round radix2 (FLT_exp (3 - wemax - wprec) wprec) ZnearestE).
Notation fmt := (generic_format radix2 (FLT_exp (3 - emax - prec) prec)).
Notation val := (@B2R prec emax).
Notation eta := (smallest prec emax).

Lemma half_fmt x : fmt x -> bpow radix2 (3 - emax) <= Rabs x -> fmt (x / 2).
Proof.
  intros G B. apply FLT_format_generic in G; [|exact Hprec]. destruct G as [[m e] Hx Hm He]. cbn [Fnum Fexp] in *.
  assert (E : (3 - emax - prec < e)%Z).
  { destruct (Z.le_gt_cases e (3 - emax - prec)) as [L|L]; [|lia]. exfalso. assert (e = 3 - emax - prec)%Z by lia. subst e.
    assert (Rabs x < bpow radix2 (3 - emax)); [|lra]. rewrite Hx, <- F2R_Zabs. replace (bpow radix2 (3 - emax)) with (bpow radix2 prec * bpow radix2 (3 - emax - prec)) by (rewrite <- bpow_plus; f_equal; lia).
    unfold F2R. cbn [Fnum Fexp]. apply Rmult_lt_compat_r; [apply bpow_gt_0|]. pose proof Hprec as P. unfold Prec_gt_0 in P. rewrite <- (IZR_Zpower radix2) by lia. apply IZR_lt. exact Hm. }
  replace (x / 2) with (F2R (Float radix2 m (e - 1))).
  - apply (fmt_num prec emax); [exact Hm|lia].
  - rewrite Hx. unfold F2R. cbn [Fnum Fexp]. unfold Zminus. rewrite bpow_plus. change (bpow radix2 (-(1))) with (/ 2). field.
Qed.
(** [half] is exact, except that subnormal results are rounded once. *)
Theorem C133_half x : finite x ->
  finite (f_half prec emax wprec wemax x) /\ Rabs (val (f_half prec emax wprec wemax x) - val x / 2) <= eta / 2 /\
  (eta * IZR (2 ^ prec) <= Rabs (val x) -> val (f_half prec emax wprec wemax x) = val x / 2).
Proof.
  intros F. unfold f_half. destruct (widen_value prec emax wprec wemax Wider x F) as [Fx Vx].
  destruct (half_fraction wprec wemax wprec wemax ltac:(lia) Two) as [Hf Vh]. destruct (fraction_value wprec wemax wprec wemax ltac:(lia) _ Hf) as [Fh _].
  set (h := fdiv wprec wemax (of_Z wprec wemax 1) (of_Z wprec wemax 2)) in *.
  pose proof Hprec as P. pose proof Hmax as M. unfold Prec_gt_0, Prec_lt_emax in P, M. pose proof (fmt_val prec emax x) as G.
  assert (Ax : Rabs (val x / 2) <= Rabs (val x)) by (unfold Rdiv; rewrite Rabs_mult, (Rabs_right (/ 2)) by lra; pose proof (Rabs_pos (val x)); lra).
  assert (W1 : Rabs (wrnd (val x / 2)) <= Rabs (val x)).
  { apply abs_round_le_generic; auto with typeclass_instances. apply generic_format_abs. apply (fmt_up prec emax wprec wemax Wider). exact G. }
  pose proof (val_bound prec emax x) as Bx. assert (Bw : bpow radix2 emax <= bpow radix2 wemax) by (apply bpow_le; lia).
  assert (D : rnd (wrnd (val x / 2)) = rnd (val x / 2)).
  { destruct (Z.eq_dec (wprec + wemax) (prec + emax)) as [Q|Q].
    - assert (wprec = prec) by lia. assert (wemax = emax) by lia. replace (FLT_exp (3 - wemax - wprec) wprec) with (FLT_exp (3 - emax - prec) prec) by (f_equal; lia).
      apply (rnd_id prec emax). apply generic_format_round; auto with typeclass_instances.
    - f_equal. apply (rnd_id wprec wemax). apply FLT_format_generic in G; [|exact Hprec]. destruct G as [[m e] Hx Hm He]. cbn [Fnum Fexp] in *.
      replace (val x / 2) with (F2R (Float radix2 m (e - 1))).
      + apply (fmt_num wprec wemax); [|lia]. change (Z.pow radix2 prec) with (2 ^ prec)%Z in Hm. assert (2 ^ prec <= 2 ^ wprec)%Z by (apply Z.pow_le_mono_r; lia). lia.
      + rewrite Hx. unfold F2R. cbn [Fnum Fexp]. unfold Zminus. rewrite bpow_plus. change (bpow radix2 (-(1))) with (/ 2). field. }
  assert (E : B2R h * B2R (fconv wprec wemax x) = val x / 2) by (rewrite Vh, Vx; unfold Rdiv; ring).
  destruct (mul_cases wprec wemax h (fconv wprec wemax x) Fh Fx) as [[_ [V Fm]]|[O _]]; rewrite E in *; [|exfalso; lra].
  assert (R1 : Rabs (rnd (val x / 2)) <= Rabs (val x)).
  { apply abs_round_le_generic; auto with typeclass_instances. apply generic_format_abs. exact G. }
  destruct (narrow_value prec emax wprec wemax _ Fm) as [Fy Vy]; rewrite V, D in *; [lra|]. split; [exact Fy|]. rewrite Vy.
  assert (K : bpow radix2 (3 - emax) <= Rabs (val x) -> rnd (val x / 2) = val x / 2) by (intros H; apply (rnd_id prec emax); apply half_fmt; assumption).
  assert (Ee : eta * IZR (2 ^ prec) = bpow radix2 (3 - emax)).
  { rewrite (smallest_tiny prec emax). unfold tiny. replace (IZR (2 ^ prec)) with (bpow radix2 prec) by (rewrite <- (IZR_Zpower radix2) by lia; reflexivity). rewrite <- bpow_plus. f_equal. lia. }
  split; [|rewrite Ee; exact K]. destruct (Rle_dec (bpow radix2 (3 - emax)) (Rabs (val x))) as [L|L].
  - rewrite (K L). replace (val x / 2 - val x / 2) with 0 by ring. rewrite Rabs_R0. destruct (unit_facts prec emax) as [_ [T _]]. lra.
  - eapply Rle_trans; [apply error_le_half_ulp; auto with typeclass_instances|]. rewrite ulp_FLT_small; [|exact Hprec|].
    + rewrite (smallest_tiny prec emax). unfold tiny. lra.
    + replace (3 - emax - prec + prec)%Z with (3 - emax)%Z by lia. lra.
Qed.
End Half.

(** ** Degrees and radians *)
Section Angle.
Context (prec emax : Z) {Hprec : Prec_gt_0 prec} {Hmax : Prec_lt_emax prec emax}.
Hypothesis Sizes : (8 <= prec <= 53)%Z /\ (16 <= emax)%Z.
Notation fl := (binary_float prec emax).
Notation val := (@B2R prec emax).
Notation u := (roundoff prec).
Notation eta := (smallest prec emax).
Variable pi : fl.
Hypothesis Hpi : finite pi /\ val pi = stored prec emax ConstModel.pi.

Lemma angle_facts : 0 < u <= / 256 /\ 0 < eta /\ Rabs (val pi - PI) <= 3 * u * PI /\ 3 < PI <= 4 /\ finite (of_Z prec emax 180) /\ val (of_Z prec emax 180) = 180.
Proof.
  destruct (unit_facts prec emax) as [[U _] [[E _] _]]. split; [split; [exact U|]|split; [exact E|split; [|split]]].
  - rewrite (roundoff_u prec). unfold unit_roundoff. replace (/ 256) with (bpow radix2 (-8)) by (cbn; lra). apply bpow_le. lia.
  - destruct Hpi as [_ V]. rewrite V. pose proof (C130_accuracy prec emax ConstModel.pi PI ltac:(lia) ltac:(lia) eq_refl) as A. pose proof PI_RGT_0 as P0. rewrite (Rabs_right PI) in A by lra.
    assert (R52 : roundoff 52 <= 2 * u).
    { assert (P52 : Prec_gt_0 52) by reflexivity. rewrite (roundoff_u 52), (roundoff_u prec). unfold unit_roundoff. change 2 with (bpow radix2 1). rewrite <- bpow_plus. apply bpow_le. lia. }
    eapply Rle_trans; [exact A|]. apply Rmult_le_compat_r; lra.
  - pose proof PI_4. pose proof PI2_3_2. lra.
  - apply (int_value prec emax 180). assert (2 ^ 8 <= 2 ^ prec)%Z by (apply Z.pow_le_mono_r; lia). lia.
Qed.
Lemma mul_round x y : finite x -> finite y -> finite (fmul prec emax x y) -> Rabs (val (fmul prec emax x y) - val x * val y) <= u * Rabs (val x * val y) + eta / 2.
Proof. intros Fx Fy F. destruct (mul_cases prec emax x y Fx Fy) as [[_ [V _]]|[_ E]]; [rewrite V; apply (round_err prec emax)|rewrite E in F; discriminate F]. Qed.
Lemma div_round x y : finite x -> val y <> 0 -> finite (fdiv prec emax x y) -> Rabs (val (fdiv prec emax x y) - val x / val y) <= u * Rabs (val x / val y) + eta / 2.
Proof. intros Fx Fy F. destruct (div_cases prec emax x y Fx Fy) as [[_ [V _]]|[_ E]]; [rewrite V; apply (round_err prec emax)|rewrite E in F; discriminate F]. Qed.
Lemma product_fin x y : finite (fmul prec emax x y) -> finite x.
Proof. unfold finite. destruct x, y; cbn; intros; try reflexivity; discriminate. Qed.
Lemma quotient_fin x y : finite y -> val y <> 0 -> finite (fdiv prec emax x y) -> finite x.
Proof. intros Fy N. destruct x; try reflexivity; destruct y as [s'|s'| |s' m e B]; try discriminate Fy; try (exfalso; apply N; reflexivity); cbn; intros; discriminate. Qed.
Lemma mult_close a b d : Rabs (a - b) <= d -> - d <= a - b <= d.
Proof. apply Rabs_le_inv. Qed.

Theorem C133_deg2rad x : finite (f_deg2rad prec emax pi x) -> Rabs (val (f_deg2rad prec emax pi x) - val x * PI / 180) <= 10 * u * Rabs (val x * PI / 180) + eta.
Proof.
  intros F. destruct angle_facts as [U [E [P [P3 [F18 V18]]]]]. destruct Hpi as [Fp _]. unfold f_deg2rad in *.
  assert (Fm : finite (fmul prec emax x pi)) by (eapply quotient_fin; [| |exact F]; [exact F18|rewrite V18; lra]).
  assert (Fx : finite x) by (apply (product_fin _ _ Fm)).
  pose proof (mul_round x pi Fx Fp Fm) as M. pose proof (div_round _ (of_Z prec emax 180) Fm ltac:(rewrite V18; lra) F) as D. rewrite V18 in D.
  set (m := val (fmul prec emax x pi)) in *. set (y := val (fdiv prec emax (fmul prec emax x pi) (of_Z prec emax 180))) in *. set (v := val x) in *. set (p := val pi) in *.
  set (A := Rabs v * PI). assert (A0 : 0 <= A) by (apply Rmult_le_pos; [apply Rabs_pos|lra]).
  assert (Ap : Rabs (v * p - v * PI) <= 3 * u * A).
  { rewrite <- Rmult_minus_distr_l, Rabs_mult. unfold A. replace (3 * u * (Rabs v * PI)) with (Rabs v * (3 * u * PI)) by ring. apply Rmult_le_compat_l; [apply Rabs_pos|exact P]. }
  assert (Av : Rabs (v * PI) = A) by (unfold A; rewrite Rabs_mult, (Rabs_right PI) by lra; reflexivity).
  assert (B1 : Rabs (v * p) <= (1 + 3 * u) * A) by (replace (v * p) with (v * p - v * PI + v * PI) by ring; eapply Rle_trans; [apply Rabs_triang|]; rewrite Av; lra).
  assert (B2 : Rabs (m - v * PI) <= 5 * u * A + eta / 2).
  { replace (m - v * PI) with (m - v * p + (v * p - v * PI)) by ring. eapply Rle_trans; [apply Rabs_triang|]. assert (u * Rabs (v * p) <= u * ((1 + 3 * u) * A)) by (apply Rmult_le_compat_l; lra).
    assert (u * (3 * u * A) <= u * A * (3 / 256)) by (replace (u * (3 * u * A)) with (u * A * (3 * u)) by ring; apply Rmult_le_compat_l; [apply Rmult_le_pos; lra|lra]). pose proof (Rmult_le_pos u A ltac:(lra) A0). lra. }
  assert (B3 : Rabs m <= (1 + 5 * u) * A + eta / 2) by (replace m with (m - v * PI + v * PI) by ring; eapply Rle_trans; [apply Rabs_triang|]; rewrite Av; lra).
  assert (D2 : Rabs (m / 180) = Rabs m / 180) by (unfold Rdiv; rewrite Rabs_mult, (Rabs_right (/ 180)) by lra; reflexivity). rewrite D2 in D.
  assert (E2 : Rabs (v * PI / 180) = A / 180) by (unfold Rdiv; rewrite Rabs_mult, Av, (Rabs_right (/ 180)) by lra; reflexivity). rewrite E2.
  assert (B4 : u * (Rabs m / 180) <= u * (((1 + 5 * u) * A + eta / 2) / 180)) by (apply Rmult_le_compat_l; lra).
  assert (B5 : u * (5 * u * A) <= u * A * (5 / 256)) by (replace (u * (5 * u * A)) with (u * A * (5 * u)) by ring; apply Rmult_le_compat_l; [apply Rmult_le_pos; lra|lra]).
  assert (B6 : u * eta <= eta) by nra.
  apply Rabs_le_inv in B2, D. pose proof (Rmult_le_pos u A ltac:(lra) A0) as UA. apply Rabs_le. lra.
Qed.
Theorem C133_rad2deg x : finite (f_rad2deg prec emax pi x) -> Rabs (val (f_rad2deg prec emax pi x) - val x * 180 / PI) <= 8 * u * Rabs (val x * 180 / PI) + 92 * eta.
Proof.
  intros F. destruct angle_facts as [U [E [P [P3 [F18 V18]]]]]. destruct Hpi as [Fp _]. unfold f_rad2deg in *.
  set (v := val x). set (p := val pi) in *. apply Rabs_le_inv in P.
  assert (Uq : 3 * u * PI <= 3 / 256 * 4) by (apply Rmult_le_compat; lra).
  assert (Pp : 2 < p) by lra.
  assert (Fq : finite (fdiv prec emax x pi)) by (apply (product_fin _ _ F)).
  assert (Fx : finite x) by (apply (quotient_fin x pi Fp); [fold p; lra|exact Fq]).
  pose proof (div_round x pi Fx ltac:(fold p; lra) Fq) as D. pose proof (mul_round _ (of_Z prec emax 180) Fq F18 F) as M. rewrite V18 in M.
  set (q := val (fdiv prec emax x pi)) in *. set (y := val (fmul prec emax (fdiv prec emax x pi) (of_Z prec emax 180))) in *. fold v p in D.
  assert (Ip : 0 < / PI) by (apply Rinv_0_lt_compat; lra). assert (Ipp : 0 < / p) by (apply Rinv_0_lt_compat; lra).
  set (A := Rabs v * / PI). assert (A0 : 0 <= A) by (apply Rmult_le_pos; [apply Rabs_pos|lra]).
  assert (Av : Rabs (v / PI) = A) by (unfold A, Rdiv; rewrite Rabs_mult, (Rabs_right (/ PI)) by lra; reflexivity).
  assert (Bp : Rabs (v / p - v / PI) <= 4 * u * A).
  { replace (v / p - v / PI) with (v / PI * ((PI - p) * / p)) by (field; split; apply Rgt_not_eq; lra). rewrite Rabs_mult, Av. rewrite (Rmult_comm (4 * u)). apply Rmult_le_compat_l; [exact A0|].
    rewrite Rabs_mult, (Rabs_right (/ p)) by lra. apply Rmult_le_reg_r with p; [lra|]. rewrite Rmult_assoc, Rinv_l, Rmult_1_r by lra. apply Rabs_le.
    assert (4 * u * p >= 4 * u * (PI * (1 - 3 / 256))) by (apply Rle_ge, Rmult_le_compat_l; [lra|]; assert (3 * u * PI <= PI * (3 / 256)) by (rewrite (Rmult_comm PI); apply Rmult_le_compat_r; lra); lra).
    assert (0 < u * PI) by (apply Rmult_lt_0_compat; lra). lra. }
  assert (B1 : Rabs (v / p) <= (1 + 4 * u) * A) by (replace (v / p) with (v / p - v / PI + v / PI) by ring; eapply Rle_trans; [apply Rabs_triang|]; rewrite Av; lra).
  assert (B1u : u * (4 * u * A) <= u * A * (4 / 256)) by (replace (u * (4 * u * A)) with (u * A * (4 * u)) by ring; apply Rmult_le_compat_l; [apply Rmult_le_pos; lra|lra]).
  pose proof (Rmult_le_pos u A ltac:(lra) A0) as UA.
  assert (B2 : Rabs (q - v / PI) <= 6 * u * A + eta / 2).
  { replace (q - v / PI) with (q - v / p + (v / p - v / PI)) by ring. eapply Rle_trans; [apply Rabs_triang|]. assert (u * Rabs (v / p) <= u * ((1 + 4 * u) * A)) by (apply Rmult_le_compat_l; lra). lra. }
  assert (B3 : Rabs q <= (1 + 6 * u) * A + eta / 2) by (replace q with (q - v / PI + v / PI) by ring; eapply Rle_trans; [apply Rabs_triang|]; rewrite Av; lra).
  assert (D2 : Rabs (q * 180) = Rabs q * 180) by (rewrite Rabs_mult, (Rabs_right 180) by lra; reflexivity). rewrite D2 in M.
  assert (Ev : v * 180 / PI = v / PI * 180) by (unfold Rdiv; ring). rewrite Ev, Rabs_mult, Av, (Rabs_right 180) by lra.
  assert (B4 : u * (Rabs q * 180) <= u * (((1 + 6 * u) * A + eta / 2) * 180)) by (apply Rmult_le_compat_l; lra).
  assert (B5 : u * (6 * u * A) <= u * A * (6 / 256)) by (replace (u * (6 * u * A)) with (u * A * (6 * u)) by ring; apply Rmult_le_compat_l; [apply Rmult_le_pos; lra|lra]).
  assert (B6 : u * eta <= / 256 * eta) by (apply Rmult_le_compat_r; lra).
  apply Rabs_le_inv in B2, M. apply Rabs_le. lra.
Qed.
(** There and back. *)
Theorem C133_angle_round_trip x : finite (f_rad2deg prec emax pi (f_deg2rad prec emax pi x)) ->
  Rabs (val (f_rad2deg prec emax pi (f_deg2rad prec emax pi x)) - val x) <= 19 * u * Rabs (val x) + 200 * eta.
Proof.
  intros F. destruct angle_facts as [U [E [P [P3 [F18 V18]]]]]. destruct Hpi as [Fp _]. apply Rabs_le_inv in P.
  assert (Uq : 3 * u * PI <= 3 / 256 * 4) by (apply Rmult_le_compat; lra).
  assert (Fd : finite (f_deg2rad prec emax pi x)).
  { unfold f_rad2deg in F. apply (quotient_fin _ pi Fp); [lra|]. apply (product_fin _ _ F). }
  pose proof (C133_deg2rad x Fd) as D. pose proof (C133_rad2deg _ F) as R. set (y := val (f_deg2rad prec emax pi x)) in *. set (z := val (f_rad2deg prec emax pi (f_deg2rad prec emax pi x))) in *. set (v := val x) in *.
  assert (Ip : 0 < 180 / PI) by (apply Rdiv_lt_0_compat; lra). assert (Ip2 : 180 / PI <= 60) by (apply Rmult_le_reg_r with PI; [lra|]; unfold Rdiv; rewrite Rmult_assoc, Rinv_l by lra; lra).
  assert (B : Rabs (y * 180 / PI - v) <= 10 * u * Rabs v + 60 * eta).
  { replace (y * 180 / PI - v) with ((y - v * PI / 180) * (180 / PI)) by (field; apply Rgt_not_eq; lra). rewrite Rabs_mult, (Rabs_right (180 / PI)) by lra.
    apply Rle_trans with ((10 * u * Rabs (v * PI / 180) + eta) * (180 / PI)); [apply Rmult_le_compat_r; lra|].
    replace (v * PI / 180) with (v * / (180 / PI)) by (field; apply Rgt_not_eq; lra). rewrite Rabs_mult, (Rabs_right (/ (180 / PI))) by (apply Rle_ge, Rlt_le, Rinv_0_lt_compat; lra).
    rewrite Rmult_plus_distr_r. apply Rplus_le_compat; [right; field; lra|]. rewrite (Rmult_comm eta). apply Rmult_le_compat_r; lra. }
  assert (B2 : Rabs (y * 180 / PI) <= (1 + 10 * u) * Rabs v + 60 * eta) by (replace (y * 180 / PI) with (y * 180 / PI - v + v) by ring; eapply Rle_trans; [apply Rabs_triang|]; lra).
  pose proof (Rabs_pos v) as V0. pose proof (Rmult_le_pos u (Rabs v) ltac:(lra) V0) as UV.
  assert (B3 : u * Rabs (y * 180 / PI) <= u * ((1 + 10 * u) * Rabs v + 60 * eta)) by (apply Rmult_le_compat_l; lra).
  assert (B4 : u * (10 * u * Rabs v) <= u * Rabs v * (10 / 256)) by (replace (u * (10 * u * Rabs v)) with (u * Rabs v * (10 * u)) by ring; apply Rmult_le_compat_l; lra).
  assert (B5 : u * eta <= / 256 * eta) by (apply Rmult_le_compat_r; lra).
  replace (z - v) with (z - y * 180 / PI + (y * 180 / PI - v)) by ring. eapply Rle_trans; [apply Rabs_triang|]. lra.
Qed.
End Angle.

(** The fractional part of a tiny negative number rounds to 1. *)
Definition minus_tiny : double := binary_normalize 53 1024 eq_refl eq_refl mode_NE (-1) (-60) false.
Theorem C133_fract_below_one_refuted : ~ (forall x : double, finite x -> lt (f_fract 53 1024 x) (dbl 1)).
Proof. intros H. specialize (H minus_tiny ltac:(vm_compute; reflexivity)). vm_compute in H. discriminate H. Qed.
(** deg2rad multiplies first: it overflows for large angles although the result is representable. *)
Definition pi53 : double := binary_normalize 53 1024 eq_refl eq_refl mode_NE 7074237752028440 (-51) false.
Definition huge : double := binary_normalize 53 1024 eq_refl eq_refl mode_NE 1 1023 false.
Theorem C133_deg2rad_finite_refuted : ~ (forall x : double, finite x -> finite (f_deg2rad 53 1024 pi53 x)).
Proof. intros H. specialize (H huge ltac:(vm_compute; reflexivity)). vm_compute in H. discriminate H. Qed.
Lemma pi53_stored : finite pi53 /\ B2R pi53 = stored 53 1024 ConstModel.pi.
Proof.
  destruct (sf_val pi53 7074237752028440 (-51)) as [F V]; [vm_compute; reflexivity|]. split; [exact F|].
  assert (S : stored 53 1024 ConstModel.pi = literal_double ConstModel.pi) by (apply round_generic; [auto with typeclass_instances|apply generic_format_round; auto with typeclass_instances]). rewrite S.
  assert (I53 : Prec_gt_0 53) by reflexivity. set (F53 := FLT_exp (3 - 1024 - 53) 53). assert (VF : Valid_exp F53) by (apply FLT_exp_valid; exact I53).
  set (l := Q2R (literal ConstModel.pi)). set (d := literal_double ConstModel.pi). change d with (round radix2 F53 ZnearestE l).
  assert (L : l = 3141592653589793238462643383279502884 * / 1000000000000000000000000000000000000) by reflexivity.
  assert (M : mag radix2 l = 2%Z :> Z) by (apply mag_unique; rewrite Rabs_right by lra; change (bpow radix2 (2 - 1)) with 2; change (bpow radix2 2) with 4; lra).
  assert (U : ulp radix2 F53 l = bpow radix2 (-51)) by (rewrite ulp_neq_0 by lra; unfold cexp; rewrite M; reflexivity).
  pose proof (error_le_half_ulp radix2 F53 (fun z => negb (Z.even z)) l) as E. rewrite U in E. apply Rabs_le_inv in E.
  set (r := round radix2 F53 ZnearestE l) in *. change (round radix2 F53 (Znearest (fun z => negb (Z.even z))) l) with r in E.
  assert (B : bpow radix2 (-51) = / 2251799813685248) by reflexivity.
  assert (Fr : generic_format radix2 F53 r) by (apply generic_format_round; auto with typeclass_instances).
  destruct (multiple 53 1024 r (-51) Fr) as [z Hz]; [right; change (bpow radix2 (53 + -51 - 1)) with 2; rewrite B in E; rewrite Rabs_right; lra|].
  rewrite V, Hz. f_equal. f_equal. rewrite Hz, B, L in E. clear - E.
  assert (Q : IZR 7074237752028439 < IZR z < IZR 7074237752028441) by lra. destruct Q as [Q1 Q2]. apply lt_IZR in Q1, Q2. lia.
Qed.
Example C133_example : ((8 <= 53 <= 53) /\ (16 <= 1024))%Z /\ finite (f_rad2deg 53 1024 pi53 (f_deg2rad 53 1024 pi53 (dbl 90))) /\
  ((24 <= 53) /\ (128 <= 1024))%Z /\ B2SF (f_half 24 128 53 1024 (sgl 7)) = B2SF (fdiv 24 128 (sgl 7) (sgl 2)) /\
  B2SF (f_round 53 1024 (fdiv 53 1024 (dbl (-5)) (dbl 2))) = B2SF (dbl (-3)) /\ B2SF (f_fix 53 1024 (fdiv 53 1024 (dbl (-5)) (dbl 2))) = B2SF (dbl (-2)) /\
  B2SF (f_fract 53 1024 (fdiv 53 1024 (dbl (-5)) (dbl 4))) = B2SF (fdiv 53 1024 (dbl 3) (dbl 4)).
Proof. split; [lia|]. split; [vm_compute; reflexivity|]. split; [lia|]. repeat split; vm_compute; reflexivity. Qed.
Print Assumptions C133_rounding.
Print Assumptions C133_idempotent.
Print Assumptions C133_rectify.
Print Assumptions C133_sign.
Print Assumptions C133_square.
Print Assumptions C133_fract.
Print Assumptions C133_inv.
Print Assumptions C133_square_value.
Print Assumptions C133_half.
Print Assumptions C133_deg2rad.
Print Assumptions C133_rad2deg.
Print Assumptions C133_angle_round_trip.
Print Assumptions C133_fract_below_one_refuted.
Print Assumptions C133_deg2rad_finite_refuted.
