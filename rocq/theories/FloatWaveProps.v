(** C131: the waveforms in floating point. *)
From Coq Require Import ZArith Reals List Bool Lia Lra Psatz.
From Flocq Require Import Core BinarySingleNaN.
From Verif Require Import Base OscSpec FloatModel FloatSpec FloatProofs FloatProps FloatOrderProps FloatWaveModel.
Import ListNotations.
Local Open Scope R_scope.

(** * Conversions and remainders *)
Section One.
Context (prec emax : Z) {Hprec : Prec_gt_0 prec} {Hmax : Prec_lt_emax prec emax}.
Notation fl := (binary_float prec emax).
Notation rnd := (round radix2 (FLT_exp (3 - emax - prec) prec) ZnearestE).
Notation fmt := (generic_format radix2 (FLT_exp (3 - emax - prec) prec)).
Notation val := (@B2R prec emax).

Lemma normalize_cases m e s : let x := F2R (Float radix2 m e) in
  Rabs (rnd x) < bpow radix2 emax ->
  finite (binary_normalize prec emax Hprec Hmax mode_NE m e s) /\ val (binary_normalize prec emax Hprec Hmax mode_NE m e s) = rnd x.
Proof.
  intros x L. pose proof (binary_normalize_correct prec emax Hprec Hmax mode_NE m e s) as C. cbv zeta in C. fold x in C.
  rewrite Rlt_bool_true in C by exact L. destruct C as [C1 [C2 _]]. split; [exact C2|exact C1].
Qed.
Lemma fmt_double x : fmt x -> fmt (2 * x).
Proof.
  intros H. apply FLT_format_generic in H; [|exact Hprec]. destruct H as [[m e] Hx Hm He]. cbn [Fnum Fexp] in *.
  apply generic_format_FLT. exists (Float radix2 m (e + 1)); cbn [Fnum Fexp]; [|exact Hm|lia].
  rewrite Hx. unfold F2R. cbn [Fnum Fexp]. rewrite bpow_plus. change (bpow radix2 1) with 2. ring.
Qed.
Lemma fmt_parts (m : positive) (e : Z) (H : SpecFloat.bounded prec emax m e = true) : (Zpos m < 2 ^ prec)%Z /\ (3 - emax - prec <= e)%Z.
Proof.
  apply andb_prop in H. destruct H as [H _]. unfold SpecFloat.canonical_mantissa in H. apply Zeq_bool_eq in H.
  rewrite Digits.Zpos_digits2_pos in H. unfold SpecFloat.fexp, SpecFloat.emin in H. pose proof Hprec as P. unfold Prec_gt_0 in P.
  split; [|lia]. assert (D : (Digits.Zdigits radix2 (Zpos m) <= prec)%Z) by lia.
  pose proof (Digits.Zpower_gt_Zdigits radix2 prec (Zpos m) D) as G. exact G.
Qed.
Lemma fmt_num k e : (Z.abs k < 2 ^ prec)%Z -> (3 - emax - prec <= e)%Z -> fmt (F2R (Float radix2 k e)).
Proof. intros H1 H2. apply generic_format_FLT. exists (Float radix2 k e); [reflexivity|exact H1|exact H2]. Qed.

(** The remainder is exact. *)
Lemma ffmod_value (x y : fl) : finite x -> finite y -> 0 <= val x -> 0 < val y ->
  finite (ffmod prec emax x y) /\ exists k : Z, (0 <= k)%Z /\ val (ffmod prec emax x y) = val x - IZR k * val y /\
  0 <= val (ffmod prec emax x y) < val y.
Proof.
  intros Fx Fy Px Py. destruct y as [sy|sy| |sy n ey Hy]; try discriminate Fy; [cbn in Py; lra|].
  destruct x as [sx|sx| |sx m ex Hx]; try discriminate Fx.
  - split; [reflexivity|]. exists 0%Z. split; [lia|]. cbn in *. lra.
  - assert (sx = false) as -> by (destruct sx; [|reflexivity]; cbn in Px; pose proof (F2R_lt_0 radix2 (Float radix2 (Zneg m) ex) eq_refl); lra).
    assert (sy = false) as -> by (destruct sy; [|reflexivity]; cbn in Py; pose proof (F2R_lt_0 radix2 (Float radix2 (Zneg n) ey) eq_refl); lra).
    cbn [ffmod cond_Zopp]. set (low := Z.min ex ey). set (M := (Zpos m * 2 ^ (ex - low))%Z). set (N := (Zpos n * 2 ^ (ey - low))%Z).
    assert (EM : val (B754_finite false m ex Hx) = IZR M * bpow radix2 low).
    { change (val (B754_finite false m ex Hx)) with (IZR (Zpos m) * bpow radix2 ex). unfold M. rewrite mult_IZR, (IZR_Zpower radix2) by lia. rewrite Rmult_assoc, <- bpow_plus. do 2 f_equal. lia. }
    assert (EN : val (B754_finite false n ey Hy) = IZR N * bpow radix2 low).
    { change (val (B754_finite false n ey Hy)) with (IZR (Zpos n) * bpow radix2 ey). unfold N. rewrite mult_IZR, (IZR_Zpower radix2) by lia. rewrite Rmult_assoc, <- bpow_plus. do 2 f_equal. lia. }
    assert (PN : (0 < N)%Z) by (unfold N; apply Z.mul_pos_pos; [lia|apply Z.pow_pos_nonneg; lia]).
    assert (PM : (0 < M)%Z) by (unfold M; apply Z.mul_pos_pos; [lia|apply Z.pow_pos_nonneg; lia]).
    pose proof (Z.mod_pos_bound M N PN) as B. pose proof (Z.div_mod M N ltac:(lia)) as DM.
    assert (Q0 : (0 <= M / N)%Z) by (apply Z.div_pos; lia).
    assert (Rm : (M mod N <= M)%Z) by (apply Z.mod_le; lia).
    destruct (fmt_parts m ex Hx) as [Bm Be]. destruct (fmt_parts n ey Hy) as [Bn Bf].
    assert (G : fmt (F2R (Float radix2 (M mod N) low))).
    { apply fmt_num; [|unfold low; lia]. rewrite Z.abs_eq by lia. unfold low in *. destruct (Z.min_spec ex ey) as [[_ E]|[_ E]].
      - assert (M = Zpos m) by (unfold M; rewrite E, Z.sub_diag, Z.pow_0_r; lia). lia.
      - assert (N = Zpos n) by (unfold N; rewrite E, Z.sub_diag, Z.pow_0_r; lia). lia. }
    pose proof (bpow_gt_0 radix2 low) as Bp.
    assert (V : F2R (Float radix2 (M mod N) low) = IZR (M mod N) * bpow radix2 low) by reflexivity.
    assert (L : 0 <= F2R (Float radix2 (M mod N) low) < val (B754_finite false n ey Hy)).
    { rewrite V, EN. split; [apply Rmult_le_pos; [apply IZR_le; lia|lra]|]. apply Rmult_lt_compat_r; [lra|apply IZR_lt; lia]. }
    destruct (normalize_cases (M mod N) low false) as [F E].
    { rewrite (rnd_id prec emax) by exact G. rewrite Rabs_right by lra. pose proof (val_bound prec emax (B754_finite false n ey Hy)) as Vb.
      rewrite Rabs_right in Vb by lra. lra. }
    rewrite (rnd_id prec emax) in E by exact G. split; [exact F|]. exists (M / N)%Z. split; [exact Q0|]. rewrite E. split; [|exact L].
    rewrite EM, EN, V. rewrite DM at 2. rewrite plus_IZR, mult_IZR. ring.
Qed.
Lemma ffmod_nan (x y : fl) : is_finite x = false -> ffmod prec emax x y = B754_nan.
Proof. destruct x; try discriminate; destruct y; reflexivity. Qed.
End One.

(** * The sawtooth *)
Section Two.
Context (prec emax : Z) {Hprec : Prec_gt_0 prec} {Hmax : Prec_lt_emax prec emax}.
Context (wprec wemax : Z) {Hwprec : Prec_gt_0 wprec} {Hwmax : Prec_lt_emax wprec wemax}.
Hypothesis Wider : (prec <= wprec)%Z /\ (emax <= wemax)%Z.
Notation fl := (binary_float prec emax).
Notation wide := (binary_float wprec wemax).
Notation rnd := (round radix2 (FLT_exp (3 - emax - prec) prec) ZnearestE).
Notation fmt := (generic_format radix2 (FLT_exp (3 - emax - prec) prec)).
Notation wrnd := (round radix2 (FLT_exp (3 - wemax - wprec) wprec) ZnearestE).
Notation wfmt := (generic_format radix2 (FLT_exp (3 - wemax - wprec) wprec)).
Notation val := (@B2R prec emax).
Notation wval := (@B2R wprec wemax).
Notation u := (roundoff prec).
Notation uw := (roundoff wprec).
Notation eta := (smallest prec emax).
Notation etaw := (smallest wprec wemax).
Notation zero := (fzero prec emax).
Notation one := (of_Z prec emax 1).
Notation widen := (fconv wprec wemax).
Notation narrow := (fconv prec emax).

#[local] Instance vexp1 : Valid_exp (FLT_exp (3 - emax - prec) prec) := FLT_exp_valid _ _.
#[local] Instance vexp2 : Valid_exp (FLT_exp (3 - wemax - wprec) wprec) := FLT_exp_valid _ _.

Lemma small_facts : 0 < u <= / 2 /\ 0 < uw <= u /\ 0 < etaw <= eta /\ eta <= 2 * u.
Proof.
  pose proof Hprec as P. pose proof Hmax as M. pose proof Hwprec as P'. pose proof Hwmax as M'. unfold Prec_gt_0, Prec_lt_emax in P, M, P', M'.
  rewrite !(roundoff_u prec), !(roundoff_u wprec), !(smallest_tiny prec emax), !(smallest_tiny wprec wemax). unfold unit_roundoff, tiny.
  change (/ 2) with (bpow radix2 (-1)). replace (2 * bpow radix2 (- prec)) with (bpow radix2 (1 - prec)) by (replace (1 - prec)%Z with (1 + - prec)%Z by lia; rewrite bpow_plus; reflexivity).
  repeat split; try apply bpow_gt_0; apply bpow_le; lia.
Qed.
Lemma fmt_up x : fmt x -> wfmt x.
Proof.
  apply generic_inclusion_mag. intros _. unfold FLT_exp. pose proof Hprec as P. unfold Prec_gt_0 in P. lia.
Qed.
Lemma top_up : 4 <= bpow radix2 wemax.
Proof.
  change 4 with (bpow radix2 2). apply bpow_le. pose proof Hwprec as P'. pose proof Hwmax as M'. unfold Prec_gt_0, Prec_lt_emax in *. lia.
Qed.
Lemma widen_value (x : fl) : finite x -> finite (widen x) /\ wval (widen x) = val x.
Proof.
  intros F. destruct x as [s|s| |s m e H]; try discriminate F; [split; reflexivity|].
  set (x := B754_finite s m e H). pose proof (fmt_up _ (fmt_val prec emax x)) as G.
  cbn [fconv x]. change (F2R (Float radix2 (cond_Zopp s (Zpos m)) e)) with (val x) in *.
  destruct (normalize_cases wprec wemax (cond_Zopp s (Zpos m)) e s) as [N V].
  - change (F2R (Float radix2 (cond_Zopp s (Zpos m)) e)) with (val x). rewrite (rnd_id wprec wemax) by exact G.
    eapply Rlt_le_trans; [apply val_bound|]. apply bpow_le. lia.
  - change (F2R (Float radix2 (cond_Zopp s (Zpos m)) e)) with (val x) in V. rewrite (rnd_id wprec wemax) in V by exact G. split; assumption.
Qed.
Lemma widen_unfinite (x : fl) : is_finite x = false -> is_finite (widen x) = false.
Proof. destruct x; try discriminate; reflexivity. Qed.
Lemma narrow_value (z : wide) : finite z -> Rabs (rnd (wval z)) < bpow radix2 emax -> finite (narrow z) /\ val (narrow z) = rnd (wval z).
Proof.
  intros F L. destruct z as [s|s| |s m e H]; try discriminate F.
  - split; [reflexivity|]. change (0 = rnd 0). symmetry. apply (rnd_0 prec emax).
  - apply (normalize_cases prec emax (cond_Zopp s (Zpos m)) e s). exact L.
Qed.
Lemma ones : finite one /\ val one = 1 /\ finite (of_Z wprec wemax 1) /\ wval (of_Z wprec wemax 1) = 1 /\
  finite (of_Z wprec wemax 2) /\ wval (of_Z wprec wemax 2) = 2.
Proof.
  pose proof Hprec as P. pose proof Hmax as M. pose proof Hwprec as P'. pose proof Hwmax as M'. unfold Prec_gt_0, Prec_lt_emax in P, M, P', M'.
  assert (Q : forall k : Z, (1 <= k)%Z -> (2 ^ 1 <= 2 ^ k)%Z) by (intros; apply Z.pow_le_mono_r; lia). change (2 ^ 1)%Z with 2%Z in Q.
  destruct (of_Z_fin prec emax 1) as [F1 V1]; [pose proof (Q (emax - 1)%Z); lia|].
  destruct (of_Z_fin wprec wemax 1) as [F2 V2]; [pose proof (Q (wemax - 1)%Z); lia|].
  destruct (of_Z_fin wprec wemax 2) as [F3 V3]; [pose proof (Q (wemax - 1)%Z); lia|].
  rewrite (rnd_id prec emax) in V1 by (apply (fmt_small prec emax); pose proof (Q prec); lia).
  rewrite (rnd_id wprec wemax) in V2 by (apply (fmt_small wprec wemax); pose proof (Q wprec); lia).
  rewrite (rnd_id wprec wemax) in V3 by (apply (fmt_small wprec wemax); pose proof (Q wprec); lia). auto 6.
Qed.
(** The amplitude times a number between -1 and 1. *)
Lemma scaled (a : fl) (s : wide) : finite a -> finite s -> Rabs (wval s) <= 1 ->
  let y := narrow (fmul wprec wemax (widen a) s) in
  finite y /\ Rabs (val y) <= Rabs (val a) /\ Rabs (val y - val a * wval s) <= 2 * u * Rabs (val a) + eta.
Proof.
  intros Fa Fs Hs y. destruct (widen_value a Fa) as [Fw Vw]. destruct small_facts as [U [Uw [E _]]].
  set (p := val a * wval s). assert (Hp : Rabs p <= Rabs (val a)).
  { unfold p. rewrite Rabs_mult. rewrite <- (Rmult_1_r (Rabs (val a))) at 2. apply Rmult_le_compat_l; [apply Rabs_pos|exact Hs]. }
  pose proof (fmt_val prec emax a) as Ga.
  assert (Z1 : Rabs (wrnd p) <= Rabs (val a)).
  { apply abs_round_le_generic; auto with typeclass_instances. apply generic_format_abs. apply fmt_up, Ga. }
  assert (Z2 : Rabs (rnd (wrnd p)) <= Rabs (val a)).
  { apply abs_round_le_generic; auto with typeclass_instances. apply generic_format_abs. exact Ga. }
  pose proof (val_bound prec emax a) as B.
  assert (B2 : bpow radix2 emax <= bpow radix2 wemax) by (apply bpow_le; lia).
  destruct (mul_cases wprec wemax (widen a) s Fw Fs) as [[_ [V F]]|[O _]]; [|exfalso; rewrite Vw in O; fold p in O; lra].
  rewrite Vw in V. fold p in V.
  destruct (narrow_value _ F) as [Fy Vy]; [rewrite V; lra|]. fold y in Fy, Vy. rewrite V in Vy. rewrite Vy. split; [exact Fy|]. split; [exact Z2|].
  pose proof (rnd_err wprec wemax p) as D1. rewrite <- (roundoff_u wprec), <- (smallest_tiny wprec wemax) in D1.
  pose proof (rnd_err prec emax (wrnd p)) as D2. rewrite <- (roundoff_u prec), <- (smallest_tiny prec emax) in D2.
  apply Rabs_le_inv in D1, D2. set (A := Rabs (val a)) in *.
  assert (M1 : uw * Rabs p <= u * A) by (apply Rmult_le_compat; try lra; apply Rabs_pos).
  assert (M2 : u * Rabs (wrnd p) <= u * A) by (apply Rmult_le_compat_l; lra).
  apply Rabs_le. lra.
Qed.
Lemma below_one t : fmt t -> t < 1 -> t <= 1 - u.
Proof.
  intros G H. assert (G1 : fmt (bpow radix2 0)) by apply (fmt_1 prec emax).
  pose proof (pred_ge_gt radix2 (FLT_exp (3 - emax - prec) prec) t (bpow radix2 0) G G1 H) as P. rewrite pred_bpow in P.
  change (bpow radix2 0) with 1 in P. assert (u <= bpow radix2 (FLT_exp (3 - emax - prec) prec 0)); [|lra].
  rewrite (roundoff_u prec). unfold unit_roundoff. apply bpow_le. unfold FLT_exp. lia.
Qed.
Lemma cycle_unique x t (k : Z) : t = x - IZR k -> 0 <= t < 1 -> cycle x = t.
Proof.
  intros E H. unfold cycle. destruct (base_Int_part x) as [B1 B2]. assert (Int_part x = k) as ->; [|lra].
  assert (IZR (Int_part x) < IZR (k + 1) /\ IZR k < IZR (Int_part x + 1)) as [Q1 Q2] by (rewrite !plus_IZR; lra).
  apply lt_IZR in Q1, Q2. lia.
Qed.
Lemma rem_fmt (x : R) (k : Z) : fmt x -> 0 <= x - IZR k < 1 -> (0 <= k)%Z -> fmt (x - IZR k).
Proof.
  intros G H K. destruct (Req_dec x 0) as [->|N].
  { assert (k = 0%Z) as -> by (assert (IZR k <= 0) as Q by lra; apply le_IZR in Q; lia). rewrite Rminus_0_r. apply generic_format_0. }
  assert (X : 0 < x) by (assert (0 <= IZR k) by (apply IZR_le; lia); lra).
  apply FLT_format_generic in G; [|exact Hprec]. destruct G as [[m e] Hx Hm He]. cbn [Fnum Fexp] in *.
  change (Z.pow radix2 prec) with (2 ^ prec)%Z in Hm.
  unfold F2R in Hx. cbn [Fnum Fexp] in Hx. pose proof (bpow_gt_0 radix2 e) as B.
  destruct (Z.le_gt_cases 0 e) as [E|E].
  - assert (I : x - IZR k = IZR (m * 2 ^ e - k)) by (rewrite minus_IZR, mult_IZR, (IZR_Zpower radix2), <- Hx by lia; reflexivity).
    rewrite I in *. assert (Z0 : (m * 2 ^ e - k = 0)%Z) by (destruct H as [H1 H2]; apply le_IZR in H1; apply lt_IZR in H2; lia).
    rewrite Z0. apply generic_format_0.
  - assert (I : x - IZR k = F2R (Float radix2 (m - k * 2 ^ (- e)) e)).
    { unfold F2R. cbn [Fnum Fexp]. rewrite minus_IZR, mult_IZR, (IZR_Zpower radix2) by lia. rewrite Rmult_minus_distr_r, Hx, Rmult_assoc, <- bpow_plus.
      replace (- e + e)%Z with 0%Z by lia. cbn [bpow]. ring. }
    rewrite I. apply (fmt_num prec emax); [|lia].
    assert (0 < m)%Z by (apply lt_IZR; rewrite Hx in X; apply Rmult_lt_reg_r with (bpow radix2 e); lra).
    assert (0 <= m - k * 2 ^ (- e))%Z.
    { apply le_IZR. rewrite I in H. destruct H as [H _]. unfold F2R in H. cbn [Fnum Fexp] in H. apply Rmult_le_reg_r with (bpow radix2 e); lra. }
    assert (0 <= k * 2 ^ (- e))%Z by (apply Z.mul_nonneg_nonneg; [lia|apply Z.pow_nonneg; lia]). lia.
Qed.
Lemma eqb_value (x y : fl) : finite x -> finite y -> Beqb x y = true <-> val x = val y.
Proof.
  intros Fx Fy. rewrite Beqb_correct by assumption. destruct (Req_bool_spec (val x) (val y)); split; intros; congruence.
Qed.

Lemma saw_core (amp width phase : fl) : finite amp -> finite width -> 0 <= val width <= 1 -> finite phase -> 0 <= val phase ->
  let y := saw_value prec emax wprec wemax amp width phase in
  finite y /\ Rabs (val y) <= Rabs (val amp) /\
  Rabs (val y - val amp * ideal_sawtooth (val width) (val phase)) <= 15 * u * Rabs (val amp) + eta.
Proof.
  intros Fa Fw Hw Fp Hp. cbv zeta. unfold saw_value.
  destruct ones as [F1 [V1 [F1w [V1w [F2w V2w]]]]]. destruct small_facts as [U [Uw [E Eu]]]. pose proof top_up as Top.
  destruct (widen_value phase Fp) as [Fp' Vp']. destruct (widen_value width Fw) as [Fw' Vw'].
  destruct (ffmod_value wprec wemax (widen phase) (of_Z wprec wemax 1) Fp' F1w) as [Ft [k [K [Vt Bt]]]]; [lra|lra|].
  rewrite Vp', V1w, Rmult_1_r in Vt. rewrite V1w in Bt.
  set (t := ffmod wprec wemax (widen phase) (of_Z wprec wemax 1)) in *.
  assert (Cy : cycle (val phase) = wval t) by (apply (cycle_unique _ _ k); assumption).
  assert (Gt : fmt (wval t)) by (rewrite Vt; apply rem_fmt; [apply (fmt_val prec emax)|lra|exact K]).
  assert (Gtw : wfmt (wval t)) by (apply fmt_up, Gt).
  pose proof (fmt_val prec emax width) as Gw. pose proof (fmt_up _ Gw) as Gww.
  assert (Bt1 : wval t <= 1 - u) by (apply below_one; [exact Gt|lra]).
  unfold ideal_sawtooth. rewrite Cy. set (T := wval t) in *. set (w := val width) in *.
  pose proof (eqb_value width zero Fw eq_refl) as Q0. pose proof (eqb_value width one Fw F1) as Q1. rewrite V1 in Q1. fold w in Q0, Q1. change (val zero) with 0 in Q0.
  assert (Lt : flt wprec wemax t (widen width) = true <-> T < w).
  { unfold flt. rewrite (ltb_true wprec wemax), !(level_fin wprec wemax), Vw' by assumption. fold T w. rewrite !fin_not_nan by assumption. tauto. }
  assert (Le : Bleb (widen width) t = true <-> w <= T).
  { rewrite (leb_true wprec wemax), !(level_fin wprec wemax), Vw' by assumption. fold T w. rewrite !fin_not_nan by assumption. tauto. }
  destruct (Rlt_dec T w) as [D|D].
  - (* rising *)
    assert (N0 : Beqb width zero = false) by (apply not_true_is_false; rewrite Q0; lra).
    rewrite N0, (proj2 Lt D). cbn [negb andb].
    assert (R2 : wrnd (2 * T) = 2 * T) by (apply (rnd_id wprec wemax); apply (fmt_double wprec wemax), Gtw).
    destruct (mul_cases wprec wemax (of_Z wprec wemax 2) t F2w Ft) as [[_ [V2 F2]]|[O _]];
      [|exfalso; rewrite V2w in O; fold T in O; rewrite R2, Rabs_right in O by lra; lra].
    rewrite V2w in V2. fold T in V2. rewrite R2 in V2. set (tt := fmul wprec wemax (of_Z wprec wemax 2) t) in *.
    assert (Rt : 0 <= T / w <= 1).
    { split; [apply Rmult_le_pos; [lra|apply Rlt_le, Rinv_0_lt_compat; lra]|]. apply Rmult_le_reg_r with w; [lra|]. unfold Rdiv. rewrite Rmult_assoc, Rinv_l by lra. lra. }
    assert (Eq : 2 * T / w = 2 * (T / w)) by (unfold Rdiv; ring).
    assert (Q : 0 <= wrnd (2 * T / w) <= 2).
    { rewrite Eq. split; [apply (rnd_pos wprec wemax); lra|]. apply Rle_trans with (wrnd 2); [apply (rnd_le wprec wemax); lra|]. rewrite (rnd_id wprec wemax) by (rewrite <- V2w; apply (fmt_val wprec wemax)). lra. }
    destruct (div_cases wprec wemax tt (widen width) F2 ltac:(rewrite Vw'; fold w; apply Rgt_not_eq; lra)) as [[_ [V3 [F3 _]]]|[O _]];
      [|exfalso; rewrite V2, Vw' in O; fold w in O; rewrite Rabs_right in O by lra; lra].
    rewrite V2, Vw' in V3. fold w in V3. set (q := fdiv wprec wemax tt (widen width)) in *.
    assert (Gq : wfmt (wval q)) by apply (fmt_val wprec wemax).
    assert (S1 : Rabs (wrnd (wval q - 1)) <= 1).
    { apply abs_round_le_generic; auto with typeclass_instances; [apply (fmt_1 wprec wemax)|]. rewrite V3. apply Rabs_le. lra. }
    destruct (sub_cases wprec wemax q (of_Z wprec wemax 1) F3 F1w) as [[_ [V4 F4]]|[O _]]; [|exfalso; rewrite V1w in O; lra].
    rewrite V1w in V4. set (s := fsub wprec wemax q (of_Z wprec wemax 1)) in *.
    destruct (scaled amp s Fa F4) as [Fy [By Ey]]; [rewrite V4; exact S1|]. split; [exact Fy|]. split; [exact By|].
    pose proof (rnd_err wprec wemax (2 * T / w)) as D1. rewrite <- (roundoff_u wprec), <- (smallest_tiny wprec wemax), <- V3 in D1. rewrite (Rabs_right (2 * T / w)) in D1 by (rewrite Eq; lra).
    pose proof (rnd_err wprec wemax (wval q - 1)) as D2. rewrite <- (roundoff_u wprec), <- (smallest_tiny wprec wemax), <- V4 in D2.
    assert (A1 : Rabs (wval q - 1) <= 1) by (rewrite V3; apply Rabs_le; lra).
    assert (M1 : uw * (2 * T / w) <= uw * 2) by (apply Rmult_le_compat_l; rewrite ?Eq; lra).
    assert (M2 : uw * Rabs (wval q - 1) <= uw * 1) by (apply Rmult_le_compat_l; lra).
    apply Rabs_le_inv in D1, D2.
    assert (M3 : Rabs (wval s - (2 * T / w - 1)) <= 13 * u) by (apply Rabs_le; lra).
    replace (val (narrow (fmul wprec wemax (widen amp) s)) - val amp * (2 * T / w - 1)) with
      (val (narrow (fmul wprec wemax (widen amp) s)) - val amp * wval s + val amp * (wval s - (2 * T / w - 1))) by ring.
    eapply Rle_trans; [apply Rabs_triang|]. rewrite (Rabs_mult (val amp)).
    pose proof (Rabs_pos (val amp)). assert (Rabs (val amp) * Rabs (wval s - (2 * T / w - 1)) <= Rabs (val amp) * (13 * u)) by (apply Rmult_le_compat_l; lra). lra.
  - (* falling *)
    assert (Nlt : flt wprec wemax t (widen width) = false) by (apply not_true_is_false; rewrite Lt; exact D).
    assert (N1 : Beqb width one = false) by (apply not_true_is_false; rewrite Q1; lra).
    rewrite Nlt, N1, (proj2 Le ltac:(lra)), andb_false_r. cbn [negb andb].
    assert (Gm : fmt (- w)) by (apply generic_format_opp, Gw).
    pose proof (add_err prec emax 1 (- w) (fmt_1 prec emax) Gm) as Dd. rewrite <- (roundoff_u prec) in Dd.
    change (1 + - w) with (1 - w) in Dd. rewrite (Rabs_right (1 - w)) in Dd by lra. apply Rabs_le_inv in Dd.
    assert (Dp : 0 <= rnd (1 - w) <= 1).
    { split; [apply (rnd_pos prec emax); lra|]. rewrite <- (rnd_id prec emax 1) at 2 by apply (fmt_1 prec emax). apply (rnd_le prec emax). lra. }
    assert (Top2 : 1 < bpow radix2 emax).
    { change 1 with (bpow radix2 0). apply bpow_lt. pose proof Hprec as P. pose proof Hmax as M. unfold Prec_gt_0, Prec_lt_emax in *. lia. }
    destruct (sub_cases prec emax one width F1 Fw) as [[_ [Vd Fd]]|[O _]]; [|exfalso; rewrite V1 in O; fold w in O; rewrite Rabs_right in O by lra; lra].
    rewrite V1 in Vd. fold w in Vd. destruct (widen_value _ Fd) as [Fd' Vd']. rewrite Vd in Vd'.
    set (den := fsub prec emax one width) in *. set (De := rnd (1 - w)) in *.
    assert (Ud : u * (1 - w) <= u * 1) by (apply Rmult_le_compat_l; lra).
    assert (Dpos : 0 < De) by nra.
    assert (Gd : wfmt De) by (rewrite <- Vd; apply fmt_up, (fmt_val prec emax)).
    assert (Ln : 0 <= wrnd (T - w) <= De).
    { split; [apply (rnd_pos wprec wemax); lra|]. rewrite <- (rnd_id wprec wemax De) by exact Gd. apply (rnd_le wprec wemax). lra. }
    destruct (sub_cases wprec wemax t (widen width) Ft Fw') as [[_ [Vn Fn]]|[O _]]; [|exfalso; rewrite Vw' in O; fold T w in O; rewrite Rabs_right in O by lra; lra].
    rewrite Vw' in Vn. fold T w in Vn. set (num := fsub wprec wemax t (widen width)) in *.
    assert (Gmw : wfmt (- w)) by (apply generic_format_opp, Gww).
    pose proof (add_err wprec wemax T (- w) Gtw Gmw) as Dn. rewrite <- (roundoff_u wprec) in Dn.
    change (T + - w) with (T - w) in Dn. rewrite (Rabs_right (T - w)) in Dn by lra. rewrite <- Vn in Dn. apply Rabs_le_inv in Dn.
    rewrite <- Vn in Ln. set (nu := wval num) in *.
    assert (V2m : wval (Bopp (of_Z wprec wemax 2)) = - 2) by (rewrite B2R_Bopp, V2w; reflexivity).
    assert (F2m : finite (Bopp (of_Z wprec wemax 2))) by (unfold finite; rewrite is_finite_Bopp; exact F2w).
    assert (R2 : wrnd (- 2 * nu) = - 2 * nu).
    { apply (rnd_id wprec wemax). replace (- 2 * nu) with (- (2 * nu)) by ring. apply generic_format_opp. apply (fmt_double wprec wemax). apply (fmt_val wprec wemax). }
    destruct (mul_cases wprec wemax (Bopp (of_Z wprec wemax 2)) num F2m Fn) as [[_ [V2 F2]]|[O _]];
      [|exfalso; rewrite V2m in O; fold nu in O; rewrite R2, Rabs_left1 in O by lra; lra].
    rewrite V2m in V2. fold nu in V2. rewrite R2 in V2. set (tt := fmul wprec wemax (Bopp (of_Z wprec wemax 2)) num) in *.
    assert (Id : 0 < / De) by (apply Rinv_0_lt_compat; lra).
    assert (Rt : 0 <= nu / De <= 1).
    { split; [apply Rmult_le_pos; lra|]. apply Rmult_le_reg_r with De; [lra|]. unfold Rdiv. rewrite Rmult_assoc, Rinv_l by lra. lra. }
    assert (Eq : - 2 * nu / De = - (2 * (nu / De))) by (unfold Rdiv; ring).
    assert (Q : - 2 <= wrnd (- 2 * nu / De) <= 0).
    { rewrite Eq, (rnd_opp wprec wemax). assert (0 <= wrnd (2 * (nu / De)) <= 2); [|lra].
      split; [apply (rnd_pos wprec wemax); lra|]. apply Rle_trans with (wrnd 2); [apply (rnd_le wprec wemax); lra|]. rewrite (rnd_id wprec wemax) by (rewrite <- V2w; apply (fmt_val wprec wemax)). lra. }
    destruct (div_cases wprec wemax tt (widen den) F2 ltac:(rewrite Vd'; apply Rgt_not_eq; lra)) as [[_ [V3 [F3 _]]]|[O _]];
      [|exfalso; rewrite V2, Vd' in O; rewrite Rabs_left1 in O by lra; lra].
    rewrite V2, Vd' in V3. set (q := fdiv wprec wemax tt (widen den)) in *.
    assert (S1 : Rabs (wrnd (wval q + 1)) <= 1).
    { apply abs_round_le_generic; auto with typeclass_instances; [apply (fmt_1 wprec wemax)|]. rewrite V3. apply Rabs_le. lra. }
    destruct (add_cases wprec wemax q (of_Z wprec wemax 1) F3 F1w) as [[_ [V4 F4]]|[O _]]; [|exfalso; rewrite V1w in O; lra].
    rewrite V1w in V4. set (s := fadd wprec wemax q (of_Z wprec wemax 1)) in *.
    destruct (scaled amp s Fa F4) as [Fy [By Ey]]; [rewrite V4; exact S1|]. split; [exact Fy|]. split; [exact By|].
    pose proof (rnd_err wprec wemax (- 2 * nu / De)) as D1. rewrite <- (roundoff_u wprec), <- (smallest_tiny wprec wemax), <- V3 in D1. rewrite (Rabs_left1 (- 2 * nu / De)) in D1 by (rewrite Eq; lra).
    pose proof (rnd_err wprec wemax (wval q + 1)) as D2. rewrite <- (roundoff_u wprec), <- (smallest_tiny wprec wemax), <- V4 in D2.
    assert (A1 : Rabs (wval q + 1) <= 1) by (rewrite V3; apply Rabs_le; lra).
    assert (M1 : uw * - (- 2 * nu / De) <= uw * 2) by (apply Rmult_le_compat_l; rewrite ?Eq; lra).
    assert (M2 : uw * Rabs (wval q + 1) <= uw * 1) by (apply Rmult_le_compat_l; lra).
    apply Rabs_le_inv in D1, D2.
    (* the quotient *)
    assert (Iw : 0 < / (1 - w)) by (apply Rinv_0_lt_compat; lra).
    set (r := (T - w) / (1 - w)). assert (Hr : 0 <= r <= 1).
    { unfold r. split; [apply Rmult_le_pos; lra|]. apply Rmult_le_reg_r with (1 - w); [lra|]. unfold Rdiv. rewrite Rmult_assoc, Rinv_l by lra. lra. }
    assert (Er : r * (1 - w) = T - w) by (unfold r; field; apply Rgt_not_eq; lra).
    assert (Qr : Rabs (nu / De - r) <= 4 * u).
    { replace (nu / De - r) with ((nu - r * De) * / De) by (field; apply Rgt_not_eq; lra). rewrite Rabs_mult, (Rabs_right (/ De)) by lra.
      apply Rmult_le_reg_r with De; [lra|]. rewrite Rmult_assoc, Rinv_l by lra. rewrite Rmult_1_r.
      assert (B1 : uw * (T - w) <= u * (1 - w)) by (apply Rmult_le_compat; lra).
      assert (B2 : Rabs (r * (1 - w) - r * De) <= u * (1 - w)).
      { replace (r * (1 - w) - r * De) with (r * ((1 - w) - De)) by ring. rewrite Rabs_mult, (Rabs_right r) by lra.
        rewrite <- (Rmult_1_l (u * (1 - w))). apply Rmult_le_compat; [lra|apply Rabs_pos|lra|]. apply Rabs_le. lra. }
      apply Rabs_le_inv in B2. assert (B3 : (1 - w) * / 2 <= De) by nra. assert (B4 : u * (1 - w) <= 2 * u * De) by nra. apply Rabs_le. lra. }
    apply Rabs_le_inv in Qr.
    assert (M3 : Rabs (wval s - (1 - 2 * (T - w) / (1 - w))) <= 13 * u).
    { replace (2 * (T - w) / (1 - w)) with (2 * r) by (unfold r, Rdiv; ring). rewrite Eq in D1, M1. apply Rabs_le. lra. }
    replace (val (narrow (fmul wprec wemax (widen amp) s)) - val amp * (1 - 2 * (T - w) / (1 - w))) with
      (val (narrow (fmul wprec wemax (widen amp) s)) - val amp * wval s + val amp * (wval s - (1 - 2 * (T - w) / (1 - w)))) by ring.
    eapply Rle_trans; [apply Rabs_triang|]. rewrite (Rabs_mult (val amp)).
    pose proof (Rabs_pos (val amp)). assert (Rabs (val amp) * Rabs (wval s - (1 - 2 * (T - w) / (1 - w))) <= Rabs (val amp) * (13 * u)) by (apply Rmult_le_compat_l; lra). lra.
Qed.

(** Infinite and not-a-number phases give zero. *)
Lemma saw_broken (amp width phase : fl) : is_finite phase = false -> saw_value prec emax wprec wemax amp width phase = zero.
Proof.
  intros F. unfold saw_value. rewrite (ffmod_nan wprec wemax _ _ (widen_unfinite _ F)).
  assert (L1 : flt wprec wemax B754_nan (widen width) = false) by (unfold flt; apply not_true_is_false; rewrite (ltb_true wprec wemax); intros [H _]; discriminate H).
  assert (L2 : Bleb (widen width) (B754_nan : wide) = false) by (apply not_true_is_false; rewrite (leb_true wprec wemax); intros [_ [H _]]; discriminate H).
  rewrite L1, L2, !andb_false_r. reflexivity.
Qed.

(** ** Histories *)
Notation wop := (wave_op prec emax).
Notation history := (fwave_history prec emax wprec wemax).
(** The arguments the documentation allows. *)
Definition frequency_ok (x : fl) := finite x /\ le zero x.
Definition fraction (x : fl) := le zero x /\ le x one.
Definition wave_allowed (c : wop) : Prop :=
  match c with
  | WFrequency _ _ x | WTime _ _ x => frequency_ok x
  | WAmplitude _ _ x => finite x
  | WRate _ _ x => lt zero x
  | WShape _ _ x => fraction x
  | WReset _ _ | WTick _ _ => True
  end.
(** The amplitude in force at each sample. *)
Fixpoint amplitudes (a : fl) (h : list wop) : list fl :=
  match h with
  | [] => []
  | WAmplitude _ _ x :: t => amplitudes x t
  | WTick _ _ :: t => a :: amplitudes a t
  | _ :: t => amplitudes a t
  end.

Lemma le_zero (x : fl) : finite x -> le zero x <-> 0 <= val x.
Proof. intros F. unfold le. rewrite (leb_true prec emax), !(level_fin prec emax) by (exact F || reflexivity). rewrite (fin_not_nan prec emax x F). cbn [is_nan fzero]. change (val zero) with 0. tauto. Qed.
Lemma le_zero_cases (x : fl) : le zero x -> (finite x /\ 0 <= val x) \/ x = B754_infinity false.
Proof.
  intros H. destruct (is_finite x) eqn:F; [left; split; [exact F|]; apply le_zero; assumption|]. right.
  destruct x as [s|s| |s m e B]; try discriminate F; [|discriminate H]. destruct s; [discriminate H|reflexivity].
Qed.
Lemma fraction_value x : fraction x -> finite x /\ 0 <= val x <= 1.
Proof.
  intros [H1 H2]. destruct ones as [F1 [V1 _]]. destruct (le_zero_cases x H1) as [[F P]| ->].
  - split; [exact F|]. split; [exact P|]. unfold le in H2. rewrite (leb_true prec emax), !(level_fin prec emax), V1 in H2 by assumption. tauto.
  - exfalso. unfold le in H2. apply (leb_true prec emax) in H2. destruct H2 as [_ [_ H2]]. rewrite (level_fin prec emax one F1), V1 in H2. cbn [level] in H2.
    assert (1 < bpow radix2 emax); [|lra]. change 1 with (bpow radix2 0). apply bpow_lt. pose proof Hprec as P. pose proof Hmax as M. unfold Prec_gt_0, Prec_lt_emax in *. lia.
Qed.
Lemma add_nonneg (x y : fl) : le zero x -> le zero y -> le zero (fadd prec emax x y).
Proof.
  intros Hx Hy. destruct (le_zero_cases x Hx) as [[Fx Px]| ->].
  - destruct (le_zero_cases y Hy) as [[Fy Py]| ->]; [|destruct x; try discriminate Fx; reflexivity].
    destruct (add_cases prec emax x y Fx Fy) as [[_ [V F]]|[O [I _]]].
    + apply le_zero; [exact F|]. rewrite V. apply (rnd_pos prec emax). lra.
    + rewrite I. destruct (Bsign x) eqn:S; [|reflexivity]. exfalso.
      assert (val x = 0) as X0.
      { destruct x as [s|s| |s m e B]; try discriminate Fx; [reflexivity|]. cbn in S. subst s. pose proof (F2R_lt_0 radix2 (Float radix2 (Zneg m) e) eq_refl) as N. change (F2R (Float radix2 (Zneg m) e)) with (val (B754_finite true m e B)) in N. lra. }
      rewrite X0, Rplus_0_l, (rnd_id prec emax) in O by apply (fmt_val prec emax). pose proof (val_bound prec emax y). lra.
  - destruct (le_zero_cases y Hy) as [[Fy Py]| ->]; [|reflexivity]. destruct y; try discriminate Fy; reflexivity.
Qed.
Lemma period_nonneg (x : fl) : lt zero x -> le zero (fdiv prec emax one x).
Proof.
  intros H. destruct ones as [F1 [V1 _]]. destruct (is_finite x) eqn:F.
  - unfold lt in H. rewrite (ltb_true prec emax), !(level_fin prec emax) in H by (exact F || reflexivity). destruct H as [_ [_ H]]. change (val zero) with 0 in H.
    assert (I : 0 < / val x) by (apply Rinv_0_lt_compat; exact H).
    destruct (div_cases prec emax one x F1 ltac:(apply Rgt_not_eq; exact H)) as [[_ [V [F3 _]]]|[_ E]].
    + apply le_zero; [exact F3|]. rewrite V, V1. apply (rnd_pos prec emax). unfold Rdiv. lra.
    + rewrite E. replace (xorb (Bsign one) (Bsign x)) with false; [reflexivity|].
      assert (S1 : Bsign one = false).
      { destruct (of_Z prec emax 1) as [s|s| |s m e B]; try discriminate F1; [cbn in V1; lra|]. destruct s; [|reflexivity]. exfalso. pose proof (F2R_lt_0 radix2 (Float radix2 (Zneg m) e) eq_refl) as N. change (F2R (Float radix2 (Zneg m) e)) with (val (B754_finite true m e B)) in N. lra. }
      rewrite S1. destruct x as [s|s| |s m e B]; try discriminate F; [cbn in H; lra|]. destruct s; [|reflexivity]. exfalso. pose proof (F2R_lt_0 radix2 (Float radix2 (Zneg m) e) eq_refl) as N. change (F2R (Float radix2 (Zneg m) e)) with (val (B754_finite true m e B)) in N. lra.
  - destruct x as [s|s| |s m e B]; try discriminate F; [|discriminate H]. destruct s; [discriminate H|].
    destruct (of_Z prec emax 1) as [s|s| |s m e B]; try discriminate F1; [reflexivity|]. cbn. destruct s; reflexivity.
Qed.
Lemma phase_cases (f t : fl) : frequency_ok f -> le zero t ->
  is_finite (fmul prec emax f t) = false \/ (finite (fmul prec emax f t) /\ 0 <= val (fmul prec emax f t)).
Proof.
  intros [Ff Pf] Ht. apply (le_zero f Ff) in Pf. destruct (le_zero_cases t Ht) as [[Ft Pt]| ->].
  - destruct (mul_cases prec emax f t Ff Ft) as [[_ [V F]]|[_ E]]; [right; split; [exact F|]; rewrite V; apply (rnd_pos prec emax); apply Rmult_le_pos; assumption|left; rewrite E; reflexivity].
  - left. destruct f as [s|s| |s m e B]; try discriminate Ff; reflexivity.
Qed.

Definition saw_good (o : fwave prec emax) : Prop :=
  finite (w_amp _ _ o) /\ le zero (w_time _ _ o) /\ le zero (w_period _ _ o) /\ frequency_ok (w_freq _ _ o) /\ fraction (w_shape _ _ o).
Lemma zero_ok : le zero zero.
Proof. reflexivity. Qed.
Lemma saw_new amp rate freq width : finite amp -> lt zero rate -> frequency_ok freq -> fraction width -> saw_good (new_sawtooth prec emax amp rate freq width).
Proof. intros A R F W. repeat split; try apply A; try apply F; try apply W. apply period_nonneg, R. Qed.
Lemma saw_good_step o c : saw_good o -> wave_allowed c -> saw_good (fst (fwave_step prec emax wprec wemax false o c)).
Proof.
  intros [A [T [P [F S0]]]] H. destruct o as [a t p f i s]; cbn [w_amp w_time w_period w_freq w_shape] in *.
  destruct c; cbn [fwave_step fst]; cbn [wave_allowed] in H; repeat split; cbn [w_amp w_time w_period w_freq w_shape];
    try apply A; try apply F; try apply S0; try apply H; try exact T; try exact P; try reflexivity; try (apply add_nonneg; assumption); apply period_nonneg, H.
Qed.
Lemma saw_good_tick o : saw_good o -> let y := saw_value prec emax wprec wemax (w_amp _ _ o) (w_shape _ _ o) (fmul prec emax (w_freq _ _ o) (w_time _ _ o)) in
  finite y /\ Rabs (val y) <= Rabs (val (w_amp _ _ o)).
Proof.
  intros [A [T [P [F S0]]]] y. destruct (fraction_value _ S0) as [Fs Bs]. destruct (phase_cases _ _ F T) as [N|[N Q]].
  - unfold y. rewrite saw_broken by exact N. split; [reflexivity|]. change (val zero) with 0. rewrite Rabs_R0. apply Rabs_pos.
  - destruct (saw_core _ _ _ A Fs Bs N Q) as [H1 [H2 _]]. split; assumption.
Qed.
Lemma saw_history h : forall o, saw_good o -> Forall wave_allowed h ->
  saw_good (fst (history false o h)) /\ Forall2 (fun a y => finite y /\ Rabs (val y) <= Rabs (val a)) (amplitudes (w_amp _ _ o) h) (snd (history false o h)).
Proof.
  induction h as [|c h IH]; intros o G A; [split; [exact G|constructor]|]. inversion A as [|c' h' A1 A2]; subst.
  pose proof (saw_good_step o c G A1) as G'. destruct (IH _ G' A2) as [G2 B2]. cbn [fwave_history fst snd]. split; [exact G2|].
  destruct o as [a t p f i s]. destruct c; cbn [fwave_step fst snd amplitudes w_amp app] in *; try exact B2.
  constructor; [|exact B2]. apply (saw_good_tick (mkWave _ _ a t p f i s) G).
Qed.

(** Every sample of a sawtooth or triangular oscillator is a finite number no larger than the
    amplitude in force, whatever setters are called in between, however long it runs, and even when its
    clock overflows. *)
Theorem C131_sawtooth_range amp rate freq width h :
  finite amp -> lt zero rate -> frequency_ok freq -> fraction width -> Forall wave_allowed h ->
  Forall2 (fun a y => finite y /\ Rabs (val y) <= Rabs (val a))
    (amplitudes amp h) (snd (history false (new_sawtooth prec emax amp rate freq width) h)).
Proof.
  intros A R F W H. pose proof (saw_new amp rate freq width A R F W) as G. exact (proj2 (saw_history h _ G H)).
Qed.
Lemma half_fraction : (2 <= prec)%Z -> fraction (fdiv prec emax one (of_Z prec emax 2)) /\ val (fdiv prec emax one (of_Z prec emax 2)) = / 2.
Proof.
  intros P2. destruct ones as [F1 [V1 _]]. pose proof Hprec as P. pose proof Hmax as M. unfold Prec_gt_0, Prec_lt_emax in P, M.
  assert (Q : forall k : Z, (1 <= k)%Z -> (2 ^ 1 <= 2 ^ k)%Z) by (intros; apply Z.pow_le_mono_r; lia). change (2 ^ 1)%Z with 2%Z in Q.
  destruct (of_Z_fin prec emax 2) as [F2 V2]; [pose proof (Q (emax - 1)%Z); lia|]. rewrite (rnd_id prec emax) in V2 by (apply (fmt_small prec emax); pose proof (Q prec); lia).
  assert (H : rnd (1 / 2) = / 2).
  { unfold Rdiv. rewrite Rmult_1_l. change (/ 2) with (bpow radix2 (-1)). apply (rnd_id prec emax). apply (fmt_bpow prec emax). lia. }
  assert (B : 1 < bpow radix2 emax) by (change 1 with (bpow radix2 0); apply bpow_lt; lia).
  destruct (div_cases prec emax one (of_Z prec emax 2) F1 ltac:(rewrite V2; apply Rgt_not_eq; lra)) as [[_ [V [F _]]]|[O _]].
  - rewrite V1, V2, H in V. split; [|exact V]. split; [apply le_zero; [exact F|lra]|].
    unfold le. rewrite (leb_true prec emax), !(level_fin prec emax), V, V1 by assumption. rewrite !fin_not_nan by assumption. repeat split; lra.
  - exfalso. rewrite V1, V2, H, Rabs_right in O by lra. lra.
Qed.
Theorem C131_triangular_range amp rate freq h : (2 <= prec)%Z ->
  finite amp -> lt zero rate -> frequency_ok freq -> Forall wave_allowed h ->
  Forall2 (fun a y => finite y /\ Rabs (val y) <= Rabs (val a))
    (amplitudes amp h) (snd (history false (new_triangular prec emax amp rate freq) h)).
Proof. intros P2 A R F H. apply C131_sawtooth_range; try assumption. apply half_fraction, P2. Qed.

(** A history and the same history with one more sample. *)
Lemma history_tick sq h : forall o, exists y, snd (history sq o (h ++ [WTick _ _])) = snd (history sq o h) ++ [y] /\
  y = let s := fst (history sq o h) in
      if sq then square_value prec emax (w_amp _ _ s) (w_shape _ _ s) (w_time _ _ s) (w_inv _ _ s)
      else saw_value prec emax wprec wemax (w_amp _ _ s) (w_shape _ _ s) (fmul prec emax (w_freq _ _ s) (w_time _ _ s)).
Proof.
  induction h as [|c h IH]; intros o.
  - destruct o as [a t p f i s]. cbn. eexists. split; reflexivity.
  - cbn [fwave_history app fst snd]. destruct (IH (fst (fwave_step prec emax wprec wemax sq o c))) as [y [E1 E2]]. exists y. rewrite E1, app_assoc. split; [reflexivity|exact E2].
Qed.

(** The next sample is that of the ideal waveform of the width, amplitude and frequency in force, at a
    phase off by one rounding, up to a few roundings of the amplitude. *)
Theorem C131_sawtooth_value amp rate freq width h :
  finite amp -> lt zero rate -> frequency_ok freq -> fraction width -> Forall wave_allowed h ->
  let o := new_sawtooth prec emax amp rate freq width in
  let s := fst (history false o h) in
  finite (fmul prec emax (w_freq _ _ s) (w_time _ _ s)) ->
  exists y phase, snd (history false o (h ++ [WTick _ _])) = snd (history false o h) ++ [y] /\
    Rabs (phase - val (w_freq _ _ s) * val (w_time _ _ s)) <= u * Rabs (val (w_freq _ _ s) * val (w_time _ _ s)) + eta / 2 /\
    Rabs (val y - val (w_amp _ _ s) * ideal_sawtooth (val (w_shape _ _ s)) phase) <= 15 * u * Rabs (val (w_amp _ _ s)) + eta.
Proof.
  intros A R F W H o s Fin. pose proof (saw_new amp rate freq width A R F W) as G. destruct (saw_history h _ G H) as [[Ga [Gt [Gp [Gf Gs]]]] _].
  fold o in Ga, Gt, Gp, Gf, Gs. fold s in Ga, Gt, Gp, Gf, Gs. destruct (history_tick false h o) as [y [E1 E2]]. fold s in E2. cbv zeta in E2.
  exists y, (val (fmul prec emax (w_freq _ _ s) (w_time _ _ s))). split; [exact E1|].
  destruct (fraction_value _ Gs) as [Fs Bs]. destruct (phase_cases _ _ Gf Gt) as [N|[N Q]]; [congruence|].
  split.
  - destruct (le_zero_cases _ Gt) as [[Ft Pt]|It]; [|exfalso; rewrite It in Fin; destruct (w_freq prec emax s) as [b|b| |b m e B]; try discriminate Fin; destruct Gf as [Gf _]; discriminate].
    destruct (mul_cases prec emax _ _ (proj1 Gf) Ft) as [[_ [V _]]|[_ E]]; [|exfalso; rewrite E in Fin; discriminate Fin].
    rewrite V, (roundoff_u prec), (smallest_tiny prec emax). apply (rnd_err prec emax).
  - rewrite E2. apply (saw_core _ _ _ Ga Fs Bs N Q).
Qed.

(** ** Settings *)
(** The argument of the last call that sets a parameter, or its initial value. *)
Definition in_force (pick : wop -> option fl) (d : fl) (h : list wop) : fl :=
  fold_left (fun a c => match pick c with Some x => x | None => a end) h d.
Definition sets_amplitude (c : wop) := match c with WAmplitude _ _ x => Some x | _ => None end.
Definition sets_frequency (c : wop) := match c with WFrequency _ _ x => Some x | _ => None end.
Definition sets_rate (c : wop) := match c with WRate _ _ x => Some x | _ => None end.
Definition sets_shape (c : wop) := match c with WShape _ _ x => Some x | _ => None end.
Definition sets_time (c : wop) := match c with WTime _ _ x => Some x | WReset _ _ => Some zero | _ => None end.
Lemma history_app sq h1 h2 : forall o, fst (history sq o (h1 ++ h2)) = fst (history sq (fst (history sq o h1)) h2).
Proof. induction h1 as [|c h IH]; intros o; [reflexivity|]. cbn [fwave_history app fst snd]. apply IH. Qed.
Lemma in_force_app pick d h c : in_force pick d (h ++ [c]) = match pick c with Some x => x | None => in_force pick d h end.
Proof. unfold in_force. rewrite fold_left_app. reflexivity. Qed.
(** Every setting of the object is the last one asked for, or the initial one; the clock starts at zero,
    is moved by [set_timestamp] and [reset], and advances by one rounded period per sample. *)
Theorem C131_settings (sq : bool) amp rate freq shape h :
  let o := if sq then new_square prec emax amp rate freq shape else new_sawtooth prec emax amp rate freq shape in
  let s := fst (history sq o h) in
  w_amp _ _ s = in_force sets_amplitude amp h /\ w_freq _ _ s = in_force sets_frequency freq h /\
  w_period _ _ s = fdiv prec emax one (in_force sets_rate rate h) /\ w_inv _ _ s = fdiv prec emax one freq /\
  w_shape _ _ s = (if sq then fmul prec emax (in_force sets_shape shape h) (w_inv _ _ s) else in_force sets_shape shape h) /\
  (h = [] -> w_time _ _ s = zero) /\
  forall c, w_time _ _ (fst (history sq o (h ++ [c]))) =
    match sets_time c, c with
    | Some x, _ => x
    | None, WTick _ _ => fadd prec emax (w_time _ _ s) (w_period _ _ s)
    | None, _ => w_time _ _ s
    end.
Proof.
  cbv zeta. split; [|split; [|split; [|split; [|split; [|split]]]]].
  6: { intros E. rewrite E. destruct sq; reflexivity. }
  6: { intros c. rewrite history_app. match goal with |- context [history sq ?o h] => destruct (fst (history sq o h)) as [a t p f i s] end. destruct c; reflexivity. }
  all: induction h as [|c h IH] using rev_ind; [destruct sq; reflexivity|]; rewrite ?in_force_app, history_app;
    match goal with |- context [fwave_history _ _ _ _ ?sq ?o h] => destruct (fst (history sq o h)) as [a t p f i s] in * end; cbn [w_amp w_freq w_period w_inv w_shape] in IH;
    destruct c; cbn [fwave_history fwave_step fst snd sets_amplitude sets_frequency sets_rate sets_shape w_amp w_freq w_period w_inv w_shape]; try exact IH; try reflexivity.
Qed.
(** ** The square oscillator *)
Lemma square_core (amp duty time inv : fl) : finite amp ->
  let y := square_value prec emax amp duty time inv in
  finite y /\ (val y = val amp \/ val y = - val amp) /\
  (finite duty -> finite time -> finite inv -> 0 <= val time -> 0 < val inv ->
   val y = val amp * (if Rlt_dec (cycle (val time / val inv)) (val duty / val inv) then - 1 else 1)).
Proof.
  intros Fa y. destruct ones as [F1 [V1 _]].
  assert (K : forall (b : bool), let z := fmul prec emax (if b then one else Bopp one) amp in finite z /\ val z = val amp * (if b then 1 else - 1)).
  { intros b. cbv zeta. set (x := if b then one else Bopp one).
    assert (Fx : finite x) by (unfold x, finite; destruct b; [|rewrite is_finite_Bopp]; exact F1).
    assert (Vx : val x = if b then 1 else - 1) by (unfold x; destruct b; [|rewrite B2R_Bopp]; rewrite V1; reflexivity).
    assert (G : rnd (val x * val amp) = val amp * (if b then 1 else - 1)).
    { rewrite Vx, Rmult_comm. apply (rnd_id prec emax). destruct b; [rewrite Rmult_1_r; apply (fmt_val prec emax)|].
      replace (val amp * - 1) with (- val amp) by ring. apply generic_format_opp. apply (fmt_val prec emax). }
    destruct (mul_cases prec emax x amp Fx Fa) as [[_ [V F]]|[O _]]; [split; [exact F|rewrite V; exact G]|exfalso].
    rewrite G in O. pose proof (val_bound prec emax amp) as B. destruct b; [rewrite Rmult_1_r in O; lra|]. replace (val amp * - 1) with (- val amp) in O by ring. rewrite Rabs_Ropp in O. lra. }
  unfold y, square_value. destruct (K (Bleb duty (ffmod prec emax time inv))) as [Fy Vy]. split; [exact Fy|]. split; [rewrite Vy; destruct (Bleb _ _); [left|right]; ring|].
  intros Fd Ft Fi Pt Pi. rewrite Vy. f_equal. destruct (ffmod_value prec emax time inv Ft Fi Pt Pi) as [Fr [k [K0 [Vr Br]]]].
  assert (I : 0 < / val inv) by (apply Rinv_0_lt_compat; exact Pi).
  assert (C : cycle (val time / val inv) = val (ffmod prec emax time inv) / val inv).
  { apply (cycle_unique _ _ k); [rewrite Vr; field; apply Rgt_not_eq; exact Pi|]. split; [apply Rmult_le_pos; lra|].
    apply Rmult_lt_reg_r with (val inv); [exact Pi|]. unfold Rdiv. rewrite Rmult_assoc, Rinv_l by lra. lra. }
  rewrite C. assert (L : Bleb duty (ffmod prec emax time inv) = true <-> val duty <= val (ffmod prec emax time inv)).
  { rewrite (leb_true prec emax), !(level_fin prec emax) by assumption. rewrite !fin_not_nan by assumption. tauto. }
  destruct (Rlt_dec _ _) as [D|D].
  - apply Rmult_lt_reg_r in D; [|exact I]. destruct (Bleb _ _); [|reflexivity]. exfalso. pose proof (proj1 L eq_refl). lra.
  - assert (D' : val duty <= val (ffmod prec emax time inv)) by (apply Rmult_le_reg_r with (/ val inv); [exact I|]; unfold Rdiv in D; lra). rewrite (proj2 L D'). reflexivity.
Qed.
Lemma square_history h : forall o, finite (w_amp _ _ o) -> Forall (fun c => match c with WAmplitude _ _ x => finite x | _ => True end) h ->
  finite (w_amp _ _ (fst (history true o h))) /\
  Forall2 (fun a y => finite y /\ (val y = val a \/ val y = - val a)) (amplitudes (w_amp _ _ o) h) (snd (history true o h)).
Proof.
  induction h as [|c h IH]; intros o G A; [split; [exact G|constructor]|]. inversion A as [|c' h' A1 A2]; subst.
  assert (G' : finite (w_amp _ _ (fst (fwave_step prec emax wprec wemax true o c)))) by (destruct o as [a t p f i s]; destruct c; cbn [fwave_step fst w_amp] in *; assumption).
  destruct (IH _ G' A2) as [G2 B2]. cbn [fwave_history fst snd]. split; [exact G2|].
  destruct o as [a t p f i s]. destruct c; cbn [fwave_step fst snd amplitudes w_amp app] in *; try exact B2.
  constructor; [|exact B2]. destruct (square_core a s t i G) as [K1 [K2 _]]. split; assumption.
Qed.
(** A square oscillator only ever produces the amplitude in force or its opposite, exactly, whatever
    the other parameters. *)
Theorem C131_square_levels amp rate freq duty h :
  finite amp -> Forall (fun c => match c with WAmplitude _ _ x => finite x | _ => True end) h ->
  Forall2 (fun a y => finite y /\ (val y = val a \/ val y = - val a))
    (amplitudes amp h) (snd (history true (new_square prec emax amp rate freq duty) h)).
Proof. intros A H. exact (proj2 (square_history h (new_square prec emax amp rate freq duty) A H)). Qed.
(** Where it switches: the position in the period is compared exactly, as if there were no rounding,
    with the stored active time; the active part comes second and has the opposite sign of the
    documented one (C11). *)
Theorem C131_square_switch amp rate freq duty h :
  finite amp -> Forall (fun c => match c with WAmplitude _ _ x => finite x | _ => True end) h ->
  let o := new_square prec emax amp rate freq duty in
  let s := fst (history true o h) in
  finite (w_time _ _ s) -> finite (w_inv _ _ s) -> finite (w_shape _ _ s) -> 0 <= val (w_time _ _ s) -> 0 < val (w_inv _ _ s) ->
  exists y, snd (history true o (h ++ [WTick _ _])) = snd (history true o h) ++ [y] /\ finite y /\
    val y = - (val (w_amp _ _ s) * ideal_square (val (w_shape _ _ s) / val (w_inv _ _ s)) (val (w_time _ _ s) / val (w_inv _ _ s))).
Proof.
  intros A H o s Ft Fi Fs Pt Pi. destruct (square_history h o A H) as [Ga _]. fold s in Ga.
  destruct (history_tick true h o) as [y [E1 E2]]. fold s in E2. cbv zeta in E2. exists y. split; [exact E1|].
  destruct (square_core _ (w_shape _ _ s) (w_time _ _ s) (w_inv _ _ s) Ga) as [F [_ V]]. rewrite E2. split; [exact F|]. rewrite (V Fs Ft Fi Pt Pi).
  unfold ideal_square. destruct (Rlt_dec _ _); ring.
Qed.
End Two.

(** float against double, and double against itself: setters and ticks mixed. *)
Definition demo (prec emax : Z) {Hp : Prec_gt_0 prec} {He : Prec_lt_emax prec emax} : list (wave_op prec emax) :=
  [WTick _ _; WTick _ _; WAmplitude _ _ (of_Z prec emax (-3)); WTick _ _; WFrequency _ _ (of_Z prec emax 441); WTick _ _; WShape _ _ (of_Z prec emax 1);
   WTime _ _ (of_Z prec emax 7); WTick _ _; WRate _ _ (of_Z prec emax 48000); WReset _ _; WTick _ _; WTick _ _].
Example C131_example :
  let o := new_triangular 24 128 (sgl 2) (sgl 44100) (sgl 11025) in
  ((24 <= 53) /\ (128 <= 1024))%Z /\ finite (sgl 2) /\ lt (sgl 0) (sgl 44100) /\ frequency_ok 24 128 (sgl 11025) /\
  Forall (wave_allowed 24 128) (demo 24 128) /\
  length (amplitudes 24 128 (sgl 2) (demo 24 128)) = 7%nat /\
  map B2SF (firstn 2 (snd (fwave_history 24 128 53 1024 false o (demo 24 128)))) = map B2SF [sgl (-2); sgl 0] /\
  (let s := fst (fwave_history 24 128 53 1024 false o (demo 24 128)) in finite (fmul 24 128 (w_freq _ _ s) (w_time _ _ s))).
Proof.
  cbv zeta. split; [lia|]. split; [vm_compute; reflexivity|]. split; [vm_compute; reflexivity|]. split; [split; vm_compute; reflexivity|]. split.
  { unfold demo. repeat (apply Forall_cons; [cbn [wave_allowed]; first [exact I|split; vm_compute; reflexivity|vm_compute; reflexivity]|]). apply Forall_nil. }
  split; [vm_compute; reflexivity|]. split; vm_compute; reflexivity.
Qed.
Example C131_example2 :
  let o := new_square 24 128 (sgl 2) (sgl 44100) (sgl 11025) (sgl 1) in
  let s := fst (fwave_history 24 128 53 1024 true o [WTick _ _; WTick _ _]) in
  finite (w_time _ _ s) /\ finite (w_inv _ _ s) /\ finite (w_shape _ _ s) /\ le (sgl 0) (w_time _ _ s) /\ lt (sgl 0) (w_inv _ _ s) /\
  map B2SF (snd (fwave_history 24 128 53 1024 true o [WTick _ _; WTick _ _])) = map B2SF [sgl (-2); sgl (-2)].
Proof. cbv zeta. repeat split; vm_compute; reflexivity. Qed.
Print Assumptions C131_sawtooth_range.
Print Assumptions C131_triangular_range.
Print Assumptions C131_sawtooth_value.
Print Assumptions C131_settings.
Print Assumptions C131_square_levels.
Print Assumptions C131_square_switch.
