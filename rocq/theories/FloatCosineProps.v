(** C140: the cosine windows in floating point. *)
From Coq Require Import ZArith Reals List Bool Lia Lra Psatz.
From Flocq Require Import Core BinarySingleNaN Relative.
From Verif Require Import Base RealBase RealBaseProofs WindowSpec WindowProps ConstModel ConstSpec ConstProps ConstFloatModel ConstFloatProps FloatModel FloatSpec FloatProofs FloatProps FloatOrderProps FloatClockProps FloatWaveModel FloatWaveProps FloatNumProps FloatFeatProps FloatCentroidProps FloatDesignModel FloatDesignProps FloatCosineModel.
Import ListNotations.
Local Open Scope R_scope.

(** A cosine of the mathematical library: finite, in [-1, 1] and within [delta] of the exact one. *)
Definition cosine_within {prec emax} (delta : R) (g : binary_float prec emax -> binary_float prec emax) : Prop :=
  forall x, finite x -> finite (g x) /\ Rabs (B2R (g x)) <= 1 /\ Rabs (B2R (g x) - cos (B2R x)) <= delta.
(** [w] holds [n] finite samples within [e] of the cosine sum with coefficients [c]. *)
Definition window_within {prec emax} (e : R) (c : list R) (n : nat) (w : list (binary_float prec emax)) : Prop :=
  length w = n /\ forall i, (i < n)%nat -> finite (nth i w (fzero prec emax)) /\ Rabs (B2R (nth i w (fzero prec emax)) - cosine_sum c n i) <= e.

Lemma sin_le_abs x : Rabs (sin x) <= Rabs x.
Proof.
  assert (P : forall y, 0 <= y -> Rabs (sin y) <= y).
  { intros y Y. destruct (Rle_lt_or_eq_dec 0 y Y) as [L|<-]; [|rewrite sin_0, Rabs_R0; lra]. destruct (Rle_dec y PI) as [L1|L1].
    - rewrite Rabs_pos_eq by (apply sin_ge_0; lra). left. apply sin_lt_x. exact L.
    - pose proof (SIN_bound y). pose proof PI2_3_2. apply Rabs_le. lra. }
  destruct (Rle_dec 0 x) as [L|L]; [rewrite (Rabs_pos_eq x) by exact L; apply P; exact L|].
  rewrite (Rabs_left x) by lra. rewrite <- Rabs_Ropp, <- sin_neg. apply P. lra.
Qed.
Lemma cos_lipschitz a b : Rabs (cos a - cos b) <= Rabs (a - b).
Proof.
  rewrite form2. rewrite !Rabs_mult. replace (Rabs (-2)) with 2 by (rewrite Rabs_left by lra; ring).
  assert (S : Rabs (sin ((a + b) / 2)) <= 1) by (pose proof (SIN_bound ((a + b) / 2)); apply Rabs_le; lra). pose proof (sin_le_abs ((a - b) / 2)) as D.
  replace (Rabs ((a - b) / 2)) with (Rabs (a - b) / 2) in D by (unfold Rdiv; rewrite Rabs_mult, (Rabs_pos_eq (/ 2)) by lra; reflexivity).
  set (s := Rabs (sin ((a + b) / 2))) in *. set (d := Rabs (sin ((a - b) / 2))) in *. assert (0 <= s) by apply Rabs_pos. assert (0 <= d) by apply Rabs_pos.
  apply Rle_trans with (2 * d * 1); [apply Rmult_le_compat_l; lra|lra].
Qed.

Section Format.
Context (prec emax : Z) {Hprec : Prec_gt_0 prec} {Hmax : Prec_lt_emax prec emax}.
Notation fl := (binary_float prec emax).
Notation rnd := (round radix2 (FLT_exp (3 - emax - prec) prec) ZnearestE).
Notation fmt := (generic_format radix2 (FLT_exp (3 - emax - prec) prec)).
Notation val := (@B2R prec emax).
Notation u := (roundoff prec).
Notation eta := (smallest prec emax).
Notation ofz := (of_Z prec emax).
Notation add := (fadd prec emax).
Notation sub := (fsub prec emax).
Notation mul := (fmul prec emax).
Notation div := (fdiv prec emax).
Notation lit := (flit prec emax).
Hypothesis Sizes : (11 <= prec <= 53)%Z /\ (16 <= emax)%Z.

#[local] Instance vexpc : Valid_exp (FLT_exp (3 - emax - prec) prec) := FLT_exp_valid _ _.

Lemma cos_u : 0 < u <= / 2048.
Proof.
  split; [apply (roundoff_pos prec)|]. unfold roundoff. apply Rinv_le_contravar; [lra|]. change 2048 with (IZR (2 ^ 11)). apply IZR_le. apply Z.pow_le_mono_r; lia.
Qed.
Lemma cos_eta : 0 < eta <= u / 250.
Proof.
  pose proof Hmax as M. unfold Prec_lt_emax in M. rewrite (smallest_tiny prec emax), (roundoff_u prec). unfold tiny, unit_roundoff. split; [apply bpow_gt_0|].
  apply Rle_trans with (bpow radix2 (- prec) * bpow radix2 (-8)); [rewrite <- bpow_plus; apply bpow_le; lia|]. change (bpow radix2 (-8)) with (/ 256). pose proof (bpow_gt_0 radix2 (- prec)). lra.
Qed.
Lemma top_cos : 64 <= bpow radix2 emax.
Proof. pose proof Hmax as M. unfold Prec_lt_emax in M. change 64 with (bpow radix2 6). apply bpow_le. lia. Qed.
Lemma rnd_small x m : Rabs x <= m -> m <= 32 -> Rabs (rnd x) < bpow radix2 emax.
Proof.
  intros X M. pose proof top_cos as T. pose proof (rnd_err prec emax x) as E. rewrite <- (roundoff_u prec), <- (smallest_tiny prec emax) in E. pose proof cos_u. pose proof cos_eta.
  assert (u * Rabs x <= / 2048 * 32) by (apply Rmult_le_compat; try lra; apply Rabs_pos). replace (rnd x) with (rnd x - x + x) by ring. eapply Rle_lt_trans; [apply Rabs_triang|]. lra.
Qed.
Lemma rnd_normal x : bpow radix2 (2 - emax) <= Rabs x -> Rabs (rnd x - x) <= u * Rabs x.
Proof.
  intros H. rewrite (roundoff_u prec). eapply Rle_trans; [apply (relative_error_N_FLT radix2 (3 - emax - prec) prec Hprec (fun z => negb (Z.even z)))|].
  - replace (3 - emax - prec + prec - 1)%Z with (2 - emax)%Z by lia. exact H.
  - rewrite u_half. lra.
Qed.
Lemma conv_value {p e} (z : binary_float p e) : finite z -> Rabs (rnd (B2R z)) < bpow radix2 emax -> finite (fconv prec emax z) /\ val (fconv prec emax z) = rnd (B2R z).
Proof.
  intros F L. destruct z as [s|s| |s m ex H]; try discriminate F.
  - split; [reflexivity|]. change (0 = rnd 0). symmetry. apply (rnd_0 prec emax).
  - apply (normalize_cases prec emax (cond_Zopp s (Zpos m)) ex s). exact L.
Qed.

(** Literals. *)
Lemma lit_ok n d : (0 < n <= 2 ^ 53)%Z -> (0 < d <= 2 ^ 53)%Z -> / 256 <= IZR n / IZR d <= 1 ->
  finite (lit n d) /\ Rabs (val (lit n d) - IZR n / IZR d) <= 201 / 100 * u * (IZR n / IZR d).
Proof.
  intros N D Q. set (q := IZR n / IZR d) in *. pose proof cos_u as U. pose proof Hmax as M. unfold Prec_lt_emax in M.
  destruct (of_Z_exact 53 1024 n) as [Fn Vn]; [lia|]. destruct (of_Z_exact 53 1024 d) as [Fd Vd]; [lia|].
  assert (D0 : 0 < IZR d) by (apply IZR_lt; lia).
  assert (E53 : Rabs (round radix2 (FLT_exp (3 - 1024 - 53) 53) ZnearestE q - q) <= u * q).
  { eapply Rle_trans; [apply (relative_error_N_FLT radix2 (3 - 1024 - 53) 53 eq_refl (fun z => negb (Z.even z)))|].
    - rewrite Rabs_pos_eq by lra. apply Rle_trans with (bpow radix2 (-8)); [apply bpow_le; lia|]. change (bpow radix2 (-8)) with (/ 256). lra.
    - rewrite (Rabs_pos_eq q) by lra. apply Rmult_le_compat_r; [lra|]. rewrite (roundoff_u prec). unfold unit_roundoff. change (/ 2) with (bpow radix2 (-1)). rewrite <- bpow_plus. apply bpow_le. lia. }
  set (y := round radix2 (FLT_exp (3 - 1024 - 53) 53) ZnearestE q) in *.
  assert (UQ : 0 <= u * q <= / 2048 * q) by (split; [apply Rmult_le_pos; lra|apply Rmult_le_compat_r; lra]). apply Rabs_le_inv in E53.
  destruct (div_cases 53 1024 (of_Z 53 1024 n) (of_Z 53 1024 d) Fn) as [[_ [V [F _]]]|[L _]]; [rewrite Vd; lra| |].
  2: { exfalso. revert L. rewrite Vn, Vd. fold q y. apply Rlt_not_le. rewrite Rabs_pos_eq by lra. apply Rle_lt_trans with (bpow radix2 1); [cbn; lra|apply bpow_lt; lia]. }
  rewrite Vn, Vd in V. fold q y in V. destruct (conv_value (fdiv 53 1024 (of_Z 53 1024 n) (of_Z 53 1024 d)) F) as [F2 V2]; rewrite V in *.
  { apply (rnd_small y 2); [rewrite Rabs_pos_eq by lra; lra|lra]. }
  split; [exact F2|]. unfold flit. rewrite V2. assert (E2 : Rabs (rnd y - y) <= u * Rabs y).
  { apply rnd_normal. rewrite Rabs_pos_eq by lra. apply Rle_trans with (bpow radix2 (-9)); [apply bpow_le; lia|]. change (bpow radix2 (-9)) with (/ 512). lra. }
  rewrite (Rabs_pos_eq y) in E2 by lra. assert (u * y <= u * (q * (1 + / 2048))) by (apply Rmult_le_compat_l; lra). apply Rabs_le_inv in E2. apply Rabs_le. lra.
Qed.
Lemma lit_half : finite (lit 5 10) /\ val (lit 5 10) = / 2.
Proof.
  pose proof Hmax as M. unfold Prec_lt_emax in M.
  assert (S : B2SF (fdiv 53 1024 (of_Z 53 1024 5) (of_Z 53 1024 10)) = SpecFloat.S754_finite false 4503599627370496 (-53)) by (vm_compute; reflexivity).
  destruct (sf_val _ _ _ S) as [F V]. replace (IZR 4503599627370496 * bpow radix2 (-53)) with (bpow radix2 (-1)) in V by (cbn; lra).
  assert (G : rnd (bpow radix2 (-1)) = bpow radix2 (-1)) by (apply (rnd_id prec emax), (fmt_bpow prec emax); lia).
  destruct (conv_value _ F) as [F2 V2]; rewrite V, G in *; [rewrite Rabs_pos_eq by apply bpow_ge_0; apply bpow_lt; lia|]. split; [exact F2|]. unfold flit. rewrite V2. reflexivity.
Qed.

Context (fcos : fl -> fl) (two_pi : fl) (delta : R).
Hypothesis Hcos : cosine_within delta fcos.
Hypothesis Hpi : finite two_pi /\ val two_pi = stored prec emax ConstModel.two_pi.

Lemma pi_small : 3 < PI <= 315 / 100.
Proof.
  pose proof PI2_3_2. split; [lra|]. pose proof (C111_constants ConstModel.pi PI eq_refl) as A. unfold accurate in A.
  assert (L : Q2R (literal ConstModel.pi) = 3141592653589793238462643383279502884 * / 1000000000000000000000000000000000000) by reflexivity. rewrite L in A.
  assert (T : / 10 ^ 36 <= / 1000000) by (apply Rinv_le_contravar; lra). unfold Rdiv in A.
  pose proof PI_4. rewrite (Rabs_pos_eq PI) in A by lra. apply Rabs_le_inv in A. assert (PI * / 10 ^ 36 <= PI * / 1000000) by (apply Rmult_le_compat_l; lra). lra.
Qed.
Lemma two_pi_ok : Rabs (val two_pi - 2 * PI) <= 3 * u * (2 * PI).
Proof.
  pose proof pi_small as P. pose proof Hmax as M. unfold Prec_lt_emax in M.
  destruct Hpi as [_ V]. rewrite V. pose proof (C130_accuracy prec emax ConstModel.two_pi (2 * PI) ltac:(lia) ltac:(lia) eq_refl) as A. rewrite (Rabs_right (2 * PI)) in A by lra.
  assert (R52 : roundoff 52 <= 2 * u).
  { assert (P52 : Prec_gt_0 52) by reflexivity. rewrite (roundoff_u 52), (roundoff_u prec). unfold unit_roundoff. change 2 with (bpow radix2 1). rewrite <- bpow_plus. apply bpow_le. lia. }
  eapply Rle_trans; [exact A|]. apply Rmult_le_compat_r; lra.
Qed.

(** Angles carry relative errors only. *)
Lemma rel2 x y z a b : 0 <= z -> Rabs (y - z) <= a * z -> Rabs (x - y) <= b * Rabs y -> 0 <= a -> 0 <= b -> Rabs (x - z) <= (a + b + a * b) * z.
Proof.
  intros Z A B A0 B0. replace (x - z) with (x - y + (y - z)) by ring. eapply Rle_trans; [apply Rabs_triang|].
  assert (Y : Rabs y <= (1 + a) * z). { replace y with (y - z + z) by ring. eapply Rle_trans; [apply Rabs_triang|]. rewrite (Rabs_pos_eq z) by exact Z. lra. }
  assert (b * Rabs y <= b * ((1 + a) * z)) by (apply Rmult_le_compat_l; auto). lra.
Qed.
Notation turn n i := (2 * PI * INR i / (INR n - 1)).
Notation tmp n i := (mul (div two_pi (ofz (Z.of_nat n - 1))) (ofz (Z.of_nat i))).
Lemma turn_bounds n i : (2 <= n)%nat -> (i < n)%nat -> 0 <= turn n i <= 2 * PI.
Proof.
  intros N I. pose proof pi_small as P. assert (N1 : 1 <= INR n - 1) by (apply le_INR in N; cbn in N; lra). assert (I1 : INR i <= INR n - 1) by (change 1 with (INR 1); rewrite <- (minus_INR n 1) by lia; apply le_INR; lia).
  pose proof (pos_INR i). split; [apply Rmult_le_pos; [apply Rmult_le_pos; lra|left; apply Rinv_0_lt_compat; lra]|].
  apply Rmult_le_reg_r with (INR n - 1); [lra|]. unfold Rdiv. rewrite Rmult_assoc, Rinv_l, Rmult_1_r by lra. apply Rmult_le_compat_l; lra.
Qed.
Lemma angle_1 n i : (2 <= n)%nat -> (Z.of_nat n <= 2 ^ prec)%Z -> (i < n)%nat -> finite (tmp n i) /\ Rabs (val (tmp n i) - turn n i) <= 501 / 100 * u * turn n i.
Proof.
  intros N B I. pose proof pi_small as P. pose proof two_pi_ok as T. pose proof cos_u as U. pose proof Hmax as M. unfold Prec_lt_emax in M. destruct Hpi as [F _].
  destruct (of_Z_exact prec emax (Z.of_nat n - 1)) as [Fn Vn]; [lia|]. destruct (of_Z_exact prec emax (Z.of_nat i)) as [Fi Vi]; [lia|].
  rewrite <- INR_IZR_INZ in Vi. assert (Vn' : val (ofz (Z.of_nat n - 1)) = INR n - 1) by (rewrite Vn, minus_IZR, <- INR_IZR_INZ; ring).
  assert (N1 : 1 <= INR n - 1) by (apply le_INR in N; cbn in N; lra).
  assert (UP : 0 <= u * (2 * PI) <= / 2048 * (2 * PI)) by (split; [apply Rmult_le_pos; lra|apply Rmult_le_compat_r; lra]).
  set (q := 2 * PI / (INR n - 1)). set (d := INR n - 1) in *. assert (D : 0 < / d <= 1) by (split; [apply Rinv_0_lt_compat; lra|rewrite <- Rinv_1; apply Rinv_le_contravar; lra]).
  assert (Q0 : 0 < q <= 2 * PI). { unfold q, Rdiv. split; [apply Rmult_lt_0_compat; lra|]. rewrite <- (Rmult_1_r (2 * PI)) at 2. apply Rmult_le_compat_l; lra. }
  assert (E1 : Rabs (val two_pi / d - q) <= 3 * u * q).
  { unfold q. replace (val two_pi / d - 2 * PI / d) with ((val two_pi - 2 * PI) * / d) by (unfold Rdiv; ring). rewrite Rabs_mult, (Rabs_pos_eq (/ d)) by lra. unfold Rdiv. rewrite <- Rmult_assoc. apply Rmult_le_compat_r; lra. }
  set (x := val two_pi / d) in *. assert (UQ : 0 <= u * q <= / 2048 * q) by (split; [apply Rmult_le_pos; lra|apply Rmult_le_compat_r; lra]). pose proof (Rabs_le_inv _ _ E1) as E1'.
  assert (X0 : q / 2 <= x <= 2 * q) by lra.
  destruct (div_cases prec emax two_pi (ofz (Z.of_nat n - 1)) F) as [[_ [V [Fd _]]]|[L _]]; [rewrite Vn'; lra| |].
  2: { exfalso. revert L. rewrite Vn'. fold x. apply Rlt_not_le. apply (rnd_small x 13); [rewrite Rabs_pos_eq by lra; lra|lra]. }
  rewrite Vn' in V. fold x in V.
  assert (E2 : Rabs (rnd x - x) <= u * Rabs x).
  { apply rnd_normal. rewrite Rabs_pos_eq by lra. apply Rle_trans with (q / 2); [|lra].
    assert (DB : d <= bpow radix2 prec). { rewrite <- Vn', Vn. rewrite <- IZR_Zpower by lia. apply IZR_le. change (Zpower radix2 prec) with (2 ^ prec)%Z. lia. }
    apply Rle_trans with (bpow radix2 (1 + - prec)); [apply bpow_le; lia|]. rewrite bpow_plus, bpow_opp. change (bpow radix2 1) with 2. apply Rle_trans with (2 * / d); [apply Rmult_le_compat_l; [lra|apply Rinv_le_contravar; lra]|]. unfold q, Rdiv. assert (2 * / d <= PI * / d) by (apply Rmult_le_compat_r; lra). lra. }
  assert (E3 : Rabs (rnd x - q) <= (4 * u + 3 * u * u) * q) by (eapply Rle_trans; [eapply rel2; [| exact E1|exact E2| |]; lra|right; ring]).
  set (f := div two_pi (ofz (Z.of_nat n - 1))) in *. pose proof (turn_bounds n i N I) as TB. set (t := turn n i) in *. assert (Tq : t = q * INR i) by (unfold t, q, d; field; fold d; lra).
  assert (E4 : Rabs (val f * INR i - t) <= (4 * u + 3 * u * u) * t).
  { rewrite V, Tq. replace (rnd x * INR i - q * INR i) with ((rnd x - q) * INR i) by ring. pose proof (pos_INR i). rewrite Rabs_mult, (Rabs_pos_eq (INR i)), <- Rmult_assoc by lra. apply Rmult_le_compat_r; lra. }
  assert (E5 : Rabs (rnd (val f * INR i) - val f * INR i) <= u * Rabs (val f * INR i)) by (rewrite (Rmult_comm (val f)); apply (rnd_multiple prec emax), (fmt_val prec emax)).
  assert (UU : 0 <= u * u <= / 2048 * u) by (split; [apply Rmult_le_pos; lra|apply Rmult_le_compat_r; lra]).
  assert (UUU : 0 <= u * u * u <= / 2048 * u) by (split; [apply Rmult_le_pos; lra|]; apply Rle_trans with (u * u * 1); [apply Rmult_le_compat_l; lra|lra]).
  assert (E6 : Rabs (rnd (val f * INR i) - t) <= 501 / 100 * u * t). { eapply Rle_trans; [eapply rel2; [|exact E4|exact E5| |]; lra|]. apply Rmult_le_compat_r; lra. }
  destruct (mul_cases prec emax f (ofz (Z.of_nat i)) Fd Fi) as [[_ [V2 F2]]|[L _]]; rewrite Vi in *; [split; [exact F2|]; rewrite V2; exact E6|].
  exfalso. revert L. apply Rlt_not_le. assert (u * t <= / 2048 * 8) by (apply Rmult_le_compat; lra). pose proof top_cos. apply Rabs_le_inv in E6. eapply Rle_lt_trans; [apply Rabs_le with (b := 32)|]; lra.
Qed.
Lemma angle_k (k : nat) n i : (1 <= k <= 4)%nat -> (2 <= n)%nat -> (Z.of_nat n <= 2 ^ prec)%Z -> (i < n)%nat ->
  finite (mul (ofz (Z.of_nat k)) (tmp n i)) /\ Rabs (val (mul (ofz (Z.of_nat k)) (tmp n i)) - INR k * turn n i) <= 38 * INR k * u.
Proof.
  intros K N B I. pose proof pi_small as P. pose proof cos_u as U. destruct (angle_1 n i N B I) as [F E]. pose proof (turn_bounds n i N I) as TB. set (t := turn n i) in *. set (a := tmp n i) in *. clearbody t a.
  assert (KP : (2 ^ 3 <= 2 ^ prec)%Z) by (apply Z.pow_le_mono_r; lia). destruct (of_Z_exact prec emax (Z.of_nat k)) as [Fk Vk]; [lia|]. rewrite <- INR_IZR_INZ in Vk.
  assert (K1 : 1 <= INR k <= 4) by (destruct K as [Ka Kb]; apply le_INR in Ka; apply le_INR in Kb; cbn in Ka, Kb; lra).
  assert (E4 : Rabs (INR k * val a - INR k * t) <= 501 / 100 * u * (INR k * t)).
  { replace (INR k * val a - INR k * t) with (INR k * (val a - t)) by ring. rewrite Rabs_mult, (Rabs_pos_eq (INR k)) by lra. replace (501 / 100 * u * (INR k * t)) with (INR k * (501 / 100 * u * t)) by ring. apply Rmult_le_compat_l; lra. }
  assert (E5 : Rabs (rnd (INR k * val a) - INR k * val a) <= u * Rabs (INR k * val a)) by (apply (rnd_multiple prec emax), (fmt_val prec emax)).
  assert (KT : 0 <= INR k * t <= INR k * (2 * PI)) by (split; [apply Rmult_le_pos; lra|apply Rmult_le_compat_l; lra]).
  assert (UU : 0 <= u * u <= / 2048 * u) by (split; [apply Rmult_le_pos; lra|apply Rmult_le_compat_r; lra]).
  assert (E6 : Rabs (rnd (INR k * val a) - INR k * t) <= 38 * INR k * u).
  { eapply Rle_trans; [eapply rel2; [|exact E4|exact E5| |]; lra|]. apply Rle_trans with (602 / 100 * u * (INR k * (63 / 10))); [|assert (0 <= INR k * u) by (apply Rmult_le_pos; lra); lra].
    apply Rmult_le_compat; [lra|lra|lra|]. apply Rle_trans with (INR k * (2 * PI)); [lra|apply Rmult_le_compat_l; lra]. }
  destruct (mul_cases prec emax (ofz (Z.of_nat k)) a Fk F) as [[_ [V2 F2]]|[L _]]; rewrite Vk in *; [split; [exact F2|]; rewrite V2; exact E6|].
  exfalso. revert L. apply Rlt_not_le. assert (INR k * u <= 4 * / 2048) by (apply Rmult_le_compat; lra). pose proof top_cos. assert (INR k * (2 * PI) <= 4 * (63 / 10)) by (apply Rmult_le_compat; lra).
  apply Rabs_le_inv in E6. eapply Rle_lt_trans; [apply Rabs_le with (b := 32)|]; lra.
Qed.
(** One term and one addition. *)
Lemma term_ok l c a th e : finite l -> Rabs (val l - c) <= 201 / 100 * u * c -> / 256 <= c <= 1 -> finite a -> Rabs (val a - th) <= e * u -> 0 <= e ->
  finite (mul l (fcos a)) /\ Rabs (val (mul l (fcos a)) - c * cos th) <= c * (delta + (e + 360 / 100) * u) /\ Rabs (val (mul l (fcos a))) <= 1002 / 1000 * c.
Proof.
  intros Fl L C Fa A E0. pose proof cos_u as U. pose proof cos_eta as Eta. destruct (Hcos a Fa) as [Fc [Bc Ec]]. pose proof (cos_lipschitz (val a) th) as Lip.
  set (x := val l) in *. set (y := val (fcos a)) in *.
  assert (UC : 0 <= u * c <= / 2048 * c) by (split; [apply Rmult_le_pos; lra|apply Rmult_le_compat_r; lra]).
  assert (AX : Rabs x <= c + 201 / 100 * (u * c)). { replace x with (x - c + c) by ring. eapply Rle_trans; [apply Rabs_triang|]. rewrite (Rabs_pos_eq c) by lra. lra. }
  assert (XY : Rabs (x * y) <= c + 201 / 100 * (u * c)). { rewrite Rabs_mult. apply Rle_trans with (Rabs x * 1); [apply Rmult_le_compat_l; [apply Rabs_pos|exact Bc]|lra]. }
  assert (D : Rabs (x * y - c * cos th) <= 201 / 100 * (u * c) + c * (delta + e * u)).
  { replace (x * y - c * cos th) with ((x - c) * y + c * ((y - cos (val a)) + (cos (val a) - cos th))) by ring. eapply Rle_trans; [apply Rabs_triang|]. apply Rplus_le_compat.
    - rewrite Rabs_mult. apply Rle_trans with (Rabs (x - c) * 1); [apply Rmult_le_compat_l; [apply Rabs_pos|exact Bc]|lra].
    - rewrite Rabs_mult, (Rabs_pos_eq c) by lra. apply Rmult_le_compat_l; [lra|]. eapply Rle_trans; [apply Rabs_triang|]. lra. }
  pose proof (rnd_err prec emax (x * y)) as R. rewrite <- (roundoff_u prec), <- (smallest_tiny prec emax) in R.
  assert (UX : u * Rabs (x * y) <= u * (c + 201 / 100 * (/ 2048 * c))) by (apply Rmult_le_compat_l; lra).
  assert (U256 : u * / 256 <= u * c) by (apply Rmult_le_compat_l; lra).
  destruct (mul_cases prec emax l (fcos a) Fl Fc) as [[_ [V F]]|[O _]].
  - fold x y in V. split; [exact F|]. rewrite V. split.
    + replace (rnd (x * y) - c * cos th) with ((rnd (x * y) - x * y) + (x * y - c * cos th)) by ring. eapply Rle_trans; [apply Rabs_triang|]. lra.
    + replace (rnd (x * y)) with ((rnd (x * y) - x * y) + x * y) by ring. eapply Rle_trans; [apply Rabs_triang|]. lra.
  - exfalso. revert O. fold x y. apply Rlt_not_le. apply (rnd_small (x * y) 2); lra.
Qed.
Lemma add_ok x y m : finite x -> finite y -> Rabs (val x) + Rabs (val y) <= m -> m <= 2 -> finite (add x y) /\ Rabs (val (add x y) - (val x + val y)) <= m * u /\ Rabs (val (add x y)) <= 1001 / 1000 * m.
Proof.
  intros Fx Fy M M2. pose proof cos_u as U. pose proof (Rabs_triang (val x) (val y)) as T. pose proof (add_err prec emax (val x) (val y) (fmt_val prec emax x) (fmt_val prec emax y)) as E. rewrite <- (roundoff_u prec) in E.
  assert (UM : u * Rabs (val x + val y) <= m * u) by (rewrite (Rmult_comm m); apply Rmult_le_compat_l; lra). assert (m * u <= m * / 2048) by (apply Rmult_le_compat_l; [pose proof (Rabs_pos (val x)); pose proof (Rabs_pos (val y)); lra|lra]).
  destruct (add_cases prec emax x y Fx Fy) as [[_ [V F]]|[O _]].
  - split; [exact F|]. rewrite V. split; [lra|]. replace (rnd (val x + val y)) with ((rnd (val x + val y) - (val x + val y)) + (val x + val y)) by ring. eapply Rle_trans; [apply Rabs_triang|]. pose proof (Rabs_pos (val x)); pose proof (Rabs_pos (val y)). lra.
  - exfalso. revert O. apply Rlt_not_le. apply (rnd_small _ 2); lra.
Qed.
Lemma sub_ok x y m : finite x -> finite y -> Rabs (val x) + Rabs (val y) <= m -> m <= 2 -> finite (sub x y) /\ Rabs (val (sub x y) - (val x - val y)) <= m * u /\ Rabs (val (sub x y)) <= 1001 / 1000 * m.
Proof.
  intros Fx Fy M M2. assert (Fo : fmt (- val y)) by (apply generic_format_opp, (fmt_val prec emax)). pose proof cos_u as U. pose proof (Rabs_triang (val x) (- val y)) as T. rewrite Rabs_Ropp in T. pose proof (add_err prec emax (val x) (- val y) (fmt_val prec emax x) Fo) as E. rewrite <- (roundoff_u prec) in E.
  change (val x + - val y) with (val x - val y) in *.
  assert (UM : u * Rabs (val x - val y) <= m * u) by (rewrite (Rmult_comm m); apply Rmult_le_compat_l; lra). assert (m * u <= m * / 2048) by (apply Rmult_le_compat_l; [pose proof (Rabs_pos (val x)); pose proof (Rabs_pos (val y)); lra|lra]).
  destruct (sub_cases prec emax x y Fx Fy) as [[_ [V F]]|[O _]].
  - split; [exact F|]. rewrite V. split; [lra|]. replace (rnd (val x - val y)) with ((rnd (val x - val y) - (val x - val y)) + (val x - val y)) by ring. eapply Rle_trans; [apply Rabs_triang|]. pose proof (Rabs_pos (val x)); pose proof (Rabs_pos (val y)). lra.
  - exfalso. revert O. apply Rlt_not_le. apply (rnd_small _ 2); lra.
Qed.

Lemma nth_window (f : nat -> fl) n i d : (i < n)%nat -> nth i (map f (seq 0 n)) d = f i.
Proof. intros I. rewrite (nth_indep _ d (f 0%nat)) by (rewrite map_length, seq_length; exact I). rewrite map_nth, seq_nth by exact I. reflexivity. Qed.
Lemma cosine_turns a n i : cosine_sum a n i = sumf (fun k => (-1) ^ k * nth k a 0 * cos (INR k * turn n i)) (length a).
Proof. unfold cosine_sum. apply sumf_ext. intros k _. f_equal. f_equal. unfold Rdiv. ring. Qed.
Lemma delta_pos : 0 <= delta.
Proof. destruct (Hcos (fzero prec emax) eq_refl) as [_ [_ E]]. pose proof (Rabs_pos (val (fcos (fzero prec emax)) - cos (val (fzero prec emax)))). lra. Qed.

Tactic Notation "literal" ident(L) ident(F) ident(E) constr(n) constr(d) := destruct (lit_ok n d) as [F E]; [lia|lia|lra|]; set (L := lit n d) in *; clearbody L.
Tactic Notation "bounds" hyp(E) := apply Rabs_le_inv in E.
Ltac window_start N B I :=
  unfold f_hanning, f_hamming, f_blackman, f_blackman_harris, f_blackman_nutall, f_flattop, hanning_c, hamming_c, blackman_c, harris_c, nutall_c, flattop_c;
  split; [unfold fcosine_window; rewrite map_length, seq_length; reflexivity|]; intros i I; unfold fcosine_window; rewrite nth_window by exact I;
  rewrite cosine_turns; cbn [sumf length nth pow]; pose proof cos_u as U; pose proof delta_pos as DP;
  let A1 := fresh "A1" in let Fa1 := fresh "Fa1" in
  destruct (angle_1 _ i N B I) as [Fa1 A1]; pose proof (angle_k 2 _ i ltac:(lia) N B I) as [Fa2 A2]; pose proof (angle_k 3 _ i ltac:(lia) N B I) as [Fa3 A3]; pose proof (angle_k 4 _ i ltac:(lia) N B I) as [Fa4 A4];
  change (Z.of_nat 2) with 2%Z in *; change (Z.of_nat 3) with 3%Z in *; change (Z.of_nat 4) with 4%Z in *;
  pose proof (turn_bounds _ i N I) as TB; pose proof pi_small as PP;
  set (t := turn _ i) in *; set (a1 := tmp _ i) in *; set (a2 := mul (ofz 2) a1) in *; set (a3 := mul (ofz 3) a1) in *; set (a4 := mul (ofz 4) a1) in *; clearbody a1 a2 a3 a4;
  replace (INR 0 * t) with 0 by (cbn; ring); rewrite cos_0; replace (INR 1 * t) with t by (cbn; ring);
  assert (A1' : Rabs (val a1 - t) <= 38 * u) by (eapply Rle_trans; [exact A1|]; assert (u * t <= u * (63 / 10)) by (apply Rmult_le_compat_l; lra); lra);
  replace (38 * INR 2 * u) with (76 * u) in A2 by (cbn; ring); replace (38 * INR 3 * u) with (114 * u) in A3 by (cbn; ring); replace (38 * INR 4 * u) with (152 * u) in A4 by (cbn; ring);
  set (c1 := cos t) in *.
Lemma mag_lit l c : Rabs (val l - c) <= 201 / 100 * u * c -> 0 <= c -> Rabs (val l) <= 1002 / 1000 * c.
Proof.
  intros E C. pose proof cos_u as U. assert (u * c <= / 2048 * c) by (apply Rmult_le_compat_r; lra). replace (val l) with (val l - c + c) by ring. eapply Rle_trans; [apply Rabs_triang|]. rewrite (Rabs_pos_eq c) by exact C. lra.
Qed.
(** Every sample of the six windows, of any length the format can count, is finite and within
    [delta + 64 u] of the documented cosine sum. *)
Theorem C140_accuracy n : (2 <= n)%nat -> (Z.of_nat n <= 2 ^ prec)%Z ->
  window_within (delta + 64 * u) hanning_c n (f_hanning prec emax fcos two_pi n) /\
  window_within (delta + 64 * u) hamming_c n (f_hamming prec emax fcos two_pi n) /\
  window_within (delta + 64 * u) blackman_c n (f_blackman prec emax fcos two_pi n) /\
  window_within (delta + 64 * u) harris_c n (f_blackman_harris prec emax fcos two_pi n) /\
  window_within (delta + 64 * u) nutall_c n (f_blackman_nutall prec emax fcos two_pi n) /\
  window_within (delta + 64 * u) flattop_c n (f_flattop prec emax fcos two_pi n).
Proof.
  intros N B. split; [|split; [|split; [|split; [|split]]]].
  - window_start N B HI. literal l0 F0 E0 5%Z 10%Z. destruct (term_ok l0 _ a1 t 38 F0 E0 ltac:(lra) Fa1 A1' ltac:(lra)) as [G1 [T1 M1]]. pose proof (mag_lit l0 _ E0 ltac:(lra)) as M0.
    destruct (sub_ok l0 (mul l0 (fcos a1)) (1003 / 1000) F0 G1 ltac:(lra) ltac:(lra)) as [H1 [S1 _]]. split; [exact H1|]. fold c1 in T1. bounds T1. bounds S1. bounds E0. apply Rabs_le. lra.
  - window_start N B HI. literal l0 F0 E0 54%Z 100%Z. literal l1 F1 E1 46%Z 100%Z. destruct (term_ok l1 _ a1 t 38 F1 E1 ltac:(lra) Fa1 A1' ltac:(lra)) as [G1 [T1 M1]]. pose proof (mag_lit l0 _ E0 ltac:(lra)) as M0.
    destruct (sub_ok l0 (mul l1 (fcos a1)) (1003 / 1000) F0 G1 ltac:(lra) ltac:(lra)) as [H1 [S1 _]]. split; [exact H1|]. fold c1 in T1. bounds T1. bounds S1. bounds E0. apply Rabs_le. lra.
  - window_start N B HI. literal l0 F0 E0 42%Z 100%Z. literal l1 F1 E1 50%Z 100%Z. literal l2 F2 E2 8%Z 100%Z.
    destruct (term_ok l1 _ a1 t 38 F1 E1 ltac:(lra) Fa1 A1' ltac:(lra)) as [G1 [T1 M1]]. destruct (term_ok l2 _ a2 _ 76 F2 E2 ltac:(lra) Fa2 A2 ltac:(lra)) as [G2 [T2 M2]]. pose proof (mag_lit l0 _ E0 ltac:(lra)) as M0.
    destruct (sub_ok l0 (mul l1 (fcos a1)) (93 / 100) F0 G1 ltac:(lra) ltac:(lra)) as [H1 [S1 Q1]]. destruct (add_ok _ (mul l2 (fcos a2)) (102 / 100) H1 G2 ltac:(lra) ltac:(lra)) as [H2 [S2 _]].
    split; [exact H2|]. fold c1 in T1. set (c2 := cos (INR 2 * t)) in *. bounds T1. bounds T2. bounds S1. bounds S2. bounds E0. apply Rabs_le. lra.
  - window_start N B HI. literal l0 F0 E0 35875%Z 100000%Z. literal l1 F1 E1 48829%Z 100000%Z. literal l2 F2 E2 14128%Z 100000%Z. literal l3 F3 E3 1168%Z 100000%Z.
    destruct (term_ok l1 _ a1 t 38 F1 E1 ltac:(lra) Fa1 A1' ltac:(lra)) as [G1 [T1 M1]]. destruct (term_ok l2 _ a2 _ 76 F2 E2 ltac:(lra) Fa2 A2 ltac:(lra)) as [G2 [T2 M2]]. destruct (term_ok l3 _ a3 _ 114 F3 E3 ltac:(lra) Fa3 A3 ltac:(lra)) as [G3 [T3 M3]]. pose proof (mag_lit l0 _ E0 ltac:(lra)) as M0.
    destruct (sub_ok l0 (mul l1 (fcos a1)) (86 / 100) F0 G1 ltac:(lra) ltac:(lra)) as [H1 [S1 Q1]]. destruct (add_ok _ (mul l2 (fcos a2)) (101 / 100) H1 G2 ltac:(lra) ltac:(lra)) as [H2 [S2 Q2]]. destruct (sub_ok _ (mul l3 (fcos a3)) (103 / 100) H2 G3 ltac:(lra) ltac:(lra)) as [H3 [S3 _]].
    split; [exact H3|]. fold c1 in T1. set (c2 := cos (INR 2 * t)) in *. set (c3 := cos (INR 3 * t)) in *. bounds T1. bounds T2. bounds T3. bounds S1. bounds S2. bounds S3. bounds E0. apply Rabs_le. lra.
  - window_start N B HI. literal l0 F0 E0 3635819%Z 10000000%Z. literal l1 F1 E1 4891775%Z 10000000%Z. literal l2 F2 E2 1365995%Z 10000000%Z. literal l3 F3 E3 106411%Z 10000000%Z.
    destruct (term_ok l1 _ a1 t 38 F1 E1 ltac:(lra) Fa1 A1' ltac:(lra)) as [G1 [T1 M1]]. destruct (term_ok l2 _ a2 _ 76 F2 E2 ltac:(lra) Fa2 A2 ltac:(lra)) as [G2 [T2 M2]]. destruct (term_ok l3 _ a3 _ 114 F3 E3 ltac:(lra) Fa3 A3 ltac:(lra)) as [G3 [T3 M3]]. pose proof (mag_lit l0 _ E0 ltac:(lra)) as M0.
    destruct (sub_ok l0 (mul l1 (fcos a1)) (86 / 100) F0 G1 ltac:(lra) ltac:(lra)) as [H1 [S1 Q1]]. destruct (add_ok _ (mul l2 (fcos a2)) (101 / 100) H1 G2 ltac:(lra) ltac:(lra)) as [H2 [S2 Q2]]. destruct (sub_ok _ (mul l3 (fcos a3)) (103 / 100) H2 G3 ltac:(lra) ltac:(lra)) as [H3 [S3 _]].
    split; [exact H3|]. fold c1 in T1. set (c2 := cos (INR 2 * t)) in *. set (c3 := cos (INR 3 * t)) in *. bounds T1. bounds T2. bounds T3. bounds S1. bounds S2. bounds S3. bounds E0. apply Rabs_le. lra.
  - window_start N B HI. literal l0 F0 E0 21557895%Z 100000000%Z. literal l1 F1 E1 41663158%Z 100000000%Z. literal l2 F2 E2 277263158%Z 1000000000%Z. literal l3 F3 E3 83578947%Z 1000000000%Z. literal l4 F4 E4 6947368%Z 1000000000%Z.
    destruct (term_ok l1 _ a1 t 38 F1 E1 ltac:(lra) Fa1 A1' ltac:(lra)) as [G1 [T1 M1]]. destruct (term_ok l2 _ a2 _ 76 F2 E2 ltac:(lra) Fa2 A2 ltac:(lra)) as [G2 [T2 M2]]. destruct (term_ok l3 _ a3 _ 114 F3 E3 ltac:(lra) Fa3 A3 ltac:(lra)) as [G3 [T3 M3]].
    destruct (term_ok l4 _ a4 _ 152 F4 E4 ltac:(lra) Fa4 A4 ltac:(lra)) as [G4 [T4 M4]]. pose proof (mag_lit l0 _ E0 ltac:(lra)) as M0.
    destruct (sub_ok l0 (mul l1 (fcos a1)) (65 / 100) F0 G1 ltac:(lra) ltac:(lra)) as [H1 [S1 Q1]]. destruct (add_ok _ (mul l2 (fcos a2)) (94 / 100) H1 G2 ltac:(lra) ltac:(lra)) as [H2 [S2 Q2]]. destruct (sub_ok _ (mul l3 (fcos a3)) (103 / 100) H2 G3 ltac:(lra) ltac:(lra)) as [H3 [S3 Q3]].
    destruct (add_ok _ (mul l4 (fcos a4)) (105 / 100) H3 G4 ltac:(lra) ltac:(lra)) as [H4 [S4 _]].
    split; [exact H4|]. fold c1 in T1. set (c2 := cos (INR 2 * t)) in *. set (c3 := cos (INR 3 * t)) in *. set (c4 := cos (INR 4 * t)) in *. bounds T1. bounds T2. bounds T3. bounds T4. bounds S1. bounds S2. bounds S3. bounds S4. bounds E0. apply Rabs_le. lra.
Qed.
(** Hann samples stay in [0, 1] exactly; the Hamming window never reaches zero. *)
Theorem C140_hann_range n x : (2 <= n)%nat -> (Z.of_nat n <= 2 ^ prec)%Z -> In x (f_hanning prec emax fcos two_pi n) -> finite x /\ 0 <= val x <= 1.
Proof.
  intros N B H. apply in_map_iff in H as [i [<- I]]. apply in_seq in I. destruct (angle_1 n i N B ltac:(lia)) as [Fa _]. set (a := tmp n i) in *. clearbody a.
  destruct lit_half as [Fl Vl]. set (l := lit 5 10) in *. clearbody l. destruct (Hcos a Fa) as [Fc [Bc _]]. apply Rabs_le_inv in Bc. pose proof cos_u as U. pose proof Hmax as M. unfold Prec_lt_emax in M.
  assert (H2 : rnd (/ 2) = / 2) by (change (/ 2) with (bpow radix2 (-1)); apply (rnd_id prec emax), (fmt_bpow prec emax); lia).
  assert (P : - / 2 <= rnd (/ 2 * val (fcos a)) <= / 2) by (split; [rewrite <- H2, <- (rnd_opp prec emax), H2|rewrite <- H2 at 2]; apply (rnd_le prec emax); lra).
  destruct (mul_cases prec emax l (fcos a) Fl Fc) as [[_ [V F]]|[O _]]; rewrite Vl in *.
  2: { exfalso. revert O. apply Rlt_not_le. apply (rnd_small _ 2); [apply Rabs_le|]; lra. }
  destruct (sub_cases prec emax l (mul l (fcos a)) Fl F) as [[_ [V2 F2]]|[O _]]; rewrite Vl, V in *.
  2: { exfalso. revert O. apply Rlt_not_le. apply (rnd_small _ 2); [apply Rabs_le|]; lra. }
  split; [exact F2|]. rewrite V2. split; [apply (rnd_pos prec emax); lra|]. apply Rle_trans with (rnd 1); [apply (rnd_le prec emax); lra|rewrite (rnd_id prec emax 1 (fmt_1 prec emax)); lra].
Qed.
Theorem C140_hamming_range n x : (2 <= n)%nat -> (Z.of_nat n <= 2 ^ prec)%Z -> In x (f_hamming prec emax fcos two_pi n) -> finite x /\ 7 / 100 <= val x <= 1 + 4 * u.
Proof.
  intros N B H. apply in_map_iff in H as [i [<- I]]. apply in_seq in I. destruct (angle_1 n i N B ltac:(lia)) as [Fa _]. set (a := tmp n i) in *. clearbody a.
  literal l0 F0 E0 54%Z 100%Z. literal l1 F1 E1 46%Z 100%Z. destruct (Hcos a Fa) as [Fc [Bc _]]. pose proof cos_u as U. pose proof cos_eta as Eta.
  destruct (term_ok l1 _ a (val a) 0 F1 E1 ltac:(lra) Fa ltac:(rewrite Rminus_diag_eq, Rabs_R0 by reflexivity; lra) ltac:(lra)) as [G1 [_ M1]].
  assert (M2 : Rabs (val (mul l1 (fcos a))) <= rnd (val l1)).
  { apply Rabs_le_inv in Bc. apply Rabs_le_inv in E1. assert (L1 : 0 <= val l1) by lra. destruct (mul_cases prec emax l1 (fcos a) F1 Fc) as [[_ [V _]]|[_ O]]; [|rewrite O in G1; discriminate G1].
    rewrite V. apply Rabs_le. assert (val l1 * val (fcos a) <= val l1 * 1) by (apply Rmult_le_compat_l; lra). assert (val l1 * -1 <= val l1 * val (fcos a)) by (apply Rmult_le_compat_l; lra).
    split; [rewrite <- (rnd_opp prec emax)|]; apply (rnd_le prec emax); lra. }
  rewrite (rnd_id prec emax) in M2 by apply (fmt_val prec emax). pose proof (mag_lit l0 _ E0 ltac:(lra)) as M0.
  destruct (sub_ok l0 (mul l1 (fcos a)) (1003 / 1000) F0 G1 ltac:(lra) ltac:(lra)) as [H1 [S1 _]]. split; [exact H1|]. bounds E0. bounds E1. bounds S1. bounds M2. lra.
Qed.
(** The first sample of the Hann window is zero when the cosine of zero is one. *)
Theorem C140_hann_starts_at_zero n : (forall x, finite x -> val x = 0 -> val (fcos x) = 1) -> (2 <= n)%nat -> (Z.of_nat n <= 2 ^ prec)%Z ->
  val (nth 0 (f_hanning prec emax fcos two_pi n) (ofz 1)) = 0.
Proof.
  intros Z N B. unfold f_hanning, fcosine_window. rewrite nth_window by lia. destruct (angle_1 n 0 N B ltac:(lia)) as [Fa A]. set (a := tmp n 0) in *.
  replace (turn n 0) with 0 in A by (cbn; unfold Rdiv; ring). rewrite Rmult_0_r, Rminus_0_r in A. assert (A0 : val a = 0) by (pose proof (Rabs_pos (val a)); destruct (Req_dec (val a) 0) as [|D]; [assumption|pose proof (Rabs_pos_lt _ D); lra]).
  specialize (Z a Fa A0). destruct (Hcos a Fa) as [Fc _]. destruct lit_half as [Fl Vl]. set (l := lit 5 10) in *. clearbody l. pose proof Hmax as M. unfold Prec_lt_emax in M.
  assert (H2 : rnd (/ 2) = / 2) by (change (/ 2) with (bpow radix2 (-1)); apply (rnd_id prec emax), (fmt_bpow prec emax); lia).
  destruct (mul_cases prec emax l (fcos a) Fl Fc) as [[_ [V F]]|[O _]]; rewrite Vl, Z, Rmult_1_r, H2 in *.
  2: { exfalso. revert O. apply Rlt_not_le. rewrite <- H2. apply (rnd_small _ 2); [apply Rabs_le|]; lra. }
  destruct (sub_cases prec emax l (mul l (fcos a)) Fl F) as [[_ [V2 F2]]|[O _]]; rewrite Vl, V in *.
  - rewrite V2. replace (/ 2 - / 2) with 0 by ring. apply (rnd_0 prec emax).
  - exfalso. revert O. apply Rlt_not_le. apply (rnd_small _ 2); [apply Rabs_le|]; lra.
Qed.
End Format.

(** ** Lengths 0 and 1: nothing, and a NaN. *)
Theorem C140_empty prec emax {Hp : Prec_gt_0 prec} {Hm : Prec_lt_emax prec emax} fcos two_pi :
  f_hanning prec emax fcos two_pi 0 = [] /\ f_hamming prec emax fcos two_pi 0 = [] /\ f_blackman prec emax fcos two_pi 0 = [] /\
  f_blackman_harris prec emax fcos two_pi 0 = [] /\ f_blackman_nutall prec emax fcos two_pi 0 = [] /\ f_flattop prec emax fcos two_pi 0 = [].
Proof. repeat split. Qed.
Theorem C140_single_sample_actual prec emax {Hp : Prec_gt_0 prec} {Hm : Prec_lt_emax prec emax} fcos two_pi : fcos B754_nan = B754_nan -> finite two_pi -> B2R two_pi <> 0 ->
  f_hanning prec emax fcos two_pi 1 = [B754_nan] /\ f_hamming prec emax fcos two_pi 1 = [B754_nan] /\ f_blackman prec emax fcos two_pi 1 = [B754_nan] /\
  f_blackman_harris prec emax fcos two_pi 1 = [B754_nan] /\ f_blackman_nutall prec emax fcos two_pi 1 = [B754_nan] /\ f_flattop prec emax fcos two_pi 1 = [B754_nan].
Proof.
  intros C F P. assert (A : fmul prec emax (fdiv prec emax two_pi (of_Z prec emax (Z.of_nat 1 - 1))) (of_Z prec emax (Z.of_nat 0)) = B754_nan).
  { change (Z.of_nat 1 - 1)%Z with 0%Z. change (Z.of_nat 0) with 0%Z. destruct two_pi as [s|s| |s m e H]; try discriminate F; [contradiction P; reflexivity|]. reflexivity. }
  assert (M : forall x, fmul prec emax x B754_nan = B754_nan) by (intros x; destruct x; reflexivity). assert (S : forall x, fsub prec emax x B754_nan = B754_nan) by (intros x; destruct x; reflexivity).
  assert (D : forall x, fadd prec emax x B754_nan = B754_nan) by (intros x; destruct x; reflexivity).
  unfold f_hanning, f_hamming, f_blackman, f_blackman_harris, f_blackman_nutall, f_flattop, fcosine_window. cbn [seq map]. rewrite A, !M, !C, !M, !S. repeat split; rewrite ?D, ?S, ?D; reflexivity.
Qed.

(** ** Single precision with a correctly rounded cosine *)
Definition two_pi24 : float := binary_normalize 24 128 eq_refl eq_refl mode_NE 13176795 (-21) false.
Lemma rounded_cosine : cosine_within (2 * roundoff 24) (rounded cos).
Proof.
  intros x F. assert (B : forall y, Rabs (cos y) <= 1) by (intros y; pose proof (COS_bound y); apply Rabs_le; lra). destruct (rounded_ok cos B x F) as [G V]. split; [exact G|]. rewrite V. split.
  - apply abs_round_le_generic; auto with typeclass_instances. change 1 with (bpow radix2 0). apply generic_format_bpow. unfold FLT_exp. cbn. lia.
  - pose proof (rnd_err 24 128 (cos (B2R x))) as E. specialize (B (B2R x)). set (c := cos (B2R x)) in *. clearbody c. rewrite <- (roundoff_u 24), <- (smallest_tiny 24 128) in E. destruct (cos_eta 24 128 ltac:(lia)) as [_ Eta]. pose proof (cos_u 24 128 ltac:(lia)) as U.
    assert (roundoff 24 * Rabs c <= roundoff 24 * 1) by (apply Rmult_le_compat_l; lra). lra.
Qed.
Lemma two_pi24_stored : finite two_pi24 /\ B2R two_pi24 = stored 24 128 ConstModel.two_pi.
Proof.
  destruct (sf_val two_pi24 13176795 (-21)) as [F V]; [vm_compute; reflexivity|]. split; [exact F|]. rewrite V.
  unfold stored, nearest, round, F2R. cbn [Fnum Fexp]. pose proof (literal_double_err ConstModel.two_pi) as D. rewrite roundoff_double in D.
  assert (L : Q2R (literal ConstModel.two_pi) = 6283185307179586476925286766559005768 * / 1000000000000000000000000000000000000) by reflexivity. rewrite L in D.
  rewrite Rabs_pos_eq with (x := 6283185307179586476925286766559005768 * / 1000000000000000000000000000000000000) in D by lra. apply Rabs_le_inv in D. set (d := literal_double ConstModel.two_pi) in *. clearbody d.
  assert (M : mag radix2 d = 3%Z :> Z) by (apply mag_unique; rewrite Rabs_right by lra; change (bpow radix2 (3 - 1)) with 4; change (bpow radix2 3) with 8; lra).
  unfold scaled_mantissa, cexp. rewrite M. change (FLT_exp (3 - 128 - 24) 24 3) with (-21)%Z. f_equal. apply IZR_eq. symmetry. apply Znearest_imp. change (bpow radix2 (- -21)) with 2097152. apply Rabs_lt. lra.
Qed.
Example C140_ex (n : nat) : (2 <= n)%nat -> (Z.of_nat n <= 2 ^ 24)%Z -> window_within (66 * roundoff 24) flattop_c n (f_flattop 24 128 (rounded cos) two_pi24 n).
Proof.
  intros N B. replace (66 * roundoff 24) with (2 * roundoff 24 + 64 * roundoff 24) by ring.
  apply (C140_accuracy 24 128 ltac:(lia) (rounded cos) two_pi24 (2 * roundoff 24) rounded_cosine two_pi24_stored n N B).
Qed.

(** The Blackman window is nonnegative as documented, but not in float or double: for every length its
    first sample is negative whenever the cosine of zero is one. *)
Section Blackman.
Context (prec emax : Z) {Hprec : Prec_gt_0 prec} {Hmax : Prec_lt_emax prec emax}.
Lemma blackman_first fcos two_pi n (delta : R) : (11 <= prec <= 53)%Z /\ (16 <= emax)%Z -> cosine_within delta fcos -> finite two_pi /\ B2R two_pi = stored prec emax ConstModel.two_pi ->
  (forall x, finite x -> B2R x = 0 -> B2R (fcos x) = 1) -> (2 <= n)%nat -> (Z.of_nat n <= 2 ^ prec)%Z ->
  nth 0 (f_blackman prec emax fcos two_pi n) (of_Z prec emax 1) =
  fadd prec emax (fsub prec emax (flit prec emax 42 100) (fmul prec emax (flit prec emax 50 100) (of_Z prec emax 1))) (fmul prec emax (flit prec emax 8 100) (of_Z prec emax 1)).
Proof.
  intros Sz Hc Hpi Z N B. unfold f_blackman, fcosine_window. rewrite nth_window by lia. destruct (angle_1 prec emax Sz two_pi Hpi n 0 N B ltac:(lia)) as [Fa A]. set (a := fmul prec emax _ (of_Z prec emax (Z.of_nat 0))) in *.
  replace (2 * PI * INR 0 / (INR n - 1)) with 0 in A by (cbn; unfold Rdiv; ring). rewrite Rmult_0_r, Rminus_0_r in A. assert (A0 : B2R a = 0) by (pose proof (Rabs_pos (B2R a)); destruct (Req_dec (B2R a) 0) as [|D]; [assumption|pose proof (Rabs_pos_lt _ D); lra]).
  assert (P1 : (2 ^ 2 <= 2 ^ prec)%Z) by (apply Z.pow_le_mono_r; lia). destruct (of_Z_exact prec emax 1 ltac:(lia)) as [F1 V1]. destruct (of_Z_exact prec emax 2 ltac:(lia)) as [F2 V2].
  assert (One : forall x, finite x -> B2R x = 0 -> fcos x = of_Z prec emax 1).
  { intros x Fx X0. destruct (Hc x Fx) as [Fc _]. specialize (Z x Fx X0). apply B2R_inj.
    - destruct (fcos x); try discriminate Fc; try reflexivity. cbn in Z. lra.
    - destruct (of_Z prec emax 1); try discriminate F1; try reflexivity. cbn in V1. lra.
    - rewrite Z, V1. reflexivity. }
  rewrite (One a Fa A0). rewrite (One (fmul prec emax (of_Z prec emax 2) a)); [reflexivity| |]; (destruct (mul_cases prec emax (of_Z prec emax 2) a F2 Fa) as [[_ [V F]]|[O _]]; rewrite A0, Rmult_0_r, (rnd_0 prec emax) in *; [assumption|]);
    exfalso; revert O; apply Rlt_not_le; rewrite Rabs_R0; apply bpow_gt_0.
Qed.
End Blackman.
Theorem C140_blackman_first_actual :
  (forall (fcos : float -> float) two_pi delta n, cosine_within delta fcos -> finite two_pi /\ B2R two_pi = stored 24 128 ConstModel.two_pi ->
    (forall x, finite x -> B2R x = 0 -> B2R (fcos x) = 1) -> (2 <= n)%nat -> (Z.of_nat n <= 2 ^ 24)%Z -> B2R (nth 0 (f_blackman 24 128 fcos two_pi n) (sgl 1)) = - / 2 ^ 26) /\
  (forall (fcos : double -> double) two_pi delta n, cosine_within delta fcos -> finite two_pi /\ B2R two_pi = stored 53 1024 ConstModel.two_pi ->
    (forall x, finite x -> B2R x = 0 -> B2R (fcos x) = 1) -> (2 <= n)%nat -> (Z.of_nat n <= 2 ^ 53)%Z -> B2R (nth 0 (f_blackman 53 1024 fcos two_pi n) (dbl 1)) = - / 2 ^ 56).
Proof.
  assert (G : forall p e (x : binary_float p e) m k, B2SF x = SpecFloat.S754_finite true m k -> B2R x = - (IZR (Zpos m) * bpow radix2 k)).
  { intros p e x m k. destruct x as [s|s| |s m' e' H]; intros E; try discriminate E. cbn in E. injection E as -> -> ->. cbn. unfold F2R. cbn. change (Z.neg m) with (- Z.pos m)%Z. rewrite opp_IZR. ring. }
  split; intros fcos tp delta n Hc Hp Z N B.
  - pose proof (blackman_first 24 128 fcos tp n delta ltac:(lia) Hc Hp Z N B) as E. change (of_Z 24 128 1) with (sgl 1) in E. rewrite E. erewrite G by (vm_compute; reflexivity). cbn. lra.
  - pose proof (blackman_first 53 1024 fcos tp n delta ltac:(lia) Hc Hp Z N B) as E. change (of_Z 53 1024 1) with (dbl 1) in E. rewrite E. erewrite G by (vm_compute; reflexivity). cbn. lra.
Qed.
Lemma rounded_cos_0 x : finite x -> B2R x = 0 -> B2R (rounded cos x) = 1.
Proof.
  intros F X. assert (B : forall y, Rabs (cos y) <= 1) by (intros y; pose proof (COS_bound y); apply Rabs_le; lra). destruct (rounded_ok cos B x F) as [_ V]. rewrite V, X, cos_0. apply (rnd_id 24 128), (fmt_1 24 128).
Qed.
Theorem C140_blackman_nonnegative_refuted :
  ~ (forall fcos : float -> float, faithful_to fcos cos -> forall n x, (2 <= n)%nat -> (Z.of_nat n <= 2 ^ 24)%Z -> In x (f_blackman 24 128 fcos two_pi24 n) -> 0 <= B2R x).
Proof.
  intros H. assert (B : forall y, Rabs (cos y) <= 1) by (intros y; pose proof (COS_bound y); apply Rabs_le; lra).
  specialize (H (rounded cos) (rounded_ok cos B) 512%nat (nth 0 (f_blackman 24 128 (rounded cos) two_pi24 512) (sgl 1)) ltac:(lia) ltac:(lia)).
  rewrite (proj1 C140_blackman_first_actual (rounded cos) two_pi24 _ 512%nat rounded_cosine two_pi24_stored rounded_cos_0 ltac:(lia) ltac:(lia)) in H.
  assert (0 <= - / 2 ^ 26) by (apply H, nth_In; unfold f_blackman, fcosine_window; rewrite map_length, seq_length; lia). assert (0 < / 2 ^ 26) by (apply Rinv_0_lt_compat, pow_lt; lra). lra.
Qed.
Print Assumptions C140_accuracy.
Print Assumptions C140_hann_range.
Print Assumptions C140_hamming_range.
Print Assumptions C140_hann_starts_at_zero.
Print Assumptions C140_empty.
Print Assumptions C140_single_sample_actual.
Print Assumptions C140_blackman_first_actual.
Print Assumptions C140_blackman_nonnegative_refuted.
