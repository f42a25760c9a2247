(** C134: the stability test of a section and the cookbook pass designs in floating point. *)
From Coq Require Import ZArith Reals List Bool Lia Lra Psatz.
From Flocq Require Import Core Relative BinarySingleNaN.
From Verif Require Import Base RealBase Cplx BiquadModel BiquadSpec BiquadProofs BiquadProps RealBaseProofs DesignModel FloatModel FloatSpec FloatProofs FloatProps FloatOrderProps FloatClockProps FloatWaveProps FloatWindowProps FloatFiltersModel FloatDesignModel.
Import ListNotations.
Local Open Scope R_scope.

(** ** Vocabulary: every pole of a denominator 1 + a1/z + a2/z^2 lies inside the unit circle. *)
Definition poles_inside (a1 a2 : R) : Prop := forall z : C, is_root a1 a2 z -> Cmod z < 1.
Lemma triangle_rule a1 a2 : Rabs a2 < 1 /\ Rabs a1 < 1 + a2 <-> poles_inside a1 a2.
Proof.
  pose proof (C12_stability_iff_poles_inside (mkBq 0 0 0 a2 a1 1 0 0)) as H. unfold bq_stability, poles_inside in *. cbn [BiquadModel.a1 BiquadModel.a2] in H. rewrite <- H.
  destruct (Rlt_dec (Rabs a2) 1); [destruct (Rlt_dec (Rabs a1) (1 + a2))|]; split; intros K; try discriminate K; try tauto; try lra; reflexivity.
Qed.

Section Format.
Context (prec emax : Z) {Hprec : Prec_gt_0 prec} {Hmax : Prec_lt_emax prec emax}.
Notation fl := (binary_float prec emax).
Notation rnd := (round radix2 (FLT_exp (3 - emax - prec) prec) ZnearestE).
Notation fmt := (generic_format radix2 (FLT_exp (3 - emax - prec) prec)).
Notation val := (@B2R prec emax).
Notation u := (roundoff prec).
Notation eta := (smallest prec emax).
Notation zero := (fzero prec emax).
Notation ofz := (of_Z prec emax).
#[local] Instance vexp4 : Valid_exp (FLT_exp (3 - emax - prec) prec) := FLT_exp_valid _ _.

(** ** The stability test *)
Lemma abs_fin (x : fl) : is_finite (fabs prec emax x) = is_finite x. Proof. apply is_finite_Babs. Qed.
Lemma abs_val (x : fl) : val (fabs prec emax x) = Rabs (val x). Proof. apply B2R_Babs. Qed.
Lemma lt_fin (x y : fl) : finite x -> finite y -> flt prec emax x y = true <-> val x < val y.
Proof.
  intros Fx Fy. unfold flt. rewrite (ltb_true prec emax), !level_fin by assumption. split; [intros [_ [_ H]]; exact H|]. intros H. repeat split; auto using (fin_not_nan prec emax).
Qed.
Lemma below_fin (x y : fl) : finite y -> flt prec emax (fabs prec emax x) y = true -> finite x.
Proof.
  intros Fy H. unfold flt in H. apply (ltb_true prec emax) in H. destruct H as [N [_ L]]. destruct x as [s|s| |s m e B]; try reflexivity; [|discriminate N].
  exfalso. rewrite (level_fin prec emax y Fy) in L. pose proof (val_bound prec emax y) as V. unfold fabs in L. cbn in L. apply Rabs_def2 in V. lra.
Qed.
Lemma one_plus (a2 : fl) : finite a2 -> Rabs (val a2) < 1 -> finite (fadd prec emax (ofz 1) a2) /\ val (fadd prec emax (ofz 1) a2) = rnd (1 + val a2).
Proof.
  intros F B. destruct (int_value prec emax 1 (small_int prec 1 ltac:(lia))) as [F1 V1]. destruct (unit_facts prec emax) as [_ [_ T]].
  destruct (add_cases prec emax (ofz 1) a2 F1 F) as [[_ [V G]]|[O _]]; rewrite V1 in *; [split; assumption|]. exfalso.
  apply Rabs_def2 in B. assert (R0 : 0 <= rnd (1 + val a2) <= 2).
  { split; [apply (rnd_pos prec emax); lra|]. apply Rle_trans with (rnd 2); [apply (rnd_le prec emax); lra|]. rewrite (rnd_id prec emax); [lra|]. apply (fmt_small prec emax 2), small_int; [assumption|lia]. }
  rewrite Rabs_right in O by lra. lra.
Qed.
Theorem C134_stability_sound a1 a2 : f_stability prec emax a1 a2 = true -> finite a1 /\ finite a2 /\ poles_inside (val a1) (val a2).
Proof.
  unfold f_stability. intros H. apply andb_true_iff in H. destruct H as [H2 H1]. destruct (int_value prec emax 1 (small_int prec 1 ltac:(lia))) as [F1 V1].
  pose proof (below_fin a2 _ F1 H2) as G2. apply (lt_fin _ _ ltac:(unfold finite; rewrite abs_fin; exact G2) F1) in H2. rewrite abs_val, V1 in H2.
  destruct (one_plus a2 G2 H2) as [Fs Vs]. pose proof (below_fin a1 _ Fs H1) as G1. split; [exact G1|]. split; [exact G2|].
  apply (lt_fin _ _ ltac:(unfold finite; rewrite abs_fin; exact G1) Fs) in H1. rewrite abs_val, Vs in H1. apply triangle_rule. split; [exact H2|].
  destruct (Rlt_or_le (Rabs (val a1)) (1 + val a2)) as [K|K]; [exact K|exfalso]. apply (rnd_le prec emax) in K. rewrite (rnd_id prec emax (Rabs (val a1))) in K; [lra|].
  apply generic_format_abs. apply (fmt_val prec emax).
Qed.
Theorem C134_stability_complete_partial a1 a2 : finite a1 -> finite a2 -> Rabs (val a2) < 1 -> Rabs (val a1) < (1 + val a2) * (1 - u) -> f_stability prec emax a1 a2 = true.
Proof.
  intros G1 G2 B2 B1. unfold f_stability. destruct (int_value prec emax 1 (small_int prec 1 ltac:(lia))) as [F1 V1]. destruct (one_plus a2 G2 B2) as [Fs Vs].
  apply andb_true_iff. split; apply lt_fin; try (unfold finite; rewrite abs_fin; assumption); try assumption; rewrite abs_val.
  - rewrite V1. exact B2.
  - rewrite Vs. pose proof (sum_err prec emax 1 (val a2) (fmt_1 prec emax) (fmt_val prec emax a2)) as E. apply Rabs_def2 in B2. rewrite (Rabs_right (1 + val a2)) in E by lra. apply Rabs_le_inv in E. lra.
Qed.

(** ** The pass designs *)
(** The denominator as computed, for any sine [s] and cosine [c] the library returns; [r] is s / (2 Q). *)
Lemma core w c r al a0 n : 0 < w <= / 16 -> Rabs c <= 1 -> 4 * w <= r -> 8 * w * (1 + r) <= 1 - Rabs c ->
  Rabs (al - r) <= w * r -> Rabs (a0 - (1 + al)) <= w * (1 + al) -> Rabs (n - (1 - al)) <= w * Rabs (1 - al) ->
  1 + w <= a0 /\ a0 <= (1 + r) * (1 + 3 * w) /\ Rabs (n / a0) <= 1 - w /\
  (2 * Rabs c + 6 * w * a0 < a0 + n).
Proof.
  intros W C R4 M A D N. apply Rabs_le_inv in A, D.
  assert (W8 : w * r <= / 8) by (pose proof (Rabs_pos c); assert (0 <= w) by lra; nra).
  assert (Al0 : 3 * w <= al) by nra. assert (Al1 : al <= r * (1 + w)) by lra.
  assert (Aw : w * al <= / 6) by (assert (w * al <= w * (r * (1 + w))) by (apply Rmult_le_compat_l; lra); nra).
  assert (A1 : 1 + w <= a0) by nra.
  assert (A2 : a0 <= (1 + r) * (1 + 3 * w)) by nra.
  split; [exact A1|]. split; [exact A2|]. 
  assert (Nb : Rabs (1 - al) <= 1 + al) by (apply Rabs_le; lra).
  split.
  - unfold Rdiv. rewrite Rabs_mult, (Rabs_right (/ a0)) by (apply Rle_ge, Rlt_le, Rinv_0_lt_compat; lra).
    apply Rmult_le_reg_r with a0; [lra|]. rewrite Rmult_assoc, Rinv_l by lra. rewrite Rmult_1_r.
    destruct (Rle_or_lt al 1) as [L|L].
    + rewrite (Rabs_right (1 - al)) in N by lra. apply Rabs_le_inv in N. apply Rabs_le. split; nra.
    + rewrite (Rabs_left (1 - al)) in N by lra. apply Rabs_le_inv in N. apply Rabs_le. split; nra.
  - apply Rabs_le_inv in N. assert (w * Rabs (1 - al) <= w * (1 + al)) by (apply Rmult_le_compat_l; lra).
    assert (6 * w * a0 <= 6 * w * ((1 + r) * (1 + 3 * w))) by (apply Rmult_le_compat_l; lra).
    assert (w * (1 + al) <= w * ((1 + r) * (1 + w))) by (apply Rmult_le_compat_l; lra).
    nra.
Qed.

Hypothesis Sizes : (4 <= prec)%Z /\ (prec + 3 <= emax)%Z.
Lemma size_facts : 0 < u <= / 16 /\ 0 < eta <= u * u /\ bpow radix2 prec * u = 1 /\ bpow radix2 prec < bpow radix2 emax.
Proof.
  destruct Sizes as [P E]. rewrite !(roundoff_u prec), !(smallest_tiny prec emax). unfold unit_roundoff, tiny. rewrite <- !bpow_plus.
  replace (/ 16) with (bpow radix2 (-4)) by (change (bpow radix2 (-4)) with (/ 16); reflexivity). replace (prec + - prec)%Z with 0%Z by lia.
  repeat split; try apply bpow_gt_0; try (apply bpow_le; lia). apply bpow_lt. lia.
Qed.
Lemma relative x : u <= Rabs x -> Rabs (rnd x - x) <= u * Rabs x.
Proof.
  intros H. pose proof Sizes as [P E]. rewrite (roundoff_u prec) in *. rewrite <- (u_half prec). unfold unit_roundoff in H.
  apply relative_error_N_FLT; [assumption|]. apply Rle_trans with (2 := H). apply bpow_le. lia.
Qed.
Lemma fits x : Rabs x <= bpow radix2 prec -> Rabs (rnd x) < bpow radix2 emax.
Proof.
  intros H. pose proof Sizes as [P E]. destruct size_facts as [_ [_ [_ L]]]. apply Rle_lt_trans with (2 := L). apply abs_round_le_generic; auto with typeclass_instances.
  apply (fmt_bpow prec emax). lia.
Qed.
Lemma add_fits x y : finite x -> finite y -> Rabs (val x + val y) <= bpow radix2 prec -> finite (fadd prec emax x y) /\ Rabs (val (fadd prec emax x y) - (val x + val y)) <= u * Rabs (val x + val y).
Proof.
  intros Fx Fy B. apply fits in B. destruct (add_cases prec emax x y Fx Fy) as [[_ [V F]]|[O _]]; [|lra]. split; [exact F|]. rewrite V. apply (sum_err prec emax); apply (fmt_val prec emax).
Qed.
Lemma sub_fits x y : finite x -> finite y -> Rabs (val x - val y) <= bpow radix2 prec -> finite (fsub prec emax x y) /\ Rabs (val (fsub prec emax x y) - (val x - val y)) <= u * Rabs (val x - val y).
Proof.
  intros Fx Fy B. apply fits in B. destruct (sub_cases prec emax x y Fx Fy) as [[_ [V F]]|[O _]]; [|lra]. split; [exact F|]. rewrite V. unfold Rminus at 2 3 4. apply (sum_err prec emax); [|apply generic_format_opp]; apply (fmt_val prec emax).
Qed.
Lemma div_fits x y : finite x -> val y <> 0 -> Rabs (val x / val y) <= bpow radix2 prec -> finite (fdiv prec emax x y) /\ val (fdiv prec emax x y) = rnd (val x / val y).
Proof.
  intros Fx Fy B. apply fits in B. destruct (div_cases prec emax x y Fx Fy) as [[_ [V [F _]]]|[O _]]; [|lra]. split; [exact F|exact V].
Qed.
Lemma twice k (x : fl) : (k = 2 \/ k = -2)%Z -> finite x -> Rabs (val x) <= bpow radix2 (prec - 1) -> finite (fmul prec emax (ofz k) x) /\ val (fmul prec emax (ofz k) x) = IZR k * val x.
Proof.
  intros K F B. destruct (int_value prec emax k (small_int prec k ltac:(lia))) as [Fk Vk].
  assert (G : fmt (IZR k * val x)). { pose proof (fmt_double prec emax (val x) (fmt_val prec emax x)) as G. destruct K; subst k; [exact G|]. replace (-2 * val x) with (- (2 * val x)) by ring. apply generic_format_opp. exact G. }
  assert (M : Rabs (IZR k * val x) <= bpow radix2 prec).
  { rewrite Rabs_mult. replace (Rabs (IZR k)) with 2 by (destruct K; subst k; unfold Rabs; destruct Rcase_abs; lra). replace (bpow radix2 prec) with (2 * bpow radix2 (prec - 1)); [lra|].
    replace prec with (1 + (prec - 1))%Z at 2 by lia. rewrite bpow_plus. reflexivity. }
  apply fits in M. destruct (mul_cases prec emax (ofz k) x Fk F) as [[_ [V Fm]]|[O _]]; rewrite Vk in *; [|lra]. split; [exact Fm|]. rewrite V. apply (rnd_id prec emax). exact G.
Qed.

Definition regular (c s Q : fl) : Prop := finite c /\ finite s /\ finite Q /\ Rabs (val s) <= 1 /\ 0 < val Q /\
  4 * u <= val s / (2 * val Q) /\ 8 * u * (1 + val s / (2 * val Q)) <= 1 - Rabs (val c).
Lemma top_big : 16 <= bpow radix2 prec /\ bpow radix2 (prec - 1) = bpow radix2 prec / 2 /\ bpow radix2 prec = / u.
Proof.
  destruct size_facts as [U [_ [B _]]]. destruct Sizes as [P _]. split; [change 16 with (bpow radix2 4); apply bpow_le; lia|]. split.
  - replace prec with (1 + (prec - 1))%Z at 2 by lia. rewrite bpow_plus. change (bpow radix2 1) with 2. field.
  - apply Rmult_eq_reg_r with u; [|lra]. rewrite Rinv_l by lra. exact B.
Qed.
(** Everything the designs share. *)
Lemma denominator c s Q : regular c s Q -> let r := val s / (2 * val Q) in
  let al := fdiv prec emax s (fmul prec emax (ofz 2) Q) in let a0 := fadd prec emax (ofz 1) al in
  let n := fsub prec emax (ofz 1) al in let m := fmul prec emax (ofz (-2)) c in
  finite al /\ Rabs (val al - r) <= u * r /\ finite a0 /\ Rabs (val a0 - (1 + val al)) <= u * (1 + val al) /\
  finite n /\ Rabs (val n - (1 - val al)) <= u * Rabs (1 - val al) /\ finite m /\ val m = - 2 * val c.
Proof.
  intros [Fc [Fs [FQ [S1 [Q0 [R4 M]]]]]] r. fold r in R4, M. destruct size_facts as [U [_ [_ _]]]. destruct top_big as [T16 [T1 TU]]. cbv zeta.
  assert (Ru : u * r <= / 8) by (pose proof (Rabs_pos (val c)); nra).
  assert (Rt : r <= bpow radix2 prec / 8). { rewrite TU. apply Rmult_le_reg_r with u; [lra|]. replace (/ u / 8 * u) with (/ 8) by (field; lra). lra. }
  assert (Qb : Rabs (val Q) <= bpow radix2 (prec - 1)).
  { rewrite Rabs_right by lra. rewrite T1, TU. apply Rmult_le_reg_r with u; [lra|]. replace (/ u / 2 * u) with (/ 2) by (field; lra).
    apply Rmult_le_compat_r with (r := 2 * val Q) in R4; [|lra]. unfold r in R4. replace (val s / (2 * val Q) * (2 * val Q)) with (val s) in R4 by (field; lra). apply Rabs_le_inv in S1. lra. }
  destruct (twice 2 Q ltac:(lia) FQ Qb) as [F2 V2].
  destruct (int_value prec emax 1 (small_int prec 1 ltac:(lia))) as [F1 V1].
  assert (Vr : val s / val (fmul prec emax (ofz 2) Q) = r) by (rewrite V2; reflexivity).
  destruct (div_fits s (fmul prec emax (ofz 2) Q) Fs) as [Fa Va]; [rewrite V2; lra|rewrite Vr; rewrite Rabs_right; lra|]. rewrite Vr in Va.
  pose proof (relative r ltac:(rewrite Rabs_right; lra)) as E. rewrite <- Va, (Rabs_right r) in E by lra. set (al := fdiv prec emax s (fmul prec emax (ofz 2) Q)) in *.
  split; [exact Fa|]. split; [exact E|]. apply Rabs_le_inv in E. assert (Ab : 0 <= val al <= r + / 8) by (split; [|lra]; nra).
  destruct (add_fits (ofz 1) al F1 Fa) as [F0 E0]; [rewrite V1, Rabs_right; lra|]. rewrite V1, (Rabs_right (1 + val al)) in E0 by lra.
  destruct (sub_fits (ofz 1) al F1 Fa) as [Fn En]; [rewrite V1; apply Rabs_le; lra|]. rewrite V1 in En.
  destruct (twice (-2) c ltac:(lia) Fc) as [Fm Vm]; [rewrite T1; assert (0 <= 8 * u * (1 + r)) by nra; lra|].
  repeat split; assumption.
Qed.
Lemma reg_cos c s Q : regular c s Q -> Rabs (val c) <= 1.
Proof. intros [_ [_ [_ [_ [_ [A B]]]]]]. destruct size_facts as [U _]. assert (0 <= 8 * u * (1 + val s / (2 * val Q))) by nra. lra. Qed.
Lemma coefficients_stable c s Q : regular c s Q ->
  let al := fdiv prec emax s (fmul prec emax (ofz 2) Q) in let a0 := fadd prec emax (ofz 1) al in
  f_stability prec emax (fdiv prec emax (fmul prec emax (ofz (-2)) c) a0) (fdiv prec emax (fsub prec emax (ofz 1) al) a0) = true.
Proof.
  intros H. destruct (denominator c s Q H) as [Fa [Ea [F0 [E0 [Fn [En [Fm Vm]]]]]]]. cbv zeta.
  set (al := fdiv prec emax s (fmul prec emax (ofz 2) Q)) in *. set (a0 := fadd prec emax (ofz 1) al) in *. set (n := fsub prec emax (ofz 1) al) in *. set (m := fmul prec emax (ofz (-2)) c) in *.
  destruct size_facts as [U [E _]]. destruct top_big as [T16 _]. pose proof (reg_cos c s Q H) as C1. destruct H as [Fc [Fs [FQ [S1 [Q0 [R4 M]]]]]].
  destruct (core u (val c) (val s / (2 * val Q)) (val al) (val a0) (val n) U C1 R4 M Ea E0 En) as [A1 [A2 [Nq Main]]].
  destruct (div_fits n a0 Fn) as [F2 V2]; [lra|lra|]. 
  assert (I0 : / val a0 <= 1) by (rewrite <- Rinv_1; apply Rinv_le_contravar; lra). assert (I1 : 0 < / val a0) by (apply Rinv_0_lt_compat; lra).
  assert (P2 : Rabs (val m / val a0) <= 2) by (rewrite Vm; unfold Rdiv; rewrite !Rabs_mult, (Rabs_right (/ val a0)), (Rabs_left (-2)) by lra; apply Rle_trans with (2 * 1 * 1); [|lra]; apply Rmult_le_compat; try lra; apply Rmult_le_pos; [lra|apply Rabs_pos]).
  destruct (div_fits m a0 Fm) as [F1 V1]; [lra|lra|].
  pose proof (round_err prec emax (val n / val a0)) as R2. rewrite <- V2 in R2. pose proof (round_err prec emax (val m / val a0)) as R1. rewrite <- V1 in R1.
  set (q := val n / val a0) in *. set (p := val m / val a0) in *. set (x2 := val (fdiv prec emax n a0)) in *. set (x1 := val (fdiv prec emax m a0)) in *.
  assert (B2 : Rabs (x2 - q) <= u - u * u / 2) by (apply Rle_trans with (1 := R2); assert (u * Rabs q <= u * (1 - u)) by (apply Rmult_le_compat_l; lra); nra).
  assert (B1 : Rabs (x1 - p) <= 2 * u + u * u / 2) by (apply Rle_trans with (1 := R1); assert (u * Rabs p <= u * 2) by (apply Rmult_le_compat_l; lra); nra).
  assert (X2 : Rabs x2 < 1) by (replace x2 with ((x2 - q) + q) by ring; apply Rle_lt_trans with (1 := Rabs_triang _ _); nra).
  apply C134_stability_complete_partial; [exact F1|exact F2|exact X2|]. fold x1 x2.
  assert (K : Rabs p + 6 * u < 1 + q).
  { apply Rmult_lt_reg_r with (val a0); [lra|]. unfold p, q. unfold Rdiv. rewrite Rabs_mult, (Rabs_right (/ val a0)) by lra. rewrite Vm, Rabs_mult, (Rabs_left (-2)) by lra.
    replace ((- -2 * Rabs (val c) * / val a0 + 6 * u) * val a0) with (2 * Rabs (val c) + 6 * u * val a0) by (field; lra). replace ((1 + val n * / val a0) * val a0) with (val a0 + val n) by (field; lra). exact Main. }
  apply Rabs_le_inv in B2. apply Rle_lt_trans with (Rabs p + (2 * u + u * u / 2)); [replace x1 with (p + (x1 - p)) by ring; apply Rle_trans with (1 := Rabs_triang _ _); lra|].
  apply Rabs_def2 in X2. assert (u * (1 + x2) <= u * 2) by (apply Rmult_le_compat_l; lra). assert (u * u <= u * / 16) by (apply Rmult_le_compat_l; lra). assert (0 <= u * u) by (apply Rmult_le_pos; lra).
  replace ((1 + x2) * (1 - u)) with (1 + x2 - u * (1 + x2)) by ring. lra.
Qed.
(** ** Accuracy *)
Lemma core_close w r al a0 m M : 0 < w <= / 16 -> 4 * w <= r -> Rabs (al - r) <= w * r -> Rabs (a0 - (1 + al)) <= w * (1 + al) ->
  Rabs M <= 2 * (1 + r) -> Rabs (m - M) <= 3 * w * (1 + r) -> 0 < a0 /\ Rabs (m / a0 - M / (1 + r)) <= 111 / 10 * w.
Proof.
  intros W R4 A D HM Hm. apply Rabs_le_inv in A, D. set (d := 1 + r) in *.
  assert (Al : 0 <= al) by nra. assert (D1 : 1 <= d) by (unfold d; lra).
  assert (A0 : Rabs (a0 - d) <= 3 * w * d). { assert (w * (1 + al) <= w * (d * (1 + w))) by (apply Rmult_le_compat_l; [lra|]; unfold d; nra). assert (w * d * w <= w * d * / 16) by (apply Rmult_le_compat_l; nra). apply Rabs_le. unfold d in *. split; nra. }
  assert (Ag : 13 / 16 * d <= a0) by (apply Rabs_le_inv in A0; nra). split; [lra|].
  replace (m / a0 - M / d) with (((m - M) * d + M * (d - a0)) / (a0 * d)) by (field; lra).
  assert (N : Rabs ((m - M) * d + M * (d - a0)) <= 9 * w * (d * d)).
  { apply Rle_trans with (1 := Rabs_triang _ _). rewrite !Rabs_mult, (Rabs_right d) by lra. rewrite (Rabs_minus_sym d a0).
    assert (Rabs (m - M) * d <= 3 * w * d * d) by (apply Rmult_le_compat_r; lra). assert (Rabs M * Rabs (a0 - d) <= 2 * d * (3 * w * d)) by (apply Rmult_le_compat; try apply Rabs_pos; assumption). lra. }
  unfold Rdiv. rewrite Rabs_mult, (Rabs_right (/ (a0 * d))) by (apply Rle_ge, Rlt_le, Rinv_0_lt_compat; apply Rmult_lt_0_compat; lra).
  apply Rmult_le_reg_r with (a0 * d); [apply Rmult_lt_0_compat; lra|]. rewrite Rmult_assoc, Rinv_l by (apply Rgt_not_eq; apply Rmult_lt_0_compat; lra). rewrite Rmult_1_r.
  apply Rle_trans with (1 := N). assert (13 / 16 * d * d <= a0 * d) by (apply Rmult_le_compat_r; lra). assert (111 / 10 * w * (13 / 16 * d * d) <= 111 / 10 * w * (a0 * d)) by (apply Rmult_le_compat_l; lra).
  assert (0 <= w * (d * d)) by (apply Rmult_le_pos; nra). lra.
Qed.
Lemma quotient_close c s Q (m : fl) M : regular c s Q -> finite m -> let r := val s / (2 * val Q) in Rabs M <= 2 * (1 + r) -> Rabs (val m - M) <= 3 * u * (1 + r) ->
  let y := fdiv prec emax m (fadd prec emax (ofz 1) (fdiv prec emax s (fmul prec emax (ofz 2) Q))) in finite y /\ Rabs (val y - M / (1 + r)) <= 14 * u.
Proof.
  intros H Fm r HM Hm. destruct (denominator c s Q H) as [_ [Ea [_ [E0 _]]]]. fold r in Ea. destruct size_facts as [U [E _]]. destruct top_big as [T16 _].
  destruct H as [_ [_ [_ [_ [_ [R4 _]]]]]]. fold r in R4. cbv zeta. set (a0 := fadd prec emax (ofz 1) (fdiv prec emax s (fmul prec emax (ofz 2) Q))) in *.
  destruct (core_close u r _ (val a0) (val m) M U R4 Ea E0 HM Hm) as [P C].
  assert (B : Rabs (val m / val a0) <= 27 / 10).
  { replace (val m / val a0) with ((val m / val a0 - M / (1 + r)) + M / (1 + r)) by ring. apply Rle_trans with (1 := Rabs_triang _ _).
    assert (Rabs (M / (1 + r)) <= 2); [|lra]. unfold Rdiv. rewrite Rabs_mult, (Rabs_right (/ (1 + r))) by (apply Rle_ge, Rlt_le, Rinv_0_lt_compat; lra). apply Rmult_le_reg_r with (1 + r); [lra|]. rewrite Rmult_assoc, Rinv_l by lra. lra. }
  destruct (div_fits m a0 Fm) as [F V]; [lra|lra|]. split; [exact F|]. rewrite V. pose proof (round_err prec emax (val m / val a0)) as Er.
  replace (rnd (val m / val a0) - M / (1 + r)) with ((rnd (val m / val a0) - val m / val a0) + (val m / val a0 - M / (1 + r))) by ring. apply Rle_trans with (1 := Rabs_triang _ _).
  assert (u * Rabs (val m / val a0) <= u * (27 / 10)) by (apply Rmult_le_compat_l; lra). assert (u * u <= u * / 16) by (apply Rmult_le_compat_l; lra). lra.
Qed.
Definition near (d : fsection prec emax) (b0 b1 b2 a1 a2 : R) : Prop :=
  (finite (fb0 _ _ d) /\ Rabs (val (fb0 _ _ d) - b0) <= 14 * u) /\ (finite (fb1 _ _ d) /\ Rabs (val (fb1 _ _ d) - b1) <= 14 * u) /\ (finite (fb2 _ _ d) /\ Rabs (val (fb2 _ _ d) - b2) <= 14 * u) /\
  (finite (fa1 _ _ d) /\ Rabs (val (fa1 _ _ d) - a1) <= 14 * u) /\ (finite (fa2 _ _ d) /\ Rabs (val (fa2 _ _ d) - a2) <= 14 * u).
Definition stable_section (d : fsection prec emax) : Prop := f_stability prec emax (fa1 _ _ d) (fa2 _ _ d) = true /\ poles_inside (val (fa1 _ _ d)) (val (fa2 _ _ d)).
Lemma shared c s Q : regular c s Q -> let r := val s / (2 * val Q) in
  let al := fdiv prec emax s (fmul prec emax (ofz 2) Q) in let a0 := fadd prec emax (ofz 1) al in
  (finite (fdiv prec emax (fmul prec emax (ofz (-2)) c) a0) /\ Rabs (val (fdiv prec emax (fmul prec emax (ofz (-2)) c) a0) - -2 * val c / (1 + r)) <= 14 * u) /\
  (finite (fdiv prec emax (fsub prec emax (ofz 1) al) a0) /\ Rabs (val (fdiv prec emax (fsub prec emax (ofz 1) al) a0) - (1 - r) / (1 + r)) <= 14 * u).
Proof.
  intros H r. pose proof (reg_cos c s Q H) as C1. destruct (denominator c s Q H) as [_ [Ea [_ [_ [Fn [En [Fm Vm]]]]]]]. fold r in Ea. destruct size_facts as [U _].
  assert (R4 : 4 * u <= r) by (destruct H as [_ [_ [_ [_ [_ [R4 _]]]]]]; exact R4). cbv zeta. split; apply (quotient_close c s Q _ _ H); try assumption; fold r.
  - rewrite Rabs_mult, (Rabs_left (-2)) by lra. lra.
  - rewrite Vm, Rminus_diag_eq by reflexivity. rewrite Rabs_R0. nra.
  - apply Rabs_le. lra.
  - set (a := val (fdiv prec emax s (fmul prec emax (ofz 2) Q))) in *. set (n := val (fsub prec emax (ofz 1) _)) in *.
    apply Rabs_le_inv in Ea. assert (Rabs (1 - a) <= (1 + r) + u * r) by (apply Rabs_le; nra). assert (u * Rabs (1 - a) <= u * ((1 + r) + u * r)) by (apply Rmult_le_compat_l; lra).
    assert (u * (u * r) <= u * (/ 16 * r)) by (apply Rmult_le_compat_l; [lra|]; apply Rmult_le_compat_r; lra). apply Rabs_le_inv in En. apply Rabs_le. nra.
Qed.
Lemma shared_stable c s Q : regular c s Q -> let al := fdiv prec emax s (fmul prec emax (ofz 2) Q) in let a0 := fadd prec emax (ofz 1) al in
  forall b0 b1 b2, stable_section (f_coeffs prec emax a0 (fmul prec emax (ofz (-2)) c) (fsub prec emax (ofz 1) al) b0 b1 b2).
Proof. intros H al a0 b0 b1 b2. pose proof (coefficients_stable c s Q H) as S. split; [exact S|]. apply C134_stability_sound in S. apply S. Qed.
Lemma half_sum (x : fl) X : finite x -> Rabs X <= 2 -> Rabs (val x - X) <= 2 * u -> finite (fdiv prec emax x (ofz 2)) /\ Rabs (val (fdiv prec emax x (ofz 2)) - X / 2) <= 3 * u.
Proof.
  intros F B E. destruct (int_value prec emax 2 (small_int prec 2 ltac:(lia))) as [F2 V2]. destruct size_facts as [U [T _]]. destruct top_big as [T16 _].
  assert (Bx : Rabs (val x) <= 2 + 2 * u) by (replace (val x) with ((val x - X) + X) by ring; apply Rle_trans with (1 := Rabs_triang _ _); lra).
  assert (Bh : Rabs (val x / 2) <= 1 + u) by (unfold Rdiv; rewrite Rabs_mult, (Rabs_right (/ 2)) by lra; lra).
  destruct (div_fits x (ofz 2) F) as [Fd Vd]; [rewrite V2; lra|rewrite V2; lra|]. rewrite V2 in Vd. split; [exact Fd|]. rewrite Vd.
  pose proof (round_err prec emax (val x / 2)) as R. assert (u * Rabs (val x / 2) <= u * (1 + u)) by (apply Rmult_le_compat_l; lra). assert (u * u <= u * / 16) by (apply Rmult_le_compat_l; lra).
  apply Rabs_le_inv in R, E. apply Rabs_le. lra.
Qed.
Context (fsin fcos : fl -> fl) (pi : fl).
(** The sine and the cosine the library returns for the angle, and the ratio of the cookbook formulas. *)
Notation cosv fc fs := (val (fcos (f_omega prec emax pi fc fs))).
Notation sinv fc fs := (val (fsin (f_omega prec emax pi fc fs))).
Notation ready fc fs Q := (regular (fcos (f_omega prec emax pi fc fs)) (fsin (f_omega prec emax pi fc fs)) Q).
Theorem C134_lowpass fc fs Q : ready fc fs Q -> let c := cosv fc fs in let r := sinv fc fs / (2 * val Q) in
  stable_section (f_rbj_lowpass prec emax fsin fcos pi fc fs Q) /\
  near (f_rbj_lowpass prec emax fsin fcos pi fc fs Q) ((1 - c) / 2 / (1 + r)) ((1 - c) / (1 + r)) ((1 - c) / 2 / (1 + r)) (-2 * c / (1 + r)) ((1 - r) / (1 + r)).
Proof.
  intros H c r. pose proof (reg_cos _ _ _ H) as C1. destruct (shared _ _ _ H) as [S1 S2]. fold r in S1, S2. destruct size_facts as [U _]. destruct top_big as [T16 _].
  assert (R4 : 4 * u <= r) by (destruct H as [_ [_ [_ [_ [_ [R4 _]]]]]]; exact R4).
  split; [apply (shared_stable _ _ _ H)|]. destruct (int_value prec emax 1 (small_int prec 1 ltac:(lia))) as [F1 V1].
  assert (Cb : -1 <= c <= 1) by (apply Rabs_le_inv; exact C1).
  destruct (sub_fits (ofz 1) (fcos (f_omega prec emax pi fc fs)) F1 (proj1 H)) as [Fd Ed]; [rewrite V1; fold c; apply Rabs_le; lra|]. rewrite V1 in Ed. fold c in Ed.
  rewrite (Rabs_right (1 - c)) in Ed by lra. assert (Ed2 : Rabs (val (fsub prec emax (ofz 1) (fcos (f_omega prec emax pi fc fs))) - (1 - c)) <= 2 * u) by nra.
  destruct (half_sum _ (1 - c) Fd) as [Fh Eh]; [rewrite Rabs_right; lra|exact Ed2|].
  assert (B0 : forall x, x <= 3 * u -> x <= 3 * u * (1 + r)) by (intros x Hx; nra).
  unfold near, f_rbj_lowpass, f_coeffs, f_alpha. cbn [fb0 fb1 fb2 fa1 fa2].
  split; [|split; [|split; [|split; [exact S1|exact S2]]]]; apply (quotient_close _ _ Q _ _ H); try assumption; fold r; try (apply B0; lra); apply Rabs_le; lra.
Qed.
Theorem C134_highpass fc fs Q : ready fc fs Q -> let c := cosv fc fs in let r := sinv fc fs / (2 * val Q) in
  stable_section (f_rbj_highpass prec emax fsin fcos pi fc fs Q) /\
  near (f_rbj_highpass prec emax fsin fcos pi fc fs Q) ((1 + c) / 2 / (1 + r)) (- (1 + c) / (1 + r)) ((1 + c) / 2 / (1 + r)) (-2 * c / (1 + r)) ((1 - r) / (1 + r)).
Proof.
  intros H c r. pose proof (reg_cos _ _ _ H) as C1. destruct (shared _ _ _ H) as [S1 S2]. fold r in S1, S2. destruct size_facts as [U _]. destruct top_big as [T16 _].
  assert (R4 : 4 * u <= r) by (destruct H as [_ [_ [_ [_ [_ [R4 _]]]]]]; exact R4).
  split; [apply (shared_stable _ _ _ H)|]. destruct (int_value prec emax 1 (small_int prec 1 ltac:(lia))) as [F1 V1].
  assert (Cb : -1 <= c <= 1) by (apply Rabs_le_inv; exact C1).
  destruct (add_fits (ofz 1) (fcos (f_omega prec emax pi fc fs)) F1 (proj1 H)) as [Fd Ed]; [rewrite V1; fold c; apply Rabs_le; lra|]. rewrite V1 in Ed. fold c in Ed.
  rewrite (Rabs_right (1 + c)) in Ed by lra. set (x := fadd prec emax (ofz 1) (fcos (f_omega prec emax pi fc fs))) in *. assert (Ed2 : Rabs (val x - (1 + c)) <= 2 * u) by nra.
  destruct (half_sum _ (1 + c) Fd) as [Fh Eh]; [rewrite Rabs_right; lra|exact Ed2|].
  assert (B0 : forall x, x <= 3 * u -> x <= 3 * u * (1 + r)) by (intros y Hy; nra).
  assert (Fo : finite (Bopp x)) by (unfold finite; rewrite is_finite_Bopp; exact Fd).
  unfold near, f_rbj_highpass, f_coeffs, f_alpha. cbn [fb0 fb1 fb2 fa1 fa2]. fold x.
  split; [|split; [|split; [|split; [exact S1|exact S2]]]]; apply (quotient_close _ _ Q _ _ H); try assumption; fold r; try (apply B0; lra); try (apply Rabs_le; lra).
  apply B0. rewrite B2R_Bopp. replace (- val x - - (1 + c)) with (- (val x - (1 + c))) by ring. rewrite Rabs_Ropp. lra.
Qed.
Theorem C134_bandpass fc fs Q : ready fc fs Q -> let c := cosv fc fs in let s := sinv fc fs in let r := s / (2 * val Q) in
  stable_section (f_rbj_bandpass prec emax fsin fcos pi fc fs Q) /\
  near (f_rbj_bandpass prec emax fsin fcos pi fc fs Q) (s / 2 / (1 + r)) 0 (- (s / 2) / (1 + r)) (-2 * c / (1 + r)) ((1 - r) / (1 + r)).
Proof.
  intros H c s r. destruct (shared _ _ _ H) as [S1 S2]. fold s r in S1, S2. destruct size_facts as [U [T _]]. destruct top_big as [T16 _].
  assert (R4 : 4 * u <= r) by (destruct H as [_ [_ [_ [_ [_ [R4 _]]]]]]; exact R4). destruct (denominator _ _ _ H) as [Fa [Ea _]]. fold s r in Ea.
  split; [apply (shared_stable _ _ _ H)|]. destruct (int_value prec emax 0 (small_int prec 0 ltac:(lia))) as [F0 V0].
  pose proof H as [_ [_ [FQ [Hs [Q0 _]]]]]. fold s in Hs. set (al := fdiv prec emax (fsin (f_omega prec emax pi fc fs)) (fmul prec emax (ofz 2) Q)) in *.
  assert (P : Rabs (val Q * val al - s / 2) <= u * / 2).
  { assert (Qr : val Q * r = s / 2) by (unfold r; field; lra). rewrite <- Qr, <- Rmult_minus_distr_l, Rabs_mult, (Rabs_right (val Q)) by lra.
    apply Rle_trans with (val Q * (u * r)); [apply Rmult_le_compat_l; lra|]. replace (val Q * (u * r)) with (u * (val Q * r)) by ring. rewrite Qr. apply Rmult_le_compat_l; [lra|]. apply Rabs_le_inv in Hs. lra. }
  assert (Pb : Rabs (val Q * val al) <= 1). { apply Rabs_le_inv in P, Hs. apply Rabs_le. lra. }
  pose proof (fits (val Q * val al) ltac:(lra)) as Pf.
  assert (Er : Rabs (rnd (val Q * val al) - s / 2) <= 3 * u).
  { pose proof (round_err prec emax (val Q * val al)) as R. assert (u * Rabs (val Q * val al) <= u * 1) by (apply Rmult_le_compat_l; lra). assert (u * u <= u * / 16) by (apply Rmult_le_compat_l; lra).
    apply Rabs_le_inv in R, P. apply Rabs_le. lra. }
  assert (X0 : finite (fmul prec emax Q al) /\ val (fmul prec emax Q al) = rnd (val Q * val al)).
  { destruct (mul_cases prec emax Q al FQ Fa) as [[_ [V F]]|[O _]]; [split; assumption|lra]. }
  assert (Fo : finite (Bopp Q)) by (unfold finite; rewrite is_finite_Bopp; exact FQ).
  assert (X1 : finite (fmul prec emax (Bopp Q) al) /\ val (fmul prec emax (Bopp Q) al) = - rnd (val Q * val al)).
  { destruct (mul_cases prec emax (Bopp Q) al Fo Fa) as [[_ [V F]]|[O _]]; rewrite B2R_Bopp, <- Ropp_mult_distr_l, (rnd_opp prec emax) in *; [split; assumption|rewrite Rabs_Ropp in O; lra]. }
  destruct X0 as [G0 W0]. destruct X1 as [G1 W1].
  assert (B0 : forall x, x <= 3 * u -> x <= 3 * u * (1 + r)) by (intros y Hy; nra). apply Rabs_le_inv in Hs.
  unfold near, f_rbj_bandpass, f_coeffs, f_alpha. cbn [fb0 fb1 fb2 fa1 fa2]. fold al.
  split; [|split; [|split; [|split; [exact S1|exact S2]]]].
  - apply (quotient_close _ _ Q _ _ H); [exact G0|fold s r; apply Rabs_le; lra|fold s r; apply B0; rewrite W0; exact Er].
  - replace 0 with (0 / (1 + r)) by (unfold Rdiv; ring). apply (quotient_close _ _ Q _ _ H); [exact F0|fold s r; rewrite Rabs_R0; lra|fold s r; rewrite V0, Rminus_diag_eq, Rabs_R0 by reflexivity; nra].
  - apply (quotient_close _ _ Q _ _ H); [exact G1|fold s r; apply Rabs_le; lra|fold s r; apply B0; rewrite W1]. replace (- rnd (val Q * val al) - - (s / 2)) with (- (rnd (val Q * val al) - s / 2)) by ring. rewrite Rabs_Ropp. exact Er.
Qed.
Theorem C134_allpass fc fs Q : ready fc fs Q -> let c := cosv fc fs in let r := sinv fc fs / (2 * val Q) in let d := f_rbj_allpass prec emax fsin fcos pi fc fs Q in
  stable_section d /\ fb0 _ _ d = fa2 _ _ d /\ fb1 _ _ d = fa1 _ _ d /\ val (fb2 _ _ d) = 1 /\
  near d ((1 - r) / (1 + r)) (-2 * c / (1 + r)) 1 (-2 * c / (1 + r)) ((1 - r) / (1 + r)).
Proof.
  intros H c r d. destruct (shared _ _ _ H) as [S1 S2]. fold r in S1, S2. destruct size_facts as [U [T _]]. destruct top_big as [T16 _].
  split; [apply (shared_stable _ _ _ H)|]. split; [reflexivity|]. split; [reflexivity|].
  destruct (denominator _ _ _ H) as [_ [Ea [F0 [E0 _]]]]. fold r in Ea. assert (R4 : 4 * u <= r) by (destruct H as [_ [_ [_ [_ [_ [R4 _]]]]]]; exact R4).
  assert (P : 0 < val (fadd prec emax (ofz 1) (f_alpha prec emax fsin pi fc fs Q))).
  { destruct (core_close u r _ _ 0 0 U R4 Ea E0) as [P _]; [rewrite Rabs_R0; lra|rewrite Rminus_diag_eq, Rabs_R0 by reflexivity; nra|]. exact P. }
  assert (X : finite (fb2 _ _ d) /\ val (fb2 _ _ d) = 1).
  { unfold d, f_rbj_allpass, f_coeffs. cbn [fb2]. set (a0 := fadd prec emax (ofz 1) (f_alpha prec emax fsin pi fc fs Q)) in *.
    assert (Q1 : val a0 / val a0 = 1) by (field; lra). destruct (div_fits a0 a0 F0) as [F V]; [lra|rewrite Q1, Rabs_R1; lra|]. split; [exact F|]. rewrite V, Q1. apply (rnd_id prec emax), (fmt_1 prec emax). }
  destruct X as [X1 X2]. split; [exact X2|]. unfold near. rewrite X2, (Rminus_diag_eq 1 1), Rabs_R0 by reflexivity. split; [exact S2|]. split; [exact S1|]. split; [split; [exact X1|nra]|]. split; [exact S1|exact S2].
Qed.
(** ** Low cut-off frequencies: the cosine rounds to one and the low-pass filter is silent *)
Lemma cos_low x : 0 <= x -> 1 - x * x / 2 <= cos x.
Proof.
  intros H. replace x with (2 * (x / 2)) at 3 by field. rewrite cos_2a_sin.
  assert (S : Rabs (sin (x / 2)) <= Rabs (x / 2)).
  { destruct (Rle_lt_or_eq_dec 0 x H) as [P|P]; [|subst x; replace (0 / 2) with 0 by field; rewrite sin_0; lra].
    rewrite (Rabs_right (x / 2)) by lra. destruct (Rle_or_lt (x / 2) 1) as [L|L].
    - assert (0 < sin (x / 2)) by (apply sin_gt_0; [lra|]; pose proof PI2_1; unfold PI2 in *; lra). rewrite Rabs_right by lra. apply Rlt_le, sin_lt_x. lra.
    - pose proof (SIN_bound (x / 2)). apply Rabs_le. lra. }
  assert (Q : sin (x / 2) * sin (x / 2) <= (x / 2) * (x / 2)). { replace (sin (x / 2) * sin (x / 2)) with (Rabs (sin (x / 2)) * Rabs (sin (x / 2))) by (rewrite <- Rabs_mult; apply Rabs_right; nra).
    replace (x / 2 * (x / 2)) with (Rabs (x / 2) * Rabs (x / 2)) by (rewrite <- Rabs_mult; apply Rabs_right; nra). apply Rmult_le_compat; try apply Rabs_pos; exact S. }
  lra.
Qed.
Lemma cos_one x : 0 <= x -> x * x < u -> rnd (cos x) = 1.
Proof.
  intros H B. pose proof (cos_low x H) as L. pose proof (COS_bound x) as C. apply Rle_antisym.
  - apply Rle_trans with (rnd 1); [apply (rnd_le prec emax); lra|]. rewrite (rnd_id prec emax) by apply (fmt_1 prec emax). lra.
  - apply Rnot_lt_le. intros K. assert (G : fmt (rnd (cos x))) by (apply generic_format_round; auto with typeclass_instances).
    pose proof (below_one prec emax _ G K) as K2.
    destruct (round_N_pt radix2 (FLT_exp (3 - emax - prec) prec) (fun z => negb (Z.even z)) (cos x)) as [_ N].
    specialize (N 1 (fmt_1 prec emax)). rewrite (Rabs_right (1 - cos x)) in N by lra.
    change (round radix2 (FLT_exp (3 - emax - prec) prec) (Znearest (fun z => negb (Z.even z))) (cos x)) with (rnd (cos x)) in N. apply Rabs_le_inv in N. lra.
Qed.
Lemma zero_form (x : fl) : finite x -> val x = 0 -> exists s, x = B754_zero s.
Proof.
  intros F V. destruct x as [s|s| |s m e B]; try discriminate F; [exists s; reflexivity|exfalso]. cbn in V. apply eq_0_F2R in V. destruct s; discriminate V.
Qed.
Lemma silent_filter b0 b1 b2 a1 a2 xs : forall s0 s1, finite a1 -> finite a2 -> all_finite xs ->
  (exists z0 z1 z2, b0 = B754_zero z0 /\ b1 = B754_zero z1 /\ b2 = B754_zero z2) ->
  Forall (fun y : fl => finite y /\ val y = 0) (snd (f_filter prec emax b0 b1 b2 a1 a2 (B754_zero s0, B754_zero s1) xs)).
Proof.
  intros s0 s1 G1 G2 H [z0 [z1 [z2 [-> [-> ->]]]]].
  assert (M : forall (c : fl) s, finite c -> exists s', fmul prec emax c (B754_zero s) = B754_zero s') by (intros c s F; destruct c as [?|?| |]; try discriminate F; eexists; reflexivity).
  assert (M' : forall (c : fl) s, finite c -> exists s', fmul prec emax (B754_zero s) c = B754_zero s') by (intros c s F; destruct c as [?|?| |]; try discriminate F; eexists; reflexivity).
  assert (P : forall s s', exists r, fadd prec emax (B754_zero s) (B754_zero s') = B754_zero r) by (intros [] []; eexists; reflexivity).
  assert (D : forall s s', exists r, fsub prec emax (B754_zero s) (B754_zero s') = B754_zero r) by (intros [] []; eexists; reflexivity).
  revert s0 s1. induction H as [|x t Fx Ft IH]; intros s0 s1; [constructor|]. cbn [f_filter snd fst]. unfold f_biquad. cbn [fst snd].
  destruct (M' x z0 Fx) as [p0 ->]. destruct (M' x z1 Fx) as [p1 ->]. destruct (M' x z2 Fx) as [p2 ->]. destruct (P p0 s0) as [q ->].
  destruct (M a1 q G1) as [m1 ->]. destruct (M a2 q G2) as [m2 ->]. destruct (D p1 m1) as [e1 ->]. destruct (P e1 s1) as [f1 ->]. destruct (D p2 m2) as [e2 ->].
  constructor; [split; reflexivity|apply IH].
Qed.
Theorem C134_lowpass_silent_actual fc fs Q xs : let w := f_omega prec emax pi fc fs in let d := f_rbj_lowpass prec emax fsin fcos pi fc fs Q in
  finite w -> 0 <= val w -> val w * val w < u -> finite (fcos w) -> val (fcos w) = rnd (cos (val w)) -> finite (fa1 _ _ d) -> finite (fa2 _ _ d) -> all_finite xs ->
  Forall (fun y => finite y /\ val y = 0) (snd (f_filter prec emax (fb0 _ _ d) (fb1 _ _ d) (fb2 _ _ d) (fa1 _ _ d) (fa2 _ _ d) (fstate _ _ d) xs)).
Proof.
  intros w d Fw W0 Wu Fc Vc A1 A2 Fx. rewrite cos_one in Vc by assumption. destruct (int_value prec emax 1 (small_int prec 1 ltac:(lia))) as [F1 V1].
  destruct (int_value prec emax 2 (small_int prec 2 ltac:(lia))) as [F2 V2].
  assert (Z : exists s, fsub prec emax (ofz 1) (fcos w) = B754_zero s).
  { destruct (sub_small prec emax (ofz 1) (fcos w) F1 Fc) as [F V]; rewrite V1, Vc, Rminus_diag_eq, (rnd_0 prec emax) in * by reflexivity; [rewrite Rabs_R0; lra|]. apply zero_form; assumption. }
  destruct Z as [z Z]. unfold d, f_rbj_lowpass, f_coeffs in A1, A2 |- *. cbn [fb0 fb1 fb2 fa1 fa2 fstate] in A1, A2 |- *. fold w in A1, A2 |- *. rewrite Z.
  assert (Z2 : exists s, fdiv prec emax (B754_zero z) (ofz 2) = B754_zero s).
  { destruct (div_small prec emax (B754_zero z) (ofz 2) eq_refl) as [F V]; rewrite V2 in *; [lra|cbn [B2R]; unfold Rdiv; rewrite Rmult_0_l, (rnd_0 prec emax), Rabs_R0; lra|].
    cbn [B2R] in V. unfold Rdiv in V. rewrite Rmult_0_l, (rnd_0 prec emax) in V. apply zero_form; assumption. }
  destruct Z2 as [z2 ->]. set (a0 := fadd prec emax (ofz 1) (f_alpha prec emax fsin pi fc fs Q)) in *.
  assert (T : exists s, fmul prec emax (ofz (-2)) (fcos w) = s /\ finite s /\ val s <> 0).
  { eexists. split; [reflexivity|]. destruct (int_value prec emax (-2) (small_int prec (-2) ltac:(lia))) as [F3 V3].
    destruct (mul_cases prec emax (ofz (-2)) (fcos w) F3 Fc) as [[_ [V F]]|[O _]]; rewrite V3, Vc, Rmult_1_r in *; rewrite (rnd_id prec emax) in * by (apply (fmt_small prec emax), small_int; [assumption|lia]).
    - split; [exact F|lra]. - exfalso. destruct (unit_facts prec emax) as [_ [_ T4]]. rewrite Rabs_left in O by lra. lra. }
  destruct T as [m [Em [Fm Vm]]]. rewrite Em in A1.
  assert (B : forall s, exists s', fdiv prec emax (B754_zero s) a0 = B754_zero s').
  { intros s. destruct a0 as [s0|s0| |s0 m0 e0 B0] eqn:E0; try (eexists; reflexivity).
    - exfalso. destruct (proj1 (val_nonzero prec emax m) (conj Fm Vm)) as (s1 & m1 & e1 & H1 & Hm). rewrite Hm in A1. discriminate A1.
    - exfalso. destruct m; discriminate A1. }
  destruct (B z) as [y1 Y1]. destruct (B z2) as [y2 Y2]. apply silent_filter; [rewrite Em; exact A1|exact A2|exact Fx|]. exists y2, y1, y2. auto.
Qed.
(** ** Sections made from poles *)
Lemma mul_unit (x y : fl) : finite x -> finite y -> Rabs (val x) <= 1 -> Rabs (val y) <= 1 ->
  finite (fmul prec emax x y) /\ Rabs (val (fmul prec emax x y) - val x * val y) <= u * Rabs (val x * val y) + eta / 2.
Proof.
  intros Fx Fy Bx By. destruct top_big as [T16 _]. assert (B : Rabs (val x * val y) <= 1) by (rewrite Rabs_mult, <- (Rmult_1_r 1); apply Rmult_le_compat; try apply Rabs_pos; assumption).
  pose proof (fits (val x * val y) ltac:(lra)) as F. destruct (mul_cases prec emax x y Fx Fy) as [[_ [V G]]|[O _]]; [|lra]. split; [exact G|]. rewrite V. apply (round_err prec emax).
Qed.
Theorem C134_conjugate_poles (re im : fl) q : finite re -> finite im -> val im <> 0 ->
  val re * val re + val im * val im <= 1 - 4 * u -> 8 * u <= (1 - Rabs (val re)) * (1 - Rabs (val re)) + val im * val im ->
  let p := f_poles prec emax (re, im) q in f_stability prec emax (fst p) (snd p) = true /\ poles_inside (val (fst p)) (val (snd p)).
Proof.
  intros Fr Fi I0 S M p. assert (St : f_stability prec emax (fst p) (snd p) = true); [|split; [exact St|apply C134_stability_sound in St; apply St]].
  unfold p, f_poles. cbn [fst snd]. assert (E : Beqb im zero = false) by (destruct (Beqb im zero) eqn:E; [|reflexivity]; apply (eqb_value prec emax im zero Fi eq_refl) in E; contradiction). rewrite E. cbn [negb fst snd].
  destruct size_facts as [U [T _]]. destruct top_big as [T16 [T1 _]]. set (a := val re) in *. set (b := val im) in *.
  assert (Ra : Rabs a <= 1) by (apply Rsqr_le_abs_0_alt in S || (apply Rabs_le; nra)). assert (Rb : Rabs b <= 1) by (apply Rabs_le; nra).
  destruct (twice (-2) re ltac:(lia) Fr) as [F1 V1]; [fold a; rewrite T1; lra|]. fold a in V1.
  destruct (mul_unit re re Fr Fr Ra Ra) as [Fa Ea]. destruct (mul_unit im im Fi Fi Rb Rb) as [Fb Eb]. fold a in Ea. fold b in Eb.
  rewrite (Rabs_right (a * a)) in Ea by nra. rewrite (Rabs_right (b * b)) in Eb by nra. set (x := fmul prec emax re re) in *. set (y := fmul prec emax im im) in *.
  assert (uu : u * u <= u * / 16) by (apply Rmult_le_compat_l; lra). apply Rabs_le_inv in Ea, Eb.
  assert (Sb : 0 <= a * a + b * b) by nra. assert (uS : u * (a * a + b * b) <= u * (1 - 4 * u)) by (apply Rmult_le_compat_l; lra).
  assert (Xy : Rabs (val x + val y - (a * a + b * b)) <= u * (1 - 4 * u) + u * u) by (apply Rabs_le; lra). apply Rabs_le_inv in Xy.
  replace (u * (1 - 4 * u)) with (u - 4 * (u * u)) in * by ring. assert (u0 : 0 <= u * u) by (apply Rmult_le_pos; lra).
  assert (XyB : Rabs (val x + val y) <= 1) by (apply Rabs_le; lra).
  destruct (add_fits x y Fa Fb) as [F2 E2]; [lra|]. assert (u * Rabs (val x + val y) <= u * 1) by (apply Rmult_le_compat_l; lra). apply Rabs_le_inv in E2.
  set (t := fadd prec emax x y) in *. apply C134_stability_complete_partial; [exact F1|exact F2|apply Rabs_def1; lra|]. rewrite V1, Rabs_mult, (Rabs_left (-2)) by lra.
  assert (Q : Rabs a * Rabs a = a * a) by (rewrite <- Rabs_mult; apply Rabs_right; nra).
  assert (Tb : val t <= 1) by lra. assert (u * (1 + val t) <= u * 2) by (apply Rmult_le_compat_l; lra). replace ((1 + val t) * (1 - u)) with (1 + val t - u * (1 + val t)) by ring.
  replace ((1 - Rabs a) * (1 - Rabs a)) with (1 - 2 * Rabs a + Rabs a * Rabs a) in M by ring. lra.
Qed.
Theorem C134_real_poles (p q : fl) : finite p -> finite q -> Rabs (val p) < 1 -> Rabs (val q) < 1 -> 8 * u <= (1 - Rabs (val p)) * (1 - Rabs (val q)) ->
  let d := f_poles prec emax (p, zero) (q, zero) in f_stability prec emax (fst d) (snd d) = true /\ poles_inside (val (fst d)) (val (snd d)).
Proof.
  intros Fp Fq Bp Bq M d. assert (St : f_stability prec emax (fst d) (snd d) = true); [|split; [exact St|apply C134_stability_sound in St; apply St]].
  unfold d, f_poles. cbn [fst snd]. assert (E : Beqb zero zero = true) by reflexivity. rewrite E. cbn [negb fst snd].
  destruct size_facts as [U [T _]]. destruct top_big as [T16 [T1 _]]. set (a := val p) in *. set (b := val q) in *.
  assert (AB : Rabs (a + b) <= 2) by (apply Rle_trans with (1 := Rabs_triang _ _); lra).
  destruct (add_fits p q Fp Fq) as [F1 E1]; [fold a b; lra|]. destruct (mul_unit p q Fp Fq) as [F2 E2]; [fold a; lra|fold b; lra|]. fold a b in E1, E2.
  set (x := fadd prec emax p q) in *. set (t := fmul prec emax p q) in *. assert (Fo : finite (Bopp x)) by (unfold finite; rewrite is_finite_Bopp; exact F1).
  pose proof (Rabs_pos a) as A0. pose proof (Rabs_pos b) as B0.
  assert (P : Rabs (a * b) <= 1 - 8 * u) by (rewrite Rabs_mult; nra). assert (uu : u * u <= u * / 16) by (apply Rmult_le_compat_l; lra).
  assert (uP : u * Rabs (a * b) <= u * 1) by (apply Rmult_le_compat_l; lra). assert (uAB : u * Rabs (a + b) <= u * 2) by (apply Rmult_le_compat_l; lra).
  assert (Key : Rabs (a + b) + 8 * u <= 1 + a * b) by (clear - M Bp Bq U; revert Bp Bq M; unfold Rabs; destruct (Rcase_abs a), (Rcase_abs b), (Rcase_abs (a + b)); intros Bp Bq M; nra).
  apply Rabs_le_inv in E2, P. apply C134_stability_complete_partial; [exact Fo|exact F2|apply Rabs_def1; lra|]. rewrite B2R_Bopp, Rabs_Ropp.
  assert (Rabs (val x) <= Rabs (a + b) + u * 2) by (replace (val x) with ((a + b) + (val x - (a + b))) by ring; apply Rle_trans with (1 := Rabs_triang _ _); lra). nra.
Qed.
End Format.

(** The ideal coefficients above are those of the exact design of C16 when sine and cosine are exact. *)
Theorem C134_ideal_lowpass fc fs Q : 0 < fs -> 0 < Q -> 0 < fc < fs / 2 -> let w := 2 * PI * fc / fs in let c := cos w in let r := sin w / (2 * Q) in
  DesignModel.rbj_lowpass fc fs Q = Ok (mkBq ((1 - c) / 2 / (1 + r)) ((1 - c) / (1 + r)) ((1 - c) / 2 / (1 + r)) ((1 - r) / (1 + r)) (-2 * c / (1 + r)) 1 0 0).
Proof.
  intros Hs HQ Hc w c r. unfold DesignModel.rbj_lowpass. rewrite RealBaseProofs.rdiv_ok by lra. cbn [bind]. fold w. rewrite RealBaseProofs.rdiv_ok by lra. cbn [bind]. fold r c.
  assert (W : 0 < w < PI).
  { pose proof PI_RGT_0 as P. unfold w. split; [apply Rdiv_lt_0_compat; nra|]. apply Rmult_lt_reg_r with fs; [lra|]. replace (2 * PI * fc / fs * fs) with (2 * PI * fc) by (field; lra). nra. }
  assert (R0 : 0 < r) by (apply Rdiv_lt_0_compat; [apply sin_gt_0; apply W|lra]).
  apply BiquadProofs.bq_coeffs_ok. lra.
Qed.

(** ** Correctly rounded sine and cosine exist; with them a 1 Hz low-pass filter at 44100 Hz is silent in float. *)
Definition faithful_to {prec emax} (g : binary_float prec emax -> binary_float prec emax) (h : R -> R) : Prop :=
  forall x, finite x -> finite (g x) /\ B2R (g x) = round radix2 (FLT_exp (3 - emax - prec) prec) ZnearestE (h (B2R x)).
Definition rounded (h : R -> R) (x : float) : float :=
  binary_normalize 24 128 eq_refl eq_refl mode_NE (ZnearestE (scaled_mantissa radix2 (FLT_exp (3 - 128 - 24) 24) (h (B2R x)))) (cexp radix2 (FLT_exp (3 - 128 - 24) 24) (h (B2R x))) false.
Lemma rounded_ok h : (forall x, Rabs (h x) <= 1) -> faithful_to (rounded h) h.
Proof.
  intros B x _. unfold rounded. set (y := h (B2R x)).
  pose proof (binary_normalize_correct 24 128 eq_refl eq_refl mode_NE (ZnearestE (scaled_mantissa radix2 (FLT_exp (3 - 128 - 24) 24) y)) (cexp radix2 (FLT_exp (3 - 128 - 24) 24) y) false) as C. cbv zeta in C.
  assert (I24 : Prec_gt_0 24) by reflexivity. assert (VF : Valid_exp (FLT_exp (3 - 128 - 24) 24)) by (apply FLT_exp_valid; exact I24).
  change (F2R (Float radix2 (ZnearestE (scaled_mantissa radix2 (FLT_exp (3 - 128 - 24) 24) y)) (cexp radix2 (FLT_exp (3 - 128 - 24) 24) y))) with (round radix2 (FLT_exp (3 - 128 - 24) 24) ZnearestE y) in C.
  change (round radix2 (SpecFloat.fexp 24 128) (round_mode mode_NE) (round radix2 (FLT_exp (3 - 128 - 24) 24) ZnearestE y)) with (round radix2 (FLT_exp (3 - 128 - 24) 24) ZnearestE (round radix2 (FLT_exp (3 - 128 - 24) 24) ZnearestE y)) in C.
  rewrite round_generic in C; [|auto with typeclass_instances|apply generic_format_round; auto with typeclass_instances].
  rewrite Rlt_bool_true in C; [destruct C as [C1 [C2 _]]; split; assumption|].
  apply Rle_lt_trans with 1; [|change 1 with (bpow radix2 0); apply bpow_lt; reflexivity]. apply abs_round_le_generic; auto with typeclass_instances; [|apply B]. change 1 with (bpow radix2 0). apply generic_format_bpow. unfold FLT_exp. cbn. lia.
Qed.
Definition pi24 : float := binary_normalize 24 128 eq_refl eq_refl mode_NE 13176795 (-22) false.
Notation lowpass_1hz fsin fcos := (f_rbj_lowpass 24 128 fsin fcos pi24 (sgl 1) (sgl 44100) (sgl 1)).
Notation run24 d xs := (snd (f_filter 24 128 (fb0 _ _ d) (fb1 _ _ d) (fb2 _ _ d) (fa1 _ _ d) (fa2 _ _ d) (fstate _ _ d) xs)).

Lemma sizes24 : (4 <= 24)%Z /\ (24 + 3 <= 128)%Z. Proof. lia. Qed.
Theorem C134_lowpass_1hz_actual (fsin fcos : float -> float) xs : faithful_to fsin sin -> faithful_to fcos cos -> all_finite xs ->
  Forall (fun y : float => finite y /\ B2R y = 0) (run24 (lowpass_1hz fsin fcos) xs).
Proof.
  intros Hs Hc Fx. set (w := f_omega 24 128 pi24 (sgl 1) (sgl 44100)).
  destruct (sf_val w 9790867 (-36)) as [Fw Vw]; [vm_compute; reflexivity|]. change (bpow radix2 (-36)) with (/ 68719476736) in Vw.
  destruct (Hs w Fw) as [Fs Vs]. destruct (Hc w Fw) as [Fc Vc].
  assert (VF : Valid_exp (FLT_exp (3 - 128 - 24) 24)) by (apply FLT_exp_valid; reflexivity).
  assert (U24 : roundoff 24 = / 16777216) by reflexivity. assert (Wu : B2R w * B2R w < roundoff 24) by (rewrite U24, Vw; lra).
  assert (C1 : B2R (fcos w) = 1) by (rewrite Vc; apply (cos_one 24 128); [rewrite Vw; lra|exact Wu]).
  assert (S1 : Rabs (B2R (fsin w)) <= 1) by (rewrite Vs; apply (rnd_unit_abs 24 128); pose proof (SIN_bound (B2R w)); apply Rabs_le; lra).
  destruct (int_value 24 128 1 (small_int 24 1 ltac:(lia))) as [F1 V1]. destruct (int_value 24 128 2 (small_int 24 2 ltac:(lia))) as [F2 V2].
  destruct (top_big 24 128 sizes24) as [_ [T1 _]]. change (bpow radix2 24) with 16777216 in T1.
  destruct (twice 24 128 sizes24 2 (sgl 1) ltac:(lia) F1) as [Fq Vq]; [unfold sgl; rewrite V1, T1, Rabs_R1; lra|]. unfold sgl in Vq. rewrite V1 in Vq.
  destruct (div_fits 24 128 sizes24 (fsin w) (fmul 24 128 (of_Z 24 128 2) (sgl 1)) Fs) as [Fa Va]; [unfold sgl; rewrite Vq; lra|unfold sgl; rewrite Vq; unfold Rdiv; rewrite Rabs_mult, (Rabs_right (/ (2 * 1))) by lra; change (bpow radix2 24) with 16777216; lra|].
  set (al := fdiv 24 128 (fsin w) (fmul 24 128 (of_Z 24 128 2) (sgl 1))) in *. unfold sgl in Va. rewrite Vq in Va.
  assert (Ab : Rabs (B2R al) <= / 2).
  { rewrite Va. apply abs_round_le_generic; auto with typeclass_instances; [change (/ 2) with (bpow radix2 (-1)); apply generic_format_bpow; unfold FLT_exp; cbn; lia|].
    unfold Rdiv. rewrite Rabs_mult, (Rabs_right (/ (2 * 1))) by lra. lra. }
  apply Rabs_le_inv in Ab. assert (u24 : roundoff 24 <= / 16) by (rewrite U24; lra).
  destruct (add_fits 24 128 sizes24 (of_Z 24 128 1) al F1 Fa) as [F0 E0]; [rewrite V1, Rabs_right by lra; change (bpow radix2 24) with 16777216; lra|]. rewrite V1, (Rabs_right (1 + B2R al)), U24 in E0 by lra. apply Rabs_le_inv in E0.
  destruct (sub_fits 24 128 sizes24 (of_Z 24 128 1) al F1 Fa) as [Fn En]; [rewrite V1, Rabs_right by lra; change (bpow radix2 24) with 16777216; lra|]. rewrite V1, (Rabs_right (1 - B2R al)), U24 in En by lra. apply Rabs_le_inv in En.
  destruct (twice 24 128 sizes24 (-2) (fcos w) ltac:(lia) Fc) as [Fm Vm]; [rewrite C1, T1, Rabs_R1; lra|]. rewrite C1 in Vm.
  set (a0 := fadd 24 128 (of_Z 24 128 1) al) in *. set (n := fsub 24 128 (of_Z 24 128 1) al) in *. set (m := fmul 24 128 (of_Z 24 128 (-2)) (fcos w)) in *.
  assert (I0 : 0 < / B2R a0 <= 4) by (split; [apply Rinv_0_lt_compat; lra|]; replace 4 with (/ / 4) by field; apply Rinv_le_contravar; lra).
  assert (Bd : forall x : float, Rabs (B2R x) <= 2 -> Rabs (B2R x / B2R a0) <= bpow radix2 24).
  { intros x Hx. change (bpow radix2 24) with 16777216. unfold Rdiv. rewrite Rabs_mult, (Rabs_right (/ B2R a0)) by lra. assert (Rabs (B2R x) * / B2R a0 <= 2 * 4) by (apply Rmult_le_compat; try apply Rabs_pos; lra). lra. }
  apply (C134_lowpass_silent_actual 24 128 fsin fcos pi24 (sgl 1) (sgl 44100) (sgl 1) xs); try assumption; fold w.
  - rewrite Vw. lra.
  - change (finite (fdiv 24 128 m a0)). apply (div_fits 24 128 sizes24); [exact Fm|lra|]. apply Bd. rewrite Vm, Rabs_left by lra. lra.
  - change (finite (fdiv 24 128 n a0)). apply (div_fits 24 128 sizes24); [exact Fn|lra|]. apply Bd. apply Rabs_le. lra.
Qed.
Theorem C134_lowpass_passes_refuted :
  ~ (forall fsin fcos : float -> float, faithful_to fsin sin -> faithful_to fcos cos -> exists xs y, all_finite xs /\ In y (run24 (lowpass_1hz fsin fcos) xs) /\ B2R y <> 0).
Proof.
  intros H. assert (Ss : faithful_to (rounded sin) sin) by (apply rounded_ok; intros x; pose proof (SIN_bound x); apply Rabs_le; lra).
  assert (Cc : faithful_to (rounded cos) cos) by (apply rounded_ok; intros x; pose proof (COS_bound x); apply Rabs_le; lra).
  destruct (H _ _ Ss Cc) as [xs [y [Fx [Iy Ny]]]]. pose proof (C134_lowpass_1hz_actual _ _ xs Ss Cc Fx) as S. rewrite Forall_forall in S. apply Ny. apply (S y Iy).
Qed.

(** The test is not complete: a2 = 2^-60, a1 = 1. *)
Definition small60 : double := binary_normalize 53 1024 eq_refl eq_refl mode_NE 1 (-60) false.
Lemma small60_val : finite small60 /\ B2R small60 = / 1152921504606846976.
Proof. destruct (sf_val small60 4503599627370496 (-112)) as [F V]; [vm_compute; reflexivity|]. split; [exact F|]. rewrite V. change (bpow radix2 (-112)) with (/ 5192296858534827628530496329220096). lra. Qed.
Theorem C134_stability_complete_refuted : ~ (forall a1 a2 : double, finite a1 -> finite a2 -> poles_inside (B2R a1) (B2R a2) -> f_stability 53 1024 a1 a2 = true).
Proof.
  intros H. destruct small60_val as [F2 V2]. destruct (int_value 53 1024 1 (small_int 53 1 ltac:(lia))) as [F1 V1].
  specialize (H (dbl 1) small60 F1 F2). assert (E : f_stability 53 1024 (dbl 1) small60 = false) by (vm_compute; reflexivity). rewrite E in H.
  assert (P : poles_inside (B2R (dbl 1)) (B2R small60)); [|specialize (H P); discriminate H]. apply triangle_rule. unfold dbl. rewrite V1, V2, !Rabs_right by lra. lra.
Qed.
(** Poles just inside the circle: the denominator computed from them has a root on it. *)
Definition near_one : double := binary_normalize 53 1024 eq_refl eq_refl mode_NE 9007199254740991 (-53) false.
Theorem C134_poles_stable_refuted : ~ (forall p q : double, finite p -> finite q -> Rabs (B2R p) < 1 -> Rabs (B2R q) < 1 ->
  let d := f_poles 53 1024 (p, fzero 53 1024) (q, fzero 53 1024) in poles_inside (B2R (fst d)) (B2R (snd d))).
Proof.
  intros H. destruct (sf_val near_one 9007199254740991 (-53)) as [F V]; [vm_compute; reflexivity|]. change (bpow radix2 (-53)) with (/ 9007199254740992) in V.
  assert (B : Rabs (B2R near_one) < 1) by (rewrite V, Rabs_right; lra). specialize (H near_one near_one F F B B). cbv zeta in H.
  destruct (sf_val (Bopp (fst (f_poles 53 1024 (near_one, fzero 53 1024) (near_one, fzero 53 1024)))) 9007199254740991 (-52)) as [_ A1]; [vm_compute; reflexivity|].
  destruct (sf_val (snd (f_poles 53 1024 (near_one, fzero 53 1024) (near_one, fzero 53 1024))) 9007199254740990 (-53)) as [_ A2]; [vm_compute; reflexivity|].
  rewrite B2R_Bopp in A1. apply triangle_rule in H. rewrite <- (Rabs_Ropp (B2R (fst _))), A1, A2 in H. change (bpow radix2 (-53)) with (/ 9007199254740992) in H. change (bpow radix2 (-52)) with (/ 4503599627370496) in H.
  destruct H as [_ H]. rewrite Rabs_right in H by lra. lra.
Qed.
(** A 1 kHz design at 44100 Hz meets the hypotheses in float and in double: cosine 0.98..., sine 0.14..., Q = 1. *)
Example C134_example : (4 <= 24)%Z /\ (24 + 3 <= 128)%Z /\ (4 <= 53)%Z /\ (53 + 3 <= 1024)%Z /\
  (forall c s Q : double, finite c -> finite s -> finite Q -> B2R c = 127 / 128 -> B2R s = / 8 -> B2R Q = 1 -> regular 53 1024 c s Q) /\
  f_stability 53 1024 (dbl 0) (fdiv 53 1024 (dbl 1) (dbl 2)) = true /\ f_stability 53 1024 (dbl 2) (dbl 0) = false /\ f_stability 53 1024 B754_nan (dbl 0) = false.
Proof.
  repeat (split; [lia|]). split; [|repeat split; vm_compute; reflexivity].
  intros c s Q Fc Fs FQ Vc Vs VQ. assert (U : roundoff 53 = / 9007199254740992) by reflexivity. unfold regular. rewrite Vc, Vs, VQ, U. rewrite !Rabs_right by lra. repeat (split; [assumption || lra|]). lra.
Qed.
Print Assumptions C134_stability_sound.
Print Assumptions C134_stability_complete_partial.
Print Assumptions C134_lowpass.
Print Assumptions C134_highpass.
Print Assumptions C134_bandpass.
Print Assumptions C134_allpass.
Print Assumptions C134_lowpass_silent_actual.
Print Assumptions C134_conjugate_poles.
Print Assumptions C134_real_poles.
Print Assumptions C134_ideal_lowpass.
Print Assumptions C134_lowpass_1hz_actual.
Print Assumptions C134_lowpass_passes_refuted.
Print Assumptions C134_stability_complete_refuted.
Print Assumptions C134_poles_stable_refuted.
