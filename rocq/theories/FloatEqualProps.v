(** C136: comparing floating-point numbers with meta::equal. *)
From Coq Require Import ZArith Reals List Bool Lia Lra Psatz.
From Flocq Require Import Core BinarySingleNaN.
From Verif Require Import Base FloatModel FloatSpec FloatProofs FloatProps FloatWaveModel FloatClockProps FloatEqualModel.
Import ListNotations.
Local Open Scope R_scope.

(** The number of the type [float] nearest to a real number, its overflow ignored. *)
Definition to_float (x : R) : R := round radix2 (FLT_exp (-149) 24) ZnearestE x.
Notation fmt := (generic_format radix2 (FLT_exp (-149) 24)).
(** Half a unit below the epsilon. *)
Definition limit : R := / 2 ^ 23 - / 2 ^ 48.

Section Conv.
Context {p e : Z}.
Lemma conv_cases (x : binary_float p e) : is_finite x = true ->
  (Rabs (to_float (B2R x)) < bpow radix2 128 /\ B2R (fconv 24 128 x) = to_float (B2R x) /\ is_finite (fconv 24 128 x) = true) \/
  (bpow radix2 128 <= Rabs (to_float (B2R x)) /\ is_finite (fconv 24 128 x) = false).
Proof.
  destruct x as [s| | |s m ex H]; intros F; try discriminate.
  - left. unfold to_float. cbn [B2R fconv is_finite]. rewrite round_0 by auto with typeclass_instances. rewrite Rabs_R0. split; [apply bpow_gt_0|auto].
  - cbn [fconv]. pose proof (binary_normalize_correct 24 128 _ _ mode_NE (cond_Zopp s (Zpos m)) ex s) as Q. cbv zeta in Q.
    change (F2R (Float radix2 (cond_Zopp s (Zpos m)) ex)) with (B2R (B754_finite s m ex H)) in Q. unfold to_float.
    match type of Q with if Rlt_bool (Rabs ?r) ?b then _ else _ => destruct (Rlt_bool_spec (Rabs r) b) as [L|L] end.
    + left. destruct Q as [Q1 [Q2 _]]. auto.
    + right. split; [exact L|]. apply overflow_inf in Q. rewrite Q. reflexivity.
Qed.
Lemma conv_special (x : binary_float p e) : is_finite x = false -> is_finite (fconv 24 128 x) = false.
Proof. destruct x; cbn; auto; discriminate. Qed.
End Conv.

Lemma eps_val : is_finite float_epsilon = true /\ B2R float_epsilon = / 2 ^ 23.
Proof. destruct (sf_val float_epsilon 8388608 (-46)) as [F V]; [vm_compute; reflexivity|]. split; [exact F|]. rewrite V. cbn. lra. Qed.
Lemma fmt_dyadic m k : (Z.abs m < 2 ^ 24)%Z -> (-149 <= k)%Z -> fmt (IZR m * bpow radix2 k).
Proof. intros M K. apply generic_format_FLT. exists (Float radix2 m k); [reflexivity|exact M|exact K]. Qed.
Lemma fmt_eps : fmt (/ 2 ^ 23).
Proof. replace (/ 2 ^ 23) with (IZR 1 * bpow radix2 (-23)) by (cbn; lra). apply fmt_dyadic; lia. Qed.
Lemma fmt_below : fmt (/ 2 ^ 23 - / 2 ^ 47).
Proof. replace (/ 2 ^ 23 - / 2 ^ 47) with (IZR 16777215 * bpow radix2 (-47)) by (cbn; lra). apply fmt_dyadic; lia. Qed.
Lemma to_float_limit : to_float limit = / 2 ^ 23.
Proof.
  pose proof (binary_normalize_correct 24 128 _ _ mode_NE 33554431 (-48) false) as Q. cbv zeta in Q.
  assert (E : F2R (Float radix2 33554431 (-48)) = limit) by (unfold F2R, limit; cbn; lra). rewrite E in Q.
  destruct (sf_val (binary_normalize 24 128 _ _ mode_NE 33554431 (-48) false) 8388608 (-46)) as [F V]; [vm_compute; reflexivity|].
  match type of Q with if Rlt_bool (Rabs ?r) ?b then _ else _ => destruct (Rlt_bool_spec (Rabs r) b) as [L|L] end.
  - destruct Q as [Q1 _]. change (to_float limit = / 2 ^ 23). unfold to_float. transitivity (B2R (binary_normalize 24 128 _ _ mode_NE 33554431 (-48) false)); [symmetry; exact Q1|]. rewrite V. cbn. lra.
  - apply overflow_inf in Q. rewrite Q in F. discriminate.
Qed.
Lemma to_float_le x y : x <= y -> to_float x <= to_float y.
Proof. apply round_le; auto with typeclass_instances. Qed.
Lemma to_float_id x : fmt x -> to_float x = x.
Proof. intros H. apply round_generic; auto with typeclass_instances. Qed.
Lemma to_float_abs x : Rabs (to_float x) = to_float (Rabs x).
Proof. unfold to_float. symmetry. apply round_NE_abs; auto with typeclass_instances. Qed.
Lemma near_eps d : Rabs (to_float d) < / 2 ^ 23 <-> Rabs d < limit.
Proof.
  rewrite to_float_abs. set (a := Rabs d). split; intros H.
  - destruct (Rlt_or_le a limit) as [L|L]; auto. exfalso. apply to_float_le in L. rewrite to_float_limit in L. lra.
  - set (g := / 2 ^ 23 - / 2 ^ 47). assert (G : g < / 2 ^ 23) by (unfold g; lra). destruct (Rle_or_lt a g) as [L|L].
    + apply to_float_le in L. rewrite (to_float_id g fmt_below) in L. lra.
    + destruct (Rlt_or_le (to_float a) (/ 2 ^ 23)) as [M|M]; auto. exfalso.
      destruct (round_N_pt radix2 (FLT_exp (-149) 24) (fun n => negb (Z.even n)) a) as [_ N]. specialize (N g fmt_below). fold (to_float a) in N.
      rewrite (Rabs_pos_eq (to_float a - a)) in N by (unfold limit in H; lra). rewrite Rabs_left in N by lra. unfold g, limit in *. lra.
Qed.
Lemma diff_small (X Y : float) : is_finite X = true -> is_finite Y = true ->
  (flt 24 128 (fabs 24 128 (fsub 24 128 X Y)) float_epsilon = true <-> Rabs (B2R X - B2R Y) < limit).
Proof.
  intros FX FY. destruct eps_val as [Fe Ve]. rewrite <- near_eps. unfold flt, fabs. rewrite ltb_true.
  destruct (sub_cases 24 128 X Y FX FY) as [[L [V F]]|[L [V S]]].
  - assert (Fa : is_finite (Babs (fsub 24 128 X Y)) = true) by (rewrite is_finite_Babs; auto). rewrite !level_fin by auto. rewrite B2R_Babs, V, Ve.
    split; [intros [_ [_ H]]; exact H|intros H]. split; [apply fin_not_nan; auto|]. split; [apply fin_not_nan; auto|exact H].
  - rewrite V. cbn [Babs]. rewrite (level_fin 24 128 float_epsilon Fe), Ve. split.
    + intros [_ [_ H]]. exfalso. cbn [level] in H. assert (/ 2 ^ 23 < bpow radix2 128) by (cbn; lra). lra.
    + intros H. exfalso. change (bpow radix2 128 <= Rabs (to_float (B2R X - B2R Y))) in L. assert (/ 2 ^ 23 < bpow radix2 128) by (cbn; lra). lra.
Qed.
Lemma diff_special (X Y : float) : is_finite X = false \/ is_finite Y = false -> flt 24 128 (fabs 24 128 (fsub 24 128 X Y)) float_epsilon = false.
Proof.
  intros H. unfold flt. destruct (Bltb (fabs 24 128 (fsub 24 128 X Y)) float_epsilon) eqn:E; auto. exfalso. apply ltb_true in E as [N [_ L]]. destruct eps_val as [Fe Ve]. rewrite (level_fin 24 128 float_epsilon Fe), Ve in L.
  assert (B : / 2 ^ 23 < bpow radix2 128) by (cbn; lra). unfold fabs in *.
  assert (I : is_finite (fsub 24 128 X Y) = false) by (destruct X as [s|s| |s m ex Hx], Y as [t|t| |t n ey Hy]; destruct H as [H|H]; cbn in H; try discriminate; try destruct s; try destruct t; reflexivity).
  destruct (fsub 24 128 X Y) as [s|s| |s m ex Hx]; try discriminate. cbn [Babs level] in L. lra.
Qed.
(** equal holds exactly for finite numbers that are still finite as floats and whose nearest floats
    are closer than the limit. *)
Theorem C136_equal_actual {p e} (x y : binary_float p e) : f_equal x y = true <->
  finite x /\ finite y /\ Rabs (to_float (B2R x)) < bpow radix2 128 /\ Rabs (to_float (B2R y)) < bpow radix2 128 /\ Rabs (to_float (B2R x) - to_float (B2R y)) < limit.
Proof.
  unfold f_equal, finite. destruct (is_finite x) eqn:Fx; [|rewrite diff_special by (left; apply conv_special; auto); split; [discriminate|intros [? _]; discriminate]].
  destruct (is_finite y) eqn:Fy; [|rewrite diff_special by (right; apply conv_special; auto); split; [discriminate|intros [_ [? _]]; discriminate]].
  destruct (conv_cases x Fx) as [[Lx [Vx Cx]]|[Lx Cx]]; [|rewrite diff_special by auto; split; [discriminate|intros [_ [_ [? _]]]; lra]].
  destruct (conv_cases y Fy) as [[Ly [Vy Cy]]|[Ly Cy]]; [|rewrite diff_special by auto; split; [discriminate|intros [_ [_ [_ [? _]]]]; lra]].
  rewrite diff_small by auto. rewrite Vx, Vy. tauto.
Qed.
Lemma to_float_value (x : float) : to_float (B2R x) = B2R x.
Proof. apply to_float_id. exact (generic_format_B2R 24 128 x). Qed.
Theorem C136_equal_float_actual (x y : float) : f_equal x y = true <-> finite x /\ finite y /\ Rabs (B2R x - B2R y) < / 2 ^ 23 - / 2 ^ 48.
Proof.
  rewrite C136_equal_actual, !to_float_value. fold limit. split; [tauto|]. intros [Fx [Fy H]]. repeat split; auto; apply (val_bound 24 128).
Qed.
Theorem C136_symmetric {p e} (x y : binary_float p e) : f_equal x y = f_equal y x.
Proof.
  destruct (f_equal x y) eqn:E, (f_equal y x) eqn:E'; auto; exfalso.
  - apply C136_equal_actual in E as [A [B [C [D F]]]]. assert (T : f_equal y x = true) by (apply C136_equal_actual; rewrite Rabs_minus_sym; auto). congruence.
  - apply C136_equal_actual in E' as [A [B [C [D F]]]]. assert (T : f_equal x y = true) by (apply C136_equal_actual; rewrite Rabs_minus_sym; auto). congruence.
Qed.
Lemma limit_pos : 0 < limit. Proof. unfold limit. lra. Qed.
Theorem C136_reflexive_partial {p e} (x : binary_float p e) : finite x -> Rabs (B2R x) <= 2 ^ 127 -> f_equal x x = true.
Proof.
  intros F B. assert (L : Rabs (to_float (B2R x)) < bpow radix2 128).
  { rewrite to_float_abs. assert (G : fmt (2 ^ 127)) by (replace (2 ^ 127) with (IZR 1 * bpow radix2 127) by (cbn; lra); apply fmt_dyadic; lia).
    apply to_float_le in B. rewrite (to_float_id _ G) in B. eapply Rle_lt_trans; [exact B|]. cbn. lra. }
  apply C136_equal_actual. repeat split; auto. rewrite Rminus_diag_eq, Rabs_R0 by auto. apply limit_pos.
Qed.
(** NaN equals nothing, and neither does an infinity or a number beyond the range of float. *)
Theorem C136_reflexive_refuted {p e} (x y : binary_float p e) : ~ finite x \/ 2 ^ 128 <= Rabs (B2R x) -> f_equal x y = false.
Proof.
  intros H. destruct (f_equal x y) eqn:E; auto. exfalso. apply C136_equal_actual in E as [A [_ [C _]]]. destruct H as [H|H]; [auto|].
  rewrite to_float_abs in C. assert (G : fmt (2 ^ 128)) by (replace (2 ^ 128) with (IZR 1 * bpow radix2 128) by (cbn; lra); apply fmt_dyadic; lia).
  apply to_float_le in H. rewrite (to_float_id _ G) in H. assert (bpow radix2 128 = 2 ^ 128) by (cbn; lra). lra.
Qed.
(** From 1 on floats are compared exactly. *)
Lemma fmt_grid x : fmt x -> 1 <= Rabs x -> exists n : Z, x = IZR n * / 2 ^ 23.
Proof.
  intros F L. unfold generic_format in F. set (ex := cexp radix2 (FLT_exp (-149) 24) x) in *. set (m := Ztrunc (scaled_mantissa radix2 (FLT_exp (-149) 24) x)) in *.
  assert (E : (-23 <= ex)%Z).
  { unfold ex, cexp, FLT_exp. assert (M : (1 <= mag radix2 x)%Z) by (apply mag_ge_bpow; cbn; exact L). lia. }
  exists (m * 2 ^ (ex + 23))%Z. rewrite F. unfold F2R. cbn [Fnum Fexp]. rewrite mult_IZR, Rmult_assoc. f_equal. rewrite (IZR_Zpower radix2) by lia. rewrite bpow_plus. change (bpow radix2 23) with (IZR (2 ^ 23)). cbn. field.
Qed.
Theorem C136_large_floats (x y : float) : finite x -> finite y -> 1 <= Rabs (B2R x) -> 1 <= Rabs (B2R y) -> (f_equal x y = true <-> B2R x = B2R y).
Proof.
  intros Fx Fy Lx Ly. rewrite C136_equal_float_actual. split; [|intros ->; repeat split; auto; rewrite Rminus_diag_eq, Rabs_R0 by auto; apply limit_pos].
  intros [_ [_ H]]. destruct (fmt_grid (B2R x) (generic_format_B2R 24 128 x) Lx) as [n En]. destruct (fmt_grid (B2R y) (generic_format_B2R 24 128 y) Ly) as [k Ek].
  rewrite En, Ek in *. replace (IZR n * / 2 ^ 23 - IZR k * / 2 ^ 23) with (IZR (n - k) * / 2 ^ 23) in H by (rewrite minus_IZR; ring).
  rewrite Rabs_mult, (Rabs_pos_eq (/ 2 ^ 23)) in H by lra. rewrite <- abs_IZR in H. assert (A : (Z.abs (n - k) < 1)%Z) by (apply lt_IZR; nra). do 2 f_equal. lia.
Qed.
(** Below a quarter of the epsilon all numbers are equal, whatever their signs and ratio. *)
Theorem C136_small_refuted {p e} (x y : binary_float p e) : finite x -> finite y -> Rabs (B2R x) <= / 2 ^ 25 -> Rabs (B2R y) <= / 2 ^ 25 -> f_equal x y = true.
Proof.
  intros Fx Fy Lx Ly. assert (G : fmt (/ 2 ^ 25)) by (replace (/ 2 ^ 25) with (IZR 1 * bpow radix2 (-25)) by (cbn; lra); apply fmt_dyadic; lia).
  apply to_float_le in Lx, Ly. rewrite (to_float_id _ G), <- to_float_abs in Lx, Ly. assert (/ 2 ^ 25 < bpow radix2 128) by (cbn; lra).
  apply C136_equal_actual. repeat split; auto; try lra. unfold limit. revert Lx Ly. unfold Rabs. repeat destruct Rcase_abs; lra.
Qed.
(** Not transitive. *)
Theorem C136_transitive_refuted : ~ (forall x y z : float, f_equal x y = true -> f_equal y z = true -> f_equal x z = true).
Proof.
  intros H. assert (E : f_equal (sratio 0 1) (sratio 3 33554432) = true) by (vm_compute; reflexivity). assert (E' : f_equal (sratio 3 33554432) (sratio 6 33554432) = true) by (vm_compute; reflexivity).
  specialize (H _ _ _ E E'). assert (N : f_equal (sratio 0 1) (sratio 6 33554432) = false) by (vm_compute; reflexivity). congruence.
Qed.
(** Doubles are compared as floats: numbers that differ by 1, or by 2^75, are equal. *)
Theorem C136_double_refuted : f_equal (dbl 16777216) (dbl 16777217) = true /\ f_equal (dbl (2 ^ 100)) (dbl (2 ^ 100 + 2 ^ 75)) = true /\ f_equal (dbl (2 ^ 130)) (dbl (2 ^ 130)) = false /\
  B2SF (dbl 16777216) <> B2SF (dbl 16777217) /\ B2SF (dbl (2 ^ 100)) <> B2SF (dbl (2 ^ 100 + 2 ^ 75)) /\ finite (dbl (2 ^ 130)).
Proof. repeat split; try (vm_compute; reflexivity); vm_compute; discriminate. Qed.
Example C136_ex : f_equal (sratio 3 2) (sratio 3 2) = true /\ f_equal (sratio 3 2) (sratio 12582913 8388608) = false /\ f_equal (dbl 1) (ratio 16777217 16777216) = true /\ f_equal (@B754_infinity 53 1024 false) (B754_infinity false) = false.
Proof. repeat split; vm_compute; reflexivity. Qed.
Print Assumptions C136_equal_actual.
Print Assumptions C136_equal_float_actual.
Print Assumptions C136_symmetric.
Print Assumptions C136_reflexive_partial.
Print Assumptions C136_reflexive_refuted.
Print Assumptions C136_large_floats.
Print Assumptions C136_small_refuted.
Print Assumptions C136_transitive_refuted.
Print Assumptions C136_double_refuted.
