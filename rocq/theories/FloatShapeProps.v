(** C144: geometric mean, flatness, entropy, loudness and silence detection in floating point. *)
From Coq Require Import ZArith Reals List Bool Lia Lra Psatz.
From Flocq Require Import Core BinarySingleNaN Relative.
From Verif Require Import Base FloatModel FloatSpec FloatProofs FloatProps FloatOrderProps FloatEnergyProps FloatWaveModel FloatWaveProps FloatNumModel FloatFeatModel FloatFeatProps FloatCentroidProps FloatCosineModel FloatCosineProps FloatDesignProps FloatDecibelProps FloatDiffModel FloatDiffProps FloatScaleModel FloatScaleProps FloatShapeModel.
Import ListNotations.
Local Open Scope R_scope.

(** The sum of [f x] over the samples, and the exact geometric mean. *)
Definition sum_of {p e} (f : R -> R) (l : list (binary_float p e)) : R := fold_right Rplus 0 (map (fun x => f (B2R x)) l).
Definition geometric {p e} (l : list (binary_float p e)) : R := exp (sum_of ln l / INR (length l)).
(** Library functions of relative error [e]: the logarithm of positive numbers, and the exponential wherever
    it is in the normal range. *)
Definition ln_within {p x} (e : R) (g : binary_float p x -> binary_float p x) : Prop :=
  forall v, finite v -> 0 < B2R v -> finite (g v) /\ Rabs (B2R (g v) - ln (B2R v)) <= e * Rabs (ln (B2R v)).
Definition exp_within {p x} (e : R) (g : binary_float p x -> binary_float p x) : Prop :=
  forall y, finite y -> bpow radix2 (2 - x) <= exp (B2R y) <= bpow radix2 (x - 1) -> finite (g y) /\ Rabs (B2R (g y) - exp (B2R y)) <= e * exp (B2R y).

Section Format.
Context (prec emax : Z) {Hprec : Prec_gt_0 prec} {Hmax : Prec_lt_emax prec emax}.
Notation fl := (binary_float prec emax).
Notation rnd := (round radix2 (FLT_exp (3 - emax - prec) prec) ZnearestE).
Notation val := (@B2R prec emax).
Notation add := (fadd prec emax).
Notation sub := (fsub prec emax).
Notation mul := (fmul prec emax).
Notation div := (fdiv prec emax).
Notation zero := (fzero prec emax).
Notation u := (roundoff prec).
Notation eta := (smallest prec emax).
Hypothesis Sizes : (24 <= prec <= 53)%Z /\ (128 <= emax <= 1024)%Z.

Lemma sum_of_abs (f : R -> R) (l : list fl) : 0 <= sum_of (fun x => Rabs (f x)) l /\ Rabs (sum_of f l) <= sum_of (fun x => Rabs (f x)) l.
Proof.
  unfold sum_of. induction l as [|x l [I1 I2]]; cbn [map fold_right]; [rewrite Rabs_R0; lra|]. pose proof (Rabs_pos (f (val x))). split; [lra|].
  eapply Rle_trans; [apply Rabs_triang|]. lra.
Qed.
(** Terms with relative error [e] and absolute error [t]. *)
Lemma terms_near (g : fl -> fl) (f : R -> R) e t l : 0 <= e -> 0 <= t -> (forall x, In x l -> Rabs (val (g x) - f (val x)) <= e * Rabs (f (val x)) + t) ->
  Rabs (total (map g l) - sum_of f l) <= e * sum_of (fun x => Rabs (f x)) l + INR (length l) * t /\ abs_total (map g l) <= (1 + e) * sum_of (fun x => Rabs (f x)) l + INR (length l) * t.
Proof.
  intros E T H. unfold total, abs_total, sum_of. induction l as [|x l IH]; [cbn; rewrite Rminus_0_r, Rabs_R0; lra|]. cbn [map fold_right]. change (length (x :: l)) with (Datatypes.S (length l)). rewrite S_INR.
  destruct IH as [I1 I2]; [intros; apply H; right; auto|]. pose proof (H x (or_introl eq_refl)) as Hx.
  match goal with |- Rabs (?a + ?b - (?c + ?d)) <= _ /\ _ => replace (a + b - (c + d)) with ((a - c) + (b - d)) by ring end. split.
  - eapply Rle_trans; [apply Rabs_triang|]. lra.
  - assert (Rabs (val (g x)) <= (1 + e) * Rabs (f (val x)) + t); [|lra]. replace (val (g x)) with ((val (g x) - f (val x)) + f (val x)) by ring. eapply Rle_trans; [apply Rabs_triang|]. lra.
Qed.
Lemma fold_map (g : fl -> fl) l : forall a, fold_left (fun p c => add p (g c)) l a = fold_left add (map g l) a.
Proof. induction l as [|x l IH]; intros a; [reflexivity|]. cbn [fold_left map]. apply IH. Qed.
Lemma gm_mean flog fexp l : f_geometric_mean prec emax flog fexp l = fexp (f_mean prec emax (map flog l)).
Proof. unfold f_geometric_mean, f_mean, f_sum. rewrite fold_map, map_length. reflexivity. Qed.
Lemma u_tiny : 0 < u <= / 16777216.
Proof.
  destruct Sizes as [S _]. split; [apply (roundoff_pos prec)|]. unfold roundoff. apply Rinv_le_contravar; [lra|]. apply IZR_le. change 16777216%Z with (2 ^ 24)%Z. apply Z.pow_le_mono_r; lia.
Qed.
Lemma eta_small : 0 < eta <= / 1000.
Proof.
  destruct Sizes as [S S']. rewrite (smallest_tiny prec emax). unfold tiny. split; [apply bpow_gt_0|]. apply Rle_trans with (bpow radix2 (-10)); [apply bpow_le; lia|cbn; lra].
Qed.
Lemma size_top (n : nat) : (Z.of_nat n <= 2 ^ prec)%Z -> INR n * 2048 < IZR (2 ^ emax).
Proof.
  intros L. destruct Sizes as [S S']. rewrite INR_IZR_INZ, <- mult_IZR. apply IZR_lt.
  apply Z.le_lt_trans with (2 ^ prec * 2 ^ 11)%Z; [change 2048%Z with (2 ^ 11)%Z; apply Z.mul_le_mono_nonneg_r; lia|]. rewrite <- Z.pow_add_r by lia. apply Z.pow_lt_mono_r; lia.
Qed.
Lemma div_pos_n (l : list fl) a b : l <> [] -> a <= b * INR (length l) -> a / INR (length l) <= b.
Proof.
  intros N H. assert (P : 0 < INR (length l)) by (apply lt_0_INR; destruct l; [contradiction|cbn; lia]). apply Rmult_le_reg_r with (INR (length l)); [exact P|].
  unfold Rdiv. rewrite Rmult_assoc, Rinv_l, Rmult_1_r by lra. exact H.
Qed.
Lemma n_pos (l : list fl) : l <> [] -> 0 < INR (length l).
Proof. intros N. apply lt_0_INR. destruct l; [contradiction|cbn; lia]. Qed.
Lemma sum_of_le f k (l : list fl) : (forall x, In x l -> f (val x) <= k) -> sum_of f l <= k * INR (length l).
Proof.
  unfold sum_of. induction l as [|x l IH]; intros H; [cbn; lra|]. cbn [map fold_right]. change (length (x :: l)) with (Datatypes.S (length l)). rewrite S_INR.
  specialize (IH ltac:(intros; apply H; right; auto)). pose proof (H x (or_introl eq_refl)). lra.
Qed.
Lemma sum_of_ge f k (l : list fl) : (forall x, In x l -> k <= f (val x)) -> k * INR (length l) <= sum_of f l.
Proof.
  unfold sum_of. induction l as [|x l IH]; intros H; [cbn; lra|]. cbn [map fold_right]. change (length (x :: l)) with (Datatypes.S (length l)). rewrite S_INR.
  specialize (IH ltac:(intros; apply H; right; auto)). pose proof (H x (or_introl eq_refl)). lra.
Qed.
(** The exact geometric mean lies between the smallest and the largest sample. *)
Lemma geometric_range (l : list fl) a b : l <> [] -> 0 < a -> (forall x, In x l -> a <= val x <= b) -> a <= geometric l <= b.
Proof.
  intros N A H. pose proof (n_pos l N) as P. assert (B : 0 < b) by (destruct l as [|x t]; [contradiction|]; destruct (H x (or_introl eq_refl)); lra).
  assert (LN : forall x y, 0 < x -> x <= y -> ln x <= ln y). { intros x y X [Y| ->]; [left; apply ln_increasing; auto|lra]. }
  unfold geometric. split.
  - rewrite <- (exp_ln a A) at 1. apply exp_le. apply Rmult_le_reg_r with (INR (length l)); [exact P|]. unfold Rdiv. rewrite Rmult_assoc, Rinv_l, Rmult_1_r by lra. apply sum_of_ge. intros x I. apply LN; [exact A|apply H; exact I].
  - rewrite <- (exp_ln b B). apply exp_le, div_pos_n; [exact N|]. apply sum_of_le. intros x I. destruct (H x I). apply LN; lra.
Qed.
Lemma ln_abs_range x : bpow radix2 (4 - emax) <= x <= bpow radix2 (emax - 4) -> Rabs (ln x) <= 1020.
Proof.
  intros H. apply ln_range in H. destruct Sizes as [_ S]. pose proof ln2_bounds as L. assert (E1 : IZR (4 - emax) >= -1020) by (apply Rle_ge, IZR_le; lia). assert (E2 : IZR (emax - 4) <= 1020) by (apply IZR_le; lia).
  assert (IZR (emax - 4) * ln 2 <= 1020 * 1) by (apply Rmult_le_compat; try lra; apply IZR_le; lia).
  assert (- IZR (4 - emax) * ln 2 <= 1020 * 1) by (apply Rmult_le_compat; try lra; rewrite <- opp_IZR; apply IZR_le; lia). apply Rabs_le. lra.
Qed.
Lemma exp1_lt4 d : 0 <= d <= 1 -> exp d <= 4.
Proof. intros D. apply Rle_trans with (exp 1); [apply exp_le; lra|]. pose proof exp_le_3. lra. Qed.
Lemma exp_near y y' d : Rabs (y' - y) <= d -> Rabs (exp y' - exp y) <= (exp d - 1) * exp y.
Proof.
  intros H. apply Rabs_le_inv in H. replace (exp y' - exp y) with ((exp (y' - y) - 1) * exp y) by (rewrite Rmult_minus_distr_r, <- exp_plus; replace (y' - y + y) with y' by ring; ring).
  rewrite Rabs_mult, (Rabs_pos_eq (exp y)) by (left; apply exp_pos). apply Rmult_le_compat_r; [left; apply exp_pos|]. assert (H1 : exp (y' - y) <= exp d) by (apply exp_le; lra). assert (H2 : exp (- d) <= exp (y' - y)) by (apply exp_le; lra).
  rewrite exp_Ropp in H2. set (t := exp d) in *. assert (T : 0 < t) by apply exp_pos. assert (H3 : 2 - t <= / t). { apply Rmult_le_reg_r with t; [exact T|]. rewrite Rinv_l by lra. pose proof (Rle_0_sqr (t - 1)) as SQ. unfold Rsqr in SQ. lra. }
  apply Rabs_le. lra.
Qed.

(** C144: the geometric mean.  The error in the exponent grows with the mean magnitude of the logarithms. *)
Theorem C144_geometric_mean flog fexp e l : l <> [] -> (Z.of_nat (length l) <= 2 ^ prec)%Z -> all_finite l ->
  (forall x, In x l -> bpow radix2 (4 - emax) <= val x <= bpow radix2 (emax - 4)) -> 0 <= e -> ln_within e flog -> exp_within e fexp ->
  let d := ((1 + u) ^ length l * (1 + e) - 1) * (sum_of (fun x => Rabs (ln x)) l / INR (length l)) + eta / 2 in d <= 1 ->
  let g := f_geometric_mean prec emax flog fexp l in finite g /\ Rabs (val g - geometric l) <= (exp d * (1 + e) - 1) * geometric l.
Proof.
  intros N L A R E Hl He d D g. unfold g. rewrite gm_mean. clear g. pose proof (n_pos l N) as P. pose proof u_tiny as U. pose proof eta_small as T. set (n := length l) in *. destruct Sizes as [S1 S2].
  assert (A' : forall x, In x l -> finite x) by (apply Forall_forall; exact A).
  assert (X0 : forall x, In x l -> 0 < val x) by (intros x I; eapply Rlt_le_trans; [apply bpow_gt_0|apply (R x I)]).
  assert (AF : all_finite (map flog l)). { apply Forall_forall. intros y I. apply in_map_iff in I. destruct I as [x [<- I]]. apply Hl; [|apply X0; exact I]. apply A', I. }
  destruct (terms_near flog ln e 0 l E ltac:(lra)) as [T1 T2]. { intros x I. rewrite Rplus_0_r. apply Hl; [|apply X0; exact I]. apply A', I. }
  rewrite Rmult_0_r, Rplus_0_r in T1, T2. set (M := sum_of (fun x => Rabs (ln x)) l) in *. destruct (sum_of_abs ln l) as [M0 _]. fold M in M0.
  assert (M1 : M <= 1020 * INR n). { apply (sum_of_le (fun x => Rabs (ln x))). intros x I. apply ln_abs_range, R, I. }
  pose proof (pow_ge_1 prec n) as K. set (k := (1 + u) ^ n) in *.
  assert (MN : 0 <= M / INR n) by (apply Rmult_le_pos; [lra|left; apply Rinv_0_lt_compat; lra]).
  assert (Fsum : finite (f_sum prec emax (map flog l))).
  { apply C115_sum_finite; [exact AF|]. rewrite map_length. fold n k. apply Rle_lt_trans with (INR n * 2048); [|apply size_top; exact L].
    apply Rle_trans with (k * ((1 + e) * M)); [apply Rmult_le_compat_l; lra|]. assert (Q : (k * (1 + e) - 1) * (M / INR n) <= 1) by (unfold d in D; lra).
    assert (Q2 : (k * (1 + e) - 1) * M <= 1 * INR n). { replace ((k * (1 + e) - 1) * M) with ((k * (1 + e) - 1) * (M / INR n) * INR n) by (field; lra). apply Rmult_le_compat_r; lra. } lra. }
  assert (Nm : (0 < length (map flog l))%nat) by (rewrite map_length; destruct l; [contradiction|cbn; lia]).
  assert (Fmean : finite (f_mean prec emax (map flog l))).
  { unfold f_mean. rewrite map_length. fold n. destruct (of_nat_exact prec emax n L) as [Fn Vn].
    destruct (sum_error prec emax _ Fsum) as [_ SE]. rewrite map_length in SE. fold n in SE. set (s := f_sum prec emax (map flog l)) in *.
    destruct (div_cases prec emax s (of_nat prec emax n) Fsum ltac:(rewrite Vn; lra)) as [[_ [_ [G _]]]|[O _]]; [exact G|exfalso]. rewrite Vn in O.
    assert (Q : Rabs (rnd (val s / INR n)) <= bpow radix2 (emax - 1)).
    { assert (VE : Valid_exp (FLT_exp (3 - emax - prec) prec)) by (apply FLT_exp_valid; exact Hprec). apply abs_round_le_generic; auto with typeclass_instances; [apply (fmt_bpow prec emax); lia|].
      assert (SB : Rabs (val s) < bpow radix2 emax) by (apply (val_bound prec emax)). unfold Rdiv. rewrite Rabs_mult, (Rabs_pos_eq (/ INR n)) by (left; apply Rinv_0_lt_compat; lra).
      destruct (Nat.eq_dec n 1) as [E1|E1].
      - rewrite E1. change (INR 1) with 1. rewrite Rinv_1, Rmult_1_r. unfold s in SE |- *. rewrite E1 in SE, M1. change (1 - 1)%nat with 0%nat in SE. cbn [pow] in SE. replace ((1 - 1) * abs_total (map flog l)) with 0 in SE by ring.
        assert (SV : Rabs (val (f_sum prec emax (map flog l))) <= (1 + e) * M). { eapply Rle_trans; [|exact T2]. assert (Z : val (f_sum prec emax (map flog l)) = total (map flog l)) by (apply Rminus_diag_uniq; destruct (Req_dec (val (f_sum prec emax (map flog l)) - total (map flog l)) 0) as [Z|Z]; [exact Z|apply Rabs_pos_lt in Z; lra]). rewrite Z. apply (total_abs prec emax). }
        assert (Q2 : (k * (1 + e) - 1) * (M / INR n) <= 1) by (unfold d in D; lra). rewrite E1 in Q2. change (INR 1) with 1 in Q2, M1. unfold Rdiv in Q2. rewrite Rinv_1, Rmult_1_r in Q2.
        assert (e * M <= (k * (1 + e) - 1) * M) by (apply Rmult_le_compat_r; nra). apply Rle_trans with (bpow radix2 11); [change (bpow radix2 11) with 2048; lra|apply bpow_le; lia].
      - assert (N2 : 2 <= INR n). { change 2 with (INR 2). apply le_INR. destruct l; [contradiction|]. unfold n in *. cbn [length] in *. lia. }
        assert (I2 : / INR n <= / 2) by (apply Rinv_le_contravar; lra). assert (BE : bpow radix2 emax = 2 * bpow radix2 (emax - 1)) by (replace emax with (1 + (emax - 1))%Z at 1 by lia; rewrite bpow_plus; reflexivity).
        apply Rle_trans with (bpow radix2 emax * / 2); [|lra]. apply Rmult_le_compat; try lra; [apply Rabs_pos|left; apply Rinv_0_lt_compat; lra]. }
    assert (bpow radix2 (emax - 1) < bpow radix2 emax) by (apply bpow_lt; lia). lra. }
  destruct (C115_mean_error prec emax (map flog l) Nm ltac:(rewrite map_length; exact L) Fmean) as [_ ME]. rewrite map_length in ME. fold n k in ME.
  set (m := f_mean prec emax (map flog l)) in *. set (Gm := sum_of ln l / INR n).
  assert (MD : Rabs (val m - Gm) <= d).
  { unfold Gm. replace (val m - sum_of ln l / INR n) with ((val m - total (map flog l) / INR n) + (total (map flog l) - sum_of ln l) / INR n) by (field; lra). eapply Rle_trans; [apply Rabs_triang|].
    assert (I : 0 < / INR n) by (apply Rinv_0_lt_compat; lra). unfold Rdiv at 2. rewrite Rabs_mult, (Rabs_pos_eq (/ INR n)) by lra.
    assert (B1 : Rabs (total (map flog l) - sum_of ln l) * / INR n <= e * M * / INR n) by (apply Rmult_le_compat_r; lra).
    assert (B2 : abs_total (map flog l) / INR n <= (1 + e) * M / INR n) by (unfold Rdiv; apply Rmult_le_compat_r; lra).
    assert (B3 : (k - 1) * (abs_total (map flog l) / INR n) <= (k - 1) * ((1 + e) * M / INR n)) by (apply Rmult_le_compat_l; lra).
    unfold d. replace ((k * (1 + e) - 1) * (M / INR n)) with ((k - 1) * ((1 + e) * M / INR n) + e * M * / INR n) by (unfold Rdiv; ring). lra. }
  assert (D0 : 0 <= d) by (eapply Rle_trans; [apply Rabs_pos|exact MD]).
  pose proof (exp_near _ _ _ MD) as EN. change (exp Gm) with (geometric l) in EN. pose proof (geometric_range l _ _ N (bpow_gt_0 radix2 (4 - emax)) R) as GR. set (G := geometric l) in *.
  assert (G0 : 0 < G) by apply exp_pos. pose proof (exp1_lt4 d (conj D0 D)) as E4.
  assert (EL : exp (val m) <= 4 * G). { apply Rabs_le_inv in EN. assert (exp d * G <= 4 * G) by (apply Rmult_le_compat_r; lra). lra. }
  assert (EG : G <= 4 * exp (val m)). { replace G with (exp (Gm - val m) * exp (val m)) by (rewrite <- exp_plus; unfold G, geometric; f_equal; fold n Gm; ring). apply Rmult_le_compat_r; [left; apply exp_pos|]. apply Rle_trans with (exp d); [|exact E4]. apply exp_le. apply Rabs_le_inv in MD. lra. }
  assert (B4 : forall z, bpow radix2 (2 + z) = 4 * bpow radix2 z) by (intros; rewrite bpow_plus; reflexivity).
  destruct (He m Fmean) as [Fg Eg].
  { pose proof (B4 (2 - emax)%Z) as Q1. pose proof (B4 (emax - 4)%Z) as Q2. replace (2 + (2 - emax))%Z with (4 - emax)%Z in Q1 by lia. split; [lra|]. apply Rle_trans with (bpow radix2 (2 + (emax - 4))); [lra|apply bpow_le; lia]. }
  split; [exact Fg|]. apply (rel_trans _ (exp (val m))); auto.
Qed.
Lemma pow_exp n : (1 + u) ^ n <= exp (INR n * u).
Proof.
  pose proof u_tiny as U. induction n as [|n IH]; [cbn; rewrite Rmult_0_l, exp_0; lra|]. replace (INR (Datatypes.S n) * u) with (u + INR n * u) by (rewrite S_INR; ring). rewrite exp_plus. cbn [pow].
  apply Rmult_le_compat; [lra|apply pow_le; lra| |exact IH]. pose proof (exp_ineq1_le u). lra.
Qed.
Lemma nu_le n : (Z.of_nat n <= 2 ^ prec)%Z -> INR n * u <= 1.
Proof.
  intros L. unfold roundoff. assert (P : 0 < IZR (2 ^ prec)) by (apply IZR_lt; destruct Sizes; apply Z.pow_pos_nonneg; lia). apply Rmult_le_reg_r with (IZR (2 ^ prec)); [exact P|]. rewrite Rmult_assoc, Rinv_l, Rmult_1_r, Rmult_1_l by lra.
  rewrite INR_IZR_INZ. apply IZR_le. exact L.
Qed.
Lemma pow_le_3 n : (Z.of_nat n <= 2 ^ prec)%Z -> (1 + u) ^ n <= 3.
Proof. intros L. eapply Rle_trans; [apply pow_exp|]. eapply Rle_trans; [apply exp_le, nu_le, L|]. exact exp_le_3. Qed.
Lemma add_ninf x : finite x -> add x (B754_infinity true) = B754_infinity true.
Proof. destruct x as [s|s| |s m e H]; intros F; try discriminate F; reflexivity. Qed.
Lemma ninf_add x : finite x \/ x = B754_infinity true -> add (B754_infinity true) x = B754_infinity true.
Proof. intros [F| ->]; [|reflexivity]. destruct x as [s|s| |s m e H]; try discriminate F; reflexivity. Qed.
Lemma ninf_sum (l : list fl) : (forall x, In x l -> finite x \/ x = B754_infinity true) -> fold_left add l (B754_infinity true) = B754_infinity true.
Proof. induction l as [|x l IH]; intros H; [reflexivity|]. cbn [fold_left]. rewrite (ninf_add x (H x (or_introl eq_refl))). apply IH. intros; apply H; right; auto. Qed.
Lemma nan_sum (l : list fl) : forall a, is_nan a = true \/ (exists x, In x l /\ is_nan x = true) -> is_nan (fold_left add l a) = true.
Proof.
  induction l as [|x l IH]; intros a [H|[y [I Y]]]; [exact H|destruct I| |].
  - cbn [fold_left]. apply IH. left. destruct a; try discriminate H. reflexivity.
  - cbn [fold_left]. apply IH. destruct I as [<-|I]; [left|right; exists y; auto]. destruct x; try discriminate Y. destruct a as [?|?| |]; reflexivity.
Qed.
Lemma nonneg_split (l : list fl) : (exists x, In x l /\ val x = 0) -> exists p x t, l = p ++ x :: t /\ val x = 0 /\ forall y, In y p -> val y <> 0.
Proof.
  induction l as [|x l IH]; intros [y [I Y]]; [destruct I|]. destruct (Req_dec (val x) 0) as [Z|Z]; [exists [], x, l; repeat split; auto; intros ? []|].
  destruct I as [<-|I]; [contradiction|]. destruct IH as [p [z [t [E [V H]]]]]; [exists y; auto|]. exists (x :: p), z, t. subst l. repeat split; auto. intros w [<-|J]; auto.
Qed.
Lemma fin_ge x : finite x -> 0 < val x -> bpow radix2 (3 - emax - prec) <= val x.
Proof.
  intros F V. pose proof (fmt_val prec emax x) as G. assert (VE : Valid_exp (FLT_exp (3 - emax - prec) prec)) by (apply FLT_exp_valid; exact Hprec).
  replace (bpow radix2 (3 - emax - prec)) with (ulp radix2 (FLT_exp (3 - emax - prec) prec) 0) by (apply ulp_FLT_0; exact Hprec). 
  apply (ulp_le_id radix2 (FLT_exp (3 - emax - prec) prec)) in G; [|exact V]. eapply Rle_trans; [|exact G]. apply ulp_ge_ulp_0; auto with typeclass_instances.
Qed.
Lemma ln_abs_all x : finite x -> 0 < val x -> Rabs (ln (val x)) <= 1080.
Proof.
  intros F V. pose proof (fin_ge x F V) as G. pose proof (val_bound prec emax x) as B. rewrite Rabs_pos_eq in B by lra. assert (H : bpow radix2 (3 - emax - prec) <= val x <= bpow radix2 emax) by lra. apply ln_range in H.
  destruct Sizes as [S S']. pose proof ln2_bounds as L. assert (IZR emax * ln 2 <= 1080 * 1) by (apply Rmult_le_compat; try lra; apply IZR_le; lia).
  assert (- IZR (3 - emax - prec) * ln 2 <= 1080 * 1) by (apply Rmult_le_compat; try lra; rewrite <- opp_IZR; apply IZR_le; lia). apply Rabs_le. lra.
Qed.
(** A frame with a zero has geometric mean zero, and one with a negative sample or a NaN has none. *)
Theorem C144_geometric_mean_zero flog fexp e l : (Z.of_nat (length l) <= 2 ^ (prec - 1))%Z -> all_finite l -> (forall x, In x l -> 0 <= val x) -> (exists x, In x l /\ val x = 0) ->
  0 <= e <= / 2 -> ln_within e flog -> (forall x, finite x -> val x = 0 -> flog x = B754_infinity true) -> finite (fexp (B754_infinity true)) -> val (fexp (B754_infinity true)) = 0 ->
  let g := f_geometric_mean prec emax flog fexp l in finite g /\ val g = 0.
Proof.
  intros L A N Z E Hl H0 F1 F2. cbv zeta. rewrite gm_mean. assert (A' : forall x, In x l -> finite x) by (apply Forall_forall; exact A). destruct Sizes as [S1 S2].
  assert (L' : (Z.of_nat (length l) <= 2 ^ prec)%Z) by (eapply Z.le_trans; [exact L|]; apply Z.pow_le_mono_r; lia).
  assert (SI : f_sum prec emax (map flog l) = B754_infinity true).
  { destruct (nonneg_split l Z) as [p [x [t [-> [V P]]]]]. unfold f_sum. rewrite map_app, fold_left_app. cbn [map fold_left]. rewrite (H0 x) by (auto; apply A'; apply in_or_app; right; left; reflexivity).
    assert (P' : forall y, In y p -> finite y /\ 0 < val y). { intros y I. assert (J : In y (p ++ x :: t)) by (apply in_or_app; auto). split; [apply A', J|]. specialize (N y J). specialize (P y I). lra. }
    change (fold_left add (map flog p) zero) with (f_sum prec emax (map flog p)). rewrite add_ninf.
    - apply ninf_sum. intros y I. apply in_map_iff in I. destruct I as [w [<- I]]. assert (J : In w (p ++ x :: t)) by (apply in_or_app; right; right; exact I). specialize (N w J). destruct (Req_dec (val w) 0) as [W|W]; [right; apply H0; auto|left; apply Hl; [apply A', J|lra]].
    - apply C115_sum_finite; [apply Forall_forall; intros y I; apply in_map_iff in I; destruct I as [w [<- I]]; apply Hl; apply P', I|]. rewrite map_length.
      assert (LP : (length p <= length (p ++ x :: t))%nat) by (rewrite app_length; lia).
      destruct (terms_near flog ln e 0 p ltac:(lra) ltac:(lra)) as [_ T2]; [intros w I; rewrite Rplus_0_r; apply Hl; apply P', I|]. rewrite Rmult_0_r, Rplus_0_r in T2.
      assert (M1 : sum_of (fun x => Rabs (ln x)) p <= 1080 * INR (length p)) by (apply (sum_of_le (fun x => Rabs (ln x))); intros w I; apply ln_abs_all; apply P', I).
      pose proof (proj1 (sum_of_abs ln p)) as M0. set (M := sum_of (fun x => Rabs (ln x)) p) in *. pose proof (pow_le_3 (length p) ltac:(lia)) as K3. pose proof (pow_ge_1 prec (length p)) as K1. set (k := (1 + u) ^ length p) in *.
      assert (Q : (1 + e) * M <= 3 / 2 * M) by (apply Rmult_le_compat_r; lra). assert (AT : 0 <= abs_total (map flog p)) by apply abs_total_pos.
      assert (Q2 : k * abs_total (map flog p) <= 3 * (3 / 2 * (1080 * INR (length p)))) by (apply Rmult_le_compat; lra).
      eapply Rle_lt_trans; [exact Q2|]. apply Rle_lt_trans with (INR (2 * (2 * length p)) * 2048 + 0); [rewrite !mult_INR; change (INR 2) with 2; pose proof (pos_INR (length p)); lra|]. rewrite Rplus_0_r.
      assert (W : INR (2 * length p) * 2048 < IZR (2 ^ (emax - 1))).
      { rewrite INR_IZR_INZ, <- mult_IZR. apply IZR_lt. apply Z.le_lt_trans with (2 ^ prec * 2 ^ 11)%Z; [|rewrite <- Z.pow_add_r by lia; apply Z.pow_lt_mono_r; lia]. change 2048%Z with (2 ^ 11)%Z. apply Z.mul_le_mono_nonneg_r; [lia|].
        assert (PP : (2 ^ prec = 2 * 2 ^ (prec - 1))%Z) by (rewrite <- Z.pow_succ_r by lia; f_equal; lia). lia. }
      replace (IZR (2 ^ emax)) with (2 * IZR (2 ^ (emax - 1))); [rewrite (mult_INR 2 (2 * length p)); change (INR 2) with 2; lra|]. rewrite <- mult_IZR. f_equal. rewrite <- Z.pow_succ_r by lia. f_equal. lia. }
  unfold f_mean. rewrite SI, map_length. destruct (of_nat_exact prec emax (length l) L') as [Fn Vn]. assert (P0 : 0 < INR (length l)) by (apply lt_0_INR; destruct Z as [x [I _]]; destruct l; [destruct I|cbn; lia]).
  assert (DI : div (B754_infinity true) (of_nat prec emax (length l)) = B754_infinity true).
  { destruct (of_nat prec emax (length l)) as [s|s| |s m ex H] eqn:Q; try discriminate Fn; [cbn in Vn; lra|]. cbn. destruct s; [|reflexivity]. exfalso. cbn in Vn. pose proof (F2R_lt_0 radix2 (Float radix2 (Zneg m) ex) ltac:(cbn; lia)) as NEG. cbn in NEG. unfold F2R in Vn, NEG. cbn in Vn, NEG. lra. }
  rewrite DI. auto.
Qed.
Theorem C144_geometric_mean_nan flog fexp l : (exists x, In x l /\ nan (flog x)) -> (forall x, nan x -> nan (fexp x)) -> nan (f_geometric_mean prec emax flog fexp l).
Proof.
  intros [x [I X]] H. rewrite gm_mean. apply H. unfold f_mean, f_sum. assert (Q : is_nan (fold_left add (map flog l) zero) = true).
  { apply nan_sum. right. exists (flog x). split; [apply in_map, I|]. destruct (flog x); try discriminate X. reflexivity. }
  unfold nan. destruct (fold_left add (map flog l) zero); try discriminate Q. reflexivity.
Qed.

(** Silence. *)
Theorem C144_silence l thr : l <> [] -> (Z.of_nat (length l) <= 2 ^ prec)%Z -> finite thr -> finite (f_power prec emax l) ->
  let p := squares prec emax l / INR (length l) in
  let slack := ((1 + u) ^ (length l + 2) - 1) * p + ((1 + u) ^ (length l + 1) + 1) * (eta / 2) in
  (p + slack < val thr -> f_silence prec emax l thr = true) /\ (val thr <= p - slack -> f_silence prec emax l thr = false).
Proof.
  intros N L Ft Fp p slack. unfold f_power in Fp. destruct (div_n prec emax _ l N L Fp) as [Fe De]. destruct (C119_energy_error prec emax l Fe) as [_ EE]. fold (f_power prec emax l) in De, Fp.
  pose proof (n_pos l N) as P. set (n := length l) in *. pose proof (pow_ge_1 prec n) as K1. pose proof (pow_ge_1 prec (Datatypes.S n)) as K2. pose proof eta_small as T. pose proof u_tiny as U.
  assert (PE : Rabs (val (f_power prec emax l) - p) <= slack).
  { assert (B0 : 0 <= (1 + u) ^ n * (eta / 2)) by (apply Rmult_le_pos; lra).
    assert (E' : Rabs (val (f_energy prec emax l) - squares prec emax l) <= ((1 + u) ^ Datatypes.S n - 1) * squares prec emax l + (1 + u) ^ n * (eta / 2) * INR n) by (eapply Rle_trans; [exact EE|]; apply Req_le; ring).
    assert (K2' : 0 <= (1 + u) ^ Datatypes.S n - 1) by lra. eapply Rle_trans; [apply (quotient_err prec emax _ _ _ _ _ _ P (squares_pos prec emax l) K2' B0 E' De)|].
    unfold slack, p. replace (n + 2)%nat with (Datatypes.S (Datatypes.S n)) by lia. replace (n + 1)%nat with (Datatypes.S n) by lia. cbn [pow]. apply Req_le. ring. }
  unfold f_silence, flt. rewrite Bltb_correct by assumption. apply Rabs_le_inv in PE. split; intros H; [apply Rlt_bool_true|apply Rlt_bool_false]; lra.
Qed.
Lemma power_nan l : (exists x, In x l /\ is_nan x = true) -> is_nan (f_power prec emax l) = true.
Proof.
  intros [x [I X]]. unfold f_power, f_energy. rewrite <- (energy_sum prec emax). assert (Q : is_nan (fold_left add (map (fun x => mul x x) l) zero) = true).
  { apply nan_sum. right. exists (mul x x). split; [apply (in_map (fun x => mul x x)), I|]. destruct x; try discriminate X. reflexivity. }
  destruct (fold_left add (map (fun x => mul x x) l) zero); try discriminate Q. reflexivity.
Qed.
(** A frame with a NaN or an overflowing power is never silent, and no frame is below a threshold of zero. *)
Theorem C144_never_silent l thr : l <> [] -> (Z.of_nat (length l) <= 2 ^ (emax - 1))%Z -> finite thr -> (exists x, In x l /\ nan x) \/ (all_finite l /\ (~ finite (f_power prec emax l) \/ val thr <= 0)) -> f_silence prec emax l thr = false.
Proof.
  intros N L Ft [[x [I X]]|[A H]]; unfold f_silence, flt.
  - assert (Q : is_nan (f_power prec emax l) = true) by (apply power_nan; exists x; split; auto; destruct x; try discriminate X; reflexivity). destruct (f_power prec emax l); try discriminate Q. reflexivity.
  - destruct (C119_no_nan prec emax l N A L) as [_ [_ [_ [PP _]]]]. apply (nn_le prec emax) in PP. destruct (nn_cases prec emax _ PP) as [E|[F V]].
    + rewrite E. destruct thr as [?|?| |]; try discriminate Ft; reflexivity.
    + destruct H as [H|H]; [contradiction|]. rewrite Bltb_correct by assumption. apply Rlt_bool_false. lra.
Qed.

(** Flatness. *)
Lemma bernoulli n : 1 - INR n * u <= (1 - u) ^ n.
Proof.
  pose proof u_tiny as U. induction n as [|n IH]; [cbn; lra|]. rewrite S_INR. cbn [pow]. pose proof (pos_INR n) as I. assert (Q : (1 - u) * (1 - INR n * u) <= (1 - u) * (1 - u) ^ n) by (apply Rmult_le_compat_l; lra). nra.
Qed.
Lemma half_pow n : (Z.of_nat n <= 2 ^ (prec - 1))%Z -> / 2 <= (1 - u) ^ n.
Proof.
  intros L. eapply Rle_trans; [|apply bernoulli]. assert (INR n * u <= / 2); [|lra].
  assert (PP : (2 ^ prec = 2 * 2 ^ (prec - 1))%Z) by (destruct Sizes; rewrite <- Z.pow_succ_r by lia; f_equal; lia). assert (H : (Z.of_nat (2 * n) <= 2 ^ prec)%Z) by lia. apply nu_le in H. rewrite mult_INR in H. change (INR 2) with 2 in H. lra.
Qed.
(** The mean of positive numbers has a relative error. *)
Lemma mean_rel l : l <> [] -> (Z.of_nat (length l) <= 2 ^ (prec - 1))%Z -> (forall x, In x l -> bpow radix2 (4 - emax) <= val x) -> finite (f_mean prec emax l) ->
  let A := total l / INR (length l) in 0 < A /\ (1 - u) ^ S (length l) * A <= val (f_mean prec emax l) <= (1 + u) ^ S (length l) * A.
Proof.
  intros N L R F A. pose proof (n_pos l N) as P. destruct Sizes as [S1 S2]. pose proof u_tiny as U. assert (L' : (Z.of_nat (length l) <= 2 ^ prec)%Z) by (eapply Z.le_trans; [exact L|]; apply Z.pow_le_mono_r; lia).
  assert (R0 : forall x, In x l -> 0 <= val x) by (intros x I; pose proof (bpow_gt_0 radix2 (4 - emax)); specialize (R x I); lra).
  unfold f_mean in *. destruct (of_nat_exact prec emax _ L') as [Fn Vn]. destruct (div_fin prec emax _ _ Fn F) as [Fs [_ V]]. pose proof (nonneg_sum prec emax l R0 Fs) as B.
  pose proof (half_pow (length l) L) as H2. rewrite V, Vn. set (n := length l) in *. set (s := val (f_sum prec emax l)) in *.
  assert (TB : bpow radix2 (4 - emax) * INR n <= total l). { change (total l) with (sum_of (fun x => x) l). apply sum_of_ge. exact R. }
  assert (I : 0 < / INR n) by (apply Rinv_0_lt_compat; exact P). pose proof (bpow_gt_0 radix2 (4 - emax)) as B4.
  assert (A4 : bpow radix2 (4 - emax) <= A) by (unfold A, Rdiv; apply Rmult_le_reg_r with (INR n); [exact P|]; rewrite Rmult_assoc, Rinv_l, Rmult_1_r by lra; exact TB).
  split; [lra|]. assert (Q1 : (1 - u) ^ n * A <= s / INR n <= (1 + u) ^ n * A). { unfold A, Rdiv. rewrite <- !Rmult_assoc. split; apply Rmult_le_compat_r; lra. }
  assert (QP : / 2 * A <= s / INR n). { eapply Rle_trans; [|apply Q1]. apply Rmult_le_compat_r; lra. }
  assert (NR : bpow radix2 (2 - emax) <= Rabs (s / INR n)).
  { rewrite Rabs_pos_eq by lra. assert (BE : bpow radix2 (4 - emax) = 4 * bpow radix2 (2 - emax)) by (replace (4 - emax)%Z with (2 + (2 - emax))%Z by lia; rewrite bpow_plus; reflexivity). pose proof (bpow_gt_0 radix2 (2 - emax)). lra. }
  pose proof (rnd_normal prec emax (s / INR n) NR) as E. rewrite (Rabs_pos_eq (s / INR n)) in E by lra. apply Rabs_le_inv in E. cbn [pow]. 
  assert ((1 - u) * ((1 - u) ^ n * A) <= (1 - u) * (s / INR n)) by (apply Rmult_le_compat_l; lra). assert ((1 + u) * (s / INR n) <= (1 + u) * ((1 + u) ^ n * A)) by (apply Rmult_le_compat_l; lra). lra.
Qed.
(** The geometric mean is at most the arithmetic mean. *)
Lemma am_gm (l : list fl) : l <> [] -> (forall x, In x l -> 0 < val x) -> geometric l <= total l / INR (length l).
Proof.
  intros N H. pose proof (n_pos l N) as P. set (A := total l / INR (length l)).
  assert (A0 : 0 < A). { unfold A. apply Rdiv_lt_0_compat; [|exact P]. destruct l as [|x t]; [contradiction|]. unfold total. cbn [map fold_right]. pose proof (H x (or_introl eq_refl)). assert (0 <= total t) by (apply (nonneg_total prec emax); intros y I; left; apply H; right; exact I). unfold total in *. lra. }
  unfold geometric. rewrite <- (exp_ln A A0). apply exp_le, div_pos_n; [exact N|].
  assert (G : forall t : list fl, (forall x, In x t -> 0 < val x) -> sum_of ln t <= total t / A - INR (length t) + ln A * INR (length t)).
  { clear -A0. induction t as [|x t IH]; intros H; [unfold sum_of, total; cbn; lra|]. unfold sum_of, total in *. cbn [map fold_right]. change (length (x :: t)) with (Datatypes.S (length t)). rewrite S_INR. specialize (IH ltac:(intros; apply H; right; auto)).
    assert (X : ln (val x) <= val x / A - 1 + ln A). { pose proof (H x (or_introl eq_refl)) as Hx. assert (VA : 0 < val x / A) by (apply Rmult_lt_0_compat; [exact Hx|apply Rinv_0_lt_compat; exact A0]). replace (val x) with (val x / A * A) at 1 by (field; lra). rewrite ln_mult by lra. pose proof (exp_ineq1_le (ln (val x / A))) as E. rewrite exp_ln in E by exact VA. lra. }
    unfold Rdiv in *. lra. }
  assert (TA : total l = A * INR (length l)) by (unfold A; field; lra). eapply Rle_trans; [apply G, H|]. rewrite TA. apply Req_le. field. lra.
Qed.
Theorem C144_flatness flog fexp e l : l <> [] -> (Z.of_nat (length l) <= 2 ^ (prec - 1))%Z -> all_finite l ->
  (forall x, In x l -> bpow radix2 (4 - emax) <= val x <= bpow radix2 (emax - 4)) -> 0 <= e -> ln_within e flog -> exp_within e fexp ->
  let d := ((1 + u) ^ length l * (1 + e) - 1) * (sum_of (fun x => Rabs (ln x)) l / INR (length l)) + eta / 2 in let t := exp d * (1 + e) in d <= 1 -> t <= 2 -> finite (f_mean prec emax l) ->
  let v := f_flatness prec emax flog fexp l in let w := geometric l / (total l / INR (length l)) in
  w <= 1 /\ finite v /\ (1 - u) * ((2 - t) * w / (1 + u) ^ S (length l)) - eta / 2 <= val v <= (1 + u) * (t * w / (1 - u) ^ S (length l)) + eta / 2.
Proof.
  intros N L A R E Hl He d t D T2 Fm v w. destruct Sizes as [S1 S2]. assert (L' : (Z.of_nat (length l) <= 2 ^ prec)%Z) by (eapply Z.le_trans; [exact L|]; apply Z.pow_le_mono_r; lia). pose proof u_tiny as U. pose proof eta_small as T.
  destruct (C144_geometric_mean flog fexp e l N L' A R E Hl He D) as [Fg Eg]. fold d t in Eg. destruct (mean_rel l N L (fun x I => proj1 (R x I)) Fm) as [A0 MB].
  assert (X0 : forall x, In x l -> 0 < val x) by (intros x I; eapply Rlt_le_trans; [apply bpow_gt_0|apply (R x I)]).
  pose proof (am_gm l N X0) as AG. set (Am := total l / INR (length l)) in *. assert (G0 : 0 < geometric l) by apply exp_pos. set (G := geometric l) in *.
  assert (W1 : w <= 1). { unfold w. apply Rmult_le_reg_r with Am; [lra|]. unfold Rdiv. rewrite Rmult_assoc, Rinv_l, Rmult_1_r by lra. lra. } split; [exact W1|].
  assert (IA : 0 < / Am) by (apply Rinv_0_lt_compat; lra). assert (W0 : 0 < w) by (unfold w, Rdiv; apply Rmult_lt_0_compat; lra).
  set (g := f_geometric_mean prec emax flog fexp l) in *. set (m := f_mean prec emax l) in *. apply Rabs_le_inv in Eg.
  assert (P1 : 0 < (1 - u) ^ S (length l)) by (apply pow_lt; lra). pose proof (pow_ge_1 prec (S (length l))) as P2. set (k1 := (1 - u) ^ S (length l)) in *. set (k2 := (1 + u) ^ S (length l)) in *.
  assert (M0 : 0 < val m) by (eapply Rlt_le_trans; [|apply MB]; apply Rmult_lt_0_compat; lra). assert (IM : 0 < / val m) by (apply Rinv_0_lt_compat; lra).
  assert (g0 : 0 <= val g) by (assert (0 <= (2 - t) * G) by (apply Rmult_le_pos; lra); lra).
  assert (IB : / (k2 * Am) <= / val m <= / (k1 * Am)). { split; apply Rinv_le_contravar; try lra; apply Rmult_lt_0_compat; lra. }
  assert (Q : (2 - t) * w / k2 <= val g / val m <= t * w / k1).
  { unfold w. replace ((2 - t) * (G / Am) / k2) with ((2 - t) * G * / (k2 * Am)) by (field; lra). replace (t * (G / Am) / k1) with (t * G * / (k1 * Am)) by (field; lra). unfold Rdiv. split; apply Rmult_le_compat; try lra.
    - apply Rmult_le_pos; lra.
    - left. apply Rinv_0_lt_compat, Rmult_lt_0_compat; lra. }
  assert (Q0 : 0 <= val g / val m) by (apply Rmult_le_pos; lra).
  assert (K1 : / 4 <= k1). { unfold k1. cbn [pow]. pose proof (half_pow (length l) L). assert ((1 - u) * / 2 <= (1 - u) * (1 - u) ^ length l) by (apply Rmult_le_compat_l; lra). lra. }
  assert (QB : Rabs (rnd (val g / val m)) <= bpow radix2 4).
  { assert (VE : Valid_exp (FLT_exp (3 - emax - prec) prec)) by (apply FLT_exp_valid; exact Hprec). apply abs_round_le_generic; auto with typeclass_instances; [apply (fmt_bpow prec emax); lia|]. rewrite Rabs_pos_eq by exact Q0.
    eapply Rle_trans; [apply Q|]. assert (I4 : / k1 <= 4) by (replace 4 with (/ / 4) by field; apply Rinv_le_contravar; lra). assert (0 < / k1) by (apply Rinv_0_lt_compat; lra). unfold Rdiv. assert (t * w <= 2 * 1) by (apply Rmult_le_compat; try lra; apply Rmult_le_pos; [left; apply exp_pos|lra]).
    change (bpow radix2 4) with 16. apply Rle_trans with (2 * 4); [apply Rmult_le_compat; try lra|lra]. apply Rmult_le_pos; [apply Rmult_le_pos; [left; apply exp_pos|lra]|lra]. }
  unfold v, f_flatness. fold g m. destruct (div_cases prec emax g m Fg ltac:(lra)) as [[_ [V [F _]]]|[O _]].
  - split; [exact F|]. rewrite V. apply (rounded_quotient prec emax); auto.
  - exfalso. assert (bpow radix2 4 < bpow radix2 emax) by (apply bpow_lt; lia). lra.
Qed.

(** Entropy. *)
Definition lg2 (x : R) : R := ln x / ln 2.
Definition lg2_within {p x} (e : R) (g : binary_float p x -> binary_float p x) : Prop :=
  forall v, finite v -> 0 < B2R v -> finite (g v) /\ Rabs (B2R (g v) - lg2 (B2R v)) <= e * Rabs (lg2 (B2R v)).
(** The exact normalised entropy of the samples, taken as probabilities. *)
Definition entropy_of (l : list fl) : R := - sum_of (fun x => x * lg2 x) l / lg2 (INR (length l)).
Lemma ln2_half : / 2 <= ln 2.
Proof.
  apply Rnot_lt_le. intros H. apply exp_increasing in H. rewrite exp_ln in H by lra. assert (Q : exp (/ 2) * exp (/ 2) = exp 1) by (rewrite <- exp_plus; f_equal; lra). pose proof exp_le_3. assert (2 * 2 < exp (/ 2) * exp (/ 2)) by (apply Rmult_gt_0_lt_compat; lra). lra.
Qed.
Lemma xlg_bounds x : 0 < x <= 1 -> x * lg2 x <= 0 /\ Rabs (x * lg2 x) <= 2.
Proof.
  intros X. pose proof ln2_half as L2. assert (I : 0 < / ln 2 <= 2). { split; [apply Rinv_0_lt_compat; lra|]. assert (Q1 : / ln 2 <= / / 2) by (apply Rinv_le_contravar; lra). assert (Q2 : / / 2 = 2) by field. lra. }
  assert (L1 : ln x <= 0) by (rewrite <- ln_1; destruct X as [X [H| ->]]; [left; apply ln_increasing; lra|lra]).
  assert (L0 : x * - ln x <= 1). { assert (Q : - ln x <= / x - 1). { rewrite <- ln_Rinv by lra. pose proof (exp_ineq1_le (ln (/ x))) as E. rewrite exp_ln in E by (apply Rinv_0_lt_compat; lra). lra. } apply Rle_trans with (x * (/ x - 1)); [apply Rmult_le_compat_l; lra|]. rewrite Rmult_minus_distr_l, Rinv_r by lra. lra. }
  assert (P : 0 <= x * - ln x) by (apply Rmult_le_pos; lra). unfold lg2, Rdiv. assert (Q : x * - ln x * / ln 2 <= 1 * 2) by (apply Rmult_le_compat; lra). assert (Q0 : 0 <= x * - ln x * / ln 2) by (apply Rmult_le_pos; lra).
  replace (x * (ln x * / ln 2)) with (- (x * - ln x * / ln 2)) by ring. split; [lra|]. rewrite Rabs_Ropp, Rabs_pos_eq; lra.
Qed.
Lemma lg2_int n : (2 <= n)%nat -> 1 <= lg2 (INR n).
Proof.
  intros H. apply le_INR in H. change (INR 2) with 2 in H. pose proof ln2_half. unfold lg2. apply Rmult_le_reg_r with (ln 2); [lra|]. unfold Rdiv. rewrite Rmult_assoc, Rinv_l, Rmult_1_r, Rmult_1_l by lra. destruct H as [H|<-]; [left; apply ln_increasing; lra|lra].
Qed.
Lemma entropy_sum flog2 l : f_entropy prec emax flog2 l = div (Bopp (f_sum prec emax (map (fun x => mul (flog2 x) x) l))) (flog2 (of_nat prec emax (length l))).
Proof. unfold f_entropy, f_sum. rewrite (fold_map (fun x => mul (flog2 x) x)). reflexivity. Qed.
Theorem C144_entropy flog2 e l : (2 <= length l)%nat -> (Z.of_nat (length l) <= 2 ^ prec)%Z -> all_finite l -> (forall x, In x l -> 0 < val x <= 1) -> 0 <= e <= / 4 -> lg2_within e flog2 ->
  let v := f_entropy prec emax flog2 l in let h := entropy_of l in let n := length l in
  finite v /\ 0 <= h /\ Rabs (val v - h) <= ((1 + u) ^ (n + 2) * ((1 + e) / (1 - e)) - 1) * h + INR n * (1 + u) ^ (n + 1) / (1 - e) * (eta / 2) + eta / 2.
Proof.
  intros N2 L A R E Hl v h n. pose proof u_tiny as U. pose proof eta_small as T. destruct Sizes as [S1 S2]. assert (N : l <> []) by (destruct l; [cbn in N2; lia|discriminate]). pose proof (n_pos l N) as P. fold n in P.
  assert (A' : forall x, In x l -> finite x) by (apply Forall_forall; exact A). set (f := fun x => x * lg2 x). set (g := fun x => mul (flog2 x) x).
  assert (TM : forall x, In x l -> finite (g x) /\ Rabs (val (g x) - f (val x)) <= ((1 + u) * (1 + e) - 1) * Rabs (f (val x)) + eta / 2).
  { intros x I. destruct (Hl x (A' x I) ltac:(apply R, I)) as [Fl El]. destruct (xlg_bounds (val x) (R x I)) as [_ XB]. fold (f (val x)) in XB. set (p := val (flog2 x) * val x).
    assert (EP : Rabs (p - f (val x)) <= e * Rabs (f (val x))). { unfold p, f. replace (val (flog2 x) * val x - val x * lg2 (val x)) with ((val (flog2 x) - lg2 (val x)) * val x) by ring. rewrite !Rabs_mult. replace (e * (Rabs (val x) * Rabs (lg2 (val x)))) with (e * Rabs (lg2 (val x)) * Rabs (val x)) by ring. apply Rmult_le_compat_r; [apply Rabs_pos|exact El]. }
    assert (PB : Rabs p <= (1 + e) * Rabs (f (val x))) by (replace p with ((p - f (val x)) + f (val x)) by ring; eapply Rle_trans; [apply Rabs_triang|]; lra).
    assert (PB2 : Rabs p <= 4). { eapply Rle_trans; [exact PB|]. apply Rle_trans with (2 * 2); [apply Rmult_le_compat; try lra; apply Rabs_pos|lra]. }
    assert (RB : Rabs (rnd p) <= bpow radix2 2). { assert (VE : Valid_exp (FLT_exp (3 - emax - prec) prec)) by (apply FLT_exp_valid; exact Hprec). assert (FB : generic_format radix2 (FLT_exp (3 - emax - prec) prec) (bpow radix2 2)) by (apply (fmt_bpow prec emax); lia). change 4 with (bpow radix2 2) in PB2. apply abs_round_le_generic; auto with typeclass_instances. }
    assert (B2 : bpow radix2 2 < bpow radix2 emax) by (apply bpow_lt; lia). unfold g.
    destruct (mul_cases prec emax (flog2 x) x Fl (A' x I)) as [[_ [V F]]|[O _]]; [|exfalso; fold p in O; lra]. split; [exact F|]. rewrite V. fold p. pose proof (rnd_err prec emax p) as D. rewrite <- (roundoff_u prec), <- (smallest_tiny prec emax) in D.
    replace (rnd p - f (val x)) with ((rnd p - p) + (p - f (val x))) by ring. eapply Rle_trans; [apply Rabs_triang|]. assert (u * Rabs p <= u * ((1 + e) * Rabs (f (val x)))) by (apply Rmult_le_compat_l; lra). lra. }
  destruct (terms_near g f ((1 + u) * (1 + e) - 1) (eta / 2) l ltac:(nra) ltac:(lra) (fun x I => proj2 (TM x I))) as [T1 T2]. fold n in T1, T2.
  assert (AF : all_finite (map g l)) by (apply Forall_forall; intros y I; apply in_map_iff in I; destruct I as [x [<- I]]; apply (TM x I)).
  set (F := sum_of (fun x => Rabs (f x)) l) in *. destruct (sum_of_abs f l) as [F0 _]. fold F in F0.
  assert (F2 : F <= 2 * INR n) by (apply (sum_of_le (fun x => Rabs (f x))); intros x I; apply (xlg_bounds (val x) (R x I))).
  assert (FS : sum_of f l = - F). { unfold F, sum_of. clear -R. induction l as [|x t IH]; [cbn; ring|]. cbn [map fold_right]. rewrite IH by (intros; apply R; right; auto). destruct (xlg_bounds (val x) (R x (or_introl eq_refl))) as [B _]. fold (f (val x)) in B. rewrite (Rabs_left1 (f (val x))) by exact B. ring. }
  pose proof (pow_le_3 n L) as K3. pose proof (pow_ge_1 prec n) as K1. pose proof (abs_total_pos prec emax (map g l)) as AT0. set (c := (1 + u) * (1 + e)) in *. assert (C1 : 1 <= c <= 2) by (unfold c; nra).
  assert (AT : abs_total (map g l) <= c * F + INR n * (eta / 2)) by (eapply Rle_trans; [exact T2|]; apply Req_le; ring).
  assert (CF : c * F <= 2 * (2 * INR n)) by (apply Rmult_le_compat; lra). assert (NE : INR n * (eta / 2) <= INR n * 1) by (apply Rmult_le_compat_l; lra).
  assert (Fs : finite (f_sum prec emax (map g l))).
  { apply C115_sum_finite; [exact AF|]. rewrite map_length. fold n. eapply Rle_lt_trans; [|apply (size_top n L)]. apply Rle_trans with (3 * (5 * INR n)); [apply Rmult_le_compat; try lra|lra]. }
  destruct (C115_sum_error prec emax _ Fs) as [_ SE]. rewrite map_length in SE. fold n in SE. set (s := f_sum prec emax (map g l)) in *. set (k := (1 + u) ^ n) in *.
  assert (KM : (1 + u) ^ (n - 1) <= k) by (apply Rle_pow; [lra|lia]).
  assert (SF : Rabs (- val s - F) <= (k * c - 1) * F + k * (INR n * (eta / 2))).
  { replace (- val s - F) with (- ((val s - total (map g l)) + (total (map g l) - sum_of f l))) by (rewrite FS; ring). rewrite Rabs_Ropp. eapply Rle_trans; [apply Rabs_triang|].
    assert (((1 + u) ^ (n - 1) - 1) * abs_total (map g l) <= (k - 1) * (c * F + INR n * (eta / 2))) by (apply Rmult_le_compat; try lra; pose proof (pow_ge_1 prec (n - 1)); lra). lra. }
  destruct (of_nat_exact prec emax n L) as [Fn Vn]. pose proof (lg2_int n N2) as L1. set (Lg := lg2 (INR n)) in *.
  destruct (Hl _ Fn ltac:(rewrite Vn; exact P)) as [FL EL]. rewrite Vn in EL. fold Lg in EL. rewrite (Rabs_pos_eq Lg) in EL by lra. set (L' := flog2 (of_nat prec emax n)) in *. apply Rabs_le_inv in EL.
  assert (HH : h = F / Lg) by (unfold h, entropy_of; fold n Lg f; rewrite FS; field; lra). assert (IL : 0 < / Lg) by (apply Rinv_0_lt_compat; lra). assert (H0 : 0 <= h) by (rewrite HH; apply Rmult_le_pos; lra).
  assert (eL : e * Lg <= / 4 * Lg) by (apply Rmult_le_compat_r; lra). assert (L'0 : (1 - e) * Lg <= val L') by lra. assert (L'1 : 3 / 4 <= val L') by lra. set (q := - val s / val L').
  set (b := k * (INR n * (eta / 2))) in *. assert (b0 : 0 <= b) by (apply Rmult_le_pos; [lra|apply Rmult_le_pos; lra]).
  assert (QE : Rabs (q - h) <= (k * c / (1 - e) - 1) * h + b / (1 - e)).
  { assert (DL : Rabs (Lg - val L') <= e * Lg) by (apply Rabs_le; lra).
    replace (q - h) with (((- val s - F) + h * (Lg - val L')) / val L') by (unfold q; rewrite HH; field; lra). unfold Rdiv at 1. rewrite Rabs_mult, (Rabs_pos_eq (/ val L')) by (left; apply Rinv_0_lt_compat; lra).
    assert (TT : Rabs (- val s - F + h * (Lg - val L')) <= (k * c - 1) * F + b + e * F).
    { eapply Rle_trans; [apply Rabs_triang|]. rewrite Rabs_mult, (Rabs_pos_eq h) by lra. assert (h * Rabs (Lg - val L') <= h * (e * Lg)) by (apply Rmult_le_compat_l; lra). replace (h * (e * Lg)) with (e * F) in H by (rewrite HH; field; lra). lra. }
    assert (T0 : 0 <= (k * c - 1) * F + b + e * F) by (eapply Rle_trans; [apply Rabs_pos|exact TT]).
    apply Rle_trans with (((k * c - 1) * F + b + e * F) * / ((1 - e) * Lg)).
    - apply Rmult_le_compat; [apply Rabs_pos|left; apply Rinv_0_lt_compat; lra|exact TT|]. apply Rinv_le_contravar; [apply Rmult_lt_0_compat; lra|exact L'0].
    - replace (((k * c - 1) * F + b + e * F) * / ((1 - e) * Lg)) with ((k * c / (1 - e) - 1) * (F / Lg) + b / (1 - e) * / Lg) by (field; lra). rewrite <- HH. apply Rplus_le_compat_l. rewrite <- (Rmult_1_r (b / (1 - e))) at 2. apply Rmult_le_compat_l; [apply Rmult_le_pos; [lra|left; apply Rinv_0_lt_compat; lra]|]. rewrite <- Rinv_1. apply Rinv_le_contravar; lra. }
  assert (QB : Rabs q <= 64 * INR n).
  { unfold q, Rdiv. rewrite Rabs_mult, Rabs_Ropp, (Rabs_pos_eq (/ val L')) by (left; apply Rinv_0_lt_compat; lra). assert (SB : Rabs (val s) <= 15 * INR n).
    { replace (val s) with ((val s - total (map g l)) + total (map g l)) by ring. eapply Rle_trans; [apply Rabs_triang|]. pose proof (total_abs prec emax (map g l)). assert (((1 + u) ^ (n - 1) - 1) * abs_total (map g l) <= (3 - 1) * (5 * INR n)) by (apply Rmult_le_compat; try lra; pose proof (pow_ge_1 prec (n - 1)); lra). lra. }
    assert (/ val L' <= 2) by (replace 2 with (/ / 2) by field; apply Rinv_le_contravar; lra). apply Rle_trans with (15 * INR n * 2); [apply Rmult_le_compat; try lra; [apply Rabs_pos|left; apply Rinv_0_lt_compat; lra]|lra]. }
  assert (RB : Rabs (rnd q) <= bpow radix2 (prec + 6)).
  { assert (VE : Valid_exp (FLT_exp (3 - emax - prec) prec)) by (apply FLT_exp_valid; exact Hprec). apply abs_round_le_generic; auto with typeclass_instances; [apply (fmt_bpow prec emax); lia|]. eapply Rle_trans; [exact QB|]. rewrite bpow_plus, Rmult_comm. apply Rmult_le_compat; try lra; [|change (bpow radix2 6) with 64; lra].
    rewrite INR_IZR_INZ, <- IZR_Zpower by lia. apply IZR_le. exact L. }
  assert (BB : bpow radix2 (prec + 6) < bpow radix2 emax) by (apply bpow_lt; lia).
  unfold v. rewrite entropy_sum. fold g s n L'. assert (Fo : finite (Bopp s)) by (unfold finite; rewrite is_finite_Bopp; exact Fs).
  destruct (div_cases prec emax (Bopp s) L' Fo ltac:(lra)) as [[_ [V [G _]]]|[O _]]; [rewrite B2R_Bopp in V; change (- val s / val L') with q in V|exfalso; rewrite B2R_Bopp in O; change (- val s / val L') with q in O; lra].
  split; [exact G|]. split; [exact H0|]. rewrite V. pose proof (rnd_err prec emax q) as D. rewrite <- (roundoff_u prec), <- (smallest_tiny prec emax) in D.
  assert (QA : Rabs q <= h + Rabs (q - h)). { replace q with (h + (q - h)) at 1 by ring. eapply Rle_trans; [apply Rabs_triang|]. rewrite (Rabs_pos_eq h) by lra. lra. }
  replace (rnd q - h) with ((rnd q - q) + (q - h)) by ring. eapply Rle_trans; [apply Rabs_triang|].
  assert (UQ : u * Rabs q <= u * (h + Rabs (q - h))) by (apply Rmult_le_compat_l; lra). assert (UU : (1 + u) * Rabs (q - h) <= (1 + u) * ((k * c / (1 - e) - 1) * h + b / (1 - e))) by (apply Rmult_le_compat_l; lra).
  apply Rle_trans with (u * h + (1 + u) * ((k * c / (1 - e) - 1) * h + b / (1 - e)) + eta / 2); [lra|]. apply Req_le. unfold b, c. replace ((1 + u) ^ (n + 2)) with (k * (1 + u) * (1 + u)) by (unfold k; rewrite pow_add; cbn [pow]; ring). replace ((1 + u) ^ (n + 1)) with (k * (1 + u)) by (unfold k; rewrite pow_add; cbn [pow]; ring). field. lra.
Qed.
(** A single zero in the frame makes the entropy NaN; so does a frame of one certain outcome. *)
Theorem C144_entropy_zero_actual flog2 l x : In x l -> finite x -> val x = 0 -> (forall z, finite z -> val z = 0 -> flog2 z = B754_infinity true) -> nan (f_entropy prec emax flog2 l).
Proof.
  intros I F V H. rewrite entropy_sum. assert (Q : is_nan (f_sum prec emax (map (fun x => mul (flog2 x) x) l)) = true).
  { apply nan_sum. right. exists (mul (flog2 x) x). split; [apply (in_map (fun x => mul (flog2 x) x)), I|]. rewrite (H x F V). destruct x as [s|s| |s m e B]; try discriminate F; [reflexivity|]. exfalso. destruct s; cbn in V; [pose proof (F2R_lt_0 radix2 (Float radix2 (Zneg m) e) ltac:(cbn; lia)) as NZ|pose proof (F2R_gt_0 radix2 (Float radix2 (Zpos m) e) ltac:(cbn; lia)) as NZ]; lra. }
  destruct (f_sum prec emax (map (fun x => mul (flog2 x) x) l)); try discriminate Q. reflexivity.
Qed.
Theorem C144_entropy_single_actual flog2 x : (exists s, flog2 (of_nat prec emax 1) = B754_zero s) -> ~ finite (f_entropy prec emax flog2 [x]).
Proof.
  intros [s Z] F. rewrite entropy_sum in F. change (length [x]) with 1%nat in F. rewrite Z in F. destruct (Bopp (f_sum prec emax (map (fun x => mul (flog2 x) x) [x]))) as [?|?| |]; discriminate F.
Qed.

(** Loudness: the power 0.67 of the energy. *)
Definition power_within (e : R) (g : double -> double -> double) : Prop :=
  forall b y, finite b -> 0 < B2R b -> finite y -> bpow radix2 (-1000) <= Rpower (B2R b) (B2R y) <= bpow radix2 1000 -> finite (g b y) /\ Rabs (B2R (g b y) - Rpower (B2R b) (B2R y)) <= e * Rpower (B2R b) (B2R y).
Theorem C144_loudness dpow e l : finite (f_energy prec emax l) -> 0 < val (f_energy prec emax l) -> 0 <= e -> power_within e dpow ->
  let v := f_loudness prec emax dpow l in let t := exp (1080 * roundoff 53) * (1 + e) in
  let s := squares prec emax l in let slack := ((1 + u) ^ S (length l) - 1) * s + INR (length l) * (1 + u) ^ length l * (eta / 2) in
  finite v /\ B2R v <= t * Rpower (s + slack) (67 / 100) /\ (0 < s - slack -> t <= 2 -> (2 - t) * Rpower (s - slack) (67 / 100) <= B2R v).
Proof.
  intros F P E Hp v t s slack. destruct (C119_energy_error prec emax l F) as [_ EE]. fold s slack in EE. set (b := f_energy prec emax l) in *. destruct (widen_val prec emax Sizes b F) as [Fw Vw]. destruct (dlit_ok 67 100 ltac:(lia) ltac:(lia)) as [Fy [Ey _]]. change (67%Z) with 67%Z in Ey.
  set (y := dlit 67 100) in *. set (w := roundoff 53) in *. assert (W : 0 < w <= / 16777216). { unfold w, roundoff. change (2 ^ 53)%Z with 9007199254740992%Z. lra. }
  assert (YB : 66 / 100 <= B2R y <= 68 / 100) by (apply Rabs_le_inv in Ey; lra).
  assert (LR : - 1077 * ln 2 <= ln (val b) <= 1077 * ln 2).
  { pose proof (fin_ge b F P) as G. pose proof (val_bound prec emax b) as B. rewrite Rabs_pos_eq in B by lra. assert (H : bpow radix2 (3 - emax - prec) <= val b <= bpow radix2 emax) by lra. apply ln_range in H. destruct Sizes as [S1 S2]. pose proof ln2_bounds as L.
    assert (IZR emax * ln 2 <= 1077 * ln 2) by (apply Rmult_le_compat_r; [lra|apply IZR_le; lia]). assert (-1077 * ln 2 <= IZR (3 - emax - prec) * ln 2) by (apply Rmult_le_compat_r; [lra|apply IZR_le; lia]). lra. }
  pose proof ln2_bounds as L2. assert (YL : - 1000 * ln 2 <= B2R y * ln (val b) <= 1000 * ln 2).
  { assert (Rabs (B2R y * ln (val b)) <= 68 / 100 * (1077 * ln 2)) by (rewrite Rabs_mult; apply Rmult_le_compat; try apply Rabs_pos; [rewrite Rabs_pos_eq; lra|apply Rabs_le; lra]). apply Rabs_le_inv in H. lra. }
  destruct (Hp (fconv 53 1024 b) y Fw ltac:(rewrite Vw; exact P) Fy) as [Fv Ev].
  { rewrite Vw. unfold Rpower. split.
    - rewrite <- (exp_ln (bpow radix2 (-1000))) by apply bpow_gt_0. apply exp_le. rewrite ln_bpow. lra.
    - rewrite <- (exp_ln (bpow radix2 1000)) by apply bpow_gt_0. apply exp_le. rewrite ln_bpow. lra. }
  rewrite Vw in Ev. split; [exact Fv|]. change (dpow (fconv 53 1024 b) y) with v in Ev.
  assert (RD : Rabs (Rpower (val b) (B2R y) - Rpower (val b) (67 / 100)) <= (exp (1080 * w) - 1) * Rpower (val b) (67 / 100)).
  { unfold Rpower. apply exp_near. replace (B2R y * ln (val b) - 67 / 100 * ln (val b)) with ((B2R y - 67 / 100) * ln (val b)) by ring. rewrite Rabs_mult. apply Rle_trans with (w * (67 / 100) * (1077 * ln 2)); [apply Rmult_le_compat; try apply Rabs_pos; [exact Ey|apply Rabs_le; lra]|].
    assert (w * (67 / 100) * (1077 * ln 2) <= w * (67 / 100) * 1077) by (apply Rmult_le_compat_l; [apply Rmult_le_pos|]; lra). lra. }
  assert (RP : 0 < Rpower (val b) (67 / 100)) by apply exp_pos. pose proof (rel_trans _ _ _ e _ E RP Ev RD) as VE. fold t in VE. apply Rabs_le_inv in VE. apply Rabs_le_inv in EE.
  assert (T0 : 0 <= t) by (apply Rmult_le_pos; [left; apply exp_pos|lra]). split.
  - apply Rle_trans with (t * Rpower (val b) (67 / 100)); [lra|]. apply Rmult_le_compat_l; [exact T0|]. apply Rle_Rpower_l; lra.
  - intros S0 T2. apply Rle_trans with ((2 - t) * Rpower (val b) (67 / 100)); [|lra]. apply Rmult_le_compat_l; [lra|]. apply Rle_Rpower_l; lra.
Qed.

(** Spread. *)
Fixpoint second (c : R) (k : nat) (l : list fl) : R := match l with [] => 0 | x :: t => (INR k - c) ^ 2 * val x + second c (S k) t end.
Fixpoint first (k : nat) (l : list fl) : R := match l with [] => 0 | x :: t => INR k * val x + first (S k) t end.
Fixpoint sterms (c : fl) (l : list fl) (i : fl) : list fl := match l with [] => [] | x :: t => mul (mul (sub i c) (sub i c)) x :: sterms c t (add i (of_Z prec emax 1)) end.
Lemma spread_terms c l : forall i w s, fspread_loop prec emax c l i w s = (fold_left add (sterms c l i) w, fold_left add l s).
Proof. induction l as [|x l IH]; intros i w s; [reflexivity|]. cbn [fspread_loop sterms fold_left]. apply IH. Qed.
Lemma second_pos c l : (forall x, In x l -> 0 <= val x) -> forall k, 0 <= second c k l.
Proof.
  induction l as [|x l IH]; intros H k; [cbn; lra|]. cbn [second]. specialize (IH ltac:(intros; apply H; right; auto) (S k)). pose proof (H x (or_introl eq_refl)). pose proof (pow2_ge_0 (INR k - c)). nra.
Qed.
(** Moving the centre adds the square of the displacement. *)
Lemma second_shift a c l : forall k, second c k l = second a k l + 2 * (a - c) * (first k l - a * total l) + (a - c) ^ 2 * total l.
Proof. induction l as [|x l IH]; intros k; [unfold total; cbn; ring|]. cbn [second first]. rewrite IH. unfold total. cbn [map fold_right]. ring. Qed.
Lemma one_term i c x k : finite i -> val i = INR k -> finite (mul (mul (sub i c) (sub i c)) x) -> 0 <= val x ->
  let e := INR k - val c in let z := ((1 + u) * val x + 1) * (eta / 2) in 0 <= val (mul (mul (sub i c) (sub i c)) x) /\
  (1 - u) ^ 4 * (e ^ 2 * val x) - z <= val (mul (mul (sub i c) (sub i c)) x) <= (1 + u) ^ 4 * (e ^ 2 * val x) + z.
Proof.
  intros Fi Vi F X e z. pose proof u_tiny as U. pose proof eta_small as T. destruct (mul_fin prec emax _ _ F) as [Fq [_ V]]. destruct (mul_fin prec emax _ _ Fq) as [Fd [_ Vq]]. destruct (sub_fin prec emax _ _ Fd) as [_ [Fc Vd]].
  pose proof (add_err prec emax (val i) (- val c) (fmt_val prec emax i)) as ED. assert (FO : generic_format radix2 (FLT_exp (3 - emax - prec) prec) (- val c)) by (apply generic_format_opp, (fmt_val prec emax)). specialize (ED FO). rewrite <- (roundoff_u prec) in ED.
  change (val i + - val c) with (val i - val c) in ED. rewrite <- Vd, Vi in ED. fold e in ED. set (d := val (sub i c)) in *.
  pose proof (rnd_err prec emax (d * d)) as EQ. rewrite <- (roundoff_u prec), <- (smallest_tiny prec emax), <- Vq in EQ. set (q := val (mul (sub i c) (sub i c))) in *. assert (D0 : 0 <= d * d) by nra. rewrite (Rabs_pos_eq (d * d)) in EQ by exact D0.
  pose proof (rnd_err prec emax (q * val x)) as ET. rewrite <- (roundoff_u prec), <- (smallest_tiny prec emax), <- V in ET. set (r := val (mul (mul (sub i c) (sub i c)) x)) in *.
  assert (Q0 : 0 <= q) by (rewrite Vq; apply (rnd_pos prec emax); exact D0). assert (QX : 0 <= q * val x) by (apply Rmult_le_pos; lra). rewrite (Rabs_pos_eq (q * val x)) in ET by exact QX. apply Rabs_le_inv in EQ, ET.
  assert (R0 : 0 <= r) by (rewrite V; apply (rnd_pos prec emax); exact QX). split; [exact R0|].
  assert (DB : (1 - u) ^ 2 * e ^ 2 <= d * d <= (1 + u) ^ 2 * e ^ 2).
  { assert (E2 : e ^ 2 = Rabs e * Rabs e) by (rewrite <- Rabs_mult; rewrite Rabs_pos_eq; [ring|nra]). assert (D2 : d * d = Rabs d * Rabs d) by (rewrite <- Rabs_mult; rewrite Rabs_pos_eq; [ring|nra]). rewrite E2, D2. pose proof (Rabs_pos e) as A0. pose proof (Rabs_pos d) as A1.
    assert (L1 : Rabs d <= (1 + u) * Rabs e) by (replace d with ((d - e) + e) by ring; eapply Rle_trans; [apply Rabs_triang|]; lra).
    assert (L2 : (1 - u) * Rabs e <= Rabs d). { assert (Rabs e <= Rabs (d - e) + Rabs d) by (replace e with (- (d - e) + d) at 1 by ring; eapply Rle_trans; [apply Rabs_triang|]; rewrite Rabs_Ropp; lra). lra. }
    split.
    - replace ((1 - u) ^ 2 * (Rabs e * Rabs e)) with ((1 - u) * Rabs e * ((1 - u) * Rabs e)) by ring. apply Rmult_le_compat; try lra; apply Rmult_le_pos; lra.
    - replace ((1 + u) ^ 2 * (Rabs e * Rabs e)) with ((1 + u) * Rabs e * ((1 + u) * Rabs e)) by ring. apply Rmult_le_compat; lra. }
  pose proof (pow2_ge_0 e) as P2. set (E2 := e ^ 2) in *. set (h := eta / 2) in *. assert (H0 : 0 < h) by (unfold h; lra).
  assert (B1 : (1 - u) ^ 3 * E2 - h <= q <= (1 + u) ^ 3 * E2 + h).
  { assert ((1 - u) * ((1 - u) ^ 2 * E2) <= (1 - u) * (d * d)) by (apply Rmult_le_compat_l; lra). assert ((1 + u) * (d * d) <= (1 + u) * ((1 + u) ^ 2 * E2)) by (apply Rmult_le_compat_l; lra). cbn [pow] in *. lra. }
  assert (B2 : ((1 - u) ^ 3 * E2 - h) * val x <= q * val x <= ((1 + u) ^ 3 * E2 + h) * val x) by (split; apply Rmult_le_compat_r; lra).
  assert (B3 : (1 - u) * (((1 - u) ^ 3 * E2 - h) * val x) <= (1 - u) * (q * val x)) by (apply Rmult_le_compat_l; lra). assert (B4 : (1 + u) * (q * val x) <= (1 + u) * (((1 + u) ^ 3 * E2 + h) * val x)) by (apply Rmult_le_compat_l; lra).
  assert (HX : 0 <= u * (h * val x)) by (apply Rmult_le_pos; [lra|apply Rmult_le_pos; lra]). unfold z. cbn [pow] in *. lra.
Qed.
Lemma all_terms c l : forall i k, finite i -> val i = INR k -> (Z.of_nat k + Z.of_nat (length l) <= 2 ^ prec + 1)%Z -> (forall x, In x l -> 0 <= val x) -> all_finite (sterms c l i) ->
  let z := ((1 + u) * total l + INR (length l)) * (eta / 2) in
  length (sterms c l i) = length l /\ (forall t, In t (sterms c l i) -> 0 <= val t) /\ (1 - u) ^ 4 * second (val c) k l - z <= total (sterms c l i) <= (1 + u) ^ 4 * second (val c) k l + z.
Proof.
  induction l as [|x l IH]; intros i k F V B P A; [split; [reflexivity|split; [intros ? []|unfold total; cbn; lra]]|]. cbn [sterms length second] in *. inversion A as [|? ? Ft At]; subst.
  destruct (one_term i c x k F V Ft (P x (or_introl eq_refl))) as [O1 O2].
  assert (PI : l = [] \/ (finite (add i (of_Z prec emax 1)) /\ val (add i (of_Z prec emax 1)) = INR (S k))).
  { destruct l as [|y l]; [left; reflexivity|right]. cbn [length] in B. destruct (of_Z_exact prec emax 1) as [F1 V1]; [destruct Sizes; assert (2 ^ 0 <= 2 ^ prec)%Z by (apply Z.pow_le_mono_r; lia); lia|].
    destruct (of_nat_exact prec emax (S k)) as [Fk Vk]; [lia|]. assert (FF : rnd (INR (S k)) = INR (S k)) by (apply (rnd_id prec emax); rewrite <- Vk; apply (fmt_val prec emax)).
    destruct (add_cases prec emax i (of_Z prec emax 1) F F1) as [[_ [VV FF2]]|[OV _]]; rewrite V, V1, <- S_INR, FF in *; [auto|]. exfalso. pose proof (val_bound prec emax (of_nat prec emax (S k))) as VB. rewrite Vk in VB. lra. }
  unfold total in *. cbn [map fold_right]. rewrite S_INR. destruct PI as [->|[Fi Vi]].
  - cbn [sterms second length map fold_right INR]. split; [reflexivity|]. split; [intros t [<-|[]]; exact O1|]. cbn [map fold_right] in *. lra.
  - destruct (IH _ (S k) Fi Vi ltac:(cbn [length] in B; lia) ltac:(intros; apply P; right; auto) At) as [L [Q W]]. split; [rewrite L; reflexivity|]. split; [intros t [<-|I]; [exact O1|apply Q, I]|]. lra.
Qed.
Lemma val_ne0_shape (s : fl) : finite s -> val s <> 0 -> exists b m e H, s = B754_finite b m e H.
Proof. intros F V. destruct s as [?|?| |]; try discriminate F; [cbn in V; lra|]. eauto. Qed.
Theorem C144_spread l : (Z.of_nat (length l) <= 2 ^ prec)%Z -> all_finite l -> (forall x, In x l -> 0 <= val x) -> 0 < total l -> (1 + u) ^ length l * total l < IZR (2 ^ emax) ->
  finite (f_spread prec emax l) ->
  let c := val (f_centroid prec emax l) in let m := first 0 l / total l in let q := second c 0 l / total l in let n := length l in
  let slack := ((1 + u) + INR n / total l) * (eta / 2) in
  q = second m 0 l / total l + (c - m) ^ 2 /\
  exists y, 0 <= y /\ (1 - u) ^ (n + 5) / (1 + u) ^ n * q - slack - eta / 2 <= y <= (1 + u) ^ (n + 5) / (1 - u) ^ n * q + (1 + u) ^ (n + 1) / (1 - u) ^ n * slack + eta / 2 /\
  Rabs (val (f_spread prec emax l) - sqrt y) <= u * sqrt y + eta / 2.
Proof.
  intros L A P T O F c m q n slack. pose proof u_tiny as U. pose proof eta_small as TE. split.
  { unfold q. rewrite (second_shift m c). unfold m. field. lra. }
  assert (AT : abs_total l = total l).
  { clear -P. induction l as [|x l IH]; [reflexivity|]. unfold abs_total, total in *. cbn [map fold_right]. rewrite IH by (intros; apply P; right; auto). rewrite Rabs_pos_eq by (apply P; left; reflexivity). reflexivity. }
  assert (Fs : finite (f_sum prec emax l)) by (apply C115_sum_finite; [exact A|rewrite AT; exact O]). pose proof (nonneg_sum prec emax l P Fs) as Bs. fold n in Bs.
  unfold f_spread in *. rewrite spread_terms in *. cbn [fst snd] in *. change (fold_left add l zero) with (f_sum prec emax l) in *. set (cc := f_centroid prec emax l) in *. change (fold_left add (sterms cc l zero) zero) with (f_sum prec emax (sterms cc l zero)) in *.
  set (s := f_sum prec emax l) in *. set (w := f_sum prec emax (sterms cc l zero)) in *.
  assert (A0 : 0 < (1 - u) ^ n) by (apply pow_lt; lra). pose proof (pow_ge_1 prec n) as A1. assert (Ps : 0 < val s) by (eapply Rlt_le_trans; [|apply Bs]; apply Rmult_lt_0_compat; auto).
  assert (Fy : finite (div w s)). { destruct (div w s) as [?|[]| |? ? ? ?] eqn:Q; try reflexivity; unfold finite, fsqrt in F; try (rewrite Q in F); discriminate F. }
  assert (Fw : finite w). { destruct (val_ne0_shape s Fs ltac:(lra)) as [b [mm [e [H E]]]]. rewrite E in Fy. unfold finite. destruct w as [?|?| |]; try reflexivity; discriminate Fy. }
  assert (At : all_finite (sterms cc l zero)) by (apply (C115_sum_error prec emax); exact Fw).
  destruct (all_terms cc l zero 0 eq_refl eq_refl ltac:(lia) P At) as [Lt [Pt Bt]]. fold n in Bt. fold c in Bt. pose proof (nonneg_sum prec emax (sterms cc l zero) Pt Fw) as Bw. fold w in Bw. rewrite Lt in Bw. fold n in Bw.
  set (W := second c 0 l) in *. assert (W0 : 0 <= W) by (apply second_pos, P). set (z := ((1 + u) * total l + INR n) * (eta / 2)) in *. assert (NP : 0 <= INR n) by apply pos_INR. assert (Z0 : 0 <= z) by (unfold z; apply Rmult_le_pos; nra).
  set (k1 := (1 - u) ^ n) in *. set (k2 := (1 + u) ^ n) in *. assert (Tw : 0 <= total (sterms cc l zero)) by (apply (nonneg_total prec emax); exact Pt). assert (W1 : 0 <= val w) by (eapply Rle_trans; [|apply Bw]; apply Rmult_le_pos; lra).
  assert (I1 : 0 < / val s) by (apply Rinv_0_lt_compat; lra). assert (IT : 0 < / total l) by (apply Rinv_0_lt_compat; lra). assert (SZ : slack = z / total l) by (unfold slack, z; field; lra).
  assert (IS : / (k2 * total l) <= / val s <= / (k1 * total l)) by (split; apply Rinv_le_contravar; try lra; apply Rmult_lt_0_compat; lra).
  assert (K1 : k1 <= 1). { unfold k1. apply Rle_trans with (1 ^ n); [apply pow_incr; lra|rewrite pow1; lra]. }
  assert (Q0 : 0 <= val w / val s) by (apply Rmult_le_pos; lra).
  assert (QU : val w / val s <= k2 / k1 * ((1 + u) ^ 4 * q + slack)).
  { replace (k2 / k1 * ((1 + u) ^ 4 * q + slack)) with (k2 * ((1 + u) ^ 4 * W + z) * / (k1 * total l)) by (rewrite SZ; unfold q; field; lra). unfold Rdiv. apply Rmult_le_compat; try lra. eapply Rle_trans; [apply Bw|]. apply Rmult_le_compat_l; lra. }
  assert (QL : k1 / k2 * ((1 - u) ^ 4 * q) - slack <= val w / val s).
  { destruct (Rle_lt_dec ((1 - u) ^ 4 * W - z) 0) as [N|N].
    - apply Rle_trans with 0; [|exact Q0]. assert (KK : k1 / k2 <= 1) by (apply Rmult_le_reg_r with k2; [lra|]; unfold Rdiv; rewrite Rmult_assoc, Rinv_l, Rmult_1_r by lra; lra).
      assert (K0 : 0 <= k1 / k2) by (apply Rmult_le_pos; [lra|left; apply Rinv_0_lt_compat; lra]). assert (QQ : (1 - u) ^ 4 * q <= slack). { rewrite SZ. unfold q. replace ((1 - u) ^ 4 * (W / total l)) with ((1 - u) ^ 4 * W / total l) by (field; lra). unfold Rdiv. apply Rmult_le_compat_r; lra. }
      assert (S0 : 0 <= slack) by (rewrite SZ; apply Rmult_le_pos; lra). assert (k1 / k2 * ((1 - u) ^ 4 * q) <= k1 / k2 * slack) by (apply Rmult_le_compat_l; lra). assert (k1 / k2 * slack <= 1 * slack) by (apply Rmult_le_compat_r; lra). lra.
    - assert (LB : k1 * ((1 - u) ^ 4 * W - z) * / (k2 * total l) <= val w / val s).
      { unfold Rdiv. apply Rmult_le_compat; [apply Rmult_le_pos; lra|left; apply Rinv_0_lt_compat, Rmult_lt_0_compat; lra| |apply IS]. eapply Rle_trans; [|apply Bw]. apply Rmult_le_compat_l; lra. }
      eapply Rle_trans; [|exact LB]. replace (k1 * ((1 - u) ^ 4 * W - z) * / (k2 * total l)) with (k1 / k2 * ((1 - u) ^ 4 * q) - k1 / k2 * slack) by (rewrite SZ; unfold q; field; lra).
      assert (KK : k1 / k2 <= 1) by (apply Rmult_le_reg_r with k2; [lra|]; unfold Rdiv; rewrite Rmult_assoc, Rinv_l, Rmult_1_r by lra; lra). assert (S0 : 0 <= slack) by (rewrite SZ; apply Rmult_le_pos; lra). assert (k1 / k2 * slack <= 1 * slack) by (apply Rmult_le_compat_r; lra). lra. }
  destruct (div_cases prec emax w s Fw ltac:(lra)) as [[_ [V _]]|[_ E]]; [|exfalso; rewrite E in Fy; discriminate Fy].
  pose proof (rounded_quotient prec emax (val w / val s) _ _ Q0 (conj QL QU)) as RQ. assert (Y0 : 0 <= val (div w s)) by (rewrite V; apply (rnd_pos prec emax); exact Q0). rewrite <- V in RQ. set (y := val (div w s)) in *.
  exists y. split; [exact Y0|]. assert (S0 : 0 <= slack) by (rewrite SZ; apply Rmult_le_pos; lra). split.
  - replace ((1 - u) ^ (n + 5) / k2 * q) with ((1 - u) * (k1 / k2 * ((1 - u) ^ 4 * q))) by (unfold k1, k2; rewrite pow_add; cbn [pow]; field; apply pow_nonzero; lra).
    replace ((1 + u) ^ (n + 5) / k1 * q + (1 + u) ^ (n + 1) / k1 * slack) with ((1 + u) * (k2 / k1 * ((1 + u) ^ 4 * q + slack))) by (unfold k1, k2; rewrite !pow_add; cbn [pow]; field; apply pow_nonzero; lra).
    assert (US : 0 <= u * slack) by (apply Rmult_le_pos; lra). set (X := k1 / k2 * ((1 - u) ^ 4 * q)) in *. set (Y := k2 / k1 * ((1 + u) ^ 4 * q + slack)) in *. clearbody X Y. clear -RQ US. lra.
  - pose proof (nn_fin prec emax (div w s) Fy Y0) as NN. destruct (proj2 (sqrt_nn prec emax (div w s) NN) Fy) as [_ VS]. rewrite VS. pose proof (rnd_err prec emax (sqrt y)) as D. rewrite <- (roundoff_u prec), <- (smallest_tiny prec emax) in D. rewrite (Rabs_pos_eq (sqrt y)) in D by apply sqrt_pos. exact D.
Qed.

(** Kurtosis. *)
Definition quads (j : nat) (m : R) (l : list fl) : R := sum_of (fun x => (x - m) ^ j) l / INR (length l).
Lemma mul_rel p d : finite p -> finite d -> val p * val d = 0 \/ bpow radix2 (2 - emax) <= Rabs (val p * val d) <= bpow radix2 (emax - 1) ->
  finite (mul p d) /\ Rabs (val (mul p d) - val p * val d) <= u * Rabs (val p * val d).
Proof.
  intros Fp Fd H. destruct Sizes as [S1 S2]. assert (VE : Valid_exp (FLT_exp (3 - emax - prec) prec)) by (apply FLT_exp_valid; exact Hprec).
  assert (B : Rabs (rnd (val p * val d)) <= bpow radix2 (emax - 1)). { apply abs_round_le_generic; auto with typeclass_instances; [apply (fmt_bpow prec emax); lia|]. destruct H as [->|[_ H]]; [rewrite Rabs_R0; apply bpow_ge_0|exact H]. }
  assert (BB : bpow radix2 (emax - 1) < bpow radix2 emax) by (apply bpow_lt; lia).
  destruct (mul_cases prec emax p d Fp Fd) as [[_ [V F]]|[O _]]; [|exfalso; lra]. split; [exact F|]. rewrite V. destruct H as [->|[H _]]; [rewrite (rnd_0 prec emax), Rminus_0_r, Rabs_R0; lra|apply (rnd_normal prec emax); exact H].
Qed.
Lemma abs_rel z w k : 0 <= k < 1 -> Rabs (z - w) <= k * Rabs w -> (1 - k) * Rabs w <= Rabs z <= (1 + k) * Rabs w.
Proof.
  intros K H. split.
  - assert (Rabs w <= Rabs (z - w) + Rabs z) by (replace w with (- (z - w) + z) at 1 by ring; eapply Rle_trans; [apply Rabs_triang|]; rewrite Rabs_Ropp; lra). lra.
  - replace z with ((z - w) + w) by ring. eapply Rle_trans; [apply Rabs_triang|]. lra.
Qed.
(** A product of [j + 1] equal factors within the range. *)
Lemma pow_rel a d j : (0 <= a)%Z -> (4 * a + 4 <= emax)%Z -> finite d -> (val d = 0 \/ bpow radix2 (- a) <= Rabs (val d) <= bpow radix2 a) -> (j <= 3)%nat ->
  finite (fpow_loop prec emax d j d) /\ (1 - u) ^ j * Rabs (val d) ^ S j <= Rabs (val (fpow_loop prec emax d j d)) <= (1 + u) ^ j * Rabs (val d) ^ S j.
Proof.
  intros A4 A5 F H J. pose proof u_tiny as U. assert (IT : fpow_loop prec emax d j d = Nat.iter j (fun r => mul r d) d).
  { clear. assert (G : forall r, fpow_loop prec emax d j r = Nat.iter j (fun r => mul r d) r); [|apply G]. induction j as [|j IH]; intros r; [reflexivity|]. cbn [fpow_loop]. rewrite IH. clear. revert r. induction j as [|j IH]; intros r; [reflexivity|]. cbn [Nat.iter nat_rect] in *. unfold Nat.iter in *. cbn [nat_rect]. rewrite IH. reflexivity. }
  rewrite IT. clear IT. induction j as [|j IH]; [cbn; rewrite Rmult_1_r; split; [exact F|lra]|]. destruct IH as [Fp B]; [lia|]. cbn [Nat.iter nat_rect]. change (nat_rect (fun _ => fl) d (fun _ r => mul r d) j) with (Nat.iter j (fun r => mul r d) d). set (p := Nat.iter j (fun r => mul r d) d) in *.
  assert (RG : val p * val d = 0 \/ bpow radix2 (2 - emax) <= Rabs (val p * val d) <= bpow radix2 (emax - 1)).
  { destruct H as [Z|H]; [left; rewrite Z; ring|right]. rewrite Rabs_mult. set (r := Rabs (val d)) in *. pose proof (bpow_gt_0 radix2 (- a)) as PA.
    assert (BA : forall k z, bpow radix2 z ^ k = bpow radix2 (Z.of_nat k * z)). { intros k z. induction k as [|k IHk]; [reflexivity|]. cbn [pow]. rewrite IHk, <- bpow_plus. f_equal. lia. }
    assert (L1 : bpow radix2 (- a) ^ S (S j) <= r ^ S (S j)) by (apply pow_incr; lra). assert (L2 : r ^ S (S j) <= bpow radix2 a ^ S (S j)) by (apply pow_incr; lra). rewrite BA in L1, L2.
    assert (K1 : / 2 <= (1 - u) ^ j). { eapply Rle_trans; [|apply bernoulli]. assert (INR j <= 3) by (change 3 with (INR 3) || (replace 3 with (INR 3) by (cbn; lra)); apply le_INR; lia). pose proof (pos_INR j). nra. }
    assert (K2 : (1 + u) ^ j <= 2). { apply Rle_trans with ((1 + u) ^ 3); [apply Rle_pow; [lra|lia]|]. cbn [pow]. nra. }
    assert (PR : 0 <= r ^ S j) by (apply pow_le; unfold r; apply Rabs_pos). pose proof (Rabs_pos (val d)) as R0. fold r in R0.
    assert (X1 : (1 - u) ^ j * r ^ S j * r <= Rabs (val p) * r) by (apply Rmult_le_compat_r; lra). assert (X2 : Rabs (val p) * r <= (1 + u) ^ j * r ^ S j * r) by (apply Rmult_le_compat_r; lra).
    assert (RR : r ^ S j * r = r ^ S (S j)) by (cbn [pow]; ring). rewrite Rmult_assoc, RR in X1, X2. assert (RP : 0 <= r ^ S (S j)) by (apply pow_le; lra).
    assert (Y1 : / 2 * r ^ S (S j) <= (1 - u) ^ j * r ^ S (S j)) by (apply Rmult_le_compat_r; lra). assert (Y2 : (1 + u) ^ j * r ^ S (S j) <= 2 * r ^ S (S j)) by (apply Rmult_le_compat_r; lra).
    assert (G1 : bpow radix2 (-1 + - (4 * a)) <= / 2 * r ^ S (S j)). { rewrite bpow_plus. change (bpow radix2 (-1)) with (/ 2). apply Rmult_le_compat_l; [lra|]. eapply Rle_trans; [|exact L1]. apply bpow_le. nia. }
    assert (G2 : 2 * r ^ S (S j) <= bpow radix2 (1 + 4 * a)). { rewrite bpow_plus. change (bpow radix2 1) with 2. apply Rmult_le_compat_l; [lra|]. eapply Rle_trans; [exact L2|]. apply bpow_le. nia. }
    split; [apply Rle_trans with (bpow radix2 (-1 + - (4 * a))); [apply bpow_le; lia|lra]|apply Rle_trans with (bpow radix2 (1 + 4 * a)); [lra|apply bpow_le; lia]]. }
  destruct (mul_rel p d Fp F RG) as [Fm Em]. split; [exact Fm|]. apply abs_rel in Em; [|lra]. rewrite Rabs_mult in Em. pose proof (Rabs_pos (val d)) as R0. set (r := Rabs (val d)) in *.
  assert (X1 : (1 - u) * ((1 - u) ^ j * r ^ S j * r) <= (1 - u) * (Rabs (val p) * r)) by (apply Rmult_le_compat_l; [lra|]; apply Rmult_le_compat_r; lra). assert (X2 : (1 + u) * (Rabs (val p) * r) <= (1 + u) * ((1 + u) ^ j * r ^ S j * r)) by (apply Rmult_le_compat_l; [lra|]; apply Rmult_le_compat_r; lra).
  replace ((1 - u) ^ S j * r ^ S (S j)) with ((1 - u) * ((1 - u) ^ j * r ^ S j * r)) by (cbn [pow]; ring). replace ((1 + u) ^ S j * r ^ S (S j)) with ((1 + u) * ((1 + u) ^ j * r ^ S j * r)) by (cbn [pow]; ring). split; [exact (Rle_trans _ _ _ X1 (proj1 Em))|exact (Rle_trans _ _ _ (proj2 Em) X2)].
Qed.
(** Sums and means of terms from zero up with a relative error. *)
Lemma sum_rel_up (g : fl -> fl) (f : R -> R) j l : (forall x, In x l -> 0 <= f (val x) /\ (1 - u) ^ j * f (val x) <= val (g x) <= (1 + u) ^ j * f (val x)) ->
  0 <= sum_of f l /\ (1 - u) ^ j * sum_of f l <= total (map g l) <= (1 + u) ^ j * sum_of f l.
Proof.
  unfold sum_of, total. induction l as [|x l IH]; intros H; [cbn; lra|]. cbn [map fold_right]. destruct IH as [I0 I]; [intros; apply H; right; auto|]. destruct (H x (or_introl eq_refl)). split; lra.
Qed.
Lemma cauchy (l : list fl) (m : fl) : l <> [] -> quads 2 (val m) l ^ 2 <= quads 4 (val m) l.
Proof.
  intros N. pose proof (n_pos l N) as P. assert (G : forall t : list fl, sum_of (fun x => (x - val m) ^ 2) t ^ 2 <= INR (length t) * sum_of (fun x => (x - val m) ^ 4) t).
  { assert (K : forall (t : list fl) (r : R), 2 * r * sum_of (fun x => (x - val m) ^ 2) t <= INR (length t) * r ^ 2 + sum_of (fun x => (x - val m) ^ 4) t).
    { induction t as [|x t IH]; intros r; [unfold sum_of; cbn; lra|]. unfold sum_of in *. cbn [map fold_right]. change (length (x :: t)) with (S (length t)). rewrite S_INR. specialize (IH r). pose proof (pow2_ge_0 ((val x - val m) ^ 2 - r)) as Q. replace ((val x - val m) ^ 4) with (((val x - val m) ^ 2) ^ 2) by ring. set (z := (val x - val m) ^ 2) in *. lra. }
    intros t. destruct (length t) as [|k] eqn:E; [destruct t; [unfold sum_of; cbn; lra|discriminate E]|]. assert (T : 0 < INR (length t)) by (apply lt_0_INR; lia). rewrite <- E. set (s2 := sum_of (fun x => (x - val m) ^ 2) t). set (s4 := sum_of (fun x => (x - val m) ^ 4) t).
    specialize (K t (s2 / INR (length t))). fold s2 s4 in K. apply (Rmult_le_compat_l (INR (length t))) in K; [|lra]. replace (INR (length t) * (2 * (s2 / INR (length t)) * s2)) with (2 * s2 ^ 2) in K by (field; lra). replace (INR (length t) * (INR (length t) * (s2 / INR (length t)) ^ 2 + s4)) with (s2 ^ 2 + INR (length t) * s4) in K by (field; lra). lra. }
  specialize (G l). unfold quads. set (s2 := sum_of (fun x => (x - val m) ^ 2) l) in *. set (s4 := sum_of (fun x => (x - val m) ^ 4) l) in *. set (n := INR (length l)) in *.
  replace ((s2 / n) ^ 2) with (s2 ^ 2 * / (n * n)) by (field; lra). replace (s4 / n) with (n * s4 * / (n * n)) by (field; lra). apply Rmult_le_compat_r; [left; apply Rinv_0_lt_compat; nra|exact G].
Qed.
Lemma quad_le (l : list fl) (m : fl) : l <> [] -> quads 4 (val m) l <= INR (length l) * quads 2 (val m) l ^ 2.
Proof.
  intros N. pose proof (n_pos l N) as P. assert (G : forall t : list fl, 0 <= sum_of (fun x => (x - val m) ^ 2) t /\ sum_of (fun x => (x - val m) ^ 4) t <= sum_of (fun x => (x - val m) ^ 2) t ^ 2).
  { induction t as [|x t [I0 IH]]; [unfold sum_of; cbn; lra|]. unfold sum_of in *. cbn [map fold_right]. pose proof (pow2_ge_0 (val x - val m)) as Q. replace ((val x - val m) ^ 4) with (((val x - val m) ^ 2) ^ 2) by ring. set (z := (val x - val m) ^ 2) in *. split; [lra|]. match goal with H : 0 <= ?s |- _ <= (z + ?s) ^ 2 => assert (0 <= z * s) by (apply Rmult_le_pos; lra) end. nra. }
  destruct (G l) as [_ G']. unfold quads. set (s2 := sum_of (fun x => (x - val m) ^ 2) l) in *. set (s4 := sum_of (fun x => (x - val m) ^ 4) l) in *. set (n := INR (length l)) in *.
  replace (n * (s2 / n) ^ 2) with (s2 ^ 2 * / n) by (field; lra). unfold Rdiv. apply Rmult_le_compat_r; [left; apply Rinv_0_lt_compat; lra|exact G'].
Qed.
Section Moments.
Context (a : Z) (l : list fl) (m : fl).
Hypothesis A0 : (0 <= a)%Z.
Hypothesis A1 : (4 * a + 2 * prec + 8 <= emax)%Z.
Hypothesis N : l <> [].
Hypothesis L : (Z.of_nat (length l) <= 2 ^ (prec - 1))%Z.
Hypothesis Fm : finite m.
Hypothesis Dev : forall x, In x l -> finite x /\ finite (sub x m) /\ (val (sub x m) = 0 \/ bpow radix2 (- a) <= Rabs (val (sub x m)) <= bpow radix2 a).
Hypothesis Some_dev : exists x, In x l /\ val (sub x m) <> 0.
Lemma even_moment_rel (h : nat) : (h = 1 \/ h = 3)%nat -> let n := length l in let M := quads (S h) (val m) l in
  finite (f_nth_moment prec emax (S h) l m) /\ 0 < M /\ (1 - u) ^ (n + 2 * h + 2) * M <= val (f_nth_moment prec emax (S h) l m) <= (1 + u) ^ (n + 2 * h + 2) * M /\
  bpow radix2 (- (Z.of_nat (S h) * a) - prec - 2) <= val (f_nth_moment prec emax (S h) l m) <= bpow radix2 (Z.of_nat (S h) * a + 3).
Proof.
  intros HH n M. pose proof u_tiny as U. destruct Sizes as [S1 S2]. pose proof (n_pos l N) as P. fold n in P. assert (H3 : (h <= 3)%nat) by lia. assert (L' : (Z.of_nat n <= 2 ^ prec)%Z) by (eapply Z.le_trans; [exact L|]; apply Z.pow_le_mono_r; lia).
  set (g := fun x => f_nth_power prec emax (S h) (sub x m)). set (f := fun z : R => (z - val m) ^ S h). set (fd := fun x : fl => Rabs (val (sub x m)) ^ S h).
  assert (EV : forall z : R, 0 <= z ^ S h /\ Rabs z ^ S h = z ^ S h). { intros z. destruct HH as [->| ->]; cbn [pow]; rewrite !Rmult_1_r; split; try nra; assert (Q : Rabs z * Rabs z = z * z) by (rewrite <- Rabs_mult; apply Rabs_pos_eq; nra); [exact Q|]. replace (Rabs z * (Rabs z * (Rabs z * Rabs z))) with ((Rabs z * Rabs z) * (Rabs z * Rabs z)) by ring. rewrite Q. ring. }
  assert (SG : forall x, In x l -> finite (g x) /\ 0 <= val (g x) /\ (1 - u) ^ h * fd x <= val (g x) <= (1 + u) ^ h * fd x).
  { intros x I. destruct (Dev x I) as [Fx [Fd Rd]]. destruct (pow_rel a (sub x m) h A0 ltac:(lia) Fd Rd H3) as [Fp Bp]. unfold g, f_nth_power. replace (S h - 1)%nat with h by lia. split; [exact Fp|].
    assert (NN : nn prec emax (f_nth_power prec emax (S h) (sub x m))) by (apply (even_power prec emax); [destruct HH as [->| ->]; reflexivity|lia|apply fin_not_nan; exact Fd]). unfold f_nth_power in NN. replace (S h - 1)%nat with h in NN by lia.
    destruct (nn_cases prec emax _ NN) as [E|[_ V0]]; [rewrite E in Fp; discriminate Fp|]. rewrite (Rabs_pos_eq _ V0) in Bp. split; [exact V0|exact Bp]. }
  assert (DE : forall x, In x l -> 0 <= f (val x) /\ (1 - u) ^ S h * f (val x) <= fd x <= (1 + u) ^ S h * f (val x)).
  { intros x I. destruct (Dev x I) as [Fx [Fd _]]. destruct (sub_fin prec emax _ _ Fd) as [_ [_ V]]. pose proof (add_err prec emax (val x) (- val m) (fmt_val prec emax x)) as ED. assert (FO : generic_format radix2 (FLT_exp (3 - emax - prec) prec) (- val m)) by (apply generic_format_opp, (fmt_val prec emax)). specialize (ED FO). rewrite <- (roundoff_u prec) in ED.
    change (val x + - val m) with (val x - val m) in ED. rewrite <- V in ED. apply abs_rel in ED; [|lra]. unfold f, fd. rewrite <- (proj2 (EV (val x - val m))). rewrite <- !Rpow_mult_distr. pose proof (Rabs_pos (val x - val m)) as R0. split; [apply pow_le; exact R0|]. split; apply pow_incr; split; try lra; [apply Rmult_le_pos; lra|apply Rabs_pos]. }
  assert (TM : forall x, In x l -> 0 <= f (val x) /\ (1 - u) ^ (2 * h + 1) * f (val x) <= val (g x) <= (1 + u) ^ (2 * h + 1) * f (val x)).
  { intros x I. destruct (SG x I) as [_ [_ [G1 G2]]]. destruct (DE x I) as [F0 [D1 D2]]. split; [exact F0|]. replace (2 * h + 1)%nat with (h + S h)%nat by lia. rewrite !pow_add, !Rmult_assoc. assert (0 <= (1 - u) ^ h) by (apply pow_le; lra). assert (0 <= (1 + u) ^ h) by (apply pow_le; lra). split.
    - eapply Rle_trans; [|exact G1]. apply Rmult_le_compat_l; lra.
    - eapply Rle_trans; [exact G2|]. apply Rmult_le_compat_l; lra. }
  destruct (sum_rel_up g f (2 * h + 1) l TM) as [SF0 SFB]. set (SF := sum_of f l) in *.
  assert (GP : forall t, In t (map g l) -> 0 <= val t) by (intros t I; apply in_map_iff in I; destruct I as [x [<- I]]; apply (SG x I)). assert (AF : all_finite (map g l)) by (apply Forall_forall; intros t I; apply in_map_iff in I; destruct I as [x [<- I]]; apply (SG x I)).
  assert (BA : forall k z, bpow radix2 z ^ k = bpow radix2 (Z.of_nat k * z)). { intros k z. induction k as [|k IHk]; [reflexivity|]. cbn [pow]. rewrite IHk, <- bpow_plus. f_equal. lia. }
  assert (KH : (1 + u) ^ h <= 2) by (apply Rle_trans with ((1 + u) ^ 3); [apply Rle_pow; [lra|lia]|]; cbn [pow]; nra). assert (KH1 : / 2 <= (1 - u) ^ h). { eapply Rle_trans; [|apply bernoulli]. assert (INR h <= 3) by (replace 3 with (INR 3) by (cbn; lra); apply le_INR; lia). pose proof (pos_INR h). nra. }
  assert (TU : total (map g l) <= 2 * bpow radix2 (Z.of_nat (S h) * a) * INR n).
  { assert (G : forall x, In x l -> val (g x) <= 2 * bpow radix2 (Z.of_nat (S h) * a)). { intros x I. destruct (SG x I) as [_ [_ [_ G2]]]. eapply Rle_trans; [exact G2|]. assert (FD : fd x <= bpow radix2 (Z.of_nat (S h) * a)). { rewrite <- BA. unfold fd. apply pow_incr. split; [apply Rabs_pos|]. destruct (Dev x I) as [_ [_ [Z|[_ Q]]]]; [rewrite Z, Rabs_R0; apply bpow_ge_0|exact Q]. } apply Rmult_le_compat; try lra; [apply pow_le; lra|apply pow_le, Rabs_pos]. }
    clear -G. unfold total, n. induction l as [|x t IH]; [cbn; lra|]. cbn [map fold_right]. change (length (x :: t)) with (S (length t)). rewrite S_INR. specialize (IH ltac:(intros; apply G; right; auto)). pose proof (G x (or_introl eq_refl)). lra. }
  assert (TL : / 2 * bpow radix2 (- (Z.of_nat (S h) * a)) <= total (map g l)).
  { destruct Some_dev as [x [I X]]. apply Rle_trans with (val (g x)).
    - destruct (SG x I) as [_ [_ [G1 _]]]. eapply Rle_trans; [|exact G1]. assert (FD : bpow radix2 (- (Z.of_nat (S h) * a)) <= fd x). { replace (- (Z.of_nat (S h) * a))%Z with (Z.of_nat (S h) * - a)%Z by ring. rewrite <- BA. unfold fd. apply pow_incr. split; [apply bpow_ge_0|]. destruct (Dev x I) as [_ [_ [Z|[Q _]]]]; [contradiction|exact Q]. } apply Rmult_le_compat; try lra. apply bpow_ge_0.
    - assert (IG : In (g x) (map g l)) by (apply in_map, I). clear -GP IG. induction (map g l) as [|y t IH]; [destruct IG|]. unfold total in *. cbn [map fold_right]. destruct IG as [->|IG]; [assert (0 <= total t) by (apply (nonneg_total prec emax); intros; apply GP; right; auto); unfold total in *; lra|]. pose proof (GP y (or_introl eq_refl)). specialize (IH ltac:(intros; apply GP; right; auto) IG). lra. }
  assert (NB : INR n <= bpow radix2 (prec - 1)) by (rewrite INR_IZR_INZ, <- IZR_Zpower by lia; apply IZR_le; exact L).
  assert (T0 : 0 <= total (map g l)) by (apply (nonneg_total prec emax); exact GP). assert (HA : (Z.of_nat (S h) * a <= 4 * a)%Z) by nia.
  assert (ATT : abs_total (map g l) = total (map g l)). { clear -GP. induction (map g l) as [|x t IH]; [reflexivity|]. unfold abs_total, total in *. cbn [map fold_right]. rewrite IH by (intros; apply GP; right; auto). rewrite Rabs_pos_eq by (apply GP; left; reflexivity). reflexivity. }
  assert (PE : IZR (2 ^ emax) = bpow radix2 emax) by (apply (IZR_Zpower radix2); lia).
  assert (Fs : finite (f_sum prec emax (map g l))).
  { apply C115_sum_finite; [exact AF|]. rewrite map_length, ATT, PE. fold n. pose proof (pow_le_3 n L') as K3. pose proof (pow_ge_1 prec n) as K1. pose proof (bpow_gt_0 radix2 (Z.of_nat (S h) * a)) as PB.
    apply Rle_lt_trans with (4 * (2 * bpow radix2 (Z.of_nat (S h) * a) * bpow radix2 (prec - 1))). { apply Rmult_le_compat; try lra. eapply Rle_trans; [exact TU|]. apply Rmult_le_compat_l; lra. }
    replace (4 * (2 * bpow radix2 (Z.of_nat (S h) * a) * bpow radix2 (prec - 1))) with (bpow radix2 3 * bpow radix2 (Z.of_nat (S h) * a) * bpow radix2 (prec - 1)) by (change (bpow radix2 3) with 8; ring). rewrite <- !bpow_plus. apply bpow_lt. lia. }
  pose proof (nonneg_sum prec emax (map g l) GP Fs) as SB. rewrite map_length in SB. fold n in SB. set (s := f_sum prec emax (map g l)) in *.
  assert (MM : f_nth_moment prec emax (S h) l m = div s (of_nat prec emax n)). { unfold f_nth_moment, s, f_sum. rewrite (fold_map g). reflexivity. }
  rewrite MM. destruct (of_nat_exact prec emax n L') as [Fn Vn]. pose proof (half_pow n L) as K1. pose proof (pow_le_3 n L') as K3. assert (I : 0 < / INR n) by (apply Rinv_0_lt_compat; lra).
  assert (SL : / 4 * bpow radix2 (- (Z.of_nat (S h) * a)) <= val s). { eapply Rle_trans; [|apply SB]. replace (/ 4 * bpow radix2 (- (Z.of_nat (S h) * a))) with (/ 2 * (/ 2 * bpow radix2 (- (Z.of_nat (S h) * a)))) by lra. pose proof (bpow_gt_0 radix2 (- (Z.of_nat (S h) * a))). apply Rmult_le_compat; lra. }
  assert (SU : val s <= 6 * bpow radix2 (Z.of_nat (S h) * a) * INR n). { eapply Rle_trans; [apply SB|]. replace (6 * bpow radix2 (Z.of_nat (S h) * a) * INR n) with (3 * (2 * bpow radix2 (Z.of_nat (S h) * a) * INR n)) by ring. apply Rmult_le_compat; try lra. pose proof (pow_ge_1 prec n). lra. }
  set (q := val s / INR n). pose proof (bpow_gt_0 radix2 (- (Z.of_nat (S h) * a))) as PB1. pose proof (bpow_gt_0 radix2 (Z.of_nat (S h) * a)) as PB2.
  assert (QL : bpow radix2 (- (Z.of_nat (S h) * a) - prec - 1) <= q).
  { unfold q, Rdiv. replace (- (Z.of_nat (S h) * a) - prec - 1)%Z with (-2 + - (Z.of_nat (S h) * a) + - (prec - 1))%Z by ring. rewrite !bpow_plus. change (bpow radix2 (-2)) with (/ 4). apply Rmult_le_compat; try lra; [apply bpow_ge_0|]. rewrite bpow_opp. apply Rinv_le_contravar; lra. }
  assert (QU : q <= 6 * bpow radix2 (Z.of_nat (S h) * a)). { unfold q, Rdiv. apply Rmult_le_reg_r with (INR n); [exact P|]. rewrite Rmult_assoc, Rinv_l, Rmult_1_r by lra. exact SU. }
  pose proof (bpow_gt_0 radix2 (- (Z.of_nat (S h) * a) - prec - 1)) as PB3.
  assert (QR : bpow radix2 (2 - emax) <= Rabs q) by (rewrite Rabs_pos_eq by lra; eapply Rle_trans; [|exact QL]; apply bpow_le; lia).
  assert (VE : Valid_exp (FLT_exp (3 - emax - prec) prec)) by (apply FLT_exp_valid; exact Hprec).
  assert (QB : Rabs (rnd q) <= bpow radix2 (Z.of_nat (S h) * a + 3)). { apply abs_round_le_generic; auto with typeclass_instances; [apply (fmt_bpow prec emax); lia|]. rewrite Rabs_pos_eq by lra. rewrite bpow_plus. change (bpow radix2 3) with 8. lra. }
  assert (BB : bpow radix2 (Z.of_nat (S h) * a + 3) < bpow radix2 emax) by (apply bpow_lt; lia).
  destruct (div_cases prec emax s (of_nat prec emax n) Fs ltac:(rewrite Vn; lra)) as [[_ [V [F _]]]|[O _]]; rewrite Vn in *; [|exfalso; unfold q in QB; lra].
  assert (MP : 0 < M). { unfold M, quads. fold n. change (sum_of (fun x : R => (x - val m) ^ S h) l) with SF. apply Rdiv_lt_0_compat; [|exact P]. destruct SF0 as [S0|S0]; [exact S0|]. exfalso. rewrite <- S0, Rmult_0_r in SFB. lra. }
  pose proof (rnd_normal prec emax q QR) as E. rewrite (Rabs_pos_eq q) in E by lra. apply Rabs_le_inv in E. split; [exact F|]. split; [exact MP|]. rewrite V. fold q.
  assert (QM : (1 - u) ^ (n + 2 * h + 1) * M <= q <= (1 + u) ^ (n + 2 * h + 1) * M).
  { unfold M, quads, q. fold n. change (sum_of (fun x : R => (x - val m) ^ S h) l) with SF. unfold Rdiv. replace (n + 2 * h + 1)%nat with (n + (2 * h + 1))%nat by lia. rewrite (pow_add _ n), (pow_add _ n). assert (0 <= (1 - u) ^ n) by lra. assert (0 <= (1 + u) ^ n) by (pose proof (pow_ge_1 prec n); lra). split.
    - rewrite <- !Rmult_assoc. apply Rmult_le_compat_r; [lra|]. eapply Rle_trans; [|apply SB]. rewrite Rmult_assoc. apply Rmult_le_compat_l; lra.
    - rewrite <- !Rmult_assoc. apply Rmult_le_compat_r; [lra|]. eapply Rle_trans; [apply SB|]. rewrite Rmult_assoc. apply Rmult_le_compat_l; lra. }
  replace (n + 2 * h + 2)%nat with (S (n + 2 * h + 1)) by lia. cbn [pow]. split.
  - assert ((1 - u) * ((1 - u) ^ (n + 2 * h + 1) * M) <= (1 - u) * q) by (apply Rmult_le_compat_l; lra). assert ((1 + u) * q <= (1 + u) * ((1 + u) ^ (n + 2 * h + 1) * M)) by (apply Rmult_le_compat_l; lra). lra.
  - split; [|pose proof (Rle_abs (rnd q)); lra]. assert (BH : bpow radix2 (- (Z.of_nat (S h) * a) - prec - 1) = 2 * bpow radix2 (- (Z.of_nat (S h) * a) - prec - 2)) by (replace (- (Z.of_nat (S h) * a) - prec - 1)%Z with (1 + (- (Z.of_nat (S h) * a) - prec - 2))%Z by ring; rewrite bpow_plus; reflexivity).
    assert (u * q <= / 16777216 * q) by (apply Rmult_le_compat_r; lra). lra.
Qed.
End Moments.
Theorem C144_kurtosis a l : (0 <= a)%Z -> (4 * a + 2 * prec + 8 <= emax)%Z -> l <> [] -> (Z.of_nat (length l) <= 2 ^ (prec - 1))%Z ->
  let m := f_mean prec emax l in finite m ->
  (forall x, In x l -> finite x /\ finite (sub x m) /\ (val (sub x m) = 0 \/ bpow radix2 (- a) <= Rabs (val (sub x m)) <= bpow radix2 a)) -> (exists x, In x l /\ val (sub x m) <> 0) ->
  let n := length l in let k := quads 4 (val m) l / quads 2 (val m) l ^ 2 in let v := f_kurtosis prec emax l in
  1 <= k /\ finite v /\ (1 - u) ^ (n + 9) / (1 + u) ^ (2 * n + 9) * k <= val v <= (1 + u) ^ (n + 9) / (1 - u) ^ (2 * n + 9) * k.
Proof.
  intros A0 A1 N L m Fm Dev Sd n k v. pose proof u_tiny as U. destruct Sizes as [S1 S2].
  destruct (even_moment_rel a l m A0 A1 N L Dev Sd 1 (or_introl eq_refl)) as [F2 [M2 [B2 R2]]]. destruct (even_moment_rel a l m A0 A1 N L Dev Sd 3 (or_intror eq_refl)) as [F4 [M4 [B4 R4]]].
  pose proof (cauchy l m N) as CS. pose proof (quad_le l m N) as QL. fold n in B2, B4, QL. change (n + 2 * 1 + 2)%nat with (n + 2 + 2)%nat in B2. change (n + 2 * 3 + 2)%nat with (n + 6 + 2)%nat in B4. replace (n + 2 + 2)%nat with (n + 4)%nat in B2 by lia. replace (n + 6 + 2)%nat with (n + 8)%nat in B4 by lia.
  unfold v, f_kurtosis. fold m. set (m4 := f_nth_moment prec emax 4 l m) in *. set (m2 := f_nth_moment prec emax 2 l m) in *. set (Q4 := quads 4 (val m) l) in *. set (Q2 := quads 2 (val m) l) in *.
  assert (Q22 : 0 < Q2 ^ 2) by (apply pow_lt; exact M2). assert (K1 : 1 <= k). { unfold k. apply Rmult_le_reg_r with (Q2 ^ 2); [exact Q22|]. unfold Rdiv. rewrite Rmult_assoc, Rinv_l, Rmult_1_r, Rmult_1_l by lra. exact CS. }
  assert (KN : k <= INR n). { unfold k. apply Rmult_le_reg_r with (Q2 ^ 2); [exact Q22|]. unfold Rdiv. rewrite Rmult_assoc, Rinv_l, Rmult_1_r by lra. exact QL. } split; [exact K1|].
  change (Z.of_nat 2) with 2%Z in R2. change (Z.of_nat 4) with 4%Z in R4. pose proof (bpow_gt_0 radix2 (- (2 * a) - prec - 2)) as PB. assert (m20 : 0 < val m2) by lra. pose proof (bpow_gt_0 radix2 (- (4 * a) - prec - 2)) as PB4. assert (m40 : 0 < val m4) by lra.
  assert (PP : bpow radix2 (2 - emax) <= val m2 * val m2 <= bpow radix2 (emax - 1)).
  { split.
    - apply Rle_trans with (bpow radix2 (- (2 * a) - prec - 2) * bpow radix2 (- (2 * a) - prec - 2)); [rewrite <- bpow_plus; apply bpow_le; lia|apply Rmult_le_compat; lra].
    - apply Rle_trans with (bpow radix2 (2 * a + 3) * bpow radix2 (2 * a + 3)); [apply Rmult_le_compat; lra|rewrite <- bpow_plus; apply bpow_le; lia]. }
  pose proof (bpow_gt_0 radix2 (2 - emax)) as PB2. destruct (mul_rel m2 m2 F2 F2) as [Fp Ep]. { right. rewrite Rabs_pos_eq by lra. exact PP. } rewrite (Rabs_pos_eq (val m2 * val m2)) in Ep by lra. apply Rabs_le_inv in Ep. set (p := mul m2 m2) in *.
  assert (KK1 : 0 < (1 - u) ^ (n + 4)) by (apply pow_lt; lra). pose proof (pow_ge_1 prec (n + 4)) as KK2.
  assert (PB' : (1 - u) ^ (2 * n + 9) * Q2 ^ 2 <= val p <= (1 + u) ^ (2 * n + 9) * Q2 ^ 2).
  { replace (2 * n + 9)%nat with (S ((n + 4) + (n + 4))) by lia. cbn [pow]. rewrite (pow_add _ (n + 4) (n + 4)), (pow_add _ (n + 4) (n + 4)), !Rmult_1_r. assert (X1 : (1 - u) ^ (n + 4) * Q2 * ((1 - u) ^ (n + 4) * Q2) <= val m2 * val m2) by (apply Rmult_le_compat; try lra; apply Rmult_le_pos; lra). assert (X2 : val m2 * val m2 <= (1 + u) ^ (n + 4) * Q2 * ((1 + u) ^ (n + 4) * Q2)) by (apply Rmult_le_compat; lra).
    assert (X3 : (1 - u) * ((1 - u) ^ (n + 4) * Q2 * ((1 - u) ^ (n + 4) * Q2)) <= (1 - u) * (val m2 * val m2)) by (apply Rmult_le_compat_l; lra). assert (X4 : (1 + u) * (val m2 * val m2) <= (1 + u) * ((1 + u) ^ (n + 4) * Q2 * ((1 + u) ^ (n + 4) * Q2))) by (apply Rmult_le_compat_l; lra). set (c1 := (1 - u) ^ (n + 4)) in *. set (c2 := (1 + u) ^ (n + 4)) in *. split.
    - replace ((1 - u) * (c1 * c1) * (Q2 * Q2)) with ((1 - u) * (c1 * Q2 * (c1 * Q2))) by ring. eapply Rle_trans; [exact X3|]. lra.
    - replace ((1 + u) * (c2 * c2) * (Q2 * Q2)) with ((1 + u) * (c2 * Q2 * (c2 * Q2))) by ring. eapply Rle_trans; [|exact X4]. lra. }
  assert (J1 : 0 < (1 - u) ^ (2 * n + 9)) by (apply pow_lt; lra). pose proof (pow_ge_1 prec (2 * n + 9)) as J2. set (j1 := (1 - u) ^ (2 * n + 9)) in *. set (j2 := (1 + u) ^ (2 * n + 9)) in *.
  assert (p0 : 0 < val p) by (eapply Rlt_le_trans; [|apply PB']; apply Rmult_lt_0_compat; lra). assert (I8 : 0 < (1 - u) ^ (n + 8)) by (apply pow_lt; lra). pose proof (pow_ge_1 prec (n + 8)) as I9.
  set (q := val m4 / val p). assert (IP : 0 < / val p) by (apply Rinv_0_lt_compat; exact p0).
  assert (QB : (1 - u) ^ (n + 8) / j2 * k <= q <= (1 + u) ^ (n + 8) / j1 * k).
  { unfold k, q. replace ((1 - u) ^ (n + 8) / j2 * (Q4 / Q2 ^ 2)) with ((1 - u) ^ (n + 8) * Q4 * / (j2 * Q2 ^ 2)) by (field; lra). replace ((1 + u) ^ (n + 8) / j1 * (Q4 / Q2 ^ 2)) with ((1 + u) ^ (n + 8) * Q4 * / (j1 * Q2 ^ 2)) by (field; lra). unfold Rdiv. split; apply Rmult_le_compat; try lra.
    - apply Rmult_le_pos; lra.
    - left. apply Rinv_0_lt_compat, Rmult_lt_0_compat; lra.
    - apply Rinv_le_contravar; lra.
    - apply Rinv_le_contravar; [apply Rmult_lt_0_compat; lra|lra]. }
  assert (L' : (Z.of_nat n <= 2 ^ prec)%Z) by (eapply Z.le_trans; [exact L|]; apply Z.pow_le_mono_r; lia). pose proof (half_pow n L) as H2. pose proof (pow_le_3 n L') as H3.
  assert (NB : INR n <= bpow radix2 (prec - 1)) by (rewrite INR_IZR_INZ, <- IZR_Zpower by lia; apply IZR_le; exact L).
  assert (U9 : 1 - 9 * u <= (1 - u) ^ 9 /\ (1 + u) ^ 9 <= 2). { split; [pose proof (bernoulli 9) as B; replace (INR 9) with 9 in B by (cbn; lra); exact B|]. apply Rle_trans with ((1 + / 100) ^ 9); [apply pow_incr; lra|cbn [pow]; lra]. }
  assert (SMALL : / 128 <= (1 - u) ^ (n + 8) / j2 /\ (1 + u) ^ (n + 8) / j1 <= 64).
  { assert (u8 : / 2 <= (1 - u) ^ 8 /\ (1 + u) ^ 8 <= 2). { split; [pose proof (bernoulli 8) as B; replace (INR 8) with 8 in B by (cbn; lra); lra|]. apply Rle_trans with ((1 + / 100) ^ 8); [apply pow_incr; lra|cbn [pow]; lra]. }
    unfold j1, j2. replace (2 * n + 9)%nat with (n + n + 9)%nat by lia. rewrite !pow_add. set (x := (1 - u) ^ n) in *. set (y := (1 + u) ^ n) in *. pose proof (pow_ge_1 prec n) as y1. fold y in y1. pose proof (pow_ge_1 prec 9) as g9. set (z9 := (1 - u) ^ 9) in *. set (w9 := (1 + u) ^ 9) in *. set (z8 := (1 - u) ^ 8) in *. set (w8 := (1 + u) ^ 8) in *.
    pose proof (pow_ge_1 prec 8) as g8. fold w8 in g8. fold w9 in g9. assert (T1 : y * y <= 9) by nra. assert (T2 : y * y * w9 <= 18) by nra. assert (T3 : / 4 <= x * z8) by nra. assert (T4 : / 4 <= x * x) by nra. assert (T5 : / 8 <= x * x * z9) by nra. assert (T6 : y * w8 <= 6) by nra. assert (T7 : 1 <= y * y * w9) by nra.
    unfold Rdiv. split.
    - apply Rle_trans with (/ 4 * / 18); [lra|]. apply Rmult_le_compat; try lra. apply Rinv_le_contravar; lra.
    - apply Rle_trans with (6 * / / 8); [|lra]. apply Rmult_le_compat; try lra; [nra|left; apply Rinv_0_lt_compat; lra|apply Rinv_le_contravar; lra]. }
  assert (q1 : / 128 <= q <= 64 * INR n). { split; [eapply Rle_trans; [|apply QB]; apply Rle_trans with (/ 128 * 1); [lra|]; apply Rmult_le_compat; lra|]. eapply Rle_trans; [apply QB|]. apply Rmult_le_compat; try lra. apply Rmult_le_pos; [lra|]. left. apply Rinv_0_lt_compat. lra. }
  assert (QR : bpow radix2 (2 - emax) <= Rabs q) by (rewrite Rabs_pos_eq by lra; apply Rle_trans with (bpow radix2 (-7)); [apply bpow_le; lia|change (bpow radix2 (-7)) with (/ 128); lra]).
  assert (VE : Valid_exp (FLT_exp (3 - emax - prec) prec)) by (apply FLT_exp_valid; exact Hprec).
  assert (RB : Rabs (rnd q) <= bpow radix2 (6 + (prec - 1))). { apply abs_round_le_generic; auto with typeclass_instances; [apply (fmt_bpow prec emax); lia|]. rewrite Rabs_pos_eq by lra. rewrite bpow_plus. change (bpow radix2 6) with 64. lra. }
  assert (BB : bpow radix2 (6 + (prec - 1)) < bpow radix2 emax) by (apply bpow_lt; lia).
  destruct (div_cases prec emax m4 p F4 ltac:(lra)) as [[_ [V [F _]]]|[O _]]; [|exfalso; unfold q in RB; lra].
  pose proof (rnd_normal prec emax q QR) as E. rewrite (Rabs_pos_eq q) in E by lra. apply Rabs_le_inv in E. split; [exact F|]. rewrite V. fold q.
  replace (n + 9)%nat with (S (n + 8)) by lia. cbn [pow]. set (c1 := (1 - u) ^ (n + 8)) in *. set (c2 := (1 + u) ^ (n + 8)) in *.
  assert (E1 : (1 - u) * (c1 / j2 * k) <= (1 - u) * q) by (apply Rmult_le_compat_l; lra). assert (E2 : (1 + u) * q <= (1 + u) * (c2 / j1 * k)) by (apply Rmult_le_compat_l; lra).
  replace ((1 - u) * c1 / j2 * k) with ((1 - u) * (c1 / j2 * k)) by (unfold Rdiv; ring). replace ((1 + u) * c2 / j1 * k) with ((1 + u) * (c2 / j1 * k)) by (unfold Rdiv; ring). lra.
Qed.
End Format.

(** ** Library functions that meet the hypotheses *)
Notation rnd53 := (round radix2 (FLT_exp (3 - 1024 - 53) 53) ZnearestE).
Lemma nearest_top y : Rabs y <= bpow radix2 1023 -> finite (nearest y) /\ B2R (nearest y) = rnd53 y.
Proof.
  intros B. unfold nearest.
  pose proof (binary_normalize_correct 53 1024 eq_refl eq_refl mode_NE (ZnearestE (scaled_mantissa radix2 (FLT_exp (3 - 1024 - 53) 53) y)) (cexp radix2 (FLT_exp (3 - 1024 - 53) 53) y) false) as C. cbv zeta in C.
  assert (VF : Valid_exp (FLT_exp (3 - 1024 - 53) 53)) by (apply FLT_exp_valid; reflexivity).
  change (F2R (Float radix2 (ZnearestE (scaled_mantissa radix2 (FLT_exp (3 - 1024 - 53) 53) y)) (cexp radix2 (FLT_exp (3 - 1024 - 53) 53) y))) with (rnd53 y) in C.
  change (round radix2 (SpecFloat.fexp 53 1024) (round_mode mode_NE) (rnd53 y)) with (rnd53 (rnd53 y)) in C.
  rewrite round_generic in C; [|auto with typeclass_instances|apply generic_format_round; auto with typeclass_instances].
  assert (Q : Rabs (rnd53 y) <= bpow radix2 1023) by (apply abs_round_le_generic; auto with typeclass_instances; apply (fmt_bpow 53 1024); lia). assert (Q2 : bpow radix2 1023 < bpow radix2 1024) by (apply bpow_lt; lia).
  rewrite Rlt_bool_true in C by lra. destruct C as [C1 [C2 _]]. split; assumption.
Qed.
Lemma nearest_within y : bpow radix2 (-1022) <= Rabs y <= bpow radix2 1023 -> finite (nearest y) /\ Rabs (B2R (nearest y) - y) <= roundoff 53 * Rabs y.
Proof. intros [H1 H2]. destruct (nearest_top y H2) as [F V]. split; [exact F|]. rewrite V. apply (rnd_normal 53 1024). exact H1. Qed.
Lemma apart_from_1 (v : double) : 0 < B2R v -> B2R v <> 1 -> bpow radix2 (-53) <= Rabs (B2R v - 1).
Proof.
  intros P N. assert (T : bpow radix2 (-53) <= / 2) by (apply Rle_trans with (bpow radix2 (-1)); [apply bpow_le; lia|cbn; lra]).
  destruct (Rlt_le_dec (B2R v) (/ 2)) as [L|L]; [rewrite Rabs_left by lra; lra|]. destruct (Rle_lt_dec 2 (B2R v)) as [G|G]; [rewrite Rabs_pos_eq by lra; lra|].
  pose proof (fmt_val 53 1024 v) as F. red in F. set (e := cexp radix2 (FLT_exp (3 - 1024 - 53) 53) (B2R v)) in *. set (M := Ztrunc (scaled_mantissa radix2 (FLT_exp (3 - 1024 - 53) 53) (B2R v))) in *.
  assert (E : (-53 <= e <= -52)%Z).
  { unfold e, cexp, FLT_exp. assert (H1 : (0 <= mag radix2 (B2R v))%Z) by (apply mag_ge_bpow; rewrite Rabs_pos_eq by lra; cbn; lra). assert (H2 : (mag radix2 (B2R v) <= 1)%Z) by (apply mag_le_bpow; [lra|]; rewrite Rabs_pos_eq by lra; cbn; lra). lia. }
  assert (V : B2R v - 1 = IZR (M - 2 ^ (- e)) * bpow radix2 e).
  { rewrite F at 1. unfold F2R. cbn [Fnum Fexp]. rewrite minus_IZR, Rmult_minus_distr_r. f_equal. rewrite (IZR_Zpower radix2) by lia. rewrite <- bpow_plus. replace (- e + e)%Z with 0%Z by ring. reflexivity. }
  rewrite V, Rabs_mult, (Rabs_pos_eq (bpow radix2 e)) by apply bpow_ge_0. assert (Z : (M - 2 ^ (- e) <> 0)%Z) by (intros Z; rewrite Z, Rmult_0_l in V; lra).
  apply Rle_trans with (1 * bpow radix2 e); [rewrite Rmult_1_l; apply bpow_le; lia|]. apply Rmult_le_compat_r; [apply bpow_ge_0|]. rewrite <- abs_IZR. apply IZR_le. lia.
Qed.
Lemma ln_apart (v : double) : finite v -> 0 < B2R v -> ln (B2R v) = 0 \/ bpow radix2 (-54) <= Rabs (ln (B2R v)) <= 1074.
Proof.
  intros F P. destruct (Req_dec (B2R v) 1) as [->|N]; [left; apply ln_1|right]. pose proof (apart_from_1 v P N) as A. set (x := B2R v) in *. assert (BB : bpow radix2 (-53) = 2 * bpow radix2 (-54)) by (change (-53)%Z with (1 + -54)%Z; rewrite bpow_plus; reflexivity). pose proof (bpow_gt_0 radix2 (-54)) as PB. assert (B1 : bpow radix2 (-54) <= / 4) by (apply Rle_trans with (bpow radix2 (-2)); [apply bpow_le; lia|cbn; lra]).
  split.
  - destruct (Rlt_le_dec x 1) as [L|L].
    + pose proof (exp_ineq1_le (ln x)) as Q. rewrite exp_ln in Q by exact P. rewrite Rabs_left in A by lra. rewrite Rabs_left; lra.
    + destruct (ln_1p_bounds (x - 1) ltac:(lra)) as [Q _]. replace (1 + (x - 1)) with x in Q by ring. rewrite Rabs_pos_eq in A by lra. assert (R0 : (x - 1) / x * x = x - 1) by (field; lra). set (r := (x - 1) / x) in *.
      assert (R1 : bpow radix2 (-54) <= r). { apply Rnot_lt_le. intros C. assert (r * x < bpow radix2 (-54) * x) by (apply Rmult_lt_compat_r; lra). destruct (Rle_lt_dec x 2) as [X|X]; [assert (bpow radix2 (-54) * x <= bpow radix2 (-54) * 2) by (apply Rmult_le_compat_l; lra); lra|]. assert (bpow radix2 (-54) * x <= / 4 * x) by (apply Rmult_le_compat_r; lra). lra. }
      rewrite Rabs_pos_eq; lra.
  - pose proof ln2_bounds as L2. assert (RG : bpow radix2 (-1074) <= x <= bpow radix2 1024).
    { split; [|pose proof (val_bound 53 1024 v) as Q; apply Rabs_def2 in Q; unfold x; lra]. assert (VE : Valid_exp (FLT_exp (3 - 1024 - 53) 53)) by (apply FLT_exp_valid; reflexivity). pose proof (abs_B2R_ge_emin 53 1024 v) as Q. rewrite Rabs_pos_eq in Q by (unfold x in P; lra). apply Q. destruct v as [?|?| |]; try discriminate F; try reflexivity. unfold x in P. cbn in P. lra. }
    apply ln_range in RG. apply Rabs_le. nra.
Qed.
Definition nlog (v : double) : double := match v with B754_zero _ => B754_infinity true | _ => nearest (ln (B2R v)) end.
Definition nexp (v : double) : double := match v with B754_infinity true => dbl 0 | B754_nan => v | _ => nearest (exp (B2R v)) end.
Definition nlog2 (v : double) : double := match v with B754_zero _ => B754_infinity true | _ => nearest (lg2 (B2R v)) end.
Lemma nearest_0 : finite (nearest 0) /\ B2R (nearest 0) = 0.
Proof. destruct (nearest_top 0) as [F V]; [rewrite Rabs_R0; apply bpow_ge_0|]. split; [exact F|]. rewrite V. apply (rnd_0 53 1024). Qed.
Lemma nlog_within : ln_within (roundoff 53) nlog.
Proof.
  intros v F P. assert (Q : nlog v = nearest (ln (B2R v))) by (destruct v; try discriminate F; [cbn in P; lra|reflexivity]). rewrite Q. destruct (ln_apart v F P) as [Z|[L1 L2]].
  - rewrite Z. destruct nearest_0 as [G V]. split; [exact G|]. rewrite V, Rminus_0_r, Rabs_R0. lra.
  - apply nearest_within. split; [eapply Rle_trans; [|exact L1]; apply bpow_le; lia|]. eapply Rle_trans; [exact L2|]. apply Rle_trans with (bpow radix2 11); [cbn; lra|apply bpow_le; lia].
Qed.
Lemma nexp_within : exp_within (roundoff 53) nexp.
Proof.
  intros y F B. pose proof (exp_pos (B2R y)) as P. assert (Q : nexp y = nearest (exp (B2R y))) by (destruct y; try discriminate F; reflexivity). rewrite Q. destruct (nearest_within (exp (B2R y))) as [G E]; [rewrite Rabs_pos_eq by lra; exact B|]. rewrite (Rabs_pos_eq (exp (B2R y))) in E by lra. split; assumption.
Qed.
Lemma nlog2_within : lg2_within (roundoff 53) nlog2.
Proof.
  intros v F P. assert (Q : nlog2 v = nearest (lg2 (B2R v))) by (destruct v; try discriminate F; [cbn in P; lra|reflexivity]). rewrite Q. pose proof ln2_half as H2. pose proof ln2_bounds as L2. assert (I2 : 1 <= / ln 2 <= 2). { split; [rewrite <- Rinv_1; apply Rinv_le_contravar; lra|]. assert (Q1 : / ln 2 <= / / 2) by (apply Rinv_le_contravar; lra). assert (Q2 : / / 2 = 2) by field. lra. }
  destruct (ln_apart v F P) as [Z|[L1 L3]].
  - unfold lg2. rewrite Z. unfold Rdiv. rewrite Rmult_0_l. destruct nearest_0 as [G V]. split; [exact G|]. rewrite V, Rminus_0_r, Rabs_R0. lra.
  - assert (E : Rabs (lg2 (B2R v)) = Rabs (ln (B2R v)) * / ln 2) by (unfold lg2, Rdiv; rewrite Rabs_mult, (Rabs_pos_eq (/ ln 2)) by lra; reflexivity). pose proof (bpow_gt_0 radix2 (-54)) as PB.
    apply nearest_within. rewrite E. split; [apply Rle_trans with (bpow radix2 (-54) * 1); [rewrite Rmult_1_r; apply bpow_le; lia|apply Rmult_le_compat; lra]|]. apply Rle_trans with (1074 * 2); [apply Rmult_le_compat; lra|]. apply Rle_trans with (bpow radix2 12); [cbn; lra|apply bpow_le; lia].
Qed.
Lemma lib_size : (24 <= 53 <= 53)%Z /\ (128 <= 1024 <= 1024)%Z.
Proof. lia. Qed.
Lemma dbl_val z : (Z.abs z <= 2 ^ 53)%Z -> finite (dbl z) /\ B2R (dbl z) = IZR z.
Proof. intros H. apply (of_Z_exact 53 1024). exact H. Qed.

(** ** What the code does not do *)
(** A distribution with an empty bin has entropy NaN. *)
Theorem C144_entropy_refuted : ~ (forall (flog2 : double -> double) (l : list double), lg2_within (roundoff 53) flog2 -> (forall z, finite z -> B2R z = 0 -> flog2 z = B754_infinity true) ->
  (2 <= length l)%nat -> all_finite l -> (forall x, In x l -> 0 <= B2R x) -> total l = 1 -> ~ nan (f_entropy 53 1024 flog2 l)).
Proof.
  intros H. assert (Z : forall z, finite z -> B2R z = 0 -> nlog2 z = B754_infinity true). { intros z F V. destruct z as [s|s| |s m e B]; try discriminate F; [reflexivity|]. exfalso. revert V. apply (F2R_neq_0 radix2). destruct s; discriminate. }
  destruct (dbl_val 0 ltac:(lia)) as [F0 V0]. destruct (dbl_val 1 ltac:(lia)) as [F1 V1]. apply (H nlog2 [dbl 1; dbl 0] nlog2_within Z).
  - cbn. lia.
  - repeat constructor; assumption.
  - intros x [<-|[<-|[]]]; [rewrite V1|rewrite V0]; lra.
  - unfold total. cbn [map fold_right]. rewrite V0, V1. ring.
  - apply (C144_entropy_zero_actual 53 1024 nlog2 _ (dbl 0)); auto. right. left. reflexivity.
Qed.
(** A quiet frame that is not constant has kurtosis NaN. *)
Definition quiet : double := @B754_finite 53 1024 false 4503599627370496 (-452) eq_refl.
Theorem C144_kurtosis_refuted : ~ (forall l : list double, all_finite l -> (exists x y, In x l /\ In y l /\ B2R x <> B2R y) -> ~ nan (f_kurtosis 53 1024 l)).
Proof.
  intros H. destruct (dbl_val 0 ltac:(lia)) as [F0 V0]. apply (H [dbl 0; quiet]).
  - repeat constructor; exact F0.
  - exists (dbl 0), quiet. split; [left; reflexivity|]. split; [right; left; reflexivity|]. rewrite V0. assert (Q : 0 < B2R quiet) by (apply (F2R_gt_0 radix2 (Float radix2 (Zpos 4503599627370496) (-452))); reflexivity). lra.
  - assert (E : is_nan (f_kurtosis 53 1024 [dbl 0; quiet]) = true) by (vm_compute; reflexivity). destruct (f_kurtosis 53 1024 [dbl 0; quiet]); try discriminate E. reflexivity.
Qed.

(** ** Satisfied hypotheses *)
Lemma w53 : 0 < roundoff 53 <= / 1000000000000000.
Proof. unfold roundoff. change (2 ^ 53)%Z with 9007199254740992%Z. lra. Qed.
Lemma eta53 : 0 < smallest 53 1024 <= / 1000000000000000.
Proof.
  pose proof (eta_small 53 1024 lib_size) as Q. unfold smallest in *. assert (P : 0 < IZR (2 ^ (1024 + 53 - 3))) by (apply IZR_lt; apply Z.pow_pos_nonneg; lia). split; [apply Rinv_0_lt_compat; exact P|].
  apply Rinv_le_contravar; [lra|]. apply Rle_trans with (IZR (2 ^ 53)); [change (2 ^ 53)%Z with 9007199254740992%Z; lra|]. apply IZR_le, Z.pow_le_mono_r; lia.
Qed.
Lemma ln4 : 0 < ln 4 < 2.
Proof. assert (Q : ln 4 = ln 2 + ln 2) by (rewrite <- ln_mult by lra; f_equal; lra). pose proof ln2_bounds. lra. Qed.
Lemma geo14 : geometric [dbl 1; dbl 4] = 2.
Proof.
  destruct (dbl_val 1 ltac:(lia)) as [_ V1]. destruct (dbl_val 4 ltac:(lia)) as [_ V4]. unfold geometric, sum_of. cbn [map fold_right length INR]. rewrite V1, V4, ln_1. replace 4 with (2 * 2) by ring. rewrite ln_mult by lra. replace ((0 + (ln 2 + ln 2 + 0)) / (1 + 1)) with (ln 2) by field. apply exp_ln. lra.
Qed.
Example C144_geometric_ex : let v := f_flatness 53 1024 nlog nexp [dbl 1; dbl 4] in Rabs (B2R (f_geometric_mean 53 1024 nlog nexp [dbl 1; dbl 4]) - 2) <= / 1000000000 /\ finite v /\ B2R v < 9 / 10.
Proof.
  destruct (dbl_val 1 ltac:(lia)) as [F1 V1]. destruct (dbl_val 4 ltac:(lia)) as [F4 V4]. pose proof w53 as W. pose proof eta53 as T. pose proof ln4 as L4. set (l := [dbl 1; dbl 4]). set (u := roundoff 53) in *. set (eta := smallest 53 1024) in *.
  assert (A : all_finite l) by (repeat constructor; assumption). assert (N : l <> []) by discriminate.
  assert (R : forall x, In x l -> bpow radix2 (4 - 1024) <= B2R x <= bpow radix2 (1024 - 4)).
  { assert (B1 : bpow radix2 (4 - 1024) <= 1) by (change 1 with (bpow radix2 0); apply bpow_le; lia). assert (B2 : 4 <= bpow radix2 (1024 - 4)) by (change 4 with (bpow radix2 2) at 1; apply bpow_le; lia). intros x [<-|[<-|[]]]; [rewrite V1|rewrite V4]; lra. }
  set (d := ((1 + u) ^ length l * (1 + u) - 1) * (sum_of (fun x => Rabs (ln x)) l / INR (length l)) + eta / 2).
  assert (D : 0 <= d <= / 100000000000000).
  { unfold d, sum_of. cbn [length l map fold_right INR pow]. rewrite V1, V4, ln_1, Rabs_R0, (Rabs_pos_eq (ln 4)) by lra. set (c := (1 + u) * ((1 + u) * 1) * (1 + u) - 1). assert (C : 0 <= c <= 4 * u) by (unfold c; nra). set (z := (0 + (ln 4 + 0)) / (1 + 1)). assert (Z : 0 <= z <= 1) by (unfold z; lra). nra. }
  assert (ED : exp d <= 1 + 2 * d). { pose proof (exp_ineq1_le (- d)) as Q. rewrite exp_Ropp in Q. pose proof (exp_pos d) as P. assert (exp d * (1 - d) <= exp d * / exp d) by (apply Rmult_le_compat_l; lra). rewrite Rinv_r in * by lra. nra. } pose proof (exp_ineq1_le d) as ED1.
  assert (L : (Z.of_nat (length l) <= 2 ^ (53 - 1))%Z) by (cbn; lia). assert (L' : (Z.of_nat (length l) <= 2 ^ 53)%Z) by (cbn; lia).
  destruct (C144_geometric_mean 53 1024 lib_size nlog nexp u l N L' A R ltac:(lra) nlog_within nexp_within ltac:(fold u eta d; lra)) as [_ E]. cbv zeta in E. fold u eta d in E. unfold l in E at 2 3. rewrite geo14 in E. split.
  - eapply Rle_trans; [exact E|]. nra.
  - destruct (C144_flatness 53 1024 lib_size nlog nexp u l N L A R ltac:(lra) nlog_within nexp_within) as [_ [Fv [_ Bv]]]; [fold u eta d; lra|fold u eta d; nra|unfold l; vm_compute; reflexivity|]. split; [exact Fv|]. fold u eta d in Bv. unfold l in Bv at 2 3 4 5. rewrite geo14 in Bv. unfold total in Bv. cbn [length map fold_right INR] in Bv. rewrite V1, V4 in Bv.
    eapply Rle_lt_trans; [exact Bv|]. replace (2 / ((1 + (4 + 0)) / (1 + 1))) with (4 / 5) by field. set (t := exp d * (1 + u)). assert (TB : 0 <= t <= 1 + / 1000000) by (unfold t; nra). assert (I3 : / (1 - u) ^ 3 <= 1 + / 1000000). { cbn [pow]. apply Rmult_le_reg_r with ((1 - u) * ((1 - u) * ((1 - u) * 1))); [repeat apply Rmult_lt_0_compat; lra|]. rewrite Rinv_l by (apply Rgt_not_eq; repeat apply Rmult_lt_0_compat; lra). nra. }
    assert (I0 : 0 < / (1 - u) ^ 3) by (apply Rinv_0_lt_compat, pow_lt; lra). unfold l. cbn [length]. unfold Rdiv. set (i := / (1 - u) ^ 3) in *. assert (M1 : t * (4 * / 5) * i <= (1 + / 1000000) * (4 * / 5) * (1 + / 1000000)) by (apply Rmult_le_compat; nra). assert (M0 : 0 <= t * (4 * / 5) * i) by (apply Rmult_le_pos; lra). nra.
Qed.
Example C144_entropy_ex : let v := f_entropy 53 1024 nlog2 [dlit 1 2; dlit 1 2] in finite v /\ Rabs (B2R v - 1) <= / 1000000.
Proof.
  assert (VH : B2R (dlit 1 2) = / 2). { replace (dlit 1 2) with (@B754_finite 53 1024 false 4503599627370496 (-53) eq_refl : double) by (apply B2SF_inj; vm_compute; reflexivity). unfold B2R, F2R. cbn [Fnum Fexp cond_Zopp]. change (bpow radix2 (-53)) with (/ 9007199254740992). lra. }
  assert (FH : finite (dlit 1 2)) by (vm_compute; reflexivity). pose proof w53 as W. pose proof eta53 as T. set (l := [dlit 1 2; dlit 1 2]).
  destruct (C144_entropy 53 1024 lib_size nlog2 (roundoff 53) l) as [F [_ E]]; [cbn; lia|cbn; lia|repeat constructor; exact FH|intros x [<-|[<-|[]]]; rewrite VH; lra|lra|exact nlog2_within|]. split; [exact F|].
  assert (H1 : entropy_of 53 1024 l = 1). { unfold entropy_of, sum_of, l. cbn [map fold_right length INR]. rewrite VH. unfold lg2. rewrite ln_Rinv by lra. replace (1 + 1) with 2 by ring. pose proof ln2_half. field. lra. }
  cbv zeta in E. rewrite H1 in E. eapply Rle_trans; [exact E|]. unfold l. cbn [length INR]. set (u := roundoff 53) in *. set (eta := smallest 53 1024) in *. clearbody u eta. clear -W T.
  assert (I : 0 < / (1 - u) <= 1 + / 100000000000000). { split; [apply Rinv_0_lt_compat; lra|]. apply Rmult_le_reg_r with (1 - u); [lra|]. rewrite Rinv_l by lra. nra. } unfold Rdiv. set (i := / (1 - u)) in *.
  assert (P4 : (1 + u) ^ (2 + 2) <= 1 + / 1000000000000). { cbn [pow Nat.add]. assert (Q : (1 + u) * (1 + u) <= 1 + 3 * u) by nra. assert ((1 + u) * ((1 + u) * ((1 + u) * ((1 + u) * 1))) = ((1 + u) * (1 + u)) * ((1 + u) * (1 + u))) by ring. nra. }
  assert (P3 : 0 <= (1 + u) ^ (2 + 1) <= 2). { split; [apply pow_le; lra|]. apply Rle_trans with ((1 + / 100) ^ (2 + 1)); [apply pow_incr; lra|cbn; lra]. } assert (P40 : 0 <= (1 + u) ^ (2 + 2)) by (apply pow_le; lra).
  assert (M1 : (1 + u) * i <= 1 + / 10000000000000) by nra. assert (M10 : 0 <= (1 + u) * i) by (apply Rmult_le_pos; lra). assert (M2 : (1 + u) ^ (2 + 2) * ((1 + u) * i) <= (1 + / 1000000000000) * (1 + / 10000000000000)) by (apply Rmult_le_compat; lra).
  assert (M3 : (1 + 1) * (1 + u) ^ (2 + 1) * i * (eta * / 2) <= (1 + 1) * 2 * (1 + / 100000000000000) * (/ 1000000000000000 * / 2)). { apply Rmult_le_compat; [repeat apply Rmult_le_pos; lra|lra| |lra]. apply Rmult_le_compat; [repeat apply Rmult_le_pos; lra|lra| |lra]. lra. }
  lra.
Qed.
Example C144_spread_ex : let l := [dbl 1; dbl 1] in finite (f_spread 53 1024 l) /\ 0 < total l /\ (1 + roundoff 53) ^ length l * total l < IZR (2 ^ 1024) /\ Rabs (B2R (f_spread 53 1024 l) - / 2) = 0.
Proof.
  destruct (dbl_val 1 ltac:(lia)) as [_ V1]. pose proof w53 as W. cbv zeta. split; [vm_compute; reflexivity|]. unfold total. cbn [map fold_right length pow]. rewrite V1. split; [lra|]. split.
  - apply Rlt_le_trans with (IZR (2 ^ 3)); [cbn; nra|]. apply IZR_le. apply Z.pow_le_mono_r; lia.
  - replace (f_spread 53 1024 [dbl 1; dbl 1]) with (@B754_finite 53 1024 false 4503599627370496 (-53) eq_refl : double) by (apply B2SF_inj; vm_compute; reflexivity). unfold B2R, F2R. cbn [Fnum Fexp cond_Zopp]. change (bpow radix2 (-53)) with (/ 9007199254740992). rewrite <- Rabs_R0. f_equal. lra.
Qed.
Example C144_kurtosis_ex : let v := f_kurtosis 53 1024 [dbl 0; dbl 2] in finite v /\ B2R v <= 1 + / 1000000.
Proof.
  destruct (dbl_val 0 ltac:(lia)) as [F0 V0]. destruct (dbl_val 2 ltac:(lia)) as [F2 V2]. destruct (dbl_val 1 ltac:(lia)) as [F1 V1]. destruct (dbl_val (-1) ltac:(lia)) as [Fm Vm]. pose proof w53 as W. set (l := [dbl 0; dbl 2]).
  assert (M : f_mean 53 1024 l = dbl 1) by (apply B2SF_inj; vm_compute; reflexivity). assert (D0 : fsub 53 1024 (dbl 0) (dbl 1) = dbl (-1)) by (apply B2SF_inj; vm_compute; reflexivity). assert (D2 : fsub 53 1024 (dbl 2) (dbl 1) = dbl 1) by (apply B2SF_inj; vm_compute; reflexivity).
  destruct (C144_kurtosis 53 1024 lib_size 0 l) as [_ [F [_ B]]]; [lia|lia|discriminate|cbn; lia|rewrite M; exact F1| | |].
  - rewrite M. intros x [<-|[<-|[]]]; [rewrite D0, Vm, Rabs_left by lra|rewrite D2, V1, Rabs_pos_eq by lra]; (split; [assumption|]; split; [assumption|]; right; cbn; lra).
  - exists (dbl 0). split; [left; reflexivity|]. rewrite M, D0, Vm. lra.
  - split; [exact F|]. rewrite M in B. unfold quads, sum_of, l in B. cbn [map fold_right length INR] in B. rewrite V0, V1, V2 in B. match type of B with _ <= _ * ?k => replace k with 1 in B by field end. eapply Rle_trans; [exact B|]. rewrite Rmult_1_r. cbn [Nat.add Nat.mul]. set (u := roundoff 53) in *. clearbody u.
    assert (U : (1 + u) ^ 11 <= 1 + / 10000000). { apply Rle_trans with ((1 + / 1000000000) ^ 11); [apply pow_incr; lra|cbn [pow]; lra]. } assert (D : 1 - / 10000000 <= (1 - u) ^ 13). { apply Rle_trans with ((1 - / 1000000000) ^ 13); [cbn [pow]; lra|apply pow_incr; lra]. } assert (U0 : 0 <= (1 + u) ^ 11) by (apply pow_le; lra).
    unfold Rdiv. apply Rle_trans with ((1 + / 10000000) * / (1 - / 10000000)); [|lra]. apply Rmult_le_compat; try lra; [left; apply Rinv_0_lt_compat; lra|apply Rinv_le_contravar; lra].
Qed.
Example C144_silence_ex : f_silence 53 1024 [dbl 0; dbl 0] (dlit 1 1000) = true /\ f_silence 53 1024 [dbl 1; dbl (-1)] (dlit 1 1000) = false /\ finite (f_power 53 1024 [dbl 1; dbl (-1)]).
Proof. repeat split; vm_compute; reflexivity. Qed.
Print Assumptions C144_geometric_mean.
Print Assumptions C144_geometric_mean_zero.
Print Assumptions C144_geometric_mean_nan.
Print Assumptions C144_silence.
Print Assumptions C144_never_silent.
Print Assumptions C144_flatness.
Print Assumptions C144_entropy.
Print Assumptions C144_entropy_zero_actual.
Print Assumptions C144_entropy_single_actual.
Print Assumptions C144_loudness.
Print Assumptions C144_spread.
Print Assumptions C144_kurtosis.
Print Assumptions C144_entropy_refuted.
Print Assumptions C144_kurtosis_refuted.
