(** C146: the spectral slope and the spectral variation in floating point. *)
From Coq Require Import ZArith Reals List Bool Lia Lra Psatz.
From Flocq Require Import Core BinarySingleNaN Relative.
From Verif Require Import Base FloatModel FloatSpec FloatProofs FloatProps FloatOrderProps FloatEnergyProps FloatWaveModel FloatWaveProps FloatNumModel FloatFeatModel FloatFeatProps FloatCentroidProps FloatCosineModel FloatCosineProps FloatDesignProps FloatDecibelProps FloatDiffModel FloatDiffProps FloatScaleModel FloatScaleProps FloatShapeModel FloatShapeProps FloatSpaceProps FloatErbProps FloatSkewModel FloatSkewProps FloatSlopeModel FeatProps.
Import ListNotations.
Local Open Scope R_scope.

Section Format.
Context (prec emax : Z) {Hprec : Prec_gt_0 prec} {Hmax : Prec_lt_emax prec emax}.
Notation fl := (binary_float prec emax).
Notation rnd := (round radix2 (FLT_exp (3 - emax - prec) prec) ZnearestE).
Notation val := (@B2R prec emax).
Notation add := (fadd prec emax).
Notation sub := (fsub prec emax).
Notation mul := (fmul prec emax).
Notation div := (fdiv prec emax).
Notation zero := (fzero prec emax).
Notation u := (roundoff prec).
Hypothesis Sizes : (24 <= prec <= 53)%Z /\ (128 <= emax <= 1024)%Z.

(** [x] is the positive [y] up to [k] roundings, each in the numerator or in the denominator. *)
Definition grow : R := (1 + u) / (1 - u).
Definition close (k : nat) (x y : R) : Prop := 0 < y /\ y / grow ^ k <= x <= y * grow ^ k.

Lemma grow_ge : 1 <= grow /\ 1 + u <= grow /\ / grow <= 1 - u.
Proof.
  pose proof (u_tiny prec emax Sizes) as U. unfold grow. assert (A : 1 + u <= (1 + u) / (1 - u)).
  { apply (Rmult_le_reg_r (1 - u)); [lra|]. unfold Rdiv. rewrite Rmult_assoc, Rinv_l by lra. nra. }
  split; [lra|]. split; [exact A|]. replace (/ ((1 + u) / (1 - u))) with ((1 - u) / (1 + u)) by (field; lra).
  apply (Rmult_le_reg_r (1 + u)); [lra|]. unfold Rdiv. rewrite Rmult_assoc, Rinv_l by lra. nra.
Qed.
Lemma grow_pos k : 0 < grow ^ k /\ 1 <= grow ^ k.
Proof. pose proof grow_ge as G. split; [apply pow_lt; lra|apply pow_R1_Rle; lra]. Qed.
Lemma close_pos k x y : close k x y -> 0 < x.
Proof. intros [P [A _]]. destruct (grow_pos k) as [G _]. assert (0 < y / grow ^ k) by (apply Rdiv_lt_0_compat; lra). lra. Qed.
Lemma close_refl x : 0 < x -> close 0 x x.
Proof. intros P. split; [exact P|]. cbn. lra. Qed.
Lemma close_trans j k x y z : close j x y -> close k y z -> close (j + k) x z.
Proof.
  intros [_ [A B]] [P [C D]]. destruct (grow_pos j) as [Gj _]. destruct (grow_pos k) as [Gk _]. split; [exact P|]. rewrite pow_add. split.
  - eapply Rle_trans; [|exact A]. replace (z / (grow ^ j * grow ^ k)) with (z / grow ^ k / grow ^ j) by (field; split; lra). unfold Rdiv at 1 3. apply Rmult_le_compat_r; [left; apply Rinv_0_lt_compat; lra|exact C].
  - eapply Rle_trans; [exact B|]. replace (z * (grow ^ j * grow ^ k)) with (z * grow ^ k * grow ^ j) by ring. apply Rmult_le_compat_r; lra.
Qed.
Lemma close_mul j k x y x' y' : close j x x' -> close k y y' -> close (j + k) (x * y) (x' * y').
Proof.
  intros HX HY. pose proof (close_pos _ _ _ HX) as PX. pose proof (close_pos _ _ _ HY) as PY. destruct HX as [P1 [A B]]. destruct HY as [P2 [C D]]. destruct (grow_pos j) as [Gj _]. destruct (grow_pos k) as [Gk _].
  split; [apply Rmult_lt_0_compat; lra|]. rewrite pow_add. split.
  - replace (x' * y' / (grow ^ j * grow ^ k)) with ((x' / grow ^ j) * (y' / grow ^ k)) by (field; split; lra). apply Rmult_le_compat; try lra; left; apply Rdiv_lt_0_compat; lra.
  - replace (x' * y' * (grow ^ j * grow ^ k)) with ((x' * grow ^ j) * (y' * grow ^ k)) by ring. apply Rmult_le_compat; lra.
Qed.
Lemma close_inv k x y : close k x y -> close k (/ x) (/ y).
Proof.
  intros H. pose proof (close_pos _ _ _ H) as PX. destruct H as [P [A B]]. destruct (grow_pos k) as [G _]. split; [apply Rinv_0_lt_compat; lra|]. split.
  - replace (/ y / grow ^ k) with (/ (y * grow ^ k)) by (field; split; lra). apply Rinv_le_contravar; lra.
  - replace (/ y * grow ^ k) with (/ (y / grow ^ k)) by (field; split; lra). apply Rinv_le_contravar; [apply Rdiv_lt_0_compat; lra|exact A].
Qed.
Lemma close_sqrt k x y : close k x y -> close k (sqrt x) (sqrt y).
Proof.
  intros H. pose proof (close_pos _ _ _ H) as PX. destruct H as [P [A B]]. destruct (grow_pos k) as [G G1]. assert (SG : sqrt (grow ^ k) <= grow ^ k).
  { rewrite <- (sqrt_square (grow ^ k)) at 2 by lra. apply sqrt_le_1_alt. nra. }
  assert (SP : 0 < sqrt (grow ^ k)) by (apply sqrt_lt_R0; lra). assert (SY : 0 < sqrt y) by (apply sqrt_lt_R0; lra). split; [exact SY|]. split.
  - apply Rle_trans with (sqrt y / sqrt (grow ^ k)); [apply Rmult_le_compat_l; [lra|apply Rinv_le_contravar; lra]|]. rewrite <- sqrt_div by lra. apply sqrt_le_1_alt. exact A.
  - apply Rle_trans with (sqrt y * sqrt (grow ^ k)); [|apply Rmult_le_compat_l; lra]. rewrite <- sqrt_mult by lra. apply sqrt_le_1_alt. exact B.
Qed.
Lemma close_rnd x : bpow radix2 (2 - emax) <= x -> close 1 (rnd x) x.
Proof.
  intros L. pose proof (bpow_gt_0 radix2 (2 - emax)) as B. pose proof (u_tiny prec emax Sizes) as U. pose proof grow_ge as G.
  assert (R : Rabs (rnd x - x) <= u * Rabs x) by (apply (rnd_normal prec emax); rewrite Rabs_pos_eq; lra). rewrite (Rabs_pos_eq x) in R by lra. apply Rabs_le_inv in R.
  split; [lra|]. rewrite pow_1. split; [unfold Rdiv; apply Rle_trans with (x * (1 - u)); [apply Rmult_le_compat_l; lra|lra]|apply Rle_trans with (x * (1 + u)); [lra|apply Rmult_le_compat_l; lra]].
Qed.
(** Rounding keeps a value between powers of two. *)
Lemma rnd_range a b x : (2 - emax <= a)%Z -> (2 - emax <= b)%Z -> bpow radix2 a <= x <= bpow radix2 b -> bpow radix2 a <= rnd x <= bpow radix2 b.
Proof.
  intros A B [L H]. destruct Sizes as [S1 S2]. split.
  - rewrite <- (rnd_id prec emax (bpow radix2 a)) by (apply (fmt_bpow prec emax); lia). apply (rnd_le prec emax). exact L.
  - rewrite <- (rnd_id prec emax (bpow radix2 b)) by (apply (fmt_bpow prec emax); lia). apply (rnd_le prec emax). exact H.
Qed.
Lemma rnd_top a b x : (2 - emax <= a)%Z -> (2 - emax <= b <= emax - 1)%Z -> bpow radix2 a <= x <= bpow radix2 b -> Rabs (rnd x) < bpow radix2 emax.
Proof.
  intros A B H. destruct (rnd_range a b x A ltac:(lia) H) as [L T]. pose proof (bpow_gt_0 radix2 a) as P. rewrite Rabs_pos_eq by lra. eapply Rle_lt_trans; [exact T|]. apply bpow_lt. lia.
Qed.
Definition in_band (a b : Z) (x : R) : Prop := bpow radix2 a <= x <= bpow radix2 b.
Lemma band_pos a b x : in_band a b x -> 0 < x.
Proof. intros [L _]. pose proof (bpow_gt_0 radix2 a). lra. Qed.
Lemma band_mul a b c d x y : in_band a b x -> in_band c d y -> in_band (a + c) (b + d) (x * y).
Proof.
  intros HX HY. pose proof (band_pos _ _ _ HX). pose proof (band_pos _ _ _ HY). destruct HX, HY. unfold in_band. rewrite !bpow_plus. pose proof (bpow_ge_0 radix2 a). pose proof (bpow_ge_0 radix2 c).
  split; apply Rmult_le_compat; lra.
Qed.
Lemma band_inv a b x : in_band a b x -> in_band (- b) (- a) (/ x).
Proof. intros H. pose proof (band_pos _ _ _ H). destruct H. unfold in_band. rewrite !bpow_opp. pose proof (bpow_gt_0 radix2 a). split; apply Rinv_le_contravar; lra. Qed.
Lemma mul_close a b c d x y : finite x -> finite y -> in_band a b (val x) -> in_band c d (val y) -> (2 - emax <= a + c)%Z -> (2 - emax <= b + d <= emax - 1)%Z ->
  finite (mul x y) /\ in_band (a + c) (b + d) (val (mul x y)) /\ close 1 (val (mul x y)) (val x * val y).
Proof.
  intros Fx Fy BX BY H1 H2. pose proof (band_mul _ _ _ _ _ _ BX BY) as B. pose proof (rnd_top _ _ _ H1 H2 B) as T.
  destruct (mul_cases prec emax x y Fx Fy) as [[_ [V F]]|[X _]]; [|lra]. split; [exact F|]. rewrite V. split; [apply rnd_range; [exact H1|lia|exact B]|]. apply close_rnd. eapply Rle_trans; [apply bpow_le, H1|apply B].
Qed.
Lemma div_close a b c d x y : finite x -> finite y -> in_band a b (val x) -> in_band c d (val y) -> (2 - emax <= a - d)%Z -> (2 - emax <= b - c <= emax - 1)%Z ->
  finite (div x y) /\ in_band (a - d) (b - c) (val (div x y)) /\ close 1 (val (div x y)) (val x / val y).
Proof.
  intros Fx Fy BX BY H1 H2. pose proof (band_mul _ _ _ _ _ _ BX (band_inv _ _ _ BY)) as B. change (a + - d)%Z with (a - d)%Z in B. change (b + - c)%Z with (b - c)%Z in B. pose proof (rnd_top _ _ _ H1 H2 B) as T. pose proof (band_pos _ _ _ BY) as PY.
  assert (NY : val y <> 0) by lra. destruct (div_cases prec emax x y Fx NY) as [[_ [V [F _]]]|[X _]]; [|unfold Rdiv in X; lra]. split; [exact F|]. rewrite V. split; [apply rnd_range; [exact H1|lia|exact B]|]. apply close_rnd. eapply Rle_trans; [apply bpow_le, H1|apply B].
Qed.
Lemma sqrt_close a x : (2 - emax <= - a)%Z -> (2 - emax <= a)%Z -> finite x -> in_band (- a + - a) (a + a) (val x) ->
  finite (fsqrt prec emax x) /\ in_band (- a) a (val (fsqrt prec emax x)) /\ close 1 (val (fsqrt prec emax x)) (sqrt (val x)).
Proof.
  intros H1 H2 F B. pose proof (band_pos _ _ _ B) as P. assert (NN : 0 <= val x) by lra. destruct (sqrt_nn prec emax x (nn_fin prec emax x F NN)) as [_ Q]. destruct (Q F) as [Fs V]. split; [exact Fs|]. rewrite V.
  assert (BS : in_band (- a) a (sqrt (val x))).
  { destruct B as [L T]. rewrite bpow_plus in L, T. pose proof (bpow_ge_0 radix2 a). pose proof (bpow_ge_0 radix2 (- a)). split.
    - rewrite <- (sqrt_square (bpow radix2 (- a))) by lra. apply sqrt_le_1_alt. exact L.
    - rewrite <- (sqrt_square (bpow radix2 a)) by lra. apply sqrt_le_1_alt. exact T. }
  split; [apply rnd_range; auto|]. apply close_rnd. eapply Rle_trans; [apply bpow_le, H1|apply BS].
Qed.
Lemma sum_close l : (forall x, In x l -> 0 <= val x) -> finite (f_sum prec emax l) -> 0 < val (f_sum prec emax l) -> close (length l) (val (f_sum prec emax l)) (total l).
Proof.
  intros P F V. pose proof (u_tiny prec emax Sizes) as U. pose proof (nonneg_sum prec emax l P F) as [A B]. pose proof (nonneg_total prec emax l P) as T0. pose proof grow_ge as G.
  assert (T : 0 < total l). { destruct T0 as [T|T]; [exact T|]. rewrite <- T, Rmult_0_r in B. lra. }
  split; [exact T|]. split.
  - eapply Rle_trans; [|exact A]. unfold Rdiv. rewrite Rmult_comm. apply Rmult_le_compat_r; [lra|]. rewrite <- pow_inv. apply pow_incr. split; [left; apply Rinv_0_lt_compat; lra|lra].
  - eapply Rle_trans; [exact B|]. rewrite Rmult_comm. apply Rmult_le_compat_l; [lra|]. apply pow_incr. lra.
Qed.

(** The products that the loops add up. *)
Definition products (a b : list fl) : list fl := map (fun p => mul (fst p) (snd p)) (combine a b).
Lemma slope_loop_sums a : forall b m f mf ff, length a = length b ->
  fslope_loop prec emax a b m f mf ff = Ok (fold_left add a m, fold_left add b f, fold_left add (products a b) mf, fold_left add (products b b) ff).
Proof. induction a as [|x a IH]; intros [|y b] m f mf ff E; try discriminate E; [reflexivity|]. injection E as E. cbn [fslope_loop]. rewrite IH by exact E. reflexivity. Qed.
Lemma variation_loop_sums a : forall b s1 s2 s12, length a = length b ->
  fvariation_loop prec emax a b s1 s2 s12 = Ok (fold_left add a s1, fold_left add b s2, fold_left add (products a b) s12).
Proof. induction a as [|x a IH]; intros [|y b] s1 s2 s12 E; try discriminate E; [reflexivity|]. injection E as E. cbn [fvariation_loop]. rewrite IH by exact E. reflexivity. Qed.

(** ** Slope: one over the sum of the frequencies, whatever the magnitudes are. *)
Theorem C146_slope_actual a ms fs : (5 * a + 2 <= emax)%Z -> length ms = length fs -> (forall f, In f fs -> 0 <= val f) ->
  finite (f_sum prec emax ms) -> bpow radix2 (- a) <= val (f_sum prec emax ms) <= bpow radix2 a ->
  finite (f_sum prec emax fs) -> bpow radix2 (- a) <= val (f_sum prec emax fs) <= bpow radix2 a ->
  finite (f_sum prec emax (products ms fs)) -> finite (f_sum prec emax (products fs fs)) ->
  exists v, f_slope prec emax ms fs = Ok v /\ finite v /\ close (length fs + 5) (val v) (/ total fs).
Proof.
  intros A E P Fm Bm Ff Bf Fp Fq. destruct Sizes as [S1 S2]. assert (A0 : (0 <= a)%Z). { assert (B : bpow radix2 (- a) <= bpow radix2 a) by lra. destruct (Z_lt_le_dec a 0) as [X|X]; [|exact X]. pose proof (bpow_lt radix2 a (- a) ltac:(lia)). lra. }
  unfold f_slope. rewrite slope_loop_sums by exact E. fold (f_sum prec emax ms) (f_sum prec emax fs) (f_sum prec emax (products ms fs)) (f_sum prec emax (products fs fs)).
  set (m := f_sum prec emax ms) in *. set (f := f_sum prec emax fs) in *. set (mf := f_sum prec emax (products ms fs)) in *. set (ff := f_sum prec emax (products fs fs)) in *.
  eexists. split; [reflexivity|]. fold (in_band (- a) a (val m)) in Bm. fold (in_band (- a) a (val f)) in Bf.
  destruct (of_nat_exact prec emax 0 ltac:(cbn; lia)) as [F0 V0]. cbn [INR] in V0. assert (ZP : (0 <= 1 <= 2 ^ prec)%Z) by (split; [lia|]; change 1%Z with (2 ^ 0)%Z at 1; apply Z.pow_le_mono_r; lia).
  destruct (of_nat_exact prec emax 1 ltac:(change (Z.of_nat 1) with 1%Z; lia)) as [F1 V1]. change (of_nat prec emax 1) with (of_Z prec emax 1) in F1, V1. cbn [INR] in V1.
  assert (B1 : in_band 0 0 (val (of_Z prec emax 1))) by (rewrite V1; split; cbn; lra).
  assert (NEG : forall s p, finite s -> finite p -> finite (sub (mul (of_nat prec emax 0) s) p) /\ val (sub (mul (of_nat prec emax 0) s) p) = - val p).
  { intros s p Fs Fpp. destruct (mul_cases prec emax _ _ F0 Fs) as [[_ [V F]]|[X _]].
    2:{ rewrite V0, Rmult_0_l, (rnd_0 prec emax), Rabs_R0 in X. pose proof (bpow_gt_0 radix2 emax). lra. }
    rewrite V0, Rmult_0_l, (rnd_0 prec emax) in V. assert (RN : rnd (val (mul (of_nat prec emax 0) s) - val p) = - val p).
    { rewrite V. replace (0 - val p) with (- val p) by ring. apply (rnd_id prec emax). apply generic_format_opp, (fmt_val prec emax). }
    destruct (sub_cases prec emax _ _ F Fpp) as [[_ [V2 F2]]|[X _]].
    - split; [exact F2|]. rewrite V2. exact RN.
    - rewrite RN, Rabs_Ropp in X. pose proof (val_bound prec emax p). lra. }
  destruct (div_close 0 0 (- a) a _ m F1 Fm B1 Bm ltac:(lia) ltac:(lia)) as [Fi [Bi Ci]]. rewrite V1 in Ci.
  destruct (mul_close _ _ _ _ f m Ff Fm Bf Bm ltac:(lia) ltac:(lia)) as [Fg [Bg Cg]].
  destruct (mul_close _ _ _ _ f f Ff Ff Bf Bf ltac:(lia) ltac:(lia)) as [Fh [Bh Ch]].
  destruct (NEG mf _ Fp Fg) as [Fn Vn]. destruct (NEG ff _ Fq Fh) as [Fd Vd].
  destruct (mul_close _ _ _ _ _ _ Fi Fg Bi Bg ltac:(lia) ltac:(lia)) as [Fk [Bk Ck]].
  set (i := div (of_Z prec emax 1) m) in *. set (g := mul f m) in *. set (h := mul f f) in *.
  set (n := sub (mul (of_nat prec emax 0) mf) g) in *. set (d := sub (mul (of_nat prec emax 0) ff) h) in *.
  assert (OP : forall x y, rnd (x * - y) = - rnd (x * y)) by (intros x y; rewrite Ropp_mult_distr_r_reverse; apply (rnd_opp prec emax)).
  assert (TK : Rabs (rnd (val i * val g)) < bpow radix2 emax) by (apply (rnd_top (0 - a + (- a + - a)) (0 - - a + (a + a))); [lia|lia|apply band_mul; auto]).
  assert (NK : finite (mul i n) /\ val (mul i n) = - val (mul i g)).
  { destruct (mul_cases prec emax i n Fi Fn) as [[_ [V F]]|[X _]]; [|rewrite Vn, OP, Rabs_Ropp in X; lra]. split; [exact F|]. rewrite V, Vn, OP. destruct (mul_fin prec emax _ _ Fk) as [_ [_ V']]. rewrite V'. reflexivity. }
  destruct NK as [Fx Vx]. pose proof (band_pos _ _ _ Bh) as PH. pose proof (band_mul _ _ _ _ _ _ Bk (band_inv _ _ _ Bh)) as BQ.
  assert (EQ : val (mul i n) / val d = val (mul i g) * / val h) by (rewrite Vx, Vd; field; lra).
  assert (TQ : Rabs (rnd (val (mul i g) * / val h)) < bpow radix2 emax) by (eapply rnd_top; [| |exact BQ]; lia).
  assert (ND : val d <> 0) by (rewrite Vd; lra).
  destruct (div_cases prec emax (mul i n) d Fx ND) as [[_ [V [F _]]]|[X _]]; [|rewrite EQ in X; lra]. split; [exact F|]. rewrite V, EQ.
  assert (CR : close 1 (rnd (val (mul i g) * / val h)) (val (mul i g) * / val h)) by (apply close_rnd; eapply Rle_trans; [apply bpow_le|apply BQ]; lia).
  pose proof (band_pos _ _ _ Bm) as PM. pose proof (band_pos _ _ _ Bf) as PF.
  pose proof (close_trans _ _ _ _ _ Ck (close_mul _ _ _ _ _ _ Ci Cg)) as C1. pose proof (close_trans _ _ _ _ _ CR (close_mul _ _ _ _ _ _ C1 (close_inv _ _ _ Ch))) as C2.
  replace (1 / val m * (val f * val m) * / (val f * val f)) with (/ val f) in C2 by (field; split; lra).
  pose proof (close_trans _ _ _ _ _ C2 (close_inv _ _ _ (sum_close fs P Ff PF))) as C3. replace (length fs + 5)%nat with (1 + (1 + (1 + 1) + 1) + length fs)%nat by lia. exact C3.
Qed.

(** ** Variation: the square root of the ratio of the sums, taken from one. *)
Theorem C146_variation_actual a xs ys : (4 * a + 2 <= emax)%Z -> length xs = length ys -> (forall x, In x xs -> 0 <= val x) -> (forall y, In y ys -> 0 <= val y) ->
  finite (f_sum prec emax xs) -> bpow radix2 (- (2 * a)) <= val (f_sum prec emax xs) <= bpow radix2 (2 * a) ->
  finite (f_sum prec emax ys) -> bpow radix2 (- (2 * a)) <= val (f_sum prec emax ys) <= bpow radix2 (2 * a) ->
  exists v, f_variation prec emax xs ys = Ok v /\ finite v /\
    let Q := sqrt (total ys / total xs) in Rabs (val v - (1 - Q)) <= u + ((1 + u) * grow ^ (3 * length xs + 4) - 1) * Q.
Proof.
  intros A E P1 P2 Fx Bx Fy By. destruct Sizes as [S1 S2]. assert (A0 : (0 <= a)%Z). { assert (B : bpow radix2 (- (2 * a)) <= bpow radix2 (2 * a)) by lra. destruct (Z_lt_le_dec a 0) as [X|X]; [|exact X]. pose proof (bpow_lt radix2 (2 * a) (- (2 * a)) ltac:(lia)). lra. }
  unfold f_variation. rewrite variation_loop_sums by exact E. fold (f_sum prec emax xs) (f_sum prec emax ys). pose proof (u_tiny prec emax Sizes) as U.
  set (s := f_sum prec emax xs) in *. set (t := f_sum prec emax ys) in *. eexists. split; [reflexivity|].
  replace (- (2 * a))%Z with (- a + - a)%Z in * by ring. replace (2 * a)%Z with (a + a)%Z in * by ring. fold (in_band (- a + - a) (a + a) (val s)) in Bx. fold (in_band (- a + - a) (a + a) (val t)) in By.
  destruct (sqrt_close a s ltac:(lia) ltac:(lia) Fx Bx) as [Fr [Br Cr]]. destruct (sqrt_close a t ltac:(lia) ltac:(lia) Fy By) as [Fq [Bq Cq]].
  destruct (mul_close _ _ _ _ _ _ Fr Fq Br Bq ltac:(lia) ltac:(lia)) as [Fp [Bp Cp]]. destruct (div_close _ _ _ _ _ _ Fy Fp By Bp ltac:(lia) ltac:(lia)) as [Fd [Bd Cd]].
  pose proof (band_pos _ _ _ Bx) as PX. pose proof (band_pos _ _ _ By) as PY. pose proof (sum_close xs P1 Fx PX) as CX. pose proof (sum_close ys P2 Fy PY) as CY. fold s in CX. fold t in CY. pose proof CX as [TX _]. pose proof CY as [TY _].
  pose proof (close_trans _ _ _ _ _ Cr (close_sqrt _ _ _ CX)) as C1. pose proof (close_trans _ _ _ _ _ Cq (close_sqrt _ _ _ CY)) as C2.
  pose proof (close_trans _ _ _ _ _ Cp (close_mul _ _ _ _ _ _ C1 C2)) as C3. pose proof (close_trans _ _ _ _ _ Cd (close_mul _ _ _ _ _ _ CY (close_inv _ _ _ C3))) as C4.
  rewrite <- E in C4. replace (1 + (length xs + (1 + (1 + length xs + (1 + length xs)))))%nat with (3 * length xs + 4)%nat in C4 by lia.
  set (k := (3 * length xs + 4)%nat) in *. set (d := div t (mul (fsqrt prec emax s) (fsqrt prec emax t))) in *.
  assert (EQ : total ys * / (sqrt (total xs) * sqrt (total ys)) = sqrt (total ys / total xs)).
  { rewrite sqrt_div by lra. pose proof (sqrt_lt_R0 _ TX) as X1. pose proof (sqrt_lt_R0 _ TY) as X2. rewrite <- (sqrt_sqrt (total ys)) at 1 by lra. field. split; lra. }
  rewrite EQ in C4. set (Q := sqrt (total ys / total xs)) in *. assert (PD : 0 < val d) by exact (band_pos _ _ _ Bd).
  assert (ZP : (0 <= 1 <= 2 ^ prec)%Z) by (split; [lia|]; change 1%Z with (2 ^ 0)%Z at 1; apply Z.pow_le_mono_r; lia).
  destruct (of_nat_exact prec emax 1 ltac:(change (Z.of_nat 1) with 1%Z; lia)) as [F1 V1]. change (of_nat prec emax 1) with (of_Z prec emax 1) in F1, V1. cbn [INR] in V1.
  assert (FD : generic_format radix2 (FLT_exp (3 - emax - prec) prec) (- val d)) by (apply generic_format_opp, (fmt_val prec emax)).
  assert (G1 : generic_format radix2 (FLT_exp (3 - emax - prec) prec) 1) by (rewrite <- V1; apply (fmt_val prec emax)).
  pose proof (add_err prec emax 1 (- val d) G1 FD) as ER. rewrite <- (roundoff_u prec) in ER. change (1 + - val d) with (1 - val d) in ER.
  assert (AB : Rabs (1 - val d) <= 1 + val d) by (apply Rabs_le; lra).
  assert (TOP : Rabs (rnd (1 - val d)) < bpow radix2 emax).
  { destruct Bd as [_ Bd]. assert (M : Rabs (rnd (1 - val d)) <= (1 + u) * (1 + val d)).
    { replace (rnd (1 - val d)) with ((rnd (1 - val d) - (1 - val d)) + (1 - val d)) by ring. eapply Rle_trans; [apply Rabs_triang|]. assert (u * Rabs (1 - val d) <= u * (1 + val d)) by (apply Rmult_le_compat_l; lra). lra. }
    assert (D4 : val d <= bpow radix2 (emax - 2)) by (eapply Rle_trans; [exact Bd|]; apply bpow_le; lia). assert (O1 : 1 <= bpow radix2 (emax - 2)) by (change 1 with (bpow radix2 0); apply bpow_le; lia).
    assert (D5 : bpow radix2 emax = 4 * bpow radix2 (emax - 2)) by (replace emax with (2 + (emax - 2))%Z at 1 by ring; rewrite bpow_plus; change (bpow radix2 2) with 4; reflexivity).
    eapply Rle_lt_trans; [exact M|]. rewrite D5. assert (u * (1 + val d) <= / 16777216 * (1 + val d)) by (apply Rmult_le_compat_r; lra). lra. }
  destruct (sub_cases prec emax (of_Z prec emax 1) d F1 Fd) as [[_ [V F]]|[X _]]; [|rewrite V1 in X; lra]. split; [exact F|]. cbv zeta. rewrite V, V1.
  destruct C4 as [PQ [L H]]. destruct (grow_pos k) as [Gk G1k].
  assert (DQ : Rabs (val d - Q) <= (grow ^ k - 1) * Q).
  { apply Rabs_le. split; [|lra]. assert (L2 : Q * (2 - grow ^ k) <= Q / grow ^ k).
    { unfold Rdiv. apply Rmult_le_compat_l; [lra|]. apply (Rmult_le_reg_r (grow ^ k)); [lra|]. rewrite Rinv_l by lra. nra. }
    lra. }
  replace (rnd (1 - val d) - (1 - Q)) with ((rnd (1 - val d) - (1 - val d)) - (val d - Q)) by ring. eapply Rle_trans; [apply Rabs_triang|]. rewrite Rabs_Ropp.
  assert (u * Rabs (1 - val d) <= u * (1 + Q * grow ^ k)) by (apply Rmult_le_compat_l; lra). lra.
Qed.

(** Too few frequencies, or too short a second spectrum, are read past their end. *)
Theorem C146_short a b : (length b < length a)%nat -> f_slope prec emax a b = UB /\ f_variation prec emax a b = UB.
Proof.
  assert (G1 : forall a b m f mf ff, (length b < length a)%nat -> fslope_loop prec emax a b m f mf ff = UB).
  { clear. induction a as [|x a IH]; intros [|y b] m f mf ff L; cbn [length] in L; try lia; [reflexivity|]. cbn [fslope_loop]. apply IH. lia. }
  assert (G2 : forall a b s1 s2 s12, (length b < length a)%nat -> fvariation_loop prec emax a b s1 s2 s12 = UB).
  { clear. induction a as [|x a IH]; intros [|y b] s1 s2 s12 L; cbn [length] in L; try lia; [reflexivity|]. cbn [fvariation_loop]. apply IH. lia. }
  intros L. unfold f_slope, f_variation. rewrite G1, G2 by exact L. auto.
Qed.
End Format.

(** A spectrum that falls with frequency gets a positive slope. *)
Theorem C146_slope_refuted : ~ (forall (ms fs : list double) v, length ms = length fs -> all_finite ms -> all_finite fs ->
  f_slope 53 1024 ms fs = Ok v -> regression_slope (map B2R ms) (map B2R fs) < 0 -> B2R v <= 0).
Proof.
  intros H. destruct (dbl_val 0 ltac:(lia)) as [F0 V0]. destruct (dbl_val 1 ltac:(lia)) as [F1 V1]. destruct (dbl_val 2 ltac:(lia)) as [F2 V2].
  assert (E : exists m e B, f_slope 53 1024 [dbl 1; dbl 0] [dbl 1; dbl 2] = Ok (B754_finite false m e B)).
  { destruct (f_slope 53 1024 [dbl 1; dbl 0] [dbl 1; dbl 2]) as [v| |] eqn:E.
    - assert (S : match f_slope 53 1024 [dbl 1; dbl 0] [dbl 1; dbl 2] with Ok (B754_finite false _ _ _) => true | _ => false end = true) by (vm_compute; reflexivity).
      rewrite E in S. destruct v as [|? |  |[] m e B]; try discriminate S. exists m, e, B. reflexivity.
    - exfalso. assert (S : match f_slope 53 1024 [dbl 1; dbl 0] [dbl 1; dbl 2] with UB => false | _ => true end = true) by (vm_compute; reflexivity). rewrite E in S. discriminate S.
    - exfalso. assert (S : match f_slope 53 1024 [dbl 1; dbl 0] [dbl 1; dbl 2] with NonFinite => false | _ => true end = true) by (vm_compute; reflexivity). rewrite E in S. discriminate S. }
  destruct E as [m [e [B E]]]. specialize (H [dbl 1; dbl 0] [dbl 1; dbl 2] (B754_finite false m e B) eq_refl).
  assert (P : 0 < B2R (B754_finite false m e B : double)) by (apply (F2R_gt_0 radix2 (Float radix2 (Zpos m) e)); reflexivity).
  apply (Rlt_irrefl 0). eapply Rlt_le_trans; [exact P|]. apply H.
  - repeat constructor; assumption.
  - repeat constructor; assumption.
  - exact E.
  - cbn [map]. rewrite V0, V1, V2. unfold regression_slope, StatSpec.sumsq. cbn [RealBase.rsum StatSpec.rsum2 length map INR]. lra.
Qed.
(** Two spectra with nothing in common have variation 0. *)
Theorem C146_variation_refuted : ~ (forall (xs ys : list double) v, length xs = length ys -> 0 < total xs -> 0 < total ys ->
  (forall k, B2R (nth k xs (dbl 0)) * B2R (nth k ys (dbl 0)) = 0) -> f_variation 53 1024 xs ys = Ok v -> B2R v <> 0).
Proof.
  intros H. destruct (dbl_val 0 ltac:(lia)) as [F0 V0]. destruct (dbl_val 1 ltac:(lia)) as [F1 V1].
  apply (H [dbl 1; dbl 0] [dbl 0; dbl 1] (B754_zero false) eq_refl).
  - unfold total. cbn [map fold_right]. rewrite V0, V1. lra.
  - unfold total. cbn [map fold_right]. rewrite V0, V1. lra.
  - intros [|[|[|k]]]; cbn [nth]; rewrite ?V0, ?V1; ring.
  - vm_compute. reflexivity.
  - reflexivity.
Qed.

(** ** Satisfied hypotheses: a flat spectrum over three bins, and two spectra of different sums. *)
Example C146_slope_ex : exists v, f_slope 53 1024 [dbl 1; dbl 1; dbl 1] [dbl 0; dbl 1; dbl 2] = Ok v /\ finite v /\ close 53 8 (B2R v) (/ 3).
Proof.
  destruct (dbl_val 0 ltac:(lia)) as [F0 V0]. destruct (dbl_val 1 ltac:(lia)) as [F1 V1]. destruct (dbl_val 2 ltac:(lia)) as [F2 V2]. destruct (dbl_val 3 ltac:(lia)) as [F3 V3].
  set (ms := [dbl 1; dbl 1; dbl 1]). set (fs := [dbl 0; dbl 1; dbl 2]).
  assert (EM : f_sum 53 1024 ms = dbl 3) by (apply B2SF_inj; vm_compute; reflexivity). assert (EF : f_sum 53 1024 fs = dbl 3) by (apply B2SF_inj; vm_compute; reflexivity).
  assert (T : total fs = 3) by (unfold total, fs; cbn [map fold_right]; rewrite V0, V1, V2; lra).
  assert (B3 : bpow radix2 (- (2)) <= 3 <= bpow radix2 2) by (cbn; lra).
  destruct (C146_slope_actual 53 1024 lib_size 2 ms fs) as [v [E [F C]]].
  - lia.
  - reflexivity.
  - intros x I. destruct I as [X|[X|[X|[]]]]; rewrite <- X; rewrite ?V0, ?V1, ?V2; lra.
  - rewrite EM. exact F3.
  - rewrite EM, V3. exact B3.
  - rewrite EF. exact F3.
  - rewrite EF, V3. exact B3.
  - vm_compute. reflexivity.
  - vm_compute. reflexivity.
  - exists v. split; [exact E|]. split; [exact F|]. rewrite T in C. exact C.
Qed.
Example C146_variation_ex : exists v, f_variation 53 1024 [dbl 1; dbl 3] [dbl 1; dbl 0] = Ok v /\ finite v /\ Rabs (B2R v - / 2) <= / 1000000.
Proof.
  destruct (dbl_val 0 ltac:(lia)) as [F0 V0]. destruct (dbl_val 1 ltac:(lia)) as [F1 V1]. destruct (dbl_val 3 ltac:(lia)) as [F3 V3]. destruct (dbl_val 4 ltac:(lia)) as [F4 V4].
  set (xs := [dbl 1; dbl 3]). set (ys := [dbl 1; dbl 0]).
  assert (EX : f_sum 53 1024 xs = dbl 4) by (apply B2SF_inj; vm_compute; reflexivity). assert (EY : f_sum 53 1024 ys = dbl 1) by (apply B2SF_inj; vm_compute; reflexivity).
  assert (TX : total xs = 4) by (unfold total, xs; cbn [map fold_right]; rewrite V1, V3; lra). assert (TY : total ys = 1) by (unfold total, ys; cbn [map fold_right]; rewrite V0, V1; lra).
  destruct (C146_variation_actual 53 1024 lib_size 2 xs ys) as [v [E [F C]]].
  - lia.
  - reflexivity.
  - intros x I. destruct I as [X|[X|[]]]; rewrite <- X; rewrite ?V1, ?V3; lra.
  - intros x I. destruct I as [X|[X|[]]]; rewrite <- X; rewrite ?V1, ?V0; lra.
  - rewrite EX. exact F4.
  - rewrite EX, V4. cbn; lra.
  - rewrite EY. exact F1.
  - rewrite EY, V1. cbn; lra.
  - exists v. split; [exact E|]. split; [exact F|]. cbv zeta in C. rewrite TX, TY in C.
    replace (sqrt (1 / 4)) with (/ 2) in C.
    2:{ replace (1 / 4) with (/ 2 * / 2) by field. rewrite sqrt_square; lra. }
    replace (1 - / 2) with (/ 2) in C by field. eapply Rle_trans; [exact C|]. change (length xs) with 2%nat. change (3 * 2 + 4)%nat with 10%nat.
    pose proof (u_tiny 53 1024 lib_size) as U. assert (U2 : roundoff 53 <= / 1000000000000) by (unfold roundoff; change (2 ^ 53)%Z with 9007199254740992%Z; lra). set (w := roundoff 53) in *.
    assert (G : grow 53 <= 1 + 3 * w). { unfold grow. fold w. apply (Rmult_le_reg_r (1 - w)); [lra|]. unfold Rdiv. rewrite Rmult_assoc, Rinv_l by lra. nra. }
    assert (G0 : 0 <= grow 53) by (pose proof (grow_ge 53 1024 lib_size); lra).
    assert (G10 : grow 53 ^ 10 <= (1 + / 100000000000) ^ 10) by (apply pow_incr; lra). assert (K : (1 + / 100000000000) ^ 10 <= 1 + / 1000000000) by (cbn [pow]; lra).
    assert (M : (1 + w) * grow 53 ^ 10 <= (1 + / 1000000000000) * (1 + / 1000000000)) by (apply Rmult_le_compat; try lra; apply pow_le; lra). lra.
Qed.
Print Assumptions C146_slope_actual.
Print Assumptions C146_variation_actual.
Print Assumptions C146_short.
Print Assumptions C146_slope_refuted.
Print Assumptions C146_variation_refuted.
