(** The accumulated clock of the oscillators in IEEE formats. *)
From Coq Require Import ZArith Reals List Bool Lia Lra Psatz.
From Flocq Require Import Core BinarySingleNaN.
From Verif Require Import Base FloatModel FloatSpec FloatProofs FloatProps FloatOrderProps FloatEnergyProps.
Import ListNotations.
Local Open Scope R_scope.

Section Format.
Context (prec emax : Z) {Hprec : Prec_gt_0 prec} {Hmax : Prec_lt_emax prec emax}.
Notation fl := (binary_float prec emax).
Notation rnd := (round radix2 (FLT_exp (3 - emax - prec) prec) ZnearestE).
Notation fmt := (generic_format radix2 (FLT_exp (3 - emax - prec) prec)).
Notation val := (@B2R prec emax).
Notation fin := (@is_finite prec emax).
Notation u := (roundoff prec).
Notation time := (f_time prec emax).

Lemma fmt_float x : fmt x -> exists m e, x = IZR m * bpow radix2 e /\ (Z.abs m < 2 ^ prec)%Z /\ (3 - emax - prec <= e)%Z.
Proof.
  intros H. apply FLT_format_generic in H; [|exact Hprec]. destruct H as [[m e] E1 E2 E3]. exists m, e. cbn in E2, E3. split; [exact E1|]. split; [exact E2|exact E3].
Qed.
Lemma multiple x k : fmt x -> (k <= 3 - emax - prec)%Z \/ bpow radix2 (prec + k - 1) <= Rabs x -> exists z, x = IZR z * bpow radix2 k.
Proof.
  intros H C. destruct (fmt_float x H) as [m [e [E [B L]]]]. assert (G : (k <= e)%Z).
  { destruct C as [C|C]; [lia|]. destruct (Z.le_gt_cases k e) as [|G]; auto. exfalso. rewrite E, Rabs_mult, (Rabs_right (bpow radix2 e)) in C by (apply Rle_ge, bpow_ge_0).
    assert (M : Rabs (IZR m) < bpow radix2 prec).
    { rewrite <- abs_IZR, <- IZR_Zpower by (pose proof Hprec as P; unfold Prec_gt_0 in P; lia). apply IZR_lt. exact B. }
    assert (bpow radix2 (prec + k - 1) < bpow radix2 (prec + e)) by (rewrite (bpow_plus radix2 prec e); eapply Rle_lt_trans; [exact C|]; apply Rmult_lt_compat_r; [apply bpow_gt_0|exact M]).
    apply lt_bpow in H0. lia. }
  exists (m * 2 ^ (e - k))%Z. rewrite mult_IZR. change (2 ^ (e - k))%Z with (Z.pow radix2 (e - k)). rewrite (IZR_Zpower radix2) by lia. rewrite Rmult_assoc, <- bpow_plus. rewrite E. f_equal. f_equal. lia.
Qed.
Lemma gap x y : fmt x -> fmt y -> x < y -> x + tiny prec emax <= y.
Proof.
  intros X Y L. destruct (multiple x (3 - emax - prec) X (or_introl (Z.le_refl _))) as [a ->]. destruct (multiple y (3 - emax - prec) Y (or_introl (Z.le_refl _))) as [b ->].
  fold (tiny prec emax) in *. pose proof (tiny_pos prec emax) as T. assert (A : IZR a < IZR b) by nra. apply lt_IZR in A. assert (B : IZR (a + 1) <= IZR b) by (apply IZR_le; lia). rewrite plus_IZR in B. nra.
Qed.

Lemma frozen p N : time p (S N) = time p N -> forall n, (N <= n)%nat -> time p n = time p N.
Proof.
  intros E n L. induction n as [|n IH]; [replace N with 0%nat by lia; reflexivity|].
  destruct (Nat.eq_dec N (S n)) as [->|D]; [reflexivity|]. cbn [f_time]. rewrite IH by lia. exact E.
Qed.
Lemma clock_stops p : finite p -> 0 <= val p -> exists N, time p (S N) = time p N.
Proof.
  intros F P. destruct (Req_dec (val p) 0) as [Z|Z].
  - exists 0%nat. cbn [f_time]. destruct p as [s|s| |s m e H]; try discriminate F; [destruct s; reflexivity|].
    exfalso. apply (proj2 (val_nonzero prec emax (B754_finite s m e H)) ltac:(eauto)). exact Z.
  - assert (P' : 0 < val p) by lra.
    assert (G : forall K, (exists N, time p (S N) = time p N) \/ (finite (time p K) /\ INR K * tiny prec emax <= val (time p K))).
    { induction K as [|K [IH|[Fk Vk]]]; [right; split; [reflexivity|cbn; lra]|left; exact IH|].
      destruct (add_cases prec emax (time p K) p Fk F) as [[_ [V G]]|[_ [E _]]].
      - change (fadd prec emax (time p K) p) with (time p (S K)) in V, G.
        assert (M : val (time p K) <= val (time p (S K))). { rewrite V. rewrite <- (rnd_id prec emax (val (time p K))) at 1 by apply (fmt_val prec emax). apply (rnd_le prec emax). lra. }
        destruct (Rle_lt_or_eq_dec _ _ M) as [L|L].
        + right. split; [exact G|]. pose proof (gap _ _ (fmt_val prec emax (time p K)) (fmt_val prec emax (time p (S K))) L) as Q. rewrite S_INR. lra.
        + left. exists K. destruct (Req_dec (val (time p K)) 0) as [Z0|Z0].
          * exfalso. rewrite <- L, Z0 in V. rewrite Rplus_0_l, (rnd_id prec emax) in V by apply (fmt_val prec emax). lra.
          * destruct (proj1 (val_nonzero prec emax (time p K)) (conj Fk Z0)) as [s [m [e [H Ek]]]].
            assert (Z1 : val (time p (S K)) <> 0) by (rewrite <- L; exact Z0).
            destruct (proj1 (val_nonzero prec emax (time p (S K))) (conj G Z1)) as [s' [m' [e' [H' Ek']]]].
            apply B2R_inj; [rewrite Ek'; reflexivity|rewrite Ek; reflexivity|symmetry; exact L].
      - left. exists (S K). change (fadd prec emax (time p K) p) with (time p (S K)) in E. change (time p (S (S K))) with (fadd prec emax (time p (S K)) p). rewrite E.
        destruct p as [?|?| |]; try discriminate F; reflexivity. }
    destruct (archimed (bpow radix2 emax / tiny prec emax)) as [A _]. set (K := Z.to_nat (up (bpow radix2 emax / tiny prec emax))).
    assert (T := tiny_pos prec emax). assert (E0 : 0 < bpow radix2 emax / tiny prec emax) by (apply Rdiv_lt_0_compat; [apply bpow_gt_0|exact T]).
    destruct (G K) as [H|[_ H]]; [exact H|exfalso]. pose proof (val_bound prec emax (time p K)) as B. apply Rabs_def2 in B.
    assert (I : INR K = IZR (up (bpow radix2 emax / tiny prec emax))). { unfold K. rewrite INR_IZR_INZ, Z2Nat.id; auto. apply le_IZR. lra. }
    rewrite I in H. assert (bpow radix2 emax / tiny prec emax * tiny prec emax < IZR (up (bpow radix2 emax / tiny prec emax)) * tiny prec emax) by (apply Rmult_lt_compat_r; lra).
    unfold Rdiv in H0 at 1. rewrite Rmult_assoc, Rinv_l in H0 by lra. lra.
Qed.
(** C120: whatever the rate and the format, the clock reaches a value it never leaves, so every
    oscillator, whatever its waveform as a function of the time, outputs one value forever after. *)
Theorem C120_clock_stops_actual rate : finite (f_period prec emax rate) -> 0 <= val (f_period prec emax rate) ->
  forall (A : Type) (wave : fl -> A), exists N c, forall n, (N <= n)%nat -> wave (time (f_period prec emax rate) n) = c.
Proof.
  intros F P A wave. destruct (clock_stops _ F P) as [N E]. exists N, (wave (time (f_period prec emax rate) N)). intros n L. rewrite (frozen _ N E n L). reflexivity.
Qed.
(** Before that the clock is off by a relative error growing with the number of samples. *)
Lemma time_sum p n : time p n = f_sum prec emax (repeat p n).
Proof.
  induction n as [|n IH]; [reflexivity|]. cbn [f_time]. rewrite IH. replace (S n) with (n + 1)%nat by lia. rewrite repeat_app. cbn [repeat]. symmetry. apply (sum_snoc prec emax).
Qed.
Lemma total_repeat p n : total (repeat p n) = INR n * val p /\ abs_total (repeat p n) = INR n * Rabs (val p).
Proof.
  induction n as [|n [I1 I2]]; [cbn; split; ring|]. rewrite S_INR. cbn [repeat]. unfold total, abs_total in *. cbn [map fold_right]. rewrite I1, I2. split; ring.
Qed.
Theorem C120_clock_error p n : finite (time p n) ->
  Rabs (val (time p n) - INR n * val p) <= ((1 + u) ^ (n - 1) - 1) * (INR n * Rabs (val p)).
Proof.
  intros F. rewrite time_sum in *. destruct (C115_sum_error prec emax _ F) as [_ E]. destruct (total_repeat p n) as [T1 T2]. rewrite T1, T2, repeat_length in E. exact E.
Qed.
End Format.

(** The float clock at 44100 Hz. *)
Definition period44 : float := f_period 24 128 (sgl 44100).
Notation rnd24 := (round radix2 (FLT_exp (3 - 128 - 24) 24) ZnearestE).
Lemma period44_sf : B2SF period44 = SpecFloat.S754_finite false 12466118 (-39).
Proof. vm_compute. reflexivity. Qed.
Lemma sf_val {prec emax} (x : binary_float prec emax) m e : B2SF x = SpecFloat.S754_finite false m e -> is_finite x = true /\ B2R x = IZR (Zpos m) * bpow radix2 e.
Proof. destruct x as [s|s| |s m' e' H]; intros E; try discriminate E. cbn in E. injection E as -> -> ->. split; reflexivity. Qed.
Lemma period44_val : is_finite period44 = true /\ B2R period44 = 12466118 / 549755813888.
Proof. destruct (sf_val period44 _ _ period44_sf) as [F V]. split; [exact F|]. rewrite V. cbn. lra. Qed.
Definition five12 : float := sgl 512.
Lemma five12_val : is_finite five12 = true /\ B2R five12 = 512.
Proof. destruct (sf_val five12 8388608 (-14)) as [F V]; [vm_compute; reflexivity|]. split; [exact F|]. rewrite V. cbn. lra. Qed.
Lemma five12_fixed : rnd24 (512 + B2R period44) = 512.
Proof.
  destruct five12_val as [F V]. destruct period44_val as [Fp _]. destruct (add_cases 24 128 five12 period44 F Fp) as [[_ [E _]]|[_ [E _]]].
  - rewrite V in E. rewrite <- E. destruct (sf_val (fadd 24 128 five12 period44) 8388608 (-14)) as [_ W]; [vm_compute; reflexivity|]. rewrite W. cbn. lra.
  - apply (f_equal B2SF) in E. vm_compute in E. discriminate E.
Qed.
(** One step of the clock from a time below 512 s. *)
Lemma half_ulp x : 0 <= x < 512 -> Rabs (rnd24 x - x) <= / 65536.
Proof.
  intros H. destruct (Req_dec x 0) as [->|N]; [rewrite round_0, Rminus_0_r, Rabs_R0 by auto with typeclass_instances; lra|].
  eapply Rle_trans; [apply error_le_half_ulp; auto with typeclass_instances|]. rewrite ulp_neq_0 by exact N.
  assert (M : (mag radix2 x <= 9)%Z) by (apply mag_le_bpow; [exact N|]; rewrite Rabs_right by lra; cbn; lra).
  assert (B : bpow radix2 (cexp radix2 (FLT_exp (3 - 128 - 24) 24) x) <= bpow radix2 (-15)) by (apply bpow_le; unfold cexp, FLT_exp; lia).
  change (bpow radix2 (-15)) with (/ 32768) in B. lra.
Qed.
Notation clock44 := (f_time 24 128 period44).
Lemma clock44_step n : is_finite (clock44 n) = true -> 0 <= B2R (clock44 n) <= 512 ->
  is_finite (clock44 (S n)) = true /\ B2R (clock44 (S n)) = rnd24 (B2R (clock44 n) + B2R period44) /\
  0 <= B2R (clock44 (S n)) <= 512 /\ (B2R (clock44 n) < 512 -> B2R (clock44 (S n)) = 512 \/ B2R (clock44 n) + / 262144 <= B2R (clock44 (S n))).
Proof.
  intros F B. destruct period44_val as [Fp Vp]. set (t := B2R (clock44 n)) in *.
  assert (U : 0 <= rnd24 (t + B2R period44) <= 512).
  { split; [apply (rnd_pos 24 128); rewrite Vp; lra|]. rewrite <- five12_fixed. apply (rnd_le 24 128). lra. }
  destruct (add_cases 24 128 (clock44 n) period44 F Fp) as [[_ [V G]]|[O _]].
  - change (fadd 24 128 (clock44 n) period44) with (clock44 (S n)) in V, G. split; [exact G|]. split; [exact V|]. rewrite V. fold t. split; [exact U|].
    intros L. destruct (Rlt_dec (t + B2R period44) 512) as [L1|L1].
    + right. pose proof (half_ulp (t + B2R period44) ltac:(rewrite Vp in *; lra)) as E. apply Rabs_le_inv in E. rewrite Vp in *. lra.
    + left. assert (512 <= rnd24 (t + B2R period44)); [|lra]. destruct five12_val as [_ V5]. rewrite <- V5 at 1. rewrite <- (rnd_id 24 128 (B2R five12)) by apply (fmt_val 24 128). apply (rnd_le 24 128). rewrite V5. lra.
  - exfalso. rewrite Rabs_right in O by (fold t; lra). fold t in O. assert (512 < bpow radix2 128); [|lra]. change 512 with (bpow radix2 9). apply bpow_lt. lia.
Qed.
Lemma clock44_range n : is_finite (clock44 n) = true /\ 0 <= B2R (clock44 n) <= 512 /\ (B2R (clock44 n) = 512 \/ INR n / 262144 <= B2R (clock44 n)).
Proof.
  induction n as [|n [F [B C]]]; [split; [reflexivity|]; cbn; split; [lra|right; lra]|].
  destruct (clock44_step n F B) as [G [V [B' I]]]. split; [exact G|]. split; [exact B'|]. destruct (Rlt_dec (B2R (clock44 n)) 512) as [L|L].
  - destruct (I L) as [E|E]; [left; exact E|right]. rewrite S_INR. destruct C as [C|C]; [lra|]. lra.
  - left. rewrite V. replace (B2R (clock44 n)) with 512 by lra. apply five12_fixed.
Qed.
(** A float oscillator at 44100 Hz stands still at exactly 512 seconds, within 2^27 samples. *)
Theorem C120_float_44100_stops_actual n : (2 ^ 27 <= Z.of_nat n)%Z -> finite (clock44 n) /\ B2R (clock44 n) = 512.
Proof.
  intros H. destruct (clock44_range n) as [F [B [C|C]]]; [split; auto|]. split; [exact F|]. apply IZR_le in H. rewrite <- INR_IZR_INZ in H. change (2 ^ 27)%Z with 134217728%Z in H. lra.
Qed.
(** Hence the time does not keep advancing. *)
Theorem C120_advances_refuted : ~ (forall n, lt (clock44 n) (clock44 (S n))).
Proof.
  intros H. assert (X : exists N, (2 ^ 27 <= Z.of_nat N)%Z) by (exists (Z.to_nat (2 ^ 27)); rewrite Z2Nat.id; lia). destruct X as [N L].
  destruct (C120_float_44100_stops_actual N L) as [F1 V1]. destruct (C120_float_44100_stops_actual (S N) ltac:(lia)) as [F2 V2].
  specialize (H N). apply (lt_iff 24 128) in H. destruct H as [_ [_ H]]. rewrite !level_fin in H by assumption. lra.
Qed.
(** In the second half of that time it runs fast: every sample advances the clock by 2^-15 s, not by
    1/44100 s, so every tone is more than a third sharp. *)
Theorem C120_float_44100_sharp_actual n : 256 <= B2R (clock44 n) < 512 -> B2R (clock44 (S n)) = B2R (clock44 n) + / 32768 /\ / 32768 > 134/100 * / 44100.
Proof.
  intros H. split; [|lra]. destruct (clock44_range n) as [F [B _]]. destruct (clock44_step n F B) as [_ [V [U _]]]. destruct period44_val as [_ Vp]. set (t := B2R (clock44 n)) in *.
  assert (Mt : exists a, t = IZR a * / 32768).
  { destruct (multiple 24 128 t (-15) (fmt_val 24 128 _)) as [z Hz]; [right; rewrite Rabs_right by lra; cbn; lra|]. exists z. rewrite Hz. cbn. reflexivity. }
  destruct Mt as [a Ha]. assert (A1 : (a <= 512 * 32768 - 1)%Z).
  { destruct H as [_ H]. rewrite Ha in H. assert (IZR a < IZR (512 * 32768)) by (rewrite mult_IZR; lra). apply lt_IZR in H0. lia. }
  apply IZR_le in A1. rewrite minus_IZR, mult_IZR in A1.
  assert (L : t + B2R period44 < 512) by (rewrite Vp; lra). pose proof (half_ulp (t + B2R period44) ltac:(rewrite Vp in *; lra)) as E. apply Rabs_le_inv in E. rewrite <- V in E.
  set (w := B2R (clock44 (S n))) in *. assert (Mw : exists b, w = IZR b * / 32768).
  { destruct (multiple 24 128 w (-15) (fmt_val 24 128 _)) as [z Hz]; [right; rewrite Rabs_right by lra; cbn; rewrite Vp in *; lra|]. exists z. rewrite Hz. cbn. reflexivity. }
  destruct Mw as [b Hb]. rewrite Vp in *. rewrite Ha, Hb in *. assert (D : (b = a + 1)%Z); [|subst b; rewrite plus_IZR; lra].
  assert (D1 : IZR a < IZR b) by lra. assert (D2 : IZR b < IZR (a + 2)) by (rewrite plus_IZR; lra). apply lt_IZR in D1, D2. lia.
Qed.
Example C120_example : finite (f_period 53 1024 (dbl 48000)) /\ le (dbl 0) (f_period 53 1024 (dbl 48000)) /\ finite (f_time 53 1024 (f_period 53 1024 (dbl 48000)) 1000).
Proof. repeat split; vm_compute; reflexivity. Qed.
Example C120_example2 : (exists n, (2 ^ 27 <= Z.of_nat n)%Z) /\ (exists n, 256 <= B2R (clock44 n) < 512).
Proof.
  split; [exists (Z.to_nat (2 ^ 27)); rewrite Z2Nat.id; lia|].
  assert (G : forall k, 256 <= B2R (clock44 k) -> exists n, 256 <= B2R (clock44 n) < 512).
  { induction k as [|k IH]; intros H; [cbn in H; lra|]. destruct (Rle_dec 256 (B2R (clock44 k))) as [L|L]; [apply IH; exact L|]. exists (S k). split; [exact H|].
    destruct (clock44_range k) as [F [B _]]. destruct (clock44_step k F B) as [_ [V _]]. destruct period44_val as [_ Vp]. rewrite V.
    pose proof (half_ulp (B2R (clock44 k) + B2R period44) ltac:(rewrite Vp; lra)) as E. apply Rabs_le_inv in E. rewrite Vp in *. lra. }
  apply (G (Z.to_nat (2 ^ 27))). destruct (C120_float_44100_stops_actual (Z.to_nat (2 ^ 27))) as [_ E]; [rewrite Z2Nat.id; lia|]. rewrite E. lra.
Qed.
Print Assumptions C120_clock_stops_actual.
Print Assumptions C120_clock_error.
Print Assumptions C120_float_44100_stops_actual.
Print Assumptions C120_advances_refuted.
Print Assumptions C120_float_44100_sharp_actual.
